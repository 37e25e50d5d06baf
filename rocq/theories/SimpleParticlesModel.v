(** Model of the initial condition that takes particles from lists in the .ini file
    (init/InitialConditions_simple_particles.cpp). *)
From Coq Require Import QArith Qcanon.
From Verif Require Import Base OctreeSpec OctreeModel LookupModel CommModel FieldModel CellModel HydroModel ParticleModel GravityModel ParticleGridModel.
Open Scope Z_scope.

(** l.30-42, parse_array: copy of [nb_values] values of the list into a view of [npart] zeros. None:
    values read after the end of the vector (l.36-37), or written after the end of the view
    (l.39-41). *)
Definition parse_array (npart : nat) (values : list Qc) : option (list Qc) :=
  let nb_values := Nat.max (length values) npart in
  if (length values <? nb_values)%nat then None
  else if (npart <? nb_values)%nat then None
  else Some (firstn nb_values values ++ repeat 0%Qc (npart - nb_values)).
(** The lists px, py, pz, vx, vy, vz, mass of the section simple_particles (empty if absent). *)
Record lists : Type := mkLists { l_px : list Qc ; l_py : list Qc ; l_pz : list Qc ; l_vx : list Qc ; l_vy : list Qc ; l_vz : list Qc ; l_mass : list Qc }.
(** l.44-50 and 54-104: the particles are created by rank 0, then distributed. *)
Definition simple_particles (checked contiguous : bool) (sch : list (nat * Qc) -> list (nat * Qc)) (g : geom) (M : mesh) (lo hi : point)
    (npart : nat) (L : lists) : option (list (list prow * list prow)) :=
  do px <- parse_array npart (l_px L) ;
  do py <- parse_array npart (l_py L) ;
  do pz <- parse_array npart (l_pz L) ;
  do vx <- parse_array npart (l_vx L) ;
  do vy <- parse_array npart (l_vy L) ;
  do vz <- parse_array npart (l_vz L) ;
  do mass <- parse_array npart (l_mass L) ;
  let at_part (v : list Qc) i := nth i v 0%Qc in
  let pos r := if Nat.eqb r 0 then map (fun i => [at_part px i; at_part py i; at_part pz i]) (seq 0 npart) else [] in
  let data r := if Nat.eqb r 0 then map (fun i => [at_part vx i; at_part vy i; at_part vz i; at_part mass i]) (seq 0 npart) else [] in
  distribute checked contiguous sch g M lo hi 4 (map pos (seq 0 (length M))) (map data (seq 0 (length M))).
