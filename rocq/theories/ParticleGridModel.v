(** Model of the distribution of particles over the processes (particles/ForeachParticle.h) and
    of the initial condition that puts particles on a grid
    (init/InitialConditions_particle_grid.cpp).

    Reals are exact. A particle array is the list, per rank, of the rows of its particles: three
    coordinates, and the attributes. [checked] tells whether assert() is compiled in. [None] is
    a failed assertion, an undefined conversion or an access outside of the arrays. *)
From Coq Require Import QArith Qcanon.
From Verif Require Import Base OctreeSpec OctreeModel LookupModel CommModel FieldModel CellModel HydroModel ParticleModel GravityModel.
Open Scope Z_scope.

Notation prow := (list Qc).
Definition at_axis (p : prow) (a : axis) : Qc := nth (match a with AX => 0 | AY => 1 | AZ => 2 end)%nat p 0%Qc.
Definition row3 (f : axis -> Qc) : prow := [f AX; f AY; f AZ].

(** * ForeachParticle.h *)

(** l.77-89 and the assertions of getDomainFromPos (LightOctree_hashmap.h:314-319). A negative
    number has no conversion to an unsigned integer (l.326-328; along z it is multiplied by 0 in
    two dimensions). *)
Definition particle_domain (checked : bool) (g : geom) (J : list Z) (lo hi : point) (p : prow) : option nat :=
  let x01 a := ((at_axis p a - lo a) / extent lo hi a)%Qc in
  if checked && negb (all3 (fun a => leb 0 (x01 a) && ltb (x01 a) 1)) then None
  else if checked && negb (all3 (fun a => if flat g a then leb 0 (x01 a) && leb (x01 a) 0 else ltb 0 (x01 a) && ltb (x01 a) 1)) then None
  else if negb (all3 (fun a => flat g a || leb 0 (x01 a))) then None
  else
    do d <- getDomainFromPos g J (fun a => this (x01 a)) ;
    if d <? 0 then None else Some (Z.to_nat d).

(** l.59-105, get_distribute_communicator and distribute, on all ranks: positions and data are
    exchanged with one communicator, into new arrays. [e] is the number of attributes.
    UserData_particles.h:135-146, distributeParticles, does the same (data first, which does not
    matter here: the two exchanges share nothing). *)
Definition distribute (checked contiguous : bool) (sch : list (nat * Qc) -> list (nat * Qc)) (g : geom) (M : mesh) (lo hi : point)
    (e : nat) (pos data : list (list prow)) : option (list (list prow * list prow)) :=
  do J <- morton_intervals g (map loc M) ;
  do doms <- mapM (mapM (particle_domain checked g J lo hi)) pos ;
  do C <- mapM (domain_comm (length M)) doms ;
  mapM (fun r =>
    let n := nsum (recv_sizes C r) in
    let exchange k (view : list (list prow)) :=
      do c <- nth_error C r ;
      do flat <- exchange_rank contiguous sch C r k view (repeat 0%Qc (n * k)) (repeat 0%Qc ((n - n_self c r) * k)) ;
      Some (chunks k n flat) in
    do p <- exchange 3%nat pos ;
    do d <- exchange e data ;
    Some (p, d)) (seq 0 (length M)).

(** * InitialConditions_particle_grid.cpp *)

(** l.110-116: nx, ny and nz are uint32_t, so the product is computed modulo 2^32. *)
Definition nbpart_global (nx ny nz : Z) : Z := u32 (u32 (nx * ny) * nz).
Definition ipart_begin (nb P r : Z) : Z := u64 (nb * r) / P.
Definition nbpart_local (nb P r : Z) : Z := u32 (u64 (ipart_begin nb P (r + 1) - ipart_begin nb P r)).
(** l.120-128 and 135-144: position of a particle by its global number. *)
Definition grid_pos (nx ny nz : Z) (lo hi : point) (ipart : Z) : prow :=
  let i := u32 (ipart mod nx) in
  let j := u32 ((ipart / nx) mod ny) in
  let k := u32 ((ipart / nx) / ny) in
  let x (a : axis) (n c : Z) := let d := (extent lo hi a / frac n 1)%Qc in (lo a + frac c 1 * d + half_f * d)%Qc in
  [x AX nx i; x AY ny j; x AZ nz k].
Definition grid_array (nx ny nz P r : Z) (lo hi : point) : list prow :=
  let nb := nbpart_global nx ny nz in
  map (fun i => grid_pos nx ny nz lo hi (u64 (ipart_begin nb P r + Z.of_nat i))) (seq 0 (Z.to_nat (nbpart_local nb P r))).

(** l.177-202, the second kernel, one particle: velocity of the gas in its cell, mass, displaced
    position brought back into the box. The cell is read from the fields of the rank. *)
Definition start_particle (g : geom) (b : axis -> Z) (lo hi : point) (mass dt : Qc) (R : rank) (U : field) (p : prow) : option (prow * prow) :=
  do c <- getCellFromPos g (loc R ++ gho R) (length (loc R)) b lo hi (at_axis p) ;
  if negb (all3 (fun a => (0 <=? c_pos c a) && (c_pos c a <? b a))) then None else
  let u := U (c_oct c) (flat_cell b (c_pos c)) in
  let v a := (match a with AX => u_x u | AY => u_y u | AZ => u_z u end / u_rho u)%Qc in
  Some (row3 (fun a => Q2Qc (wrap_position (this (at_axis p a + v a * dt)%Qc) (this (lo a)) (this (hi a)))), row3 v ++ [mass]).

(** l.105-206, init. [Us] are the fields of the ranks. The attributes are vx, vy, vz, mass. *)
Definition particle_grid (checked contiguous : bool) (sch : list (nat * Qc) -> list (nat * Qc)) (g : geom) (M : mesh) (b : axis -> Z) (lo hi : point)
    (nx ny nz : Z) (total_mass dt_perturb : Qc) (Us : list field) : option (list (list prow * list prow)) :=
  let P := Z.of_nat (length M) in
  let pos := map (fun r => grid_array nx ny nz P (Z.of_nat r) lo hi) (seq 0 (length M)) in
  do parts <- distribute checked contiguous sch g M lo hi 0 pos (map (map (fun _ => [])) pos) ;
  let mass := (total_mass / frac (nbpart_global nx ny nz) 1)%Qc in
  do started <- mapM (fun x : (rank * field) * (list prow * list prow) =>
      mapM (start_particle g b lo hi mass dt_perturb (fst (fst x)) (snd (fst x))) (fst (snd x))) (combine (combine M Us) parts) ;
  distribute checked contiguous sch g M lo hi 4 (map (map fst) started) (map (map snd) started).
