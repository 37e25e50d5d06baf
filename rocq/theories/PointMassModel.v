(** Model of the gravity fields given by a formula (gravity/GravitySolver_analytical.tpp) and of the
    point mass (gravity/GravitySolver_point_mass.cpp). [root] is the square root; the rest is exact. *)
From Coq Require Import QArith Qcanon.
From Verif Require Import Base OctreeSpec OctreeModel CellModel HydroModel ParticleModel GravityModel.
Open Scope Z_scope.

(** GravitySolver_point_mass.cpp:31-51, value. [centre]: point_mass_x, _y, _z. *)
Definition point_mass (root : Qc -> Qc) (centre : point) (Gmass softening : Qc) (p size : point) : point :=
  let r a := (p a - centre a)%Qc in
  let r2 := (r AX * r AX + r AY * r AY + r AZ * r AZ + softening * softening)%Qc in
  let const_term := (- Gmass / (r2 * root r2))%Qc in
  fun a => (const_term * r a)%Qc.
(** GravitySolver_analytical.tpp:63-74, one cell: what is written to gx, gy, gz (None: not
    written). *)
Definition field_cell (g : geom) (st : list oct) (lo hi : point) (formula : point -> point -> point) (c : cidx) : option (axis -> option Qc) :=
  do A <- nth_error st (c_oct c) ;
  do pos <- getCellCenter g st lo hi c ;
  let v := formula pos (cell_size g (c_blk c) (extent lo hi) A) in
  Some (fun a => match a with AZ => if g3d g then Some (v AZ) else None | _ => Some (v a) end).
(** l.50-77, update_gravity_field on all processes: the writes for the cells of each. *)
Definition field_update (g : geom) (b : axis -> Z) (lo hi : point) (formula : point -> point -> point) (M : mesh) : option (list (list (axis -> option Qc))) :=
  mapM (fun R => kernel b R (field_cell g (loc R ++ gho R) lo hi formula)) M.
