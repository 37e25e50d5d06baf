(** Model of the limit of the time step by the velocities of particles
    (compute_dt/Compute_dt_particle_velocity.cpp). [root] is the square root; the rest is exact. The
    reduction is that of TimeModel. *)
From Coq Require Import QArith Qcanon.
From Verif Require Import Base OctreeSpec OctreeModel LookupModel CellModel HydroModel ParticleModel TimeModel.
Open Scope Z_scope.

(** l.54 *)
Definition small_v : Qc := frac 1 10000000000.
(** l.61-79, what one particle brings to the maximum: its position and velocity are [pv]. *)
Definition particle_rate (root : Qc -> Qc) (g : geom) (b : axis -> Z) (lo hi : point) (R : rank) (pv : point * point) : option Qc :=
  do found <- getCellFromPos g (loc R ++ gho R) (length (loc R)) b lo hi (fst pv) ;
  do c <- in_array found ;
  do A <- nth_error (loc R ++ gho R) (c_oct c) ;
  let size := cell_size g b (extent lo hi) A in
  let vx := (small_v + snd pv AX)%Qc in
  let vy := (small_v + snd pv AY)%Qc in
  let vz := (if g3d g then small_v + snd pv AZ else 0)%Qc in
  let v := root (vx * vx + vy * vy + vz * vz)%Qc in
  let dmin := fmin (size AX) (size AY) in
  let dmin := if g3d g then fmin dmin (size AZ) else dmin in
  Some (v / dmin)%Qc.
(** l.28-40 and 42-85 on all processes. [parts]: the particles of each. [lowest]: the initial value
    of Kokkos::Max. *)
Definition particle_dt (lowest : Q) (root : Qc -> Qc) (g : geom) (b : axis -> Z) (lo hi : point) (cfl : Qc) (M : mesh) (parts : list (list (point * point))) : option ext :=
  do rates <- mapM (fun x => do l <- mapM (particle_rate root g b lo hi (fst x)) (snd x) ; Some (map this l)) (combine M parts) ;
  kernel_dt lowest (this cfl, rates).
