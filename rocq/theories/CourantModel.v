(** Model of the limit of the time step by the waves of the gas (compute_dt/Compute_dt_hydro.cpp),
    without magnetic field. [root] is the square root of numbers that are not negative; the rest is
    exact. [None] as a rate is NaN. *)
From Coq Require Import QArith Qcanon.
From Verif Require Import Base OctreeSpec OctreeModel CellModel HydroModel ParticleModel GravityModel TimeModel.
Open Scope Z_scope.

(** l.87, sqrt of a negative number is NaN. With a density of 0 the pressure is -infinity or NaN
    (gamma above 1), so is the argument. *)
Definition sound_speed (root : Qc -> Qc) (gamma : Qc) (q : prim) : option Qc :=
  if Qc_eq_dec (q_rho q) 0 then None
  else let x := (q_p q * gamma / q_rho q)%Qc in if ltb x 0 then None else Some (root x).
(** l.75-93, what one cell brings to the maximum. The outer [None]: outside of the arrays. In 2D the
    third term is 0 over the third side, which is not 0. *)
Definition courant_rate (root : Qc -> Qc) (g : geom) (st : list oct) (lo hi : point) (gamma : Qc) (U : field) (c : cidx) : option (option Qc) :=
  do A <- nth_error st (c_oct c) ;
  let size := cell_size g (c_blk c) (extent lo hi) A in
  let q := consToPrim true gamma (read (g3d g) U c) in
  Some (do cs <- sound_speed root gamma q ;
        let vx := (cs + fabs (q_x q))%Qc in
        let vy := (cs + fabs (q_y q))%Qc in
        let vz := (if g3d g then cs + fabs (q_z q) else 0)%Qc in
        Some (vx / size AX + vy / size AY + vz / size AZ)%Qc).
(** real_type.h:25, FMAX(x,y) = ( x>y ? x : y ): comparisons with NaN are false. *)
Definition nan_max (x y : option Q) : option Q :=
  match x, y with Some a, Some r => if Qlt_bool r a then x else y | _, _ => y end.
(** l.71-122: the cells of a process one after another, as the serial backend of Kokkos visits them,
    from the initial value [lowest] of Kokkos::Max; then dt = cfl / inv_dt. A NaN fails the assertion
    of l.123. *)
Definition courant_local (lowest cfl : Q) (rates : list (option Q)) : option ext :=
  do inv <- fold_left nan_max rates (Some lowest) ; local_dt inv cfl [].
(** l.39-54 on all processes. [U]: the arrays of each. *)
Definition courant_dt (lowest : Q) (root : Qc -> Qc) (g : geom) (b : axis -> Z) (lo hi : point) (gamma cfl : Qc) (M : mesh) (U : nat -> field) : option ext :=
  do dts <- mapM (fun x : nat * rank => let R := snd x in
      do l <- mapM (courant_rate root g (loc R ++ gho R) lo hi gamma (U (fst x))) (owned_cells b R) ;
      courant_local lowest (this cfl) (map (option_map this) l)) (combine (seq 0 (length M)) M) ;
  Some (fold_left ext_min dts Infinite).
