(** Model of the refinement criteria: RefineCondition_mass.cpp, RefineCondition_downflows.cpp,
    RefineCondition_pseudo_gradient.cpp and RefineCondition_second_derivative_error.cpp (in
    core/src/refine_condition). Reals are exact. A read outside an array, a failed neighbour
    query and a division by zero are [None]. *)
From Coq Require Import QArith Qcanon.
From Verif Require Import Base OctreeSpec OctreeModel CellModel RefineModel HydroModel GravityModel.
Open Scope Z_scope.

(** RefineCondition_base.h:14-19. *)
Definition COARSEN : Z := -1.
Definition NOCHANGE : Z := 0.
Definition REFINE : Z := 1.

(** _mass.cpp:39-45, _downflows.cpp:52-58, _pseudo_gradient.cpp:103-109 and
    _second_derivative_error.cpp:160-166: the criterion of a cell from its value. *)
Definition decide (low high value : Qc) : Z :=
  if ltb high value then REFINE else if leb value low then COARSEN else NOCHANGE.

(** RefineCondition_helper.h:57-86, mark_cells_aux on one rank: the markers given to the mesh.
    [order]: the owned cells in the order of the atomic operations; [f] is getMarker. *)
Definition mark (g : geom) (R : rank) (order : list cidx) (f : cidx -> option Z) : option (list Z) :=
  do ms <- mapM (fun c => do m <- f c ; Some (c_oct c, m)) order ;
  Some (mark_cells g (loc R) ms).

(** _mass.cpp:33-48, getMarker. [rho]: the array of rho, or of rho_g when there are particles (the
    projection of the particles is not part of this model, it is in CloudProps). *)
Definition mass_marker (g : geom) (b : axis -> Z) (ext : axis -> Qc) (R : rank) (low high : Qc) (rho : list Qc) (c : cidx) : option Z :=
  do A <- nth_error (loc R ++ gho R) (c_oct c) ;
  let size := cell_size g b ext A in
  do r <- at_cell rho c ;
  Some (decide low high (r * size AX * size AY * (if g3d g then size AZ else 1))%Qc).

(** _downflows.cpp:36-62: the constructor chooses the momentum, getMarker. *)
Definition downflow_marker (g : geom) (sign low high : Qc) (rho rho_vy rho_vz : list Qc) (c : cidx) : option Z :=
  do r <- at_cell rho c ;
  do rv <- at_cell (if g3d g then rho_vz else rho_vy) c ;
  if Qc_eq_bool r 0 then None else Some (decide low high (sign * rv / r)%Qc).

(** _pseudo_gradient.cpp:46-54, indicator_scalar_gradient. *)
Definition indicator (qi qj : Qc) : Qc :=
  let max := fmax (fabs qi) (fabs qj) in
  if ltb max (frac 1 1000) then 0%Qc
  else fmax (fmin (fabs (qi - qj) / max) 1) 0.
(** l.56-89, grad. The loop of l.72-82 visits the cells of foreach_smaller_neighbor. *)
Definition grad (g : geom) (st : list oct) (rho : list Qc) (c : cidx) (dir : axis) (sign : Z) : option Qc :=
  do n <- getNeighbor_ghost g st c (step dir sign) ;
  if GravityModel.is_boundary n then Some 0%Qc
  else if level_diff n >=? 0 then
    do u <- at_cell rho c ; do v <- at_cell rho n ; Some (indicator u v)
  else if level_diff n =? -1 then
    do l <- smaller_neighbors true g st n (step dir sign) ;
    do u <- at_cell rho c ; do vs <- mapM (at_cell rho) l ;
    Some (fold_left (fun m v => fmax m (indicator u v)) vs 0%Qc)
  else None.
(** l.91-111, getMarker. *)
Definition gradient_marker (g : geom) (R : rank) (low high : Qc) (rho : list Qc) (c : cidx) : option Z :=
  let G dir sign := grad g (loc R ++ gho R) rho c dir sign in
  do xp <- G AX 1 ;
  do xm <- G AX (-1) ;
  do yp <- G AY 1 ;
  do ym <- G AY (-1) ;
  let m := fmax (fmax (fmax (fmax 0 xp) xm) yp) ym in
  if g3d g then
    do zp <- G AZ 1 ;
    do zm <- G AZ (-1) ;
    Some (decide low high (fmax (fmax m zp) zm))
  else Some (decide low high m).

(** _second_derivative_error.cpp:48-69, second_derivative_error, from the three values. [eps] is the
    machine epsilon, l.46. *)
Definition curvature (eps ql qc qr : Qc) : Qc :=
  let fr := (qr - qc)%Qc in
  let fl := (ql - qc)%Qc in
  let fc := (fabs qr + fabs ql + frac 2 1 * fabs qc)%Qc in
  (fabs (fr + fl) / (fabs fr + fabs fl + frac 1 100 * fc + eps))%Qc.
(** utils_hydro.h:17-48, computePrimitives: density and pressure. *)
Definition floored_rho (smallr : Qc) (u : cons) : Qc := fmax (u_rho u) smallr.
Definition floored_p (gamma smallr smallp : Qc) (u : cons) : Qc :=
  let d := floored_rho smallr u in
  let ux := (u_x u / d)%Qc in let uy := (u_y u / d)%Qc in let uz := (u_z u / d)%Qc in
  let eken := (half_f * (ux * ux + uy * uy + uz * uz))%Qc in
  let e := (u_e u / d - eken)%Qc in
  fmax ((gamma - 1) * d * e) (d * smallp).
(** _second_derivative_error.cpp:28-44, compute_primitives: a variable of Qgroup at the index [c] of
    Qgroup. The whole block is filled before it is read in the code; here each value is computed
    when it is read. *)
Definition value_of (h : hctx) (U : field) (var : cons -> Qc) (c : cidx) : option Qc :=
  option_map (fun u => var (getCons (g3d (h_g h)) u)) (Ugroup (h_g h) (h_st h) (h_b h) (h_bval h) U c).
(** l.54-68 for a variable along an axis. *)
Definition second_error (h : hctx) (U : field) (eps : Qc) (c : cidx) (var : cons -> Qc) (dir : axis) : option Qc :=
  do il <- getNeighbor c (step dir (-1)) ;
  do ir <- getNeighbor c (step dir 1) ;
  do ql <- value_of h U var il ;
  do qc <- value_of h U var c ;
  do qr <- value_of h U var ir ;
  Some (curvature eps ql qc qr).
(** l.145-166, one cell: its criterion. *)
Definition second_marker (h : hctx) (smallp : Qc) (U : field) (eps low high : Qc) (c : cidx) : option Z :=
  let of_var var :=
    do fx <- second_error h U eps c var AX ;
    do fy <- second_error h U eps c var AY ;
    do fz <- (if g3d (h_g h) then second_error h U eps c var AZ else Some 0%Qc) ;
    Some (fmax fx (fmax fy fz)) in
  do r <- of_var (floored_rho (h_smallr h)) ;
  do p <- of_var (floored_p (h_gamma h) (h_smallr h) smallp) ;
  Some (decide low high (fmax (fmax 0 r) p)).
(** l.100-173, mark_cells_aux on one rank. The array of markers is a new Kokkos::View, filled with 0
    (l.119). [order]: as in [mark]. *)
Definition mark_second (h : hctx) (smallp : Qc) (R : rank) (U : field) (eps low high : Qc) (order : list cidx) : option (list Z) :=
  do ms <- mapM (fun c =>
    do ib <- convert_index (wide (h_g h) (h_b h)) c ;
    do m <- second_marker h smallp U eps low high ib ;
    Some (c_oct ib, m)) order ;
  let raw := fold_left (fun l (x : nat * Z) => upd_nth (fst x) (Z.max (snd x)) l) ms (repeat 0 (length (loc R))) in
  Some (map (fun x => clamp_marker (h_g h) (fst x) (snd x)) (combine (loc R) raw)).
