(** Model of the explicit update of the parabolic terms (parabolic/ParabolicUpdate_explicit.cpp)
    with thermal conduction (parabolic/ParabolicTerm_thermal_conduction.h) and viscosity
    (parabolic/ParabolicTerm_viscosity.h).

    Reals are exact. Arrays are as in RKModel. [None] is an access outside of the arrays. *)
From Coq Require Import QArith Qcanon.
From Verif Require Import Base OctreeSpec OctreeModel LookupModel CellModel HydroModel ParticleModel GravityModel RKModel.
Open Scope Z_scope.

(** What a term depends on: mesh of the rank (owned octants, then ghosts), blocks, corners of
    the box, adiabatic index, boundary values, and what the boundaries do with heat fluxes. *)
Record pctx := mkP {
  p_g : geom; p_st : list oct; p_b : axis -> Z; p_lo : point; p_hi : point; p_gamma : Qc;
  p_bval : cidx -> option cons; (* getBoundaryValue *)
  p_user : axis -> bool -> bool; (* bc_min[dir] or bc_max[dir] is BC_USER *)
  p_heat : Qc -> prim -> Qc -> Qc -> axis -> bool -> Qc (* overrideBoundaryHeatFlux *) }.
Definition p_size (t : pctx) (A : oct) : axis -> Qc := cell_size (p_g t) (p_b t) (extent (p_lo t) (p_hi t)) A.
Definition p_prim (t : pctx) (U : field) (c : cidx) : option prim := Qgroup (p_g t) (p_st t) (p_b t) (p_bval t) (p_gamma t) U c.

(** AMRBlockForeachCell.h:56-82, getCellCenter, for an index of a block of any shape: the
    position in the block is relative to the shape of the index, the size to that of the
    blocks of the mesh. *)
Definition center_at (t : pctx) (c : cidx) : option point :=
  do A <- nth_error (p_st t) (c_oct c) ;
  Some (fun a => if flat (p_g t) a then 0%Qc
                 else (p_lo t a + Q2Qc (getCenter (p_g t) A a) * extent (p_lo t) (p_hi t) a
                       + (frac (c_pos c a) 1 - frac (c_blk c a) 1 * half_f + half_f) * p_size t A a)%Qc).

(** * Thermal conduction *)

(** l.124-126 *)
Definition compute_temperature (q : prim) : Qc := (q_p q / q_rho q)%Qc.
(** l.141, S[ldiff+1] *)
Definition spacing (ld : Z) : option Qc :=
  if ld =? -1 then Some (frac 3 4) else if ld =? 0 then Some 1%Qc else if ld =? 1 then Some (frac 3 2) else None.
(** l.144-146, A[dir] *)
Definition interface_area (d3 : bool) (size : axis -> Qc) (dir : axis) : Qc :=
  match dir with
  | AX => if d3 then (size AY * size AZ)%Qc else size AY
  | AY => if d3 then (size AX * size AZ)%Qc else size AX
  | AZ => (size AX * size AY)%Qc
  end.

(** l.172-203 (left) and 205-236 (right): flux through one side. [minside] selects the sign of
    the difference of temperatures. [kappa] is compute_kappa: any function of the position. *)
Definition side_heat (t : pctx) (kappa : point -> Qc) (U : field) (dir : axis) (minside : bool)
    (iW ii : cidx) (kC TC h : Qc) : option Qc :=
  let d3 := g3d (p_g t) in
  let off := step dir (if minside then -1 else 1) in
  let diff T := if minside then (TC - T)%Qc else (T - TC)%Qc in
  do sp <- spacing (level_diff ii) ;
  if 0 <=? level_diff ii then
    do iW' <- getNeighbor iW off ;
    do pos <- center_at t iW' ;
    let k := (half_f * (kC + kappa pos))%Qc in
    do q <- p_prim t U iW' ;
    Some (k * diff (compute_temperature q) / (sp * h))%Qc
  else
    do l <- smaller_neighbors true (p_g t) (p_st t) ii off ;
    do fl <- mapM (fun n =>
        let q := consToPrim d3 (p_gamma t) (read d3 U n) in
        do pos <- center_at t n ;
        let k := (half_f * (kC + kappa pos))%Qc in
        Some (k * diff (compute_temperature q))%Qc) l ;
    Some ((if d3 then frac 1 4 else frac 1 2) * fold_left Qcplus fl 0 / (sp * h))%Qc.

(** l.148-246, compute_thermal_flux *)
Definition thermal_flux (t : pctx) (kappa : point -> Qc) (U : field) (size : axis -> Qc) (iU iW : cidx)
    (qC : prim) (kC : Qc) (dir : axis) : option Qc :=
  let TC := compute_temperature qC in
  do iiL <- getNeighbor_ghost (p_g t) (p_st t) iU (step dir (-1)) ;
  do iiR <- getNeighbor_ghost (p_g t) (p_st t) iU (step dir 1) ;
  do FL <- side_heat t kappa U dir true iW iiL kC TC (size dir) ;
  do FR <- side_heat t kappa U dir false iW iiR kC TC (size dir) ;
  let FL := if HydroModel.is_boundary iiL && p_user t dir true then p_heat t FL qC kC (size dir) dir true else FL in
  let FR := if HydroModel.is_boundary iiR && p_user t dir false then p_heat t FR qC kC (size dir) dir false else FR in
  Some (interface_area (g3d (p_g t)) size dir * (FR - FL))%Qc.

(** l.110-257, compute_rhs *)
Definition thermal_rhs (kappa : point -> Qc) (t : pctx) (U : field) (cell : cidx) : option cons :=
  let d3 := g3d (p_g t) in
  do A <- nth_error (p_st t) (c_oct cell) ;
  do iU <- convert_index (p_b t) cell ;
  do iW <- convert_index (wide (p_g t) (p_b t)) cell ;
  let size := p_size t A in
  do pos <- center_at t iU ;
  let V := (size AX * size AY * (if d3 then size AZ else 1))%Qc in
  do qC <- p_prim t U iW ;
  let kC := kappa pos in
  do tx <- thermal_flux t kappa U size iU iW qC kC AX ;
  do ty <- thermal_flux t kappa U size iU iW qC kC AY ;
  do tz <- (if d3 then thermal_flux t kappa U size iU iW qC kC AZ else Some 0%Qc) ;
  Some (mkCons 0 ((tx + ty + tz) / V) 0 0 0)%Qc.

(** * Viscosity *)

(** The differences below are taken between values [s x y z] of the velocity at an offset in
    the widened block (l.93-96, stencil). [inv] and [size] are l.77-78; [R] and [L] l.103-104. *)
Definition fr (n : Z) (d : positive) : Qc := frac n d.
Definition at3 (s : Z -> Z -> Z -> axis -> Qc) (x y z : Z) (a : axis) : Qc := s x y z a.
Definition vmean (x y : Qc) : Qc := (half_f * (x + y))%Qc.

(** l.106-144, direction IX *)
Definition visc_x (d3 : bool) (size inv : axis -> Qc) (s : Z -> Z -> Z -> axis -> Qc) (R L : Z) (sign : Qc) : cons :=
  let dudx := (inv AX * (at3 s R 0 0 AX - at3 s L 0 0 AX))%Qc in
  let dvdx := (inv AX * (at3 s R 0 0 AY - at3 s L 0 0 AY))%Qc in
  let dudy := (fr 1 4 * inv AY * (at3 s R 1 0 AX - at3 s R (-1) 0 AX + at3 s L 1 0 AX - at3 s L (-1) 0 AX))%Qc in
  let dvdy := (fr 1 4 * inv AY * (at3 s R 1 0 AY - at3 s R (-1) 0 AY + at3 s L 1 0 AY - at3 s L (-1) 0 AY))%Qc in
  let dwdx := if d3 then (inv AX * (at3 s R 0 0 AZ - at3 s L 0 0 AZ))%Qc else 0%Qc in
  let dudz := if d3 then (fr 1 4 * inv AZ * (at3 s R 0 1 AX - at3 s R 0 (-1) AX + at3 s L 0 1 AX - at3 s L 0 (-1) AX))%Qc else 0%Qc in
  let dwdz := if d3 then (fr 1 4 * inv AZ * (at3 s R 0 1 AZ - at3 s R 0 (-1) AZ + at3 s L 0 1 AZ - at3 s L 0 (-1) AZ))%Qc else 0%Qc in
  let qi_w := if d3 then vmean (at3 s R 0 0 AZ) (at3 s L 0 0 AZ) else 0%Qc in
  let qi_u := vmean (at3 s R 0 0 AX) (at3 s L 0 0 AX) in
  let qi_v := vmean (at3 s R 0 0 AY) (at3 s L 0 0 AY) in
  let tau_xx := (fr 4 3 * dudx - fr 2 3 * (dvdy + dwdz))%Qc in
  let tau_xy := (dudy + dvdx)%Qc in
  let tau_xz := (dudz + dwdx)%Qc in
  let area := (size AY * size AZ)%Qc in
  mkCons 0 (sign * area * (qi_u * tau_xx + qi_v * tau_xy + qi_w * tau_xz))
         (sign * area * tau_xx) (sign * area * tau_xy) (sign * area * tau_xz).
(** l.146-184, direction IY *)
Definition visc_y (d3 : bool) (size inv : axis -> Qc) (s : Z -> Z -> Z -> axis -> Qc) (R L : Z) (sign : Qc) : cons :=
  let dudy := (inv AY * (at3 s 0 R 0 AX - at3 s 0 L 0 AX))%Qc in
  let dvdy := (inv AY * (at3 s 0 R 0 AY - at3 s 0 L 0 AY))%Qc in
  let dudx := (fr 1 4 * inv AX * (at3 s 1 R 0 AX - at3 s (-1) R 0 AX + at3 s 1 L 0 AX - at3 s (-1) L 0 AX))%Qc in
  let dvdx := (fr 1 4 * inv AX * (at3 s 1 R 0 AY - at3 s (-1) R 0 AY + at3 s 1 L 0 AY - at3 s (-1) L 0 AY))%Qc in
  let dwdy := if d3 then (inv AY * (at3 s 0 R 0 AZ - at3 s 0 L 0 AZ))%Qc else 0%Qc in
  let dvdz := if d3 then (fr 1 4 * inv AZ * (at3 s 0 R 1 AY - at3 s 0 R (-1) AY + at3 s 0 L 1 AY - at3 s 0 L (-1) AY))%Qc else 0%Qc in
  let dwdz := if d3 then (fr 1 4 * inv AZ * (at3 s 0 R 1 AZ - at3 s 0 R (-1) AZ + at3 s 0 L 1 AZ - at3 s 0 L (-1) AZ))%Qc else 0%Qc in
  let qi_w := if d3 then vmean (at3 s 0 R 0 AZ) (at3 s 0 L 0 AZ) else 0%Qc in
  let qi_u := vmean (at3 s 0 R 0 AX) (at3 s 0 L 0 AX) in
  let qi_v := vmean (at3 s 0 R 0 AY) (at3 s 0 L 0 AY) in
  let tau_yy := (fr 4 3 * dvdy - fr 2 3 * (dudx + dwdz))%Qc in
  let tau_xy := (dudy + dvdx)%Qc in
  let tau_yz := (dvdz + dwdy)%Qc in
  let area := (size AX * size AZ)%Qc in
  mkCons 0 (sign * area * (qi_u * tau_xy + qi_v * tau_yy + qi_w * tau_yz))
         (sign * area * tau_xy) (sign * area * tau_yy) (sign * area * tau_yz).
(** l.186-219, direction IZ *)
Definition visc_z (size inv : axis -> Qc) (s : Z -> Z -> Z -> axis -> Qc) (R L : Z) (sign : Qc) : cons :=
  let dudz := (inv AZ * (at3 s 0 0 R AX - at3 s 0 0 L AX))%Qc in
  let dvdz := (inv AZ * (at3 s 0 0 R AY - at3 s 0 0 L AY))%Qc in
  let dwdz := (inv AZ * (at3 s 0 0 R AZ - at3 s 0 0 L AZ))%Qc in
  let dudx := (fr 1 4 * inv AX * (at3 s 1 0 R AX - at3 s (-1) 0 R AX + at3 s 1 0 L AX - at3 s (-1) 0 L AX))%Qc in
  let dwdx := (fr 1 4 * inv AX * (at3 s 1 0 R AZ - at3 s (-1) 0 R AZ + at3 s 1 0 L AZ - at3 s (-1) 0 L AZ))%Qc in
  let dvdy := (fr 1 4 * inv AY * (at3 s 0 1 R AY - at3 s 0 (-1) R AY + at3 s 0 1 L AY - at3 s 0 (-1) L AY))%Qc in
  let dwdy := (fr 1 4 * inv AY * (at3 s 0 1 R AZ - at3 s 0 (-1) R AZ + at3 s 0 1 L AZ - at3 s 0 (-1) L AZ))%Qc in
  let qi_u := vmean (at3 s 0 0 R AX) (at3 s 0 0 L AX) in
  let qi_v := vmean (at3 s 0 0 R AY) (at3 s 0 0 L AY) in
  let qi_w := vmean (at3 s 0 0 R AZ) (at3 s 0 0 L AZ) in
  let tau_zz := (fr 4 3 * dwdz - fr 2 3 * (dudx + dvdy))%Qc in
  let tau_xz := (dudz + dwdx)%Qc in
  let tau_yz := (dvdz + dwdy)%Qc in
  let area := (size AX * size AY)%Qc in
  mkCons 0 (sign * area * (qi_u * tau_xz + qi_v * tau_yz + qi_w * tau_zz))
         (sign * area * tau_xz) (sign * area * tau_yz) (sign * area * tau_zz).
(** l.98-220, both sides and all directions. *)
Definition visc_flux (d3 : bool) (size inv : axis -> Qc) (s : Z -> Z -> Z -> axis -> Qc) : cons :=
  fold_left (fun vf side =>
    let R := side in let L := side - 1 in
    let sign := (if side =? 0 then - (1) else 1)%Qc in
    let vf := cmap2 Qcplus vf (visc_x d3 size inv s R L sign) in
    let vf := cmap2 Qcplus vf (visc_y d3 size inv s R L sign) in
    if d3 then cmap2 Qcplus vf (visc_z size inv s R L sign) else vf) [0; 1] cons0.

(** Offsets at which the stencil is read: a face or an edge away, within the dimensions of the
    simulation. *)
Definition visc_offsets (d3 : bool) : list (axis -> Z) :=
  let zs := if d3 then [-1; 0; 1] else [0] in
  filter (fun o => Z.abs (o AX) + Z.abs (o AY) + Z.abs (o AZ) <=? 2)
         (flat_map (fun z => flat_map (fun y => map (fun x => mkoff x y z) [-1; 0; 1]) [-1; 0; 1]) zs).

(** l.64-226, compute_rhs. The whole stencil is read first; compute_mu is constant. *)
Definition viscous_rhs (mu : Qc) (t : pctx) (U : field) (cell : cidx) : option cons :=
  let d3 := g3d (p_g t) in
  do A <- nth_error (p_st t) (c_oct cell) ;
  let size := p_size t A in
  let inv a := (1 / size a)%Qc in
  do iW <- convert_index (wide (p_g t) (p_b t)) cell ;
  let stencil o := do n <- getNeighbor iW o ; p_prim t U n in
  do _ <- mapM stencil (visc_offsets d3) ;
  let s x y z a := match stencil (mkoff x y z) with
                   | Some q => match a with AX => q_x q | AY => q_y q | AZ => q_z q end
                   | None => 0%Qc
                   end in
  let volume := (size AX * size AY * (if d3 then size AZ else 1))%Qc in
  Some (cmap (fun x => mu * x / volume)%Qc (visc_flux d3 size inv s)).

(** * The update (ParabolicUpdate_explicit.cpp) *)

(** l.138-148, one cell: [old] is what the _next fields hold. The temporary array of the
    right-hand side stores what setConservativeState writes. *)
Definition parabolic_cell (rhs : field -> cidx -> option cons) (d3 : bool) (dt : Qc) (U : field) (old : cons) (cell : cidx) : option cons :=
  do v <- rhs U cell ;
  Some (setCons d3 old (cmap2 Qcplus (getCons d3 old) (cmap (fun x => dt * x)%Qc (getCons d3 (setCons d3 cons0 v))))).
(** l.76-152, update_aux on every rank: owned part of the _next fields. Kernels write their own
    cell only and read the input fields elsewhere, so the order of visits does not matter. *)
Definition parabolic_update (rhs : rank -> field -> cidx -> option cons) (d3 : bool) (dt : Qc) (b : axis -> Z) (M : mesh)
    (Us olds : list (list cons)) : option (list (list cons)) :=
  mapM (fun RUo : rank * (list cons * list cons) =>
    let R := fst RUo in let U := field_of b (fst (snd RUo)) in let old := field_of b (snd (snd RUo)) in
    kernel b R (fun c => parabolic_cell (rhs R) d3 dt U (old (c_oct c) (flat_cell b (c_pos c))) c)) (combine M (combine Us olds)).
