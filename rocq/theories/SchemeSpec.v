(** Specification of the finite-volume scheme: what the new value of a cell is, in terms of the
    field on the grid and lengths in the domain. *)
From Coq Require Import QArith Qcanon.
(* HydroModel for the records of states only *)
From Verif Require Import Base OctreeSpec HydroModel HydroSpec CellSpec RemapSpec ConserveSpec.
Open Scope Qc_scope.

(** Gas of a conservative state. *)
Definition gas (gamma : Qc) (u : cons) : prim :=
  mkPrim (u_rho u) ((gamma - 1) * internal u) (u_x u / u_rho u) (u_y u / u_rho u) (u_z u / u_rho u).
(** A field as a simulation in two dimensions sees it: nothing along the third axis. *)
Definition seen (g : geom) (u : cons) : cons := if g3d g then u else mkCons (u_rho u) (u_e u) (u_x u) (u_y u) 0.

(** Smaller of two slopes of the same sign, 0 for slopes of different signs. *)
Definition minmod (x y : Qc) : Qc :=
  match x ?= 0, y ?= 0 with
  | Gt, Gt => match x ?= y with Lt => x | _ => y end
  | Lt, Lt => match x ?= y with Lt => y | _ => x end
  | _, _ => 0
  end.
(** Value at the distance [d] (negative: backward) of a position, from the values there, at the
    distance [before] behind and at the distance [after] ahead. *)
Definition extrapolate (behind here ahead before after d : Qc) : Qc :=
  here + d * minmod ((here - behind) / before) ((ahead - here) / after).
(** The same for a gas; the density is at least [floor]. *)
Definition extrapolate_gas (floor : Qc) (behind here ahead : prim) (before after d : Qc) : prim :=
  let f v := extrapolate (pv v behind) (pv v here) (pv v ahead) before after d in
  mkPrim (match f Vrho ?= floor with Lt => floor | _ => f Vrho end) (f Vp) (f Vx) (f Vy) (f Vz).

Section Scheme.
(** Geometry, extents of the domain, cells, field, flux function along the first axis, adiabatic
    index, least density. *)
Context (g : geom) (b : axis -> Z) (ext : axis -> Qc) (cells : list oct) (D : oct -> cons)
        (riem : prim -> prim -> cons) (gamma floor : Qc).

(** Side of the cells of a level, and area of their faces across an axis. *)
Definition cell_side (l : Z) (a : axis) : Qc := ext a / Q2Qc (inject_Z (ncells g b l a)).
Definition face_area (l : Z) (e : axis) : Qc :=
  match e with AX => cell_side l AY * cell_side l AZ | AY => cell_side l AX * cell_side l AZ | AZ => cell_side l AX * cell_side l AY end.

(** Gas at a position of the grid of some level. *)
Definition gas_at (x : oct) : prim := gas gamma (seen g (resample g cells D x)).

(** The next position along [e] (upward or downward). *)
Definition beside (x : oct) (e : axis) (up : bool) : oct :=
  displaced g b x (fun a => if axis_eq_dec a e then if up then 1%Z else (-1)%Z else 0%Z).
(** [z] is a neighbour of [x] on this side: the position beside [x] is [z] or lies in [z], or the
    position beside [z] on the opposite side lies in [x]. *)
Definition neighbour (x : oct) (e : axis) (up : bool) (z : oct) : bool :=
  oct_eqb z (beside x e up) || oct_eqb z (parent g (beside x e up)) || oct_eqb x (parent g (beside z e (negb up))).

(** Exchange of the first axis and [e]. *)
Definition turn_gas (e : axis) (q : prim) : prim :=
  match e with AX => q | AY => mkPrim (q_rho q) (q_p q) (q_y q) (q_x q) (q_z q) | AZ => mkPrim (q_rho q) (q_p q) (q_z q) (q_y q) (q_x q) end.
Definition turn_flux (e : axis) (u : cons) : cons :=
  match e with AX => u | AY => mkCons (u_rho u) (u_e u) (u_y u) (u_x u) (u_z u) | AZ => mkCons (u_rho u) (u_e u) (u_z u) (u_y u) (u_x u) end.

(** Flux along [e] from the cell [lo] to its upper neighbour [hi], per unit of area and time. *)
Definition flux_between (e : axis) (lo hi : oct) : cons :=
  let hl := cell_side (lev lo) e in let hh := cell_side (lev hi) e in
  let d := (hl + hh) / two in
  let left := extrapolate_gas floor (gas_at (beside lo e false)) (gas_at lo) (gas_at hi) hl d (hl / two) in
  let right := extrapolate_gas floor (gas_at lo) (gas_at hi) (gas_at (beside hi e true)) d hh (- (hh / two)) in
  turn_flux e (riem (turn_gas e left) (turn_gas e right)).

(** Mean over the lower (upper) face of [x] across [e] of the flux along [e]: a smaller
    neighbour covers its own face only. *)
Definition mean_flux (v : cvar) (x : oct) (e : axis) (up : bool) : Qc :=
  csum (map (fun z => face_area (Z.max (lev x) (lev z)) e * cv v (if up then flux_between e x z else flux_between e z x))
            (filter (neighbour x e up) cells)) / face_area (lev x) e.

(** Change of a variable of the cell [x] in the time [dt], without and with a constant gravity
    [grav] along every axis. *)
Definition axes_of : list axis := if g3d g then [AX; AY; AZ] else [AX; AY].
Definition net_flux (dt : Qc) (v : cvar) (x : oct) : Qc :=
  csum (map (fun e => dt / cell_side (lev x) e * (mean_flux v x e false - mean_flux v x e true)) axes_of).
Definition gravity_source (dt : Qc) (grav : axis -> Qc) (v : cvar) (x : oct) : Qc :=
  match v with
  | Mass => 0
  | Mom a => dt * u_rho (D x) * grav a
  | Energy => csum (map (fun e => dt * grav e * (mean_flux Mass x e false + mean_flux Mass x e true) / two) axes_of)
  end.
End Scheme.
