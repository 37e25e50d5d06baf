(** Specification of a MUSCL-Hancock step: the gas of a cell is advanced by half a step from its
    slopes, extrapolated to the faces, and the fluxes there change the cell. Everything is taken
    on the grid of the level of the cell (larger neighbours are copied, smaller ones averaged). *)
From Coq Require Import QArith Qcanon.
(* HydroModel for the records of states *)
From Verif Require Import Base OctreeSpec HydroModel HydroSpec CellSpec RemapSpec ConserveSpec SchemeSpec RKSpec.
Open Scope Qc_scope.

(** The velocity along an axis, as a variable of the gas. *)
Definition velocity (e : axis) : pvar := match e with AX => Vx | AY => Vy | AZ => Vz end.

Section Hancock.
Context (g : geom) (b : axis -> Z) (ext : axis -> Qc) (cells : list oct) (D : oct -> cons)
        (riem : prim -> prim -> cons) (gamma least_rho least_p dt : Qc).
Local Notation G y := (gas_at g cells D gamma y).

(** Difference between the two faces of the position [y] across [e]. *)
Definition spread_at (y : oct) (e : axis) (v : pvar) : Qc :=
  minmod (pv v (G y) - pv v (G (beside g b y e false))) (pv v (G (beside g b y e true)) - pv v (G y)).
Definition gradient (y : oct) (e : axis) (v : pvar) : Qc := spread_at y e v / cell_side g b ext (lev y) e.
(** Rates of change of the variables of the gas by the motion along [e] (Euler equations). *)
Definition euler_rate (y : oct) (v : pvar) (e : axis) : Qc :=
  vel (G y) e * gradient y e v +
  match v with
  | Vrho => q_rho (G y) * gradient y e (velocity e)
  | Vp => gamma * q_p (G y) * gradient y e (velocity e)
  | Vx => if axis_eq_dec e AX then gradient y e Vp / q_rho (G y) else 0
  | Vy => if axis_eq_dec e AY then gradient y e Vp / q_rho (G y) else 0
  | Vz => if axis_eq_dec e AZ then gradient y e Vp / q_rho (G y) else 0
  end.
(** Gas of the position in the middle of the step, at its centre and at its faces. *)
Definition half_step (y : oct) (v : pvar) : Qc := pv v (G y) - dt / two * csum (map (euler_rate y v) (axes_of g)).
Definition face_gas (y : oct) (e : axis) (up : bool) : prim :=
  let f v := if up then half_step y v + spread_at y e v / two else half_step y v - spread_at y e v / two in
  mkPrim (match f Vrho ?= least_rho with Lt => least_rho | _ => f Vrho end) (f Vp) (f Vx) (f Vy) (f Vz).
(** Flux along [e] through the upper face of the position [y]. *)
Definition face_flux (y : oct) (e : axis) : cons :=
  turn_flux e (riem (turn_gas e (face_gas y e true)) (turn_gas e (face_gas (beside g b y e true) e false))).

(** The step. *)
Definition advanced (x : oct) (v : cvar) : Qc :=
  cv v (D x) + csum (map (fun e => dt / cell_side g b ext (lev x) e * (cv v (face_flux (beside g b x e false) e) - cv v (face_flux x e))) (axes_of g)).
Definition advanced_state (x : oct) : cons :=
  let f := advanced x in mkCons (f Mass) (f Energy) (f (Mom AX)) (f (Mom AY)) (if g3d g then f (Mom AZ) else 0).
Definition hancock_raw (acc : option (oct -> axis -> Qc)) (x : oct) : cons :=
  kicked g dt (u_rho (D x)) (option_map (fun a => a x) acc) (advanced_state x).
Definition hancock (acc : option (oct -> axis -> Qc)) (x : oct) : cons := repaired gamma least_rho least_p (hancock_raw acc x).
End Hancock.
