(** Specification of the refinement criteria: which octants are to be refined and which coarsened. *)
From Coq Require Import QArith Qcanon.
From Verif Require Import Base OctreeSpec OctreeModel MeshSpec CellSpec RemapSpec HydroModel HydroSpec ConserveSpec SchemeSpec GravitySpec.
Open Scope Z_scope.

Definition above (limit value : Qc) : bool := if Qclt_le_dec limit value then true else false.
(** Marker of the octant [A] for the quantity [q] of its cells: 1 (refine) if the quantity is above
    [high] in one of them, -1 (coarsen) if it is above neither [high] nor [low] in any, else 0. An
    octant of the last or of the first level stays. *)
Definition marker_of (g : geom) (b : axis -> Z) (q : oct -> Qc) (low high : Qc) (A : oct) : Z :=
  let cells := all_cells b [A] in
  if existsb (fun x => above high (q x)) cells then (if lev A <? lmax g then 1 else 0)
  else if existsb (fun x => above low (q x)) cells then 0
  else (if lmin g <? lev A then -1 else 0).

(** Mass of a cell (in two dimensions per unit of depth). *)
Definition cell_mass (g : geom) (b : axis -> Z) (ext : axis -> Qc) (rho : oct -> Qc) (x : oct) : Qc :=
  (rho x * fold_right Qcmult 1 (map (cell_side g b ext (lev x)) (axes_of g)))%Qc.
(** Velocity along the last axis, positive along the flow. *)
Definition downflow (g : geom) (sign : Qc) (rho : oct -> Qc) (mom : axis -> oct -> Qc) (x : oct) : Qc :=
  (sign * (mom (if g3d g then AZ else AY) x / rho x))%Qc.

Definition absolute (x : Qc) : Qc := if Qclt_le_dec x 0 then (- x)%Qc else x.
Definition larger (x y : Qc) : Qc := if Qclt_le_dec x y then y else x.
Definition largest (l : list Qc) : Qc := fold_right larger 0%Qc l.
(** Relative difference of two values, at most 1; 0 if both are small. *)
Definition contrast (u v : Qc) : Qc :=
  let m := larger (absolute u) (absolute v) in
  if Qclt_le_dec m (Q2Qc (1 # 1000)) then 0%Qc
  else if Qclt_le_dec (absolute (u - v) / m) 1 then (absolute (u - v) / m)%Qc else 1%Qc.
(** Largest contrast between a cell and the cells that share a face with it. *)
Definition steepness (g : geom) (b : axis -> Z) (cells : list oct) (rho : oct -> Qc) (x : oct) : Qc :=
  largest (flat_map (fun e => flat_map (fun up => map (fun y => contrast (rho x) (rho y)) (filter (touches g b e up x) cells)) [true; false]) (axes_of g)).

(** Second difference of three values in a row relative to their differences and their size. *)
Definition bend (eps ql qc qr : Qc) : Qc :=
  (absolute (ql + qr - Q2Qc 2 * qc) /
   (absolute (qr - qc) + absolute (ql - qc) + Q2Qc (1 # 100) * (absolute qr + absolute ql + Q2Qc 2 * absolute qc) + eps))%Qc.
(** Density and pressure of a state, not below a least density and [least_p] times the density. *)
Definition density_of (least_rho : Qc) (u : cons) : Qc := larger (u_rho u) least_rho.
Definition pressure_of (gamma least_rho least_p : Qc) (u : cons) : Qc :=
  let d := density_of least_rho u in
  larger ((gamma - 1) * (u_e u - (u_x u * u_x u + u_y u * u_y u + u_z u * u_z u) / (Q2Qc 2 * d))) (d * least_p).
(** Largest bend of the density and the pressure along the axes, on the grid of the level of the
    cell (larger neighbours are copied, smaller ones averaged). *)
Definition bending (g : geom) (b : axis -> Z) (cells : list oct) (D : oct -> cons) (gamma least_rho least_p eps : Qc) (x : oct) : Qc :=
  let state y := seen g (resample g cells D y) in
  largest (flat_map (fun v : cons -> Qc => map (fun e => bend eps (v (state (beside g b x e false))) (v (state x)) (v (state (beside g b x e true)))) (axes_of g))
    [density_of least_rho; pressure_of gamma least_rho least_p]).
