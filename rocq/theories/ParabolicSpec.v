(** Specification of the parabolic terms: heat conduction and viscosity on the cells of a mesh,
    in terms of the field and of lengths in the domain. *)
From Coq Require Import QArith Qcanon.
(* HydroModel for the records of states only *)
From Verif Require Import Base OctreeSpec HydroModel HydroSpec CellSpec RemapSpec ConserveSpec SchemeSpec.
Open Scope Qc_scope.

Section Parabolic.
(** Geometry, corner and extents of the domain, cells, field, adiabatic index. *)
Context (g : geom) (b : axis -> Z) (lo ext : axis -> Qc) (cells : list oct) (D : oct -> cons) (gamma : Qc).
Local Notation side := (cell_side g b ext).
Local Notation area := (face_area g b ext).
Local Notation gas := (gas_at g cells D gamma).

(** * Heat *)
Definition temperature (x : oct) : Qc := q_p (gas x) / q_rho (gas x).
(** Centre of a position; 0 along an axis the simulation does not have. *)
Definition middle (x : oct) (a : axis) : Qc :=
  if flat g a then 0 else lo a + (Q2Qc (inject_Z (coord x a)) + 1 / two) * side (lev x) a.
(** Position one cell of the size of [x] further along [e], not wrapped around. *)
Definition beyond (x : oct) (e : axis) (up : bool) (a : axis) : Qc :=
  if axis_eq_dec a e then (if up then middle x a + side (lev x) a else middle x a - side (lev x) a) else middle x a.

(** Conductivity between two cells: the mean of the values at their centres. *)
Definition conductivity (kappa : (axis -> Qc) -> Qc) (x z : oct) : Qc := (kappa (middle x) + kappa (middle z)) / two.
(** Conductivity that [x] takes for its face with [z]. A neighbour of the same size or bigger is
    replaced by a cell of the size of [x]. *)
Definition taken (kappa : (axis -> Qc) -> Qc) (x : oct) (e : axis) (up : bool) (z : oct) : Qc :=
  (kappa (middle x) + kappa (if (lev x <? lev z)%Z then middle z else beyond x e up)) / two.

(** Heat that enters [x] per unit of time and volume, for the conductivity [k] of the faces of
    [x]: through every face, conductivity times area times difference of temperature over
    distance. *)
Definition heating (k : oct -> axis -> bool -> oct -> Qc) (x : oct) : Qc :=
  csum (map (fun e => csum (map (fun up : bool => csum (map (fun z =>
    area (Z.max (lev x) (lev z)) e * (k x e up z * (temperature z - temperature x) / ((side (lev x) e + side (lev z) e) / two)))
    (filter (neighbour g b x e up) cells))) [false; true])) (axes_of g)) / volume g b ext x.

(** * Viscosity *)
Definition velocity (x : oct) (a : axis) : Qc := vel (gas x) a.
(** Derivative along [a] of the component [f] of the velocity, on the face above the position
    [y] across [e]. *)
Definition derivative (y : oct) (e a f : axis) : Qc :=
  let y' := beside g b y e true in
  let centred z := (velocity (beside g b z a true) f - velocity (beside g b z a false) f) / (two * side (lev y) a) in
  if axis_eq_dec a e then (velocity y' f - velocity y f) / side (lev y) e else (centred y' + centred y) / two.
Definition divergence (y : oct) (e : axis) : Qc := csum (map (fun a => derivative y e a a) (axes_of g)).
(** Stress of a Newtonian fluid of viscosity 1 on that face, and its power. *)
Definition stress (y : oct) (e f : axis) : Qc :=
  derivative y e e f + derivative y e f e - (if axis_eq_dec e f then (1 + 1) / (1 + 1 + 1) * divergence y e else 0).
Definition power (y : oct) (e : axis) : Qc :=
  csum (map (fun f => stress y e f * ((velocity y f + velocity (beside g b y e true) f) / two)) (axes_of g)).
(** Force and power per unit of volume. *)
Definition viscous (mu : Qc) (v : cvar) (x : oct) : Qc :=
  let through y e := match v with Mass => 0 | Mom f => stress y e f | Energy => power y e end in
  mu * csum (map (fun e => (through x e - through (beside g b x e false) e) / side (lev x) e) (axes_of g)).
(** Depth that a cell has in the code when the simulation has two dimensions: that of the
    domain, halved at every level above the coarsest one. *)
Definition depth (x : oct) : Qc := if g3d g then 1 else ext AZ / Q2Qc (inject_Z (2 ^ (lev x - lmin g))).
End Parabolic.

(** Meshes whose cells all have the same size. *)
Definition one_size (cells : list oct) : Prop := forall x y, In x cells -> In y cells -> lev x = lev y.
(** Functions of the position, and those that repeat with the domain. *)
Definition of_position (kappa : (axis -> Qc) -> Qc) : Prop := forall p p', (forall a, p a = p' a) -> kappa p = kappa p'.
Definition repeats (ext : axis -> Qc) (kappa : (axis -> Qc) -> Qc) : Prop :=
  forall p e, kappa (fun a => if axis_eq_dec a e then p a + ext a else p a) = kappa p.
