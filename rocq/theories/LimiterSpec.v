(** Specification for the time step of the conduction: temperature of a gas at rest, conductance of
    a cell. *)
From Coq Require Import QArith Qcanon.
From Verif Require Import Base OctreeSpec HydroModel HydroSpec CellSpec RemapSpec ConserveSpec SchemeSpec.
Open Scope Qc_scope.

Definition still (u : cons) : Prop := 0 < u_rho u /\ u_x u = 0 /\ u_y u = 0 /\ u_z u = 0.
(** Temperature of a gas at rest: pressure over density. *)
Definition heat_of (gamma : Qc) (u : cons) : Qc := (gamma - 1) * u_e u / u_rho u.
Definition between (l h v : Qc) : Prop := l <= v /\ v <= h.
(** Heat that enters [x] per time when every neighbour is hotter by 1, for the conductivity [k] of
    the faces of [x]. *)
Definition conductance (g : geom) (b : axis -> Z) (ext : axis -> Qc) (cells : list oct) (k : oct -> axis -> bool -> oct -> Qc) (x : oct) : Qc :=
  csum (map (fun e => csum (map (fun up : bool => csum (map (fun z =>
    face_area g b ext (Z.max (lev x) (lev z)) e * (k x e up z / ((cell_side g b ext (lev x) e + cell_side g b ext (lev z) e) / two)))
    (filter (neighbour g b x e up) cells))) [false; true])) (axes_of g)).
Definition dimensions (g : geom) : Qc := if g3d g then Q2Qc 3 else Q2Qc 2.
