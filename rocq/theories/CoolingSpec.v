(** Specification of the flux-flux cooling: energy flows out through the lower side of the box and
    in through the upper side, in the row of cells along each of the two sides. *)
From Coq Require Import QArith Qcanon.
From Verif Require Import Base OctreeSpec OctreeModel MeshSpec CellSpec RemapSpec ConserveSpec.
Open Scope Z_scope.

(** The vertical axis: z, in two dimensions y. *)
Definition vertical (g : geom) : axis := if g3d g then AZ else AY.
(** The cell [x] lies along the lower side, the upper side. *)
Definition lowest (g : geom) (x : oct) : bool := coord x (vertical g) =? 0.
Definition highest (g : geom) (b : axis -> Z) (x : oct) : bool := coord x (vertical g) =? ncells g b (lev x) (vertical g) - 1.
Definition height (g : geom) (b : axis -> Z) (ext : axis -> Qc) (x : oct) : Qc :=
  (ext (vertical g) / Q2Qc (inject_Z (ncells g b (lev x) (vertical g))))%Qc.
(** Change of the energy (per volume) of the cell [x] in time: [flux] per area of a side. *)
Definition cooled (g : geom) (b : axis -> Z) (ext : axis -> Qc) (flux : Qc) (x : oct) : Qc :=
  if lowest g x then (- (flux / height g b ext x))%Qc else if highest g b x then (flux / height g b ext x)%Qc else 0%Qc.

(** Area of a horizontal side of the box. *)
Definition side_area (g : geom) (ext : axis -> Qc) : Qc := if g3d g then (ext AX * ext AY)%Qc else (ext AX * ext AZ)%Qc.
(** Total of the values of all owned cells, weighted by volume. *)
Definition total_over (g : geom) (b : axis -> Z) (ext : axis -> Qc) (M : mesh) (Es : list (list Qc)) : Qc :=
  csum (map (fun RE : rank * list Qc =>
    csum (map (fun xe : oct * Qc => (volume g b ext (fst xe) * snd xe)%Qc) (combine (all_cells b (loc (fst RE))) (snd RE)))) (combine M Es)).
