(** Specification vocabulary for the output files: what a reader of a snapshot sees. *)
From Coq Require Import QArith Qcanon.
From Verif Require Import Base OctreeSpec OctreeModel MeshSpec CellSpec RemapSpec ConserveSpec RestartModel OutputModel.
Open Scope Z_scope.

(** Corner of the cell [x] in the box from [lo] to [hi]: 0 is the lower side, 1 the upper side
    of the cell along each axis. In two dimensions cells lie in the plane z = [lo]. *)
Definition cell_corner (g : geom) (b : axis -> Z) (lo hi : axis -> Qc) (x : oct) (d : axis -> Z) : Qc * Qc * Qc :=
  let at_ a := if flat g a then lo a
               else (lo a + Q2Qc (inject_Z (coord x a + d a)) / Q2Qc (inject_Z (ncells g b (lev x) a)) * (hi a - lo a))%Qc in
  (at_ AX, at_ AY, at_ AZ).
(** The corners of a cell in the order of the XDMF topologies Quadrilateral and Hexahedron:
    around the lower face, then around the upper face. *)
Definition outline (g : geom) (b : axis -> Z) (lo hi : axis -> Qc) (x : oct) : list (Qc * Qc * Qc) :=
  map (cell_corner g b lo hi x)
    ([mkoff 0 0 0; mkoff 1 0 0; mkoff 1 1 0; mkoff 0 1 0] ++
     if g3d g then [mkoff 0 0 1; mkoff 1 0 1; mkoff 1 1 1; mkoff 0 1 1] else []).

(** Row [k] of a table of the file; [None] outside of it or if nobody wrote it. *)
Definition row {X} (t : dataset X) (k : Z) : option X := if (0 <=? k) && (k <? Z.of_nat (ds_rows t)) then ds_at t (Z.to_nat k) else None.
(** The element [e] as a viewer draws it. *)
Definition element (S : snapshot) (e : Z) : option (list (Qc * Qc * Qc)) :=
  match row (s_connectivity S) e with Some ids => mapM (row (s_coordinates S)) ids | None => None end.
