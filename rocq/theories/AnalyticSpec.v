(** Specification vocabulary for initial conditions given by a formula. *)
From Coq Require Import QArith Qcanon.
From Verif Require Import Base OctreeSpec OctreeModel MeshSpec CellSpec RemapSpec ConserveSpec.
Open Scope Z_scope.

(** Centre and size of the cell [x] in the box from [lo] to [hi]. In two dimensions the third
    coordinate of the centre is 0 and the third size is halved at each level as well. *)
Definition cell_centre (g : geom) (b : axis -> Z) (lo hi : axis -> Qc) (x : oct) : Qc * Qc * Qc :=
  let at_ a := if flat g a then 0%Qc
               else (lo a + Q2Qc (inject_Z (2 * coord x a + 1)) / Q2Qc (inject_Z (2 * ncells g b (lev x) a)) * (hi a - lo a))%Qc in
  (at_ AX, at_ AY, at_ AZ).
Definition cell_extent (g : geom) (b : axis -> Z) (lo hi : axis -> Qc) (x : oct) : Qc * Qc * Qc :=
  let at_ a := ((hi a - lo a) / Q2Qc (inject_Z (if flat g a then 2 ^ (lev x - lmin g) else ncells g b (lev x) a)))%Qc in
  (at_ AX, at_ AY, at_ AZ).

(** The formula asks to refine the cell [x]. *)
Definition asks (need : Qc * Qc * Qc -> Qc * Qc * Qc -> bool) (g : geom) (b : axis -> Z) (lo hi : axis -> Qc) (x : oct) : Prop :=
  need (cell_centre g b lo hi x) (cell_extent g b lo hi x) = true.
(** Mesh [L] is fine enough: no cell that could be refined is asked to be. *)
Definition fine_enough (need : Qc * Qc * Qc -> Qc * Qc * Qc -> bool) (g : geom) (b : axis -> Z) (lo hi : axis -> Qc) (L : list oct) : Prop :=
  forall x, In x (all_cells b L) -> lev x < lmax g -> ~ asks need g b lo hi x.
(** A formula that asks to refine a cell also asks to refine the twice larger cell that contains it. *)
Definition coherent (need : Qc * Qc * Qc -> Qc * Qc * Qc -> bool) (g : geom) (b : axis -> Z) (lo hi : axis -> Qc) : Prop :=
  forall x, lmin g < lev x <= lmax g -> (forall a, 0 <= coord x a < ncells g b (lev x) a) -> asks need g b lo hi x -> asks need g b lo hi (parent g x).
(** [L] is nowhere finer than [L']. *)
Definition no_finer (g : geom) (L L' : list oct) : Prop :=
  forall p A B, in_dom g p -> In A L -> In B L' -> covers g A p -> covers g B p -> lev A <= lev B.
