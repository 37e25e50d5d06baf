(** Specification vocabulary for the transfer of cell values between meshes.

    The cells of level [l] of all octants form one regular grid; a cell is written as an
    octant on that grid: its level and its integer position. *)
From Coq Require Import QArith.
From Verif Require Import Base OctreeSpec OctreeModel MeshSpec CellSpec CellModel.
Open Scope Z_scope.

(** The grid cell number [p] of the block of octant [A]. *)
Definition cell_of (b : axis -> Z) (A : oct) (p : axis -> Z) : oct := oct_of (lev A) (gpos b A p).

(** The cells (or octants) of the next level contained in [c]: their parent is [c]. *)
Definition children (g : geom) (c : oct) : list oct :=
  let two a := if flat g a then [coord c a] else [2 * coord c a; 2 * coord c a + 1] in
  flat_map (fun z => flat_map (fun y => map (fun x => mkOct (lev c + 1) x y z) (two AX)) (two AY)) (two AZ).

(** Sums of rationals, means. *)
Definition qsum (l : list Q) : Q := fold_right Qplus 0%Q l.
Definition mean (l : list Q) : Q := (qsum l / inject_Z (Z.of_nat (length l)))%Q.

(** [rows] holds, for every octant of the list [L], the values [V] of its cells, in memory
    order (x fastest). *)
Definition holds (b : axis -> Z) (V : oct -> Q) (L : list oct) (rows : list (list Q)) : Prop :=
  Forall2 (fun A row => Z.of_nat (length row) = b AX * b AY * b AZ /\
             forall p, in_block b p ->
               exists v, nth_error row (Z.to_nat (p AX + p AY * b AX + p AZ * b AX * b AY)) = Some v /\
                         (v == V (cell_of b A p))%Q) L rows.

(** The value [v] of a cell [c] of the new octant [A'] is the right one: [L] are the old
    leaves, [V] the old values. *)
Definition remapped (g : geom) (L : list oct) (V : oct -> Q) (A' c : oct) (v : Q) : Prop :=
  (* unchanged octant *)
  (In A' L /\ (v == V c)%Q) \/
  (* refined octant: the old cell that contains the new one *)
  (In (parent g A') L /\ (v == V (parent g c))%Q) \/
  (* coarsened octant: the mean of the old cells contained in the new one *)
  ((forall B, In B (children g A') -> In B L) /\ (v == mean (map V (children g c)))%Q).

(** Total over a list of octants with their blocks of cells, in units of the volume of the
    domain. *)
Definition cell_volume (g : geom) (b : axis -> Z) (l : Z) : Q :=
  (1 / inject_Z (ncells g b l AX * ncells g b l AY * ncells g b l AZ))%Q.
Definition total (g : geom) (b : axis -> Z) (octs : list oct) (rows : list (list Q)) : Q :=
  qsum (map (fun x => (cell_volume g b (lev (fst x)) * qsum (snd x))%Q) (combine octs rows)).

(** Every coarsened octant of the new mesh is made of octants of one rank. *)
Definition families_on_one_rank (g : geom) (M M' : mesh) : Prop :=
  forall r R R' A', nth_error M r = Some R -> nth_error M' r = Some R' -> In A' (loc R') ->
    (forall B, In B (children g A') -> In B (leaves M)) -> forall B, In B (children g A') -> In B (loc R).

(** [rows] holds, for every new octant of the list [new], the right values of its cells. *)
Definition holds_remapped (g : geom) (b : axis -> Z) (L : list oct) (V : oct -> Q) (new : list oct) (rows : list (list Q)) : Prop :=
  Forall2 (fun A' row => Z.of_nat (length row) = b AX * b AY * b AZ /\
             forall p, in_block b p ->
               exists v, nth_error row (Z.to_nat (p AX + p AY * b AX + p AZ * b AX * b AY)) = Some v /\
                         remapped g L V A' (cell_of b A' p) v) new rows.
