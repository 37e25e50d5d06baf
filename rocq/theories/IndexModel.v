(** Model of the packing of indices into flat numbers: octant indices
    (amr/LightOctree_base.h), the precomputed neighbour table
    (amr/LightOctree_hashmap_precompute.h) and array elements (userdata_utils.h).
    Index arithmetic is unbounded (uint32_t in the code). Parallel kernels are lists of
    writes executed in an arbitrary order [sch]. *)
From Verif Require Import Base OctreeSpec OctreeModel RefineModel CommModel.

(** * Octant indices *)

(** amr/LightOctree_base.h:18-22, OctantIndex. *)
Record octidx := mkIdx { iOct : nat; isGhost : bool }.
(** l.24-28, OctantIndex_to_iOctLocal. *)
Definition to_flat (nbOcts : nat) (o : octidx) : nat := (if isGhost o then nbOcts else 0) + iOct o.
(** l.30-39, iOctLocal_to_OctantIndex. *)
Definition of_flat (nbOcts : nat) (i : nat) : octidx :=
  if Nat.leb nbOcts i then mkIdx (i - nbOcts) true else mkIdx i false.

(** * Precomputed neighbour table *)

(** LightOctree_hashmap_precompute.h:8-12, offset_to_index. *)
Definition offset_to_index (g : geom) (off : offset) : nat :=
  Z.to_nat (off AX + 1 + 3 * (off AY + 1) + (if g3d g then 9 * (off AZ + 1) else 0)).
(** l.14-22, index_to_offset. *)
Definition index_to_offset (g : geom) (index : nat) : offset :=
  let index := Z.of_nat index in
  let iz := index / 9 in
  let iy := (index - 9 * iz) / 3 in
  let ix := index mod 3 in
  mkoff (ix - 1) (iy - 1) (if g3d g then iz - 1 else 0).

(** Two-dimensional LayoutLeft view with first extent [n]: element (i, j). *)
Definition view2 {X} (n : nat) (v : list X) (i j : nat) : option X := nth_error v (i + n * j).

Record ntable := mkTable {
  t_count : list nat;     (* neighbors_count(iOct, offset_index) *)
  t_offset : list nat;    (* neighbors_offset(iOct, offset_index) *)
  t_iOct : list nat }.    (* neighbors_iOct, flat octant indices *)

(** l.31-33: number of offsets in the table. *)
Definition n_offsets (g : geom) : nat := if g3d g then 27 else 9.

(** l.37-51, counting kernel: (slot, count) writes; views are allocated zero. The direct
    query is the model of findNeighbors, whose octant indices are flat already. *)
Definition count_writes (g : geom) (st : list oct) (nbOcts : nat) : option (list (nat * nat)) :=
  mapM (fun index =>
          let iOct := Nat.modulo index nbOcts in
          let oi := Nat.div index nbOcts in
          match findNeighbors g st iOct (index_to_offset g oi) with
          | Some ns => Some ((iOct + nbOcts * oi)%nat, length ns)
          | None => None
          end) (seq 0 (nbOcts * n_offsets g)).

(** l.55-76, scan kernel: exclusive prefix sums of the counts in index order; the final pass
    writes the offset of the slot and the neighbours of the slot. *)
Fixpoint scan_writes (g : geom) (st : list oct) (nbOcts : nat) (count : list nat) (acc : nat) (indices : list nat)
    : option (list (nat * nat) * list (nat * nat)) :=
  match indices with
  | [] => Some ([], [])
  | index :: indices =>
    let iOct := Nat.div index (n_offsets g) in
    let oi := Nat.modulo index (n_offsets g) in
    match view2 nbOcts count iOct oi, findNeighbors g st iOct (index_to_offset g oi) with
    | Some n, Some ns =>
      match mapM (fun i => match nth_error ns i with Some k => Some ((acc + i)%nat, k) | None => None end) (seq 0 n),
            scan_writes g st nbOcts count (acc + n) indices with
      | Some w, Some (wo, wi) => Some (((iOct + nbOcts * oi)%nat, acc) :: wo, w ++ wi)
      | _, _ => None
      end
    | _, _ => None
    end
  end.

(** l.24-77, LightOctree_hashmap_precompute_init. *)
Definition precompute (sch : list (nat * nat) -> list (nat * nat)) (g : geom) (st : list oct) (nbOcts : nat)
    : option ntable :=
  let slots := (nbOcts * n_offsets g)%nat in
  match count_writes g st nbOcts with
  | None => None
  | Some wc =>
    let count := write_all (sch wc) (repeat 0%nat slots) in
    match scan_writes g st nbOcts count 0 (seq 0 slots) with
    | None => None
    | Some (wo, wi) =>
      Some (mkTable count (write_all (sch wo) (repeat 0%nat slots))
                    (write_all (sch wi) (repeat 0%nat (nsum (map snd wc)))))
    end
  end.

(** l.93-121, findNeighbors of the precomputed mesh: ghosts use the direct query. *)
Definition table_find (t : ntable) (g : geom) (st : list oct) (nbOcts : nat) (o : octidx) (off : offset)
    : option (list nat) :=
  if isGhost o then findNeighbors g st (to_flat nbOcts o) off
  else
    match view2 nbOcts (t_count t) (iOct o) (offset_to_index g off),
          view2 nbOcts (t_offset t) (iOct o) (offset_to_index g off) with
    | Some n, Some first =>
      mapM (fun i => match nth_error (t_iOct t) (first + i) with
                     | Some k => Some (to_flat nbOcts (of_flat nbOcts k))
                     | None => None
                     end) (seq 0 n)
    | _, _ => None
    end.

(** * Array elements *)

(** A multi-dimensional view: its extents and its elements. *)
Record view X := mkView { ext : list nat; elt : list nat -> X }.
Arguments mkView {X}. Arguments ext {X}. Arguments elt {X}.

(** userdata_utils.h:8-52, get_U: the multi-index designated by octant [o] and linear index
    [e] inside the octant. [k] is the number of indices already produced. *)
Fixpoint get_idx (pos k : nat) (exts : list nat) (o e : nat) : list nat :=
  match exts with
  | [] => []
  | n :: exts => if Nat.eqb k pos then o :: get_idx pos (S k) exts o e
                 else Nat.modulo e n :: get_idx pos (S k) exts o (Nat.div e n)
  end.
Definition get_U (pos : nat) (exts : list nat) (o e : nat) : list nat := get_idx pos 0 exts o e.

(** l.55-64, octant_size: product of the extents other than the octant one. *)
Fixpoint octant_size_from (pos k : nat) (exts : list nat) : nat :=
  match exts with
  | [] => 1
  | n :: exts => (if Nat.eqb k pos then 1 else n) * octant_size_from pos (S k) exts
  end.
Definition octant_size (pos : nat) (exts : list nat) : nat := octant_size_from pos 0 exts.

Fixpoint prod (l : list nat) : nat := match l with [] => 1 | n :: l => n * prod l end.

Fixpoint idx_eqb (a b : list nat) : bool :=
  match a, b with
  | [], [] => true
  | x :: a, y :: b => Nat.eqb x y && idx_eqb a b
  | _, _ => false
  end.
(** Assignments (index, value) to a view, in the given order. *)
Definition assign {X} (ws : list (list nat * X)) (f : list nat -> X) : list nat -> X :=
  fold_left (fun f w i => if idx_eqb i (fst w) then snd w else f i) ws f.

(** l.71-105, transpose_from_right_iOct: [R] has the octant index rightmost, the result has
    it at position [pos]. [f0] is the content of the freshly allocated view. *)
Definition transpose_from {X} (sch : list (list nat * X) -> list (list nat * X)) (pos : nat) (R : view X) (f0 : list nat -> X)
    : view X :=
  let rank := length (ext R) in
  let exts := map (fun i => if Nat.ltb i pos then nth i (ext R) 0%nat
                            else if Nat.eqb i pos then nth (rank - 1) (ext R) 0%nat
                            else nth (i - 1) (ext R) 0%nat) (seq 0 rank) in
  let n := octant_size pos exts in
  mkView exts
    (assign (sch (map (fun index => (get_U pos exts (Nat.div index n) (Nat.modulo index n),
                                     elt R (get_U (rank - 1) (ext R) (Nat.div index n) (Nat.modulo index n))))
                 (seq 0 (prod (ext R))))) f0).

(** l.122-156, transpose_to_right_iOct. *)
Definition transpose_to {X} (sch : list (list nat * X) -> list (list nat * X)) (pos : nat) (U : view X) (f0 : list nat -> X)
    : view X :=
  let rank := length (ext U) in
  let exts := map (fun i => if Nat.ltb i pos then nth i (ext U) 0%nat else nth (S i) (ext U) 0%nat) (seq 0 (rank - 1))
              ++ [nth pos (ext U) 0%nat] in
  let n := octant_size pos (ext U) in
  mkView exts
    (assign (sch (map (fun index => (get_U (rank - 1) exts (Nat.div index n) (Nat.modulo index n),
                                     elt U (get_U pos (ext U) (Nat.div index n) (Nat.modulo index n))))
                 (seq 0 (prod (ext U))))) f0).
