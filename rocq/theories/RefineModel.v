(** Model of the refinement-condition helper,
    core/src/refine_condition/RefineCondition_helper.h. *)
From Verif Require Import Base OctreeSpec OctreeModel.

(** Replace entry [i] of [l] by its image under [f] (nothing happens out of range). *)
Fixpoint upd_nth {A} (i : nat) (f : A -> A) (l : list A) : list A :=
  match l, i with
  | [], _ => []
  | x :: l, O => f x :: l
  | x :: l, S i => x :: upd_nth i f l
  end.

(** mark_cells_aux, l.71-84: markers of all local octants start at COARSEN = -1; the kernel
    does one atomic_fetch_max per cell. [cells] lists, in the order in which the atomic
    operations happen to execute, the octant of each cell and the marker that the formula
    computed for it. *)
Definition mark_cells_raw (nbOcts : nat) (cells : list (nat * Z)) : list Z :=
  fold_left (fun ms c => upd_nth (fst c) (Z.max (snd c)) ms) cells (repeat (-1) nbOcts).

(** set_markers, l.21-33, for one octant. REFINE = 1, NOCHANGE = 0, COARSEN = -1. *)
Definition clamp_marker (g : geom) (A : oct) (criterion : Z) : Z :=
  let c1 := if (lmax g <=? lev A) && (criterion =? 1) then 0 else criterion in
  if (lev A <=? lmin g) && (c1 =? -1) then 0 else c1.

(** mark_cells on one rank: raw markers, clamped, then given to AMRmesh::setMarkers. *)
Definition mark_cells (g : geom) (octs : list oct) (cells : list (nat * Z)) : list Z :=
  map (fun x => clamp_marker g (fst x) (snd x)) (combine octs (mark_cells_raw (length octs) cells)).
