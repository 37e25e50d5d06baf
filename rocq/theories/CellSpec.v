(** Specification vocabulary for blocks of cells: where a cell lies, which cells touch. *)
(* CellModel only for the names of the statuses *)
From Verif Require Import Base OctreeSpec CellModel.

(** Every octant holds a block of [b AX] * [b AY] * [b AZ] cells (one layer in 2D). *)
Definition block_ok (g : geom) (b : axis -> Z) : Prop :=
  forall a, 1 <= b a <= 2^14 /\ (flat g a = true -> b a = 1).
Definition in_block (b p : axis -> Z) : Prop := forall a, 0 <= p a < b a.

(** Position of cell [p] of octant [A] along [a], counted in cells of the level of [A] from
    the corner of the domain, and number of such cells. *)
Definition gpos (b : axis -> Z) (A : oct) (p : axis -> Z) (a : axis) : Z := coord A a * b a + p a.
Definition ncells (g : geom) (b : axis -> Z) (l : Z) (a : axis) : Z := ncell g a l * b a.

(** The two cells share a face, an edge or a corner, or overlap, possibly through a periodic
    boundary: along each axis the closed intervals they span meet. *)
Definition near_cells (g : geom) (b : axis -> Z) (A : oct) (p : axis -> Z) (B : oct) (q : axis -> Z) : Prop :=
  forall a, exists k, (k = 0 \/ per g a = true) /\
    let w l := 2^(lmax g - l) in
    let shift := k * ncells g b (lmax g) a in
    gpos b A p a * w (lev A) <= (gpos b B q a + 1) * w (lev B) + shift /\
    gpos b B q a * w (lev B) + shift <= (gpos b A p a + 1) * w (lev A).

(** Which cell a neighbour query must designate. [T] is the requested position in cells of
    the level of [A], wrapped around periodic axes; [B], [q] the cell found. *)
Definition designates (g : geom) (b : axis -> Z) (A B : oct) (q T : axis -> Z) (toward : axis -> bool) (s : status) : Prop :=
  match s with
  | LOCAL_TO_BLOCK => B = A /\ forall a, gpos b B q a = T a
  | SAME_SIZE => lev B = lev A /\ forall a, gpos b B q a = T a
  | BIGGER => (* the bigger cell that contains the requested one *)
    lev B = lev A - 1 /\ forall a, gpos b B q a = half g a (T a)
  | SMALLER => (* the half of the requested cell nearest to the block of [A] along the axes
                  where the request leaves the block downward, the first half along others *)
    lev B = lev A + 1 /\ forall a, gpos b B q a = if flat g a then T a else 2 * T a + (if toward a then 1 else 0)
  | _ => False
  end.
