(** Specification vocabulary for block-structured octrees: what it means for octants to
    cover points, to tile the domain, to touch each other and to be 2:1 balanced.
    Nothing here refers to the algorithms of the code.

    The domain is a box of [coarse grid size] cubic cells of level [lmin]; every level
    halves the cells in each direction (only x and y in 2D). Points are the unit cells
    of the finest level [lmax]. *)
From Verif Require Import Base.

Inductive axis := AX | AY | AZ.

(** An octant: its level and its integer position on the grid of that level. *)
Record oct := mkOct { lev : Z; cx : Z; cy : Z; cz : Z }.
Definition coord (o : oct) (a : axis) : Z :=
  match a with AX => cx o | AY => cy o | AZ => cz o end.
Definition oct_of (l : Z) (f : axis -> Z) : oct := mkOct l (f AX) (f AY) (f AZ).

Definition oct_eqb (a b : oct) : bool :=
  (lev a =? lev b) && (cx a =? cx b) && (cy a =? cy b) && (cz a =? cz b).

(** Mesh parameters: dimension, level bounds, coarse grid size, periodicity. *)
Record geom := mkGeom {
  g3d : bool; lmin : Z; lmax : Z;
  gsx : Z; gsy : Z; gsz : Z;
  perx : bool; pery : bool; perz : bool }.
Definition gsize (g : geom) (a : axis) : Z :=
  match a with AX => gsx g | AY => gsy g | AZ => gsz g end.
Definition per (g : geom) (a : axis) : bool :=
  match a with AX => perx g | AY => pery g | AZ => perz g end.
(** In 2D the third axis is never subdivided. *)
Definition flat (g : geom) (a : axis) : bool :=
  match a with AZ => negb (g3d g) | _ => false end.

(** Meshes that the constructor is meant to accept. *)
Definition wf_geom (g : geom) : Prop :=
  0 <= lmin g /\ lmin g <= lmax g /\ lmax g <= 20 /\
  (forall a, 1 <= gsize g a <= 2^(lmin g)) /\
  (g3d g = false -> gsz g = 1).

(** Number of cells of level [l] along axis [a]. *)
Definition ncell (g : geom) (a : axis) (l : Z) : Z :=
  if flat g a then 1 else gsize g a * 2^(l - lmin g).

(** Octants that lie in the domain, with a level within bounds. *)
Definition valid (g : geom) (o : oct) : Prop :=
  lmin g <= lev o <= lmax g /\ forall a, 0 <= coord o a < ncell g a (lev o).

(** Unit cells of the finest level. *)
Record pt := mkPt { ptx : Z; pty : Z; ptz : Z }.
Definition pc (p : pt) (a : axis) : Z :=
  match a with AX => ptx p | AY => pty p | AZ => ptz p end.
Definition pt_of (f : axis -> Z) : pt := mkPt (f AX) (f AY) (f AZ).
Definition in_dom (g : geom) (p : pt) : Prop :=
  forall a, 0 <= pc p a < ncell g a (lmax g).

(** Octant [o] contains the unit cell [p]. *)
Definition covers (g : geom) (o : oct) (p : pt) : Prop :=
  forall a, pc p a / 2^(lmax g - lev o) = coord o a.

(** The leaves [L] cover each unit cell of the domain exactly once. *)
Definition tiles (g : geom) (L : list oct) : Prop :=
  (forall o, In o L -> valid g o) /\
  (forall p, in_dom g p -> exists i o, nth_error L i = Some o /\ covers g o p /\
     forall j o', nth_error L j = Some o' -> covers g o' p -> j = i).

(** Two unit cells are equal or share a face, edge or corner, possibly through a
    periodic boundary. *)
Definition near1 (periodic : bool) (n x y : Z) : Prop :=
  Z.abs (x - y) <= 1 \/ (periodic = true /\ Z.abs (x - y) = n - 1).
Definition near (g : geom) (p q : pt) : Prop :=
  forall a, near1 (per g a) (ncell g a (lmax g)) (pc p a) (pc q a).

(** Two octants overlap or share a face, edge or corner (periodic images included). *)
Definition touch (g : geom) (A B : oct) : Prop :=
  exists p q, in_dom g p /\ in_dom g q /\ covers g A p /\ covers g B q /\ near g p q.

(** 2:1 balance: touching leaves differ by at most one level. *)
Definition balanced (g : geom) (L : list oct) : Prop :=
  forall A B, In A L -> In B L -> touch g A B -> Z.abs (lev A - lev B) <= 1.

(** Parent and siblings. *)
Definition half (g : geom) (a : axis) (x : Z) : Z := if flat g a then x else x / 2.
Definition parent (g : geom) (o : oct) : oct :=
  oct_of (lev o - 1) (fun a => half g a (coord o a)).
Definition sibling (g : geom) (o s : oct) : Prop :=
  lev s = lev o /\ forall a, half g a (coord s a) = half g a (coord o a).

(** Z-order (Morton) number of a cell: interleaving of the bits of its coordinates,
    x lowest. *)
Fixpoint interleave (n : nat) (x y z : Z) : Z :=
  match n with
  | O => 0
  | S n => x mod 2 + 2 * (y mod 2) + 4 * (z mod 2) + 8 * interleave n (x / 2) (y / 2) (z / 2)
  end.

(** Position of an octant on the Z-order curve of the finest level (its first unit cell). *)
Definition zkey (g : geom) (o : oct) : Z :=
  interleave 21 (cx o) (cy o) (cz o) * 8^(lmax g - lev o).

(** Leaves in Z-order. *)
Definition zsorted (g : geom) (L : list oct) : Prop :=
  StronglySorted (fun a b => zkey g a < zkey g b) L.

(** A direction: -1, 0 or 1 along each axis, not all 0 (no z component in 2D). *)
Definition direction (g : geom) (d : axis -> Z) : Prop :=
  (forall a, -1 <= d a <= 1) /\ (exists a, d a <> 0) /\ (forall a, flat g a = true -> d a = 0).

(** Moving one unit cell from [p] in direction [d], wrapping around periodic axes, leads
    to [q]; moves out of a non-periodic domain lead nowhere. *)
Definition move (g : geom) (d : axis -> Z) (p q : pt) : Prop :=
  forall a, let n := ncell g a (lmax g) in
    (per g a = true \/ 0 <= pc p a + d a < n) /\ pc q a = (pc p a + d a) mod n.

(** [B] is adjacent to [A] in direction [d]: from some unit cell of [A], on the side of
    [A] designated by [d], one step in direction [d] leads into [B]. *)
Definition adjacent (g : geom) (A : oct) (d : axis -> Z) (B : oct) : Prop :=
  exists p q, in_dom g p /\ in_dom g q /\ covers g A p /\ covers g B q /\ move g d p q /\
    forall a, d a <> 0 -> (pc p a + d a) / 2^(lmax g - lev A) <> coord A a.

(** * Legal refinement decisions
    [m A] is the level change decided for leaf [A], [req A] the requested one. *)
Definition legal (g : geom) (L : list oct) (req m : oct -> Z) : Prop :=
  forall A, In A L ->
    (* at least what was requested, one level at a time, within the level bounds *)
    req A <= m A /\ -1 <= m A <= 1 /\ lmin g <= lev A + m A <= lmax g /\
    (* touching leaves still differ by at most one level afterwards *)
    (forall B, In B L -> touch g A B -> lev B + m B <= lev A + m A + 1) /\
    (* a leaf is coarsened only together with all its siblings *)
    (m A = -1 -> forall s, sibling g A s -> In s L /\ m s = -1).

(** The smallest legal decision. *)
Definition least_legal (g : geom) (L : list oct) (req m : oct -> Z) : Prop :=
  legal g L req m /\ forall m', legal g L req m' -> forall A, In A L -> m A <= m' A.

(** Requests that keep every leaf within the level bounds. *)
Definition good_request (g : geom) (L : list oct) (req : oct -> Z) : Prop :=
  forall A, In A L -> -1 <= req A <= 1 /\ lmin g <= lev A + req A <= lmax g.
