(** Model of the point queries of amr/LightOctree_hashmap.h, of the boundary flag of
    amr/LightOctree_storage.h, of the parameter checks of the mesh constructor
    (amr/AMRmesh_hashmap_new.cpp) and of the periodic wrapping of particle positions.

    Positions are exact rationals (double in the code). For cubic coarse grids the numbers
    of cells are powers of two, and the division by the octant size of the code is exact
    too; for other grids the code rounds. *)
From Coq Require Import QArith Qround.
From Verif Require Import Base MortonModel OctreeSpec OctreeModel.
Open Scope Z_scope.

(** A position in the unit box (LightOctree_base.h:42, pos_t). *)
Definition position := axis -> Q.

(** floor(pos / octant_size) with octant_size = 1.0 / n. *)
Definition floor_div (x : Q) (n : Z) : Z := Qfloor (x * inject_Z n).

(** Logical coordinates of the finest cell at a position
    (LightOctree_hashmap.h:281-289 and 324-331): z is multiplied by ndim-2. *)
Definition finest_cell (g : geom) (p : position) : oct :=
  mkOct (lmax g) (u32 (floor_div (p AX) (cell_count g AX (lmax g))))
                 (u32 (floor_div (p AY) (cell_count g AY (lmax g))))
                 (if g3d g then u32 (floor_div (p AZ) (cell_count g AZ (lmax g))) else 0).

(** getiOctFromPos, LightOctree_hashmap.h:267-307: look the cell up at level_max, then its
    ancestors down to level_min. [n] is the number of levels still to try. [None] when
    nothing is found: the code then hits a debug assertion and returns an unspecified index
    (with level_min = 0 it does not terminate, the unsigned loop counter wraps). *)
Fixpoint descend (n : nat) (st : list oct) (key : oct) : option nat :=
  match n with
  | O => None
  | S n => match find_pos key st with
           | Some i => Some i
           | None => descend n st (mkOct (lev key - 1) (cx key / 2) (cy key / 2) (cz key / 2))
           end
  end.
Definition getiOctFromPos (g : geom) (st : list oct) (p : position) : option nat :=
  descend (Z.to_nat (lmax g - lmin g + 1)) st (finest_cell g p).

(** Corner of an octant (LightOctree_storage.h:174-183): lp * size. *)
Definition getCorner (g : geom) (o : oct) : position :=
  fun a => (inject_Z (coord o a) / inject_Z (cell_count g a (lev o)))%Q.

(** First key of a rank as computed by the LightOctree_hashmap constructor
    (LightOctree_hashmap.h:50-64): the corner of octant 0 is multiplied by 2^max_level,
    whatever the number of coarse cells. [None]: octant 0 of an empty rank is read. *)
Definition first_morton (g : geom) (octs : list oct) : option Z :=
  match octs with
  | [] => None
  | o :: _ =>
    let c := getCorner g o in
    Some (morton3 (u32 (floor_div (c AX) (2^lmax g))) (u32 (floor_div (c AY) (2^lmax g)))
                  (if g3d g then u32 (floor_div (c AZ) (2^lmax g)) else 0))
  end.
(** l.65-68: gathered first keys, then the largest 64-bit number. *)
Definition morton_intervals (g : geom) (locs : list (list oct)) : option (list Z) :=
  match mapM (first_morton g) locs with
  | Some l => Some (l ++ [2^64 - 1])
  | None => None
  end.

(** getDomainFromPos, l.310-345: position before the first interval start above the key. *)
Fixpoint first_above (k : nat) (J : list Z) (key : Z) : option nat :=
  match J with
  | [] => None
  | x :: J => if x >? key then Some k else first_above (S k) J key
  end.
Definition getDomainFromPos (g : geom) (J : list Z) (p : position) : option Z :=
  let c := finest_cell g p in
  match first_above 0 J (morton3 (cx c) (cy c) (cz c)) with
  | Some i => Some (Z.of_nat i - 1)
  | None => Some (-1)
  end.

(** LightOctree_storage.h:186-196, getBound. *)
Definition getBound (g : geom) (o : oct) : bool :=
  let last a := u32 (cell_count g a (lev o) - 1) in
  (cx o =? 0) || (cy o =? 0) || (cz o =? 0) ||
  (cx o =? last AX) || (cy o =? last AY) || (cz o =? last AZ).

(** Parameter checks of the constructor (AMRmesh_hashmap_new.cpp:60-75 and 79). The test
    on the third coarse size is written "a <= (dim==3) ? b : 1", which parses as
    "(a <= (dim==3)) ? b : 1": its value is (1 << level_min) or 1, never 0. *)
Definition ctor_ok (g : geom) : bool :=
  let two l := u32 (2^l) in
  (lmin g <=? lmax g) && (gsx g <=? two (lmin g)) && (gsy g <=? two (lmin g)) &&
  negb ((if gsz g <=? (if g3d g then 1 else 0) then two (lmin g) else 1) =? 0) &&
  negb ((0 <? lmin g) && (gsx g <=? two (lmin g - 1)) && (gsy g <=? two (lmin g - 1)) &&
        (gsz g <=? (if g3d g then two (lmin g - 1) else 0))) &&
  (g3d g || (gsz g =? 1)).

(** particles/ParticleUpdate_CIC_move.cpp:137-139 (also NGP_move): C fmod truncates toward
    zero. *)
Definition Qtrunc (x : Q) : Z := Z.quot (Qnum x) (Zpos (Qden x)).
Definition fmod (x y : Q) : Q := (x - inject_Z (Qtrunc (x / y)) * y)%Q.
Definition wrap_position (x xmin xmax : Q) : Q := (fmod ((x - xmin) + (xmax - xmin)) (xmax - xmin) + xmin)%Q.
