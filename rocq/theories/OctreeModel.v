(** Model of the distributed AMR mesh: amr/LightOctree_storage.h, amr/LightOctree_hashmap.h
    and amr/AMRmesh_hashmap_new.cpp (the default mesh implementation).

    Conventions.
    - An octant is its stored data (level, logical coordinates), see [oct].
    - Octant indices (OctantIndex) are the packed positions of amr/LightOctree_base.h:24-39:
      local octants first, ghosts after them, so an index is a [nat] into locals ++ ghosts.
    - The value [None] stands for undefined behaviour or a failed release assertion
      (out-of-range access, reading slot 0 of an empty neighbour list, ...).
    - The state of the MPI job is the list of the states of its ranks. Collectives are
      functions on lists of per-rank values. *)
From Verif Require Import Base MortonModel OctreeSpec.

(** * Generic helpers *)
Fixpoint mapM {A B} (f : A -> option B) (l : list A) : option (list B) :=
  match l with
  | [] => Some []
  | x :: l => match f x, mapM f l with Some y, Some r => Some (y :: r) | _, _ => None end
  end.

(** Fold with possible failure (a C++ loop whose body may fail). *)
Fixpoint foldM {S A} (f : S -> A -> option S) (l : list A) (s : S) : option S :=
  match l with
  | [] => Some s
  | x :: l => match f s x with Some s' => foldM f l s' | None => None end
  end.

Definition zrange (b e : Z) : list Z := map (fun i => b + Z.of_nat i) (seq 0 (Z.to_nat (e - b))).

(** Conversion of a 32-bit unsigned value to a signed int (two's complement). *)
Definition s32 (z : Z) : Z := let w := u32 z in if w <? 2^31 then w else w - 2^32.

(** * Storage and neighbour search *)

(** LightOctree_storage.h:256-261, cell_count: uint32_t arithmetic. *)
Definition cell_count (g : geom) (a : axis) (l : Z) : Z := u32 (gsize g a * 2^(l - lmin g)).

(** LightOctree_hashmap.h:83-98 builds a hash map from (level, i, j, k) to the octant
    index; looking a key up is a search in the storage (keys are unique). *)
Fixpoint find_pos (o : oct) (st : list oct) : option nat :=
  match st with
  | [] => None
  | x :: st => if oct_eqb x o then Some O
               else match find_pos o st with Some n => Some (S n) | None => None end
  end.

(** A direction: one of -1, 0, 1 along each axis (offset_t). *)
Definition offset := axis -> Z.
Definition mkoff (dx dy dz : Z) : offset := fun a => match a with AX => dx | AY => dy | AZ => dz end.

(** LightOctree_hashmap.h:221-235 isBoundary and LightOctree_storage.h:162-206
    (getCenter, getSize). Positions are exact rationals: the centre along [a] is
    (2*coord + 1) / (2*count) (no half cell along z in 2D), compared with 0 and 1. *)
Definition isBoundary (g : geom) (A : oct) (off : offset) : bool :=
  let n a := cell_count g a (lev A) in
  let pos2 a := 2 * coord A a + (if flat g a then 0 else 1) + 2 * off a in
     (negb (per g AX) && negb ((0 <? pos2 AX) && (pos2 AX <? 2 * n AX)))
  || (negb (per g AY) && negb ((0 <? pos2 AY) && (pos2 AY <? 2 * n AY)))
  || (negb (per g AZ) && negb ((0 <=? pos2 AZ) && (pos2 AZ <? 2 * n AZ))).

(** Same-size position reached from [A] by [off], wrapped periodically
    (LightOctree_hashmap.h:153-161): uint32_t arithmetic. *)
Definition shifted (g : geom) (A : oct) (off : offset) : oct :=
  oct_of (lev A) (fun a => u32 (u32 (coord A a + cell_count g a (lev A)) + off a)
                           mod cell_count g a (lev A)).

(** Suboctants of position [V] that face the origin of direction [off]
    (LightOctree_hashmap.h:189-207, also AMRmesh_hashmap_new.cpp:411-433), in loop order:
    z outermost, x innermost. *)
Definition suboctants (g : geom) (V : oct) (off : offset) : list oct :=
  let org a := 2 * coord V a + (if off a =? -1 then 1 else 0) in
  let smax a := if flat g a then 0 else if off a =? 0 then 1 else 0 in
  flat_map (fun sz => flat_map (fun sy => map (fun sx =>
      mkOct (lev V + 1) (org AX + sx) (org AY + sy) (org AZ + sz))
    (zrange 0 (smax AX + 1))) (zrange 0 (smax AY + 1))) (zrange 0 (smax AZ + 1)).

(** LightOctree_hashmap.h:140-218, findNeighbors, for the octant at index [i] of the
    storage. The level of a key is a 32-bit unsigned; "level - 1" at level 0 wraps to a
    value no stored octant has, here -1. A failed lookup among the finer octants is
    undefined behaviour in release builds. *)
Definition findNeighbors (g : geom) (st : list oct) (i : nat) (off : offset) : option (list nat) :=
  match nth_error st i with
  | None => None
  | Some A =>
    if (off AX =? 0) && (off AY =? 0) && (off AZ =? 0) then Some [i]
    else if isBoundary g A off then Some []
    else
      let V := shifted g A off in
      match find_pos V st with
      | Some k => Some [k]
      | None =>
        match find_pos (oct_of (lev V - 1) (fun a => coord V a / 2)) st with
        | Some k => Some [k]
        | None => mapM (fun s => find_pos s st) (suboctants g V off)
        end
      end
  end.

(** * adapt: correction of the markers *)

(** Loops "for nz, for ny, for nx" over the 8 or 26 directions
    (AMRmesh_hashmap_new.cpp:758-762 and 369-373). *)
Definition directions (g : geom) : list offset :=
  filter (fun o => negb ((o AX =? 0) && (o AY =? 0) && (o AZ =? 0)))
    (flat_map (fun dz => flat_map (fun dy => map (fun dx => mkoff dx dy dz)
       (zrange (-1) 2)) (zrange (-1) 2))
       (if g3d g then zrange (-1) 2 else [0])).

(** Directions to the siblings (AMRmesh_hashmap_new.cpp:734-745). *)
Definition sibling_dirs (g : geom) (A : oct) : list offset :=
  let s a := if coord A a mod 2 =? 0 then 1 else -1 in
  map (fun o : offset => fun a => s a * o a)
    (filter (fun o => negb ((o AX =? 0) && (o AY =? 0) && (o AZ =? 0)))
      (flat_map (fun z => flat_map (fun y => map (fun x => mkoff x y z) (zrange 0 2)) (zrange 0 2))
         (if g3d g then zrange 0 2 else [0]))).

(** One sibling: AMRmesh_hashmap_new.cpp:745-753. Comparison in uint32_t. *)
Definition sib_step (g : geom) (st : list oct) (mk : list Z) (i : nat) (A : oct)
    (m : Z) (d : offset) : option Z :=
  match findNeighbors g st i d with
  | Some (n :: _) =>
      match nth_error st n, nth_error mk n with
      | Some B, Some mB => Some (if u32 (lev A + m) <? u32 (lev B + mB) then 0 else m)
      | _, _ => None
      end
  | _ => None
  end.

(** One neighbour: AMRmesh_hashmap_new.cpp:767-774. Comparison in uint32_t. *)
Definition nb_step (st : list oct) (mk : list Z) (A : oct) (m : Z) (n : nat) : option Z :=
  match nth_error st n, nth_error mk n with
  | Some B, Some mB =>
      Some (if u32 (lev A + m) <? u32 (lev B + mB - 1) then s32 (lev B - lev A + mB - 1) else m)
  | _, _ => None
  end.

Definition dir_step (g : geom) (st : list oct) (mk : list Z) (i : nat) (A : oct)
    (m : Z) (d : offset) : option Z :=
  match findNeighbors g st i d with
  | Some ns => foldM (nb_step st mk A) ns m
  | None => None
  end.

(** AMRmesh_hashmap_new.cpp:722-784, check_21_cell for local octant [i]: the corrected
    marker. [st] is locals ++ ghosts, [mk] the markers in the same order. *)
Definition check21 (g : geom) (st : list oct) (mk : list Z) (i : nat) : option Z :=
  match nth_error st i, nth_error mk i with
  | Some A, Some m0 =>
      match (if m0 =? -1 then foldM (sib_step g st mk i A) (sibling_dirs g A) m0 else Some m0) with
      | Some m1 => foldM (dir_step g st mk i A) (directions g) m1
      | None => None
      end
  | _, _ => None
  end.

(** One sweep over the local octants (double buffered, AMRmesh_hashmap_new.cpp:800-809). *)
Definition sweep (g : geom) (st : list oct) (nloc : nat) (mloc mgho : list Z) : option (list Z) :=
  mapM (check21 g st (mloc ++ mgho)) (seq 0 nloc).

Fixpoint lz_eqb (a b : list Z) : bool :=
  match a, b with
  | [], [] => true
  | x :: a, y :: b => (x =? y) && lz_eqb a b
  | _, _ => false
  end.

(** Inner loop (l.796-815): sweep until no local marker changes. Returns the markers and
    whether anything was modified. [fuel] bounds the number of sweeps. *)
Fixpoint local_loop (fuel : nat) (g : geom) (st : list oct) (nloc : nat) (mloc mgho : list Z)
    : option (list Z * bool) :=
  match fuel with
  | O => None
  | S fuel =>
    match sweep g st nloc mloc mgho with
    | None => None
    | Some m' =>
      if lz_eqb mloc m' then Some (m', false)
      else match local_loop fuel g st nloc m' mgho with
           | Some (m'', _) => Some (m'', true)
           | None => None
           end
    end
  end.

(** * Ranks and ghost exchange *)
Record rank := mkRank {
  loc : list oct;             (* local octants *)
  gho : list oct;             (* ghost octants *)
  snds : list (list nat);     (* ghost map: for each destination rank, local indices to send *)
  gfirst : Z;                 (* global index of the first local octant *)
  gtotal : Z }.               (* global number of octants *)
Definition mesh := list rank.

(** mpi/ViewCommunicator.h:205-370 exchange_ghosts (flat buffers are modelled in
    CommModel.v): rank [r] receives, source rank by source rank, the elements the sources
    listed for it. *)
Definition pick {A} (data : list A) (idx : list nat) : option (list A) := mapM (nth_error data) idx.
Definition recv {A} (sends : list (list (list nat))) (data : list (list A)) (r : nat) : option (list A) :=
  match mapM (fun sd : list (list nat) * list A =>
                match nth_error (fst sd) r with Some idx => pick (snd sd) idx | None => None end)
             (combine sends data) with
  | Some ls => Some (concat ls)
  | None => None
  end.
Definition exchange {A} (sends : list (list (list nat))) (data : list (list A)) : option (list (list A)) :=
  mapM (recv sends data) (seq 0 (length sends)).

(** Outer loop (AMRmesh_hashmap_new.cpp:788-817): exchange ghost markers, iterate locally
    on every rank, stop when no rank modified anything (Allreduce LOR). *)
Fixpoint marker_loop (fuel : nat) (lfuel : nat) (g : geom) (M : mesh) (mk : list (list Z))
    : option (list (list Z)) :=
  match fuel with
  | O => None
  | S fuel =>
    match exchange (map snds M) mk with
    | None => None
    | Some mg =>
      match mapM (fun x : rank * (list Z * list Z) =>
                    let '(R, (ml, mgr)) := x in
                    local_loop lfuel g (loc R ++ gho R) (length (loc R)) ml mgr)
                 (combine M (combine mk mg)) with
      | None => None
      | Some res =>
        let mk' := map fst res in
        if existsb snd res then marker_loop fuel lfuel g M mk' else Some mk'
      end
    end
  end.

(** * adapt: application of the markers *)

(** Octants written for one old octant (AMRmesh_hashmap_new.cpp:829-906): the counting scan
    and the writing kernel agree on the number of octants, the offset is the exclusive
    prefix sum, so the new storage is the concatenation of these lists. A marker outside
    {-1,0,1} writes nothing. Level arithmetic is 32-bit unsigned. *)
Definition apply1 (g : geom) (A : oct) (m : Z) : list oct :=
  if m =? 1 then
    map (fun j => let dz := j / 4 in let dy := (j - dz * 4) / 2 in let dx := j - dz * 4 - dy * 2 in
         mkOct (lev A + 1) (cx A * 2 + dx) (cy A * 2 + dy) (cz A * 2 + dz))
        (zrange 0 (if g3d g then 8 else 4))
  else if m =? 0 then [A]
  else if m =? -1 then
    if (cx A mod 2 =? 0) && (cy A mod 2 =? 0) && (cz A mod 2 =? 0)
    then [mkOct (u32 (lev A - 1)) (cx A / 2) (cy A / 2) (cz A / 2)] else []
  else [].
Definition apply_markers (g : geom) (octs : list oct) (ms : list Z) : list oct :=
  flat_map (fun x => apply1 g (fst x) (snd x)) (combine octs ms).

(** AMRmesh_hashmap_new.cpp:237-243, compute_morton. *)
Definition compute_morton (o : oct) (target : Z) : Z :=
  shift_level (morton3 (cx o) (cy o) (cz o)) (target - lev o).

(** Filling the interval starts of empty ranks from the right
    (AMRmesh_hashmap_new.cpp:927-931 and 558-562); slot 0 is left as it is. *)
Fixpoint fix_tail (l : list Z) (last : Z) : list Z :=
  match l with
  | [] => []
  | x :: l => let r := fix_tail l last in
              (if x =? 0 then match r with [] => last | y :: _ => y end else x) :: r
  end.
Definition fix_intervals (l : list Z) (last : Z) : list Z :=
  match l with
  | [] => [last]
  | x :: l => (x :: fix_tail l last) ++ [last]
  end.
Definition morton_max64 : Z := 2^64 - 1.

(** First key of a rank after adapt (l.911-923): the test is on the old number of octants
    but octant 0 of the new storage is read: undefined if the rank lost all its octants. *)
Definition adapt_begin (g : geom) (old new : list oct) : option Z :=
  match old with
  | [] => Some 0
  | _ :: _ => match new with [] => None | o :: _ => Some (compute_morton o (lmax g)) end
  end.

(** * discover_ghosts (AMRmesh_hashmap_new.cpp:275-492) *)

(** find_rank, l.319-342: binary search for the first interval start above the key. *)
Fixpoint upper_bound (fuel : nat) (I : list Z) (b e : Z) (key : Z) : option Z :=
  match fuel with
  | O => None
  | S fuel =>
    if b <? e then
      let pivot := b + (e - b) / 2 in
      match nth_error I (Z.to_nat pivot) with
      | Some v => if v <=? key then upper_bound fuel I (pivot + 1) e key
                  else upper_bound fuel I b pivot key
      | None => None
      end
    else Some b
  end.
Definition find_rank (J : list Z) (key : Z) : option Z :=
  let P := Z.of_nat (length J) - 1 in
  match upper_bound (S (length J)) J 0 P key with
  | Some b => Some (b - 1)
  | None => None
  end.

(** Key of octant [o] at level [K] (local lambda compute_morton, l.312-317). *)
Definition key_at (K : Z) (o : oct) : Z := compute_morton o K.

(** Directions kept by the boundary test l.373-376: uint32_t arithmetic, so a step below 0
    wraps to a large number. *)
Definition dir_inside (g : geom) (A : oct) (d : offset) : bool :=
  forallb (fun a => per g a || (u32 (coord A a + d a) <? cell_count g a (lev A))) [AX; AY; AZ].
(** Wrapped same-size neighbour position, l.378-382. *)
Definition wrapped (g : geom) (A : oct) (d : offset) : oct :=
  oct_of (lev A) (fun a => u32 (u32 (coord A a + d a) + cell_count g a (lev A))
                           mod cell_count g a (lev A)).

(** Ranks registered for octant [A] in direction [d] (l.383-434), before removing the
    local rank. [K] is the parameter level_max of the function. *)
Definition dir_ranks (g : geom) (K : Z) (I : list Z) (A : oct) (d : offset) : option (list Z) :=
  let V := wrapped g A d in
  let mV := key_at K V in
  match find_rank I mV with
  | None => None
  | Some r0 =>
    let mnext := shift_level (shift_level mV (lev A - K) + 1) (K - lev A) in
    match nth_error I (Z.to_nat (r0 + 1)) with
    | None => None
    | Some hi =>
      if (lev A <? K) && (mnext <? hi) then Some [r0]
      else mapM (fun s => find_rank I (key_at K s)) (suboctants g V d)
    end
  end.
Definition oct_ranks (g : geom) (K : Z) (I : list Z) (A : oct) : option (list Z) :=
  match mapM (dir_ranks g K I A) (filter (dir_inside g A) (directions g)) with
  | Some ls => Some (concat ls)
  | None => None
  end.

(** Send lists of rank [me]: for each other rank, the local octants registered for it.
    The hash table has one entry per (octant, rank) pair and an arbitrary iteration order:
    [ord] is any reordering of each list. (The restart loop on a full table is modelled
    separately in GhostRestart.v.) *)
Definition order := nat -> nat -> list nat -> list nat.
Definition discover (ord : order) (g : geom) (K : Z) (I : list Z) (P : nat) (me : nat) (octs : list oct)
    : option (list (list nat)) :=
  match mapM (oct_ranks g K I) octs with
  | None => None
  | Some rs =>
    Some (map (fun d : nat =>
      if Nat.eqb d me then []
      else ord me d (filter (fun i => match nth_error rs i with
                               | Some l => existsb (Z.eqb (Z.of_nat d)) l
                               | None => false end) (seq 0 (length octs))))
      (seq 0 P))
  end.

(** Ghost lists of all ranks from their send lists (l.179-189, 634-653, 935-952). *)
Definition with_ghosts (ord : order) (g : geom) (K : Z) (I : list Z) (locs : list (list oct))
    (firsts : list Z) (total : Z) : option mesh :=
  match mapM (fun x => discover ord g K I (length locs) (fst x) (snd x)) (combine (seq 0 (length locs)) locs) with
  | None => None
  | Some sends =>
    match exchange sends locs with
    | None => None
    | Some ghosts =>
      Some (map (fun x => let '(l, (gh, (s, f))) := x in mkRank l gh s f total)
                (combine locs (combine ghosts (combine sends firsts))))
    end
  end.

(** Exclusive prefix sums of the local counts (MPI_Scan minus own, l.956-959). *)
Fixpoint firsts_from (acc : Z) (ls : list (list oct)) : list Z :=
  match ls with
  | [] => []
  | l :: ls => acc :: firsts_from (acc + Z.of_nat (length l)) ls
  end.
Definition total_of (ls : list (list oct)) : Z := Z.of_nat (length (concat ls)).

(** AMRmesh_hashmap_new.cpp:683-967, adapt. [mk] are the markers of every rank; [fuel]
    bounds the marker loops. *)
Definition adapt (fuel : nat) (ord : order) (g : geom) (M : mesh) (mk : list (list Z)) : option mesh :=
  match marker_loop fuel fuel g M mk with
  | None => None
  | Some mk' =>
    let locs' := map (fun x => apply_markers g (loc (fst x)) (snd x)) (combine M mk') in
    match mapM (fun x => adapt_begin g (loc (fst x)) (snd x)) (combine M locs') with
    | None => None
    | Some begins =>
      with_ghosts ord g (lmax g) (fix_intervals begins morton_max64) locs'
        (firsts_from 0 locs') (total_of locs')
    end
  end.

(** AMRmesh_hashmap_new.cpp:209-213, adaptGlobalRefine. *)
Definition adaptGlobalRefine (fuel : nat) (ord : order) (g : geom) (M : mesh) : option mesh :=
  adapt fuel ord g M (map (fun R => map (fun _ => 1) (loc R)) M).

(** * loadBalance (AMRmesh_hashmap_new.cpp:496-674) *)

(** utils/mpi/MpiComm_mpi.tpp:82-96, MPI_Allgatherv_inplace: rank r contributes the
    [cnt_r] elements of its own buffer that start at the sum of the previous counts. *)
Fixpoint agv (displ : nat) (l : list (list Z * nat)) : list Z :=
  match l with
  | [] => []
  | (buf, cnt) :: l => firstn cnt (skipn displ buf) ++ agv (displ + cnt) l
  end.

(** l.505-519: buffer of rank [R] (slots it owns; others are 0) and number of owned slots. *)
Definition lb_buffer (g : geom) (P : nat) (R : rank) : list Z * nat :=
  let ib := gfirst R in
  let ie := gfirst R + Z.of_nat (length (loc R)) in
  let idx i := (gtotal R * Z.of_nat i) / Z.of_nat P in
  let mine i := (ib <=? idx i) && (idx i <? ie) in
  (map (fun i => if mine i then
                   match nth_error (loc R) (Z.to_nat (idx i - ib)) with
                   | Some o => compute_morton o (lmax g) | None => 0 end
                 else 0) (seq 0 P),
   length (filter mine (seq 0 P))).

(** l.526-540: truncate a key to [a] levels, [a] decreasing from [level] until the key is
    above the previous one (or [a] = 0). 64-bit shifts. *)
Fixpoint truncate (a : nat) (key prev : Z) : Z :=
  let t := shl64 (Z.shiftr key (3 * Z.of_nat a)) (3 * Z.of_nat a) in
  match a with
  | O => t
  | S a' => if t <=? prev then truncate a' key prev else t
  end.
Fixpoint truncate_all (level : nat) (keys : list Z) (prev : Z) : list Z :=
  match keys with
  | [] => []
  | k :: keys => let t := truncate level k prev in t :: truncate_all level keys t
  end.

(** AMRmesh_hashmap_new.cpp:246-266, lower_bound_morton. *)
Fixpoint lower_bound (fuel : nat) (g : geom) (octs : list oct) (b e : Z) (key : Z) : option Z :=
  match fuel with
  | O => None
  | S fuel =>
    if b <? e then
      let pivot := b + (e - b) / 2 in
      match nth_error octs (Z.to_nat pivot) with
      | Some o => let v := compute_morton o (lmax g) in
                  if v =? key then Some pivot
                  else if v <? key then lower_bound fuel g octs (pivot + 1) e key
                  else lower_bound fuel g octs b pivot key
      | None => None
      end
    else Some b
  end.
(** [end = nbOcts-1] in uint32_t: wraps when the rank is empty. Octant counts per rank are
    assumed to fit in uint32_t (oct_index_t). *)
Definition lower_bound_morton (g : geom) (octs : list oct) (key : Z) : option Z :=
  lower_bound (S (length octs)) g octs 0
    (match length octs with O => 2^32 - 1 | S n => Z.of_nat n end) key.

(** l.569-582: pivots found by rank [R] whose old interval is [ob, oe). *)
Definition lb_pivots (g : geom) (I : list Z) (P : nat) (R : rank) (ob oe : Z) : option (list Z * nat) :=
  match mapM (fun i => match nth_error I i with
                       | None => None
                       | Some key =>
                         if (ob <=? key) && (key <? oe) then
                           match lower_bound_morton g (loc R) key with
                           | Some p => Some (true, gfirst R + p)
                           | None => None
                           end
                         else Some (false, 0)
                       end) (seq 0 P) with
  | None => None
  | Some l => Some (map snd l, length (filter fst l))
  end.

Definition lb_old_begin (g : geom) (R : rank) : Z :=
  match loc R with [] => 0 | o :: _ => compute_morton o (lmax g) end.

(** Send sizes of rank [R] towards each rank (l.603-613): overlap of the index ranges. *)
Definition lb_sizes (OI : list Z) (P : nat) (R : rank) : option (list Z) :=
  mapM (fun r => match nth_error OI r, nth_error OI (S r) with
                 | Some b, Some e =>
                   let ib := Z.max b (gfirst R) in
                   let ie := Z.min e (gfirst R + Z.of_nat (length (loc R))) in
                   Some (if ie >? ib then ie - ib else 0)
                 | _, _ => None
                 end) (seq 0 P).
(** Indices sent to each rank: send_iOcts is 0..n-1 cut according to the sizes. *)
Fixpoint cut (start : nat) (sizes : list Z) : list (list nat) :=
  match sizes with
  | [] => []
  | s :: sizes => seq start (Z.to_nat s) :: cut (start + Z.to_nat s) sizes
  end.

(** New interval starts of all ranks, l.503-541. The model gives up ([None]) when the
    gathered contributions do not fill the P slots exactly. *)
Definition lb_intervals (g : geom) (level : nat) (M : mesh) : option (list Z) :=
  let P := length M in
  let keys := agv 0 (map (lb_buffer g P) M) in
  if Nat.eqb (length keys) P then Some (0 :: truncate_all level (tl keys) 0 ++ [morton_max64])
  else None.

(** First global index of every rank, l.547-584. *)
Definition lb_oct_intervals (g : geom) (I : list Z) (M : mesh) : option (list Z) :=
  let P := length M in
  let old := fix_intervals (map (lb_old_begin g) M) morton_max64 in
  match mapM (fun x => let '(R, (ob, oe)) := x in lb_pivots g I P R ob oe)
             (combine M (combine old (tl old))) with
  | None => None
  | Some pv =>
    match M with
    | [] => None
    | R0 :: _ => if Nat.eqb (length (agv 0 pv)) P then Some (agv 0 pv ++ [gtotal R0]) else None
    end
  end.

Definition all_some_pos (l : list (list oct)) : bool := forallb (fun x => negb (Nat.eqb (length x) 0)) l.

(** The communicator built by loadBalance: which local octants each rank sends to each
    rank (result of loadBalance, used for the octants and for the user data). *)
Definition lb_sends (g : geom) (level : nat) (M : mesh) : option (list Z * list Z * list (list (list nat))) :=
  if (1 <? length M)%nat && (64 <=? 3 * Z.of_nat level) then None (* shift count too large *) else
  match lb_intervals g level M with
  | None => None
  | Some J =>
    match lb_oct_intervals g J M with
    | None => None
    | Some OI =>
      match mapM (lb_sizes OI (length M)) M with
      | None => None
      | Some sizes => Some (J, OI, map (cut 0) sizes)
      end
    end
  end.

(** Assertions l.659-664: first and last octant of a rank lie within its interval. *)
Definition within (g : geom) (octs : list oct) (b e : Z) : bool :=
  match octs with
  | [] => true
  | o :: _ => (b <=? compute_morton o (lmax g)) && (compute_morton (last octs o) (lmax g) <? e)
  end.

(** loadBalance. Release assertions: interval starts increasing (l.542), index intervals
    ordered (l.586), received count as expected (l.618-627), first and last octant within
    the interval (l.659-664), no rank empty (l.671). Total counts are unchanged. The
    assertions of l.659-671 are evaluated before the ghosts here, which changes nothing. *)
Definition strictly_increasing (l : list Z) : bool :=
  forallb (fun p => fst p <? snd p) (combine l (tl l)).
Definition loadBalance (ord : order) (g : geom) (level : nat) (M : mesh) : option mesh :=
  match lb_sends g level M with
  | None => None
  | Some (J, OI, sends) =>
    if negb (strictly_increasing J) then None
    else if negb (forallb (fun p => fst p <=? snd p) (combine OI (tl OI))) then None
    else
      match exchange sends (map loc M) with
      | None => None
      | Some locs' =>
        if negb (forallb (fun x => Z.of_nat (length (fst x)) =? snd (snd x) - fst (snd x))
                  (combine locs' (combine OI (tl OI)))) then None
        else if negb (forallb (fun x => within g (fst x) (fst (snd x)) (snd (snd x)))
                  (combine locs' (combine J (tl J)))) then None
        else if negb (all_some_pos locs') then None
        else
          match M with
          | [] => None
          | R0 :: _ =>
            with_ghosts ord g (lmax g) J locs' (firstn (length M) OI) (gtotal R0)
          end
      end
  end.

(** * Construction (AMRmesh_hashmap_new.cpp:42-194) *)

(** Decoding of a coarse Morton index and test that it lies in the coarse grid (l.114-122). *)
Definition coarse_oct (g : geom) (m : Z) : oct :=
  if g3d g then mkOct (lmin g) (extract3 0 m) (extract3 1 m) (extract3 2 m)
  else mkOct (lmin g) (extract2 0 m) (extract2 1 m) 0.
Definition in_coarse (g : geom) (o : oct) : bool :=
  (cx o <? gsx g) && (cy o <? gsy g) && (cz o <? gsz g).

(** total_num_octs (l.49): the product is computed in uint32_t. *)
Definition coarse_total (g : geom) : Z := u32 (u32 (gsx g * gsy g) * gsz g).

(** Interval starts in the Morton order of the dimension (l.94-135). *)
Definition coarse_morton_max (g : geom) : Z :=
  if g3d g then morton3 (gsx g - 1) (gsy g - 1) (gsz g - 1) + 1
  else morton2 (gsx g - 1) (gsy g - 1) + 1.
Definition init_first (g : geom) (P r : nat) : Z := (Z.of_nat r * coarse_total g) / Z.of_nat P.
Definition is_full_cube (g : geom) : bool :=
  (gsx g =? 2^lmin g) && (gsy g =? 2^lmin g) && ((gsz g =? 2^lmin g) || negb (g3d g)).
Definition init_intervals (g : geom) (P : nat) : list Z :=
  if is_full_cube g then
    map (fun i => (Z.of_nat i * coarse_total g) / Z.of_nat P) (seq 0 (S P))
  else
    let cells := filter (fun m => in_coarse g (coarse_oct g m)) (zrange 0 (coarse_morton_max g)) in
    map (fun r => match nth_error cells (Z.to_nat (init_first g P r)) with Some m => m | None => 0 end)
        (seq 0 P) ++ [coarse_morton_max g].

(** Conversion of the interval starts to 3D keys (l.167-178). *)
Definition to_3D (g : geom) (m : Z) : Z :=
  if g3d g then m else morton3 (extract2 0 m) (extract2 1 m) 0.

(** Local octants of rank [r] (l.137-163), with the release assertion on their number. *)
Definition init_local (g : geom) (P : nat) (I : list Z) (r : nat) : option (list oct) :=
  match nth_error I r, nth_error I (S r) with
  | Some b, Some e =>
    let octs := map (coarse_oct g) (filter (fun m => in_coarse g (coarse_oct g m)) (zrange b e)) in
    if Z.of_nat (length octs) =? init_first g P (S r) - init_first g P r then Some octs else None
  | _, _ => None
  end.

(** l.77-194. The ghost search runs at level level_min (l.179). *)
Definition private_init (ord : order) (g : geom) (P : nat) : option mesh :=
  let I := init_intervals g P in
  match mapM (init_local g P I) (seq 0 P) with
  | None => None
  | Some locs =>
    with_ghosts ord g (lmin g) (map (to_3D g) I) locs (map (init_first g P) (seq 0 P)) (coarse_total g)
  end.
