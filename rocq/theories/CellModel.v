(** Model of cell indices and cell neighbours (foreach_cell/AMRBlockForeachCell_CellArray.h),
    of the cell iteration (AMRBlockForeachCell.h, _group.h, _scratch.h), of the iteration
    over smaller cells (ForeachCell_utils.h) and of the boundary values
    (boundary_conditions/BoundaryConditions.h).

    A triple (i,j,k) is a function of the axis. A failed debug assertion (index outside the
    block, missing neighbour) is [None]: the release build goes on with an index that
    designates no cell. The divisions in float are taken exact (block sizes are small). *)
From Coq Require Import QArith Qround.
From Verif Require Import Base OctreeSpec OctreeModel LookupModel.
Open Scope Z_scope.

(** Conversion to a signed integer of 16 bits. *)
Definition s16 (z : Z) : Z := (z + 2^15) mod 2^16 - 2^15.

(** CellArray.h:31-38. *)
Inductive status := LOCAL_TO_BLOCK | SAME_SIZE | SMALLER | BIGGER | BOUNDARY | INVALID.

(** l.26-38, CellIndex. The octant index (iOct, isGhost) is the flat storage index. *)
Record cidx := mkCell { c_oct : nat; c_pos : axis -> Z; c_blk : axis -> Z; c_status : status }.

Definition is_local (c : cidx) : bool := match c_status c with LOCAL_TO_BLOCK => true | _ => false end.
(** l.45-48. *)
Definition level_diff (c : cidx) : Z :=
  match c_status c with BIGGER => 1 | SMALLER => -1 | _ => 0 end.
(** l.55-58. *)
Definition is_valid (c : cidx) : bool :=
  match c_status c with INVALID | BOUNDARY => false | _ => true end.

Definition all3 (f : axis -> bool) : bool := f AX && f AY && f AZ.
Definition invalid_cell : cidx := mkCell 0 (fun _ => 0) (fun _ => 0) INVALID.

(** l.580-597, getNeighbor: no tree search. *)
Definition getNeighbor (c : cidx) (off : axis -> Z) : option cidx :=
  let p a := u32 (c_pos c a + off a) in
  if all3 (fun a => p a <? c_blk c a)
  then Some (mkCell (c_oct c) p (c_blk c) (if is_local c then LOCAL_TO_BLOCK else SAME_SIZE))
  else None.

(** LightOctree_storage.h:162-172 and 199-205: centre and size in the unit box. *)
Definition getSize (g : geom) (o : oct) (a : axis) : Q := (1 / inject_Z (cell_count g a (lev o)))%Q.
Definition getCenter (g : geom) (o : oct) (a : axis) : Q :=
  (inject_Z (coord o a) * getSize g o a + (if flat g a then 0 else getSize g o a / 2))%Q.
(** x > y on positions. *)
Definition Qgt_bool (x y : Q) : bool := negb (Qle_bool x y).

(** l.600-763, getNeighbor_ghost with tree search. *)
Definition getNeighbor_ghost (g : geom) (st : list oct) (c : cidx) (off : axis -> Z) : option cidx :=
  let b := c_blk c in
  let i a := s32 (c_pos c a + off a) in
  let oo a := i a / b a in
  if all3 (fun a => oo a =? 0) then getNeighbor c off
  else
    match nth_error st (c_oct c) with
    | None => None
    | Some A =>
      if isBoundary g A oo then Some (mkCell (c_oct c) (fun a => u32 (i a + b a)) b BOUNDARY)
      else
        match findNeighbors g st (c_oct c) oo with
        | Some (n0 :: ns) =>
          match nth_error st n0 with
          | None => None
          | Some B0 =>
            let same a := u32 (i a - oo a * b a) in
            if lev A - lev B0 =? 0 then Some (mkCell n0 same b SAME_SIZE)
            else if lev A - lev B0 =? 1 then
              let logical a := Qfloor (getCenter g A a / getSize g A a) in
              let sub a := if Z.odd (logical a + oo a) then 1 else 0 in
              Some (mkCell n0 (fun a => u32 (same a + sub a * b a) / 2) b BIGGER)
            else if lev A - lev B0 =? -1 then
              let smaller a := u32 (i a * 2 + (if i a <? 0 then 1 else 0) - oo a * b a * 2) in
              let sub a := b a <=? smaller a in
              let super a := (getCenter g A a + inject_Z (oo a) * getSize g A a)%Q in
              let matches k :=
                match nth_error st k with
                | Some B => all3 (fun a => Bool.eqb (sub a) (Qgt_bool (getCenter g B a) (super a)))
                | None => false
                end in
              match find matches (n0 :: ns) with
              | Some k => Some (mkCell k (fun a => u32 (smaller a - (if sub a then b a else 0))) b SMALLER)
              | None => None
              end
            else Some invalid_cell
          end
        | _ => None
        end
    end.

(** l.766-789, getNeighbor_ghost of a block-local array (the two branches are written in
    this order in the code). *)
Definition getNeighbor_ghost_local (c : cidx) (off : axis -> Z) : option cidx :=
  let p a := u32 (c_pos c a + off a) in
  if negb (all3 (fun a => p a <? c_blk c a)) then getNeighbor c off
  else Some invalid_cell.

(** l.98-120, getBoundaryPosAndOffset. *)
Definition getBoundaryPosAndOffset (c : cidx) : cidx * (axis -> Z) :=
  let b := c_blk c in
  let i a := s32 (c_pos c a) - s32 (b a) in
  let inside a := u32 (Z.min (Z.max (i a) 0) (s32 (b a - 1))) in
  (mkCell (c_oct c) inside b LOCAL_TO_BLOCK, fun a => s16 (i a - inside a)).

(** l.414-434, convert_index of a block-local array with block size [b]. The division
    truncates toward zero. *)
Definition same_block (b b' : axis -> Z) : bool := all3 (fun a => b a =? b' a).
Definition convert_index (b : axis -> Z) (c : cidx) : option cidx :=
  if same_block (c_blk c) b then Some c
  else
    let p a := s32 (c_pos c a + Z.quot (b a - c_blk c a) 2) in
    if all3 (fun a => (0 <=? p a) && (p a <? b a)) then Some (mkCell (c_oct c) (fun a => u32 (p a)) b LOCAL_TO_BLOCK)
    else None.
(** l.437-456, convert_index_ghost of a block-local array. *)
Definition convert_index_ghost_local (b : axis -> Z) (c : cidx) : cidx :=
  if same_block (c_blk c) b then c
  else
    let p a := u32 (c_pos c a + Z.quot (b a - c_blk c a) 2) in
    if negb (all3 (fun a => p a <? b a)) then invalid_cell
    else mkCell (c_oct c) p b LOCAL_TO_BLOCK.

(** l.459-507, convert_index_ghost_aux: the cell, and the offset from the closest cell of
    the block. Offsets are stored in 8 bits in the code; here ghost layers are assumed
    thinner than 128 cells. *)
Definition convert_index_ghost_aux (g : geom) (st : list oct) (b : axis -> Z) (c : cidx) : option (cidx * (axis -> Z)) :=
  if same_block (c_blk c) b then Some (c, fun _ => 0)
  else
    let p a := s32 (c_pos c a + Z.quot (b a - c_blk c a) 2) in
    if negb (all3 (fun a => (0 <=? p a) && (p a <? b a))) then
      let inp a := if p a <? 0 then 0 else if b a <=? p a then b a - 1 else p a in
      let d a := if p a <? 0 then p a else if b a <=? p a then p a - b a + 1 else 0 in
      match getNeighbor_ghost g st (mkCell (c_oct c) inp b LOCAL_TO_BLOCK) d with
      | Some r => Some (r, d)
      | None => None
      end
    else Some (mkCell (c_oct c) p b (if is_local c then LOCAL_TO_BLOCK else SAME_SIZE), fun _ => 0).
(** l.510-514, convert_index_getNeighbor. *)
Definition convert_index_getNeighbor (g : geom) (st : list oct) (b : axis -> Z) (c : cidx) : option cidx :=
  option_map fst (convert_index_ghost_aux g st b c).
(** l.517-534, convert_index_ghost of a ghosted array. *)
Definition convert_index_ghost (g : geom) (st : list oct) (b : axis -> Z) (c : cidx) : option cidx :=
  match convert_index_ghost_aux g st b c with
  | None => None
  | Some (n, off) =>
    let o a := if off a <? 0 then -1 else 0 in
    if (level_diff n =? -1) && negb (all3 (fun a => o a =? 0)) then
      match getNeighbor n o with
      | Some r => Some (mkCell (c_oct r) (c_pos r) (c_blk r) SMALLER)
      | None => None
      end
    else Some n
  end.

(** l.544-575, at_ivar: position of a cell in the first extent of the array. *)
Definition flat_cell (b p : axis -> Z) : Z := p AX + p AY * b AX + p AZ * b AX * b AY.

(** * Iteration over cells *)

(** AMRBlockForeachCell.h:321-331 (also reduce_cell, foreach_ghost_cell and, with
    [first] > 0, Patch::foreach_cell of _group.h:72-83): the cell of parallel index [n]. *)
Definition decode_cell (b : axis -> Z) (first n : Z) : Z * (axis -> Z) :=
  let nb := b AX * b AY * b AZ in
  let r := n mod nb in
  let k := r / (b AX * b AY) in
  let j := (r - k * b AX * b AY) / b AX in
  let i := r - j * b AX - k * b AX * b AY in
  (first + n / nb, fun a => match a with AX => i | AY => j | AZ => k end).
(** l.311-333, foreach_cell: the cells visited, in index order. *)
Definition foreach_cell (b : axis -> Z) (nbOcts : nat) : list (Z * (axis -> Z)) :=
  map (decode_cell b 0) (zrange 0 (u32 (u32 (b AX * b AY * b AZ) * Z.of_nat nbOcts))).
(** _group.h:122-135, foreach_patch: (group_begin, nbOctsInGroup) of each group; unsigned
    arithmetic. A group size of 0 divides by zero. *)
Definition groups (per_group nbOcts : nat) : option (list (Z * Z)) :=
  if Nat.eqb per_group 0 then None
  else Some (map (fun iGroup => let gb := u32 (Z.of_nat per_group * iGroup) in
                                (gb, Z.min (Z.of_nat per_group) (u32 (Z.of_nat nbOcts - gb))))
                 (zrange 0 (Z.of_nat nbOcts / Z.of_nat per_group + 1))).
(** _group.h:58-84, Patch::foreach_cell. *)
Definition patch_cells (b : axis -> Z) (grp : Z * Z) : list (Z * (axis -> Z)) :=
  map (decode_cell b (fst grp)) (zrange 0 (u32 (snd grp * u32 (b AX * b AY * b AZ)))).
(** CellArray.h:544-557: slot of octant [iOct] in an array of [n] octants. *)
Definition octant_slot (n iOct : Z) : Z := iOct mod n.
(** _scratch.h:58-82: cells of one octant, rows (k,j) then i. *)
Definition scratch_cells (b : axis -> Z) (iOct : Z) : list (Z * (axis -> Z)) :=
  flat_map (fun kj => map (fun i => (iOct, fun a => match a with AX => i | AY => kj mod b AY | AZ => kj / b AY end))
                          (zrange 0 (b AX)))
           (zrange 0 (b AZ * b AY)).

(** * Iteration over smaller cells (ForeachCell_utils.h) *)

(** l.16-29, get_sibling_cell. *)
Definition get_sibling_cell (different_block : bool) (g : geom) (st : list oct) (c : cidx) (off : axis -> Z) : option cidx :=
  if different_block then getNeighbor_ghost g st c off else getNeighbor c off.
(** l.49-70, foreach_smaller_neighbor: the cells visited. *)
Definition smaller_neighbors (different_block : bool) (g : geom) (st : list oct) (c : cidx) (off : axis -> Z)
    : option (list cidx) :=
  let count a := if flat g a then 1 else if off a =? 0 then 2 else 1 in
  mapM (get_sibling_cell different_block g st c)
    (flat_map (fun dk => flat_map (fun dj => map (fun di => mkoff di dj dk)
       (zrange 0 (count AX))) (zrange 0 (count AY))) (zrange 0 (count AZ))).
(** l.88-104, foreach_sibling. *)
Definition siblings (different_block : bool) (g : geom) (st : list oct) (c : cidx) : option (list cidx) :=
  mapM (get_sibling_cell different_block g st c)
    (flat_map (fun dk => flat_map (fun dj => map (fun di => mkoff di dj dk) (zrange 0 2)) (zrange 0 2))
       (zrange 0 (if g3d g then 2 else 1))).

(** * Boundary values (BoundaryConditions.h) *)

(** Boundary types (periodic boundaries never reach this code). *)
Inductive bctype := BC_ABSORBING | BC_REFLECTING | BC_USER.
(** A conservative state: momentum and everything else. *)
Record cons_state (X Y : Type) := mkState { momentum : axis -> X; others : Y }.
Arguments mkState {X Y}. Arguments momentum {X Y}. Arguments others {X Y}.
Definition axis_eqb (a b : axis) : bool :=
  match a, b with AX, AX | AY, AY | AZ, AZ => true | _, _ => false end.
Definition set_momentum {X Y} (s : cons_state X Y) (a : axis) (x : X) : cons_state X Y :=
  mkState (fun a' => if axis_eqb a a' then x else momentum s a') (others s).

(** l.73-79: offset from the closest cell to the mirrored cell. *)
Definition symmetric_offset (off : axis -> Z) : axis -> Z := fun a => s16 (- off a + Z.sgn (off a)).

(** l.55-128, getBoundaryValue. [U] reads the array; [user] is getUserdefBoundaryValue. *)
Definition apply_bc {X Y} (neg : X -> X) (user : axis -> cons_state X Y) (bc_min bc_max : axis -> bctype)
    (ref : cons_state X Y) (off : axis -> Z) (res : cons_state X Y) (a : axis) : cons_state X Y :=
  let act bc := match bc with
                | BC_REFLECTING => set_momentum res a (neg (momentum ref a))
                | BC_USER => user a
                | BC_ABSORBING => res
                end in
  if off a >? 0 then act (bc_min a) else if off a <? 0 then act (bc_max a) else res.
Definition getBoundaryValue {X Y} (neg : X -> X) (user : axis -> cons_state X Y) (ndim3 : bool) (bc_min bc_max : axis -> bctype)
    (U : cidx -> cons_state X Y) (c : cidx) : option (cons_state X Y) :=
  let (inside, off) := getBoundaryPosAndOffset c in
  match getNeighbor inside (symmetric_offset off) with
  | None => None
  | Some m =>
    let ref := U m in
    Some (fold_left (apply_bc neg user bc_min bc_max ref off) (if ndim3 then [AX; AY; AZ] else [AX; AY]) ref)
  end.
