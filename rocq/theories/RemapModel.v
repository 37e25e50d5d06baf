(** Model of the transfer of cell values from the mesh before an AMR cycle to the mesh after
    it: amr/CellIndexRemapper.h and amr/MapUserData_mean.cpp.

    Positions and values are exact rationals (double in the code). One field is modelled:
    the loops over the fields (ivar) repeat the same reads and writes for every field. *)
From Coq Require Import QArith.
From Verif Require Import Base OctreeSpec OctreeModel LookupModel CellModel.
Open Scope Z_scope.

(** CellIndexRemapper.h:34-40: centre of the first suboctant of the new octant. *)
Definition first_old_pos (g : geom) (A' : oct) : position :=
  fun a => match a with
           | AZ => if g3d g then (getCenter g A' AZ - (1#4) * getSize g A' AZ)%Q else 0%Q
           | _ => (getCenter g A' a - (1#4) * getSize g A' a)%Q
           end.

(** CellIndexRemapper.h:27-105, get_old_cell. [st] is the old storage (local then ghost
    octants), [A'] the octant of the new cell [c]. [None]: no old octant or no sibling found,
    or more than one level between the meshes (debug assertions, then unspecified index). *)
Definition get_old_cell (g : geom) (st : list oct) (A' : oct) (c : cidx) : option cidx :=
  let b := c_blk c in
  match getiOctFromPos g st (first_old_pos g A') with
  | None => None
  | Some i =>
    match nth_error st i with
    | None => None
    | Some B =>
      if lev B =? lev A' then Some (mkCell i (c_pos c) b (c_status c))
      else if lev B =? lev A' - 1 then
        let off a := if Qgt_bool (getCenter g A' a) (getCenter g B a) then 1 else 0 in
        Some (mkCell i (fun a => u32 (c_pos c a + b a * off a) / 2) b BIGGER)
      else if lev B =? lev A' + 1 then
        let off a := if c_pos c a >? u32 (b a - 1) / 2 then 1 else 0 in
        match findNeighbors g st i off with
        | Some (k :: _) => Some (mkCell k (fun a => u32 (c_pos c a * 2 - off a * b a)) b SMALLER)
        | _ => None
        end
      else None
    end
  end.

(** MapUserData_mean.cpp:72-74: (dx,dy,dz) of the subcells, in loop order. *)
Definition subcell_offsets (ndim : Z) : list (axis -> Z) :=
  flat_map (fun dz => flat_map (fun dy => map (fun dx => mkoff dx dy dz) (zrange 0 2)) (zrange 0 2)) (zrange 0 (ndim - 1)).
Definition ndim (g : geom) : Z := if g3d g then 3 else 2.

(** MapUserData_mean.cpp:57-82: the old cells read for new cell [c], and whether they are
    averaged (true) or copied (false). *)
Definition source_cells (g : geom) (st : list oct) (A' : oct) (c : cidx) : option (bool * list cidx) :=
  match get_old_cell g st A' c with
  | None => None
  | Some o =>
    if 0 <=? level_diff o then Some (false, [o])
    else match mapM (getNeighbor_ghost g st o) (subcell_offsets (ndim g)) with
         | Some l => Some (true, l)
         | None => None
         end
  end.

(** Uin.at(iCell): [rows] are the blocks of the old octants (local then ghost), each holding
    its cells in memory order. Reading an invalid or boundary index is undefined. *)
Definition read_cell (rows : list (list Q)) (c : cidx) : option Q :=
  if is_valid c then
    match nth_error rows (c_oct c) with
    | Some row => nth_error row (Z.to_nat (flat_cell (c_blk c) (c_pos c)))
    | None => None
    end
  else None.

(** l.59-81: the value written, and the number of ghost cells read for an average. [nloc]:
    number of local octants of the old mesh. *)
Definition remap_cell (g : geom) (st : list oct) (nloc : nat) (rows : list (list Q)) (A' : oct) (c : cidx) : option (Q * Z) :=
  match source_cells g st A' c with
  | None => None
  | Some (avg, l) =>
    match mapM (read_cell rows) l with
    | None => None
    | Some vs =>
      if avg then
        let nsubcells := inject_Z ((ndim g - 1) * 2 * 2) in
        Some (fold_left (fun acc v => (acc + v / nsubcells)%Q) vs 0%Q,
              fold_right Z.add 0 (map (fun m => if (nloc <=? c_oct m)%nat then 1 else 0) l))
      else Some (hd 0%Q vs, 0)
    end
  end.

(** l.50-88, the lambda remap: all cells of all new local octants (the visiting order does
    not matter, every cell only writes its own slot). Result: the new blocks and the number
    of ghost cells read. [b]: block size. *)
Definition remap_pass (g : geom) (b : axis -> Z) (st : list oct) (nloc : nat) (rows : list (list Q)) (new : list oct)
    : option (list (list Q) * Z) :=
  match mapM (fun x => mapM (fun n => remap_cell g st nloc rows (snd x)
                                (mkCell (fst x) (snd (decode_cell b 0 n)) b LOCAL_TO_BLOCK))
                            (zrange 0 (b AX * b AY * b AZ)))
             (combine (seq 0 (length new)) new) with
  | None => None
  | Some r => Some (map (map fst) r, fold_right Z.add 0 (map (fun l => fold_right Z.add 0 (map snd l)) r))
  end.

(** l.46-109, remap_aux, on all ranks. [M], [M']: meshes before and after; [D]: old blocks of
    every rank, local and ghost; [comm]: the ghost exchange of l.105-106 on the old data
    (built for the new mesh; it may fail). [None] when the recursion exceeds [fuel]. *)
Definition all_rows (D : list (list Q) * list (list Q)) : list (list Q) := fst D ++ snd D.
Fixpoint remap_aux (fuel : nat) (g : geom) (b : axis -> Z)
    (comm : list (list (list Q) * list (list Q)) -> option (list (list (list Q) * list (list Q))))
    (M M' : mesh) (D : list (list (list Q) * list (list Q))) : option (list (list (list Q))) :=
  match fuel with
  | O => None
  | S fuel =>
    match mapM (fun x => let '(R, (R', d)) := x in
                 remap_pass g b (loc R ++ gho R) (length (loc R)) (all_rows d) (loc R'))
               (combine M (combine M' D)) with
    | None => None
    | Some r =>
      if fold_right Z.add 0 (map snd r) >? 0 then
        match comm D with
        | Some D' => remap_aux fuel g b comm M M' D'
        | None => None
        end
      else Some (map fst r)
    end
  end.
