(** Model of the HDF5 output: io/IOManager_hdf5.cpp (the tables written by all ranks and the main
    file of the time series; the XML text of each snapshot is not modelled).

    One row of a table is what is stored for one index of the last extent of the view, the
    outermost dimension of the file (HDF5ViewWriter.h:98-140): three numbers per node, the
    nodes of an element, one number per element. Reals are exact: the conversion to float of
    output_real_type is not modelled. uint32_t products wrap; uint64_t numbers do not. *)
From Coq Require Import QArith Qcanon Ascii.
From Verif Require Import Base OctreeSpec OctreeModel LookupModel CellModel RestartModel HydroModel.
Open Scope Z_scope.

(** l.214: (ndim-1)*4. *)
Definition nodes_per_cell (g : geom) : Z := if g3d g then 8 else 4.
(** l.220-228. *)
Definition out_cells_per_oct (b : axis -> Z) : Z := u32 (b AX * b AY * b AZ).
Definition node_count (g : geom) (b : axis -> Z) (a : axis) : Z := if flat g a then 1 else u32 (b a + 1).
Definition nodes_per_oct (g : geom) (b : axis -> Z) : Z := u32 (node_count g b AX * node_count g b AY * node_count g b AZ).

(** l.349-368: position of a node, one row per node of the local octants [octs]; [lo], [hi] are the
    corners of the box. *)
Definition coordinates (g : geom) (b : axis -> Z) (lo hi : axis -> Qc) (octs : list oct) : option (list (Qc * Qc * Qc)) :=
  let Bx := node_count g b AX in
  let By := node_count g b AY in
  mapM (fun index =>
      let iNode := index mod nodes_per_oct g b in
      let ijk a := match a with AX => iNode mod Bx | AY => (iNode / Bx) mod By | AZ => iNode / (Bx * By) end in
      match nth_error octs (Z.to_nat (index / nodes_per_oct g b)) with
      | None => None
      | Some A =>
        let co a := (lo a + (Q2Qc (getCorner g A a) + frac (ijk a) 1 * Q2Qc (getSize g A a) / frac (b a) 1) * (hi a - lo a))%Qc in
        Some (co AX, co AY, co AZ)
      end)
    (zrange 0 (u32 (Z.of_nat (length octs) * nodes_per_oct g b))).

(** AMRBlockForeachCell.h:212-215, getNumCells. *)
Definition getNumCells (b : axis -> Z) (nbOcts : nat) : Z := u32 (Z.of_nat nbOcts * b AX * b AY * b AZ).
(** l.387: order of the corners of an element. *)
Definition node_shuffle (i : Z) : Z := nth (Z.to_nat i) [0; 1; 3; 2; 4; 5; 7; 6] 0.
(** l.379-398: number of the node [iNode_cell] of the cell [iCell]. *)
Definition node_number (g : geom) (b : axis -> Z) (first_iOct iCell iNode_cell : Z) : Z :=
  let Bx := node_count g b AX in
  let By := node_count g b AY in
  let iOct := iCell / out_cells_per_oct b in
  let iNode_block := iCell mod out_cells_per_oct b in
  let s := node_shuffle iNode_cell in
  let i_cell := s mod 2 in let j_cell := (s / 2) mod 2 in let k_cell := s / 4 in
  let i_block := iNode_block mod b AX in
  let j_block := (iNode_block / b AX) mod b AY in
  let k_block := iNode_block / (b AX * b AY) in
  (first_iOct + iOct) * nodes_per_oct g b + u32 ((i_cell + i_block) + (j_cell + j_block) * Bx + (k_cell + k_block) * Bx * By).
(** l.372-401: one row per local cell. The view is filled with 0 when it is allocated; the
    kernel runs over local_num_cells*nbNodesPerCell indices, a 32-bit number. *)
Definition connectivity (g : geom) (b : axis -> Z) (first_iOct : Z) (nbOcts : nat) : list (list Z) :=
  let local_num_cells := getNumCells b nbOcts in
  let n := u32 (local_num_cells * nodes_per_cell g) in
  map (fun iCell => map (fun iNode => if iCell * nodes_per_cell g + iNode <? n then node_number g b first_iOct iCell iNode else 0)
                        (zrange 0 (nodes_per_cell g)))
      (zrange 0 local_num_cells).

(** A write of [v] at index [i] of a view. *)
Definition write_at {X} (l : list X) (i : Z) (v : X) : option (list X) :=
  if (0 <=? i) && (i <? Z.of_nat (length l)) then Some (firstn (Z.to_nat i) l ++ v :: skipn (S (Z.to_nat i)) l) else None.
(** l.319-322, linearize_iCell. *)
Definition linearize_iCell (b : axis -> Z) (c : Z * (axis -> Z)) : Z :=
  u32 (snd c AX + b AX * (snd c AY + b AY * (snd c AZ + b AZ * fst c))).
(** l.453-466: one row per local cell, from the array [U] of the field (slot of the cell in the
    array as in CellArray.h:544-575); [zero] is the content of the new view. [None]: write outside
    of the view, read outside of the array. *)
Definition variable {X} (zero : X) (b : axis -> Z) (nbOcts : nat) (U : list X) : option (list X) :=
  foldM (fun view c =>
      match nth_error U (Z.to_nat (fst c * (b AX * b AY * b AZ) + flat_cell b (snd c))) with
      | Some v => write_at view (linearize_iCell b c) v
      | None => None
      end)
    (foreach_cell b nbOcts) (repeat zero (Z.to_nat (getNumCells b nbOcts))).
(** l.417-450: ioct, level, rank. *)
Definition variable_ioct (b : axis -> Z) (first_iOct : Z) (nbOcts : nat) : list Z :=
  map (fun i => first_iOct + i / out_cells_per_oct b) (zrange 0 (getNumCells b nbOcts)).
Definition variable_level (b : axis -> Z) (octs : list oct) : option (list Z) :=
  mapM (fun i => option_map lev (nth_error octs (Z.to_nat (i / out_cells_per_oct b)))) (zrange 0 (getNumCells b (length octs))).
Definition variable_rank (b : axis -> Z) (rank : Z) (nbOcts : nat) : list Z := map (fun _ => rank) (zrange 0 (getNumCells b nbOcts)).

(** l.208-466: the tables of a snapshot, with one field held by the arrays [Us] of the ranks;
    [sched] is the order in which the ranks reach the file. *)
Record snapshot := mkSnapshot { s_coordinates : dataset (Qc * Qc * Qc); s_connectivity : dataset (list Z); s_field : dataset Qc;
                                s_ioct : dataset Z; s_level : dataset Z; s_rank : dataset Z }.
Definition save_snapshot (sched : list nat) (g : geom) (b : axis -> Z) (lo hi : axis -> Qc) (M : mesh) (Us : list (list Qc)) : option snapshot :=
  do cs <- mapM (fun R => coordinates g b lo hi (loc R)) M ;
  do fs <- mapM (fun RU : rank * list Qc => variable 0%Qc b (length (loc (fst RU))) (snd RU)) (combine M Us) ;
  do ls <- mapM (fun R => variable_level b (loc R)) M ;
  Some (mkSnapshot (collective_write sched cs)
                   (collective_write sched (map (fun R => connectivity g b (gfirst R) (length (loc R))) M))
                   (collective_write sched fs)
                   (collective_write sched (map (fun R => variable_ioct b (gfirst R) (length (loc R))) M))
                   (collective_write sched ls)
                   (collective_write sched (map (fun rR : nat * rank => variable_rank b (Z.of_nat (fst rR)) (length (loc (snd rR)))) (combine (seq 0 (length M)) M)))).

(** l.480-603, save_particles: coordinates and one attribute of the particles of each rank. *)
Definition save_particles {X} (sched : list nat) (P : list (list (X * Qc))) : dataset X * dataset Qc :=
  (collective_write sched (map (map fst) P), collective_write sched (map (map snd) P)).

(** * The main file of the time series *)

(** The file and whether this program created it (l.38-41). *)
Definition text := list ascii.
Record xmf := mkXmf { x_text : text; x_created : bool }.
(** Overwriting a file from position [n] on. *)
Definition overwrite_from (n : nat) (old new : text) : text := firstn n old ++ new ++ skipn (n + length new) old.
(** l.60-91, create_file and append_xmf. The constant texts are parameters: [header], [footer],
    and the text around the name of the file. fseek from the end by the length of the footer;
    a failed fseek (file shorter than the footer) is [None]. *)
Definition create_file (header footer : text) : xmf := mkXmf (header ++ footer) true.
Definition append_xmf (header footer : text) (include : text -> text) (F : xmf) (name : text) : option xmf :=
  let F := if x_created F then F else create_file header footer in
  if (length footer <=? length (x_text F))%nat
  then Some (mkXmf (overwrite_from (length (x_text F) - length footer) (x_text F) (include name ++ footer)) true)
  else None.
(** A run of the program appends the snapshots [names]; the file on disk may exist already. *)
Definition run_appends (header footer : text) (include : text -> text) (disk : text) (names : list text) : option text :=
  option_map x_text (foldM (append_xmf header footer include) names (mkXmf disk false)).
