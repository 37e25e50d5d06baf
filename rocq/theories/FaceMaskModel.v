(** Model of core/src/mpi/GhostCommunicator_partial_blocks.{h,cpp}: exchange of the cells of
    ghost blocks that lie near the faces recorded when ghosts were discovered, and of the
    face masks recorded by discover_ghosts (AMRmesh_hashmap_new.cpp:346-404).

    As in CommModel, parallel kernels are lists of independent updates performed in an
    arbitrary order, and [None] is an out-of-range access, an MPI size mismatch or a failed
    release assertion. Debug assertions are not modelled (release build). *)
From Verif Require Import Base OctreeSpec OctreeModel RefineModel CommModel LookupModel.

(** AMRmesh_hashmap_new.h:123-129: bit [f] of a mask stands for face [f] (XL, XR, YL, YR, ZL,
    ZR). partial_blocks.cpp:14, has_face. *)
Definition has_face (mask : Z) (f : Z) : bool := Z.testbit mask f.

(** partial_blocks.cpp:37. *)
Definition icell (b : axis -> Z) (x y z : Z) : Z := u32 (x + b AX * y + b AX * b AY * z).
(** l.16-43, add_cells: append the cells of a box; writes beyond the [cap] entries of the row
    of the mask are out of bounds. *)
Definition add_cells (b : axis -> Z) (cap : Z) (row : list Z) (box : (Z * Z) * (Z * Z) * (Z * Z)) : option (list Z) :=
  let '((xmin, xmax), (ymin, ymax), (zmin, zmax)) := box in
  let dx := u32 (xmax - xmin) in
  let dy := u32 (ymax - ymin) in
  let dz := u32 (zmax - zmin) in
  let n := u32 (dx * dy * dz) in
  if Z.of_nat (length row) + n <=? cap
  then Some (row ++ map (fun i => icell b (i mod dx + xmin) ((i / dx) mod dy + ymin) ((i / dx) / dy + zmin)) (zrange 0 n))
  else None.

(** l.55-92: the boxes added for a mask, in order. *)
Definition mask_boxes (b : axis -> Z) (gc : Z) (mask : Z) : list ((Z * Z) * (Z * Z) * (Z * Z)) :=
  let bx := b AX in let by' := b AY in let bz := b AZ in
  let xmin := if has_face mask 0 then gc else 0 in
  let xr_xmin := Z.max (u32 (bx - gc)) xmin in
  let xmax := if has_face mask 1 then xr_xmin else bx in
  let ymin := if has_face mask 2 then gc else 0 in
  let yr_ymin := Z.max (u32 (by' - gc)) ymin in
  let ymax := if has_face mask 3 then yr_ymin else by' in
  let zl_zmax := Z.min gc bz in
  let zmin := if has_face mask 4 then zl_zmax else 0 in
  let zr_zmin := u32 (Z.max (s32 bz - s32 gc) (s32 zmin)) in
  (if has_face mask 0 then [((0, gc), (0, by'), (0, bz))] else []) ++
  (if has_face mask 1 then [((xr_xmin, bx), (0, by'), (0, bz))] else []) ++
  (if has_face mask 2 then [((xmin, xmax), (0, gc), (0, bz))] else []) ++
  (if has_face mask 3 then [((xmin, xmax), (yr_ymin, by'), (0, bz))] else []) ++
  (if has_face mask 4 then [((xmin, xmax), (ymin, ymax), (0, zl_zmax))] else []) ++
  (if has_face mask 5 then [((xmin, xmax), (ymin, ymax), (zr_zmin, bz))] else []).

(** l.49-94: the row of one mask (cap: max_icells, l.155). *)
Definition mask_cells (b : axis -> Z) (gc : Z) (mask : Z) : option (list Z) :=
  fold_left (fun r box => match r with Some row => add_cells b (b AX * b AY * b AZ) row box | None => None end)
            (mask_boxes b gc mask) (Some []).

(** l.5-99, precompute_facemask_cells: the rows of all masks (the row of mask 0 stays
    empty), after the release assertion of l.47 (also l.114). *)
Definition facemask_table (b : axis -> Z) (gc : Z) : option (list (list Z)) :=
  if (gc <=? b AX) || (gc <=? b AY)
  then match mapM (mask_cells b gc) (zrange 1 64) with Some t => Some ([] :: t) | None => None end
  else None.

(** ** init, l.108-265 *)

(** The ghost map of a rank (AMRmesh_hashmap_new.h:116-132). *)
Record gmap := mkGmap { m_sizes : list nat; m_iOcts : list nat; m_masks : list Z }.

(** utils/mpi/MpiComm_mpi.tpp:115-132, MPI_Alltoallv with contiguous slices, as seen by rank
    [me]: [bufs] gives the send counts and the buffer of every rank, [rs] the receive counts
    of [me]. *)
Definition alltoallv {A} (bufs : list (list nat * list A)) (rs : list nat) (me : nat) : option (list A) :=
  match mapM (fun x : nat * (list nat * list A) =>
                let '(n, (sc, buf)) := x in
                let m := firstn (nth me sc O) (skipn (first_of sc me) buf) in
                if Nat.eqb (length m) n then Some m else None) (combine rs bufs) with
  | Some ms => Some (concat ms)
  | None => None
  end.

(** l.158-178 and 208-226: exclusive prefix sums of the cell counts of the masks, rank by
    rank, and number of cells for each rank. *)
Fixpoint scan (cnt : Z -> nat) (acc : nat) (l : list Z) : list nat :=
  match l with [] => [] | m :: l => acc :: scan cnt (acc + cnt m) l end.
Fixpoint scan_ranks (cnt : Z -> nat) (first offset : nat) (sizes : list nat) (masks : list Z) : list nat * list nat :=
  match sizes with
  | [] => ([], [])
  | s :: sizes =>
    let seg := firstn s (skipn first masks) in
    let c := nsum (map cnt seg) in
    let '(offs, counts) := scan_ranks cnt (first + s) (offset + c) sizes masks in
    (scan cnt offset seg ++ offs, c :: counts)
  end.

(** Row of the table; reading another row is out of bounds. *)
Definition row_of_mask (t : list (list Z)) (m : Z) : list Z := nth (Z.to_nat m) t [].

(** l.181-202 and 229-252: list of (octant, cell); the octant of entry [k] is [octs k]. *)
Definition fill_writes (t : list (list Z)) (octs : list nat) (masks : list Z) (offs : list nat) : list (nat * (nat * Z)) :=
  flat_map (fun x : nat * (Z * nat) =>
              let '(o, (m, off)) := x in block off (map (pair o) (row_of_mask t m)))
           (combine octs (combine masks offs)).
Definition fill (sch : list (nat * (nat * Z)) -> list (nat * (nat * Z))) (t : list (list Z))
    (octs : list nat) (masks : list Z) (offs counts : list nat) : option (list (nat * Z)) :=
  let ws := fill_writes t octs masks offs in
  let total := nsum counts in
  if forallb (fun w => Nat.ltb (fst w) total) ws
  then Some (write_all (sch ws) (repeat (O, 0) total)) else None.

Record pcomm := mkPcomm { p_send_count : list nat; p_send : list (nat * Z);
                          p_recv_count : list nat; p_recv : list (nat * Z) }.

Definition pinit (sch : list (nat * (nat * Z)) -> list (nat * (nat * Z))) (b : axis -> Z) (gc : Z)
    (GM : list gmap) (me : nat) : option pcomm :=
  match facemask_table b gc, nth_error GM me with
  | Some t, Some gm =>
    let cnt m := length (row_of_mask t m) in
    let rsizes := map (fun x => nth me (m_sizes x) O) GM in
    match alltoallv (map (fun x => (m_sizes x, m_masks x)) GM) rsizes me with
    | Some rmasks =>
      if forallb (fun m => (0 <=? m) && (m <? 64)) (m_masks gm ++ rmasks) then
        let '(so, sc) := scan_ranks cnt 0 0 (m_sizes gm) (m_masks gm) in
        let '(ro, rc) := scan_ranks cnt 0 0 rsizes rmasks in
        match fill sch t (m_iOcts gm) (m_masks gm) so sc,
              fill sch t (seq 0 (nsum rsizes)) rmasks ro rc with
        | Some s, Some r => Some (mkPcomm sc s rc r)
        | _, _ => None
        end
      else None
    | None => None
    end
  | _, _ => None
  end.

(** ** exchange_ghosts and reduce_ghosts, partial_blocks.h:30-165 *)

(** Position of variable [ivar] of cell [iCell] in the row of an octant (U.at_ivar, layout
    (cell, variable, octant)); l.60-67: the cell number is decoded then encoded again. *)
Definition at_ivar (b : axis -> Z) (iCell : Z) (ivar : nat) : nat :=
  let i := iCell mod b AX in
  let j := (iCell / b AX) mod b AY in
  let k := (iCell / b AX) / b AY in
  Z.to_nat (i + b AX * j + b AX * b AY * k + b AX * b AY * b AZ * Z.of_nat ivar).

Section Transfer.
Context {X : Type}.

Definition scale (nv : nat) (l : list nat) : list nat := map (fun n => (n * nv)%nat) l.

(** l.54-69 (l.128-143 with sends and receptions swapped). *)
Definition ppack (b : axis -> Z) (nv : nat) (send : list (nat * Z)) (U : list (list X)) : option (list X) :=
  mapM (fun ipack => match nth_error send (Nat.div ipack nv) with
                     | Some (o, c) => get_row U o (at_ivar b c (Nat.modulo ipack nv))
                     | None => None
                     end) (seq 0 (length send * nv)).
(** l.88-103 (l.148-163): (octant, position, value) for every received value. *)
Definition punpack (b : axis -> Z) (nv : nat) (recv : list (nat * Z)) (buf : list X) : option (list (nat * nat * X)) :=
  mapM (fun ipack => match nth_error recv (Nat.div ipack nv), nth_error buf ipack with
                     | Some (o, c), Some v => Some (o, at_ivar b c (Nat.modulo ipack nv), v)
                     | _, _ => None
                     end) (seq 0 (length recv * nv)).

(** Values sent with [snd_of] (counts and cells), received with [rcv_of], combined into the
    array [T] of rank [me] with [add], one update per value in an arbitrary order. *)
Definition transfer (add : X -> X -> X) (sch : list (nat * nat * X) -> list (nat * nat * X))
    (b : axis -> Z) (nv : nat) (snd_of rcv_of : pcomm -> list nat * list (nat * Z))
    (C : list pcomm) (me : nat) (Us : list (list (list X))) (T : list (list X)) : option (list (list X)) :=
  match mapM (fun x : pcomm * list (list X) =>
                match ppack b nv (snd (snd_of (fst x))) (snd x) with
                | Some buf => Some (scale nv (fst (snd_of (fst x))), buf)
                | None => None
                end) (combine C Us), nth_error C me with
  | Some bufs, Some c =>
    match alltoallv bufs (scale nv (fst (rcv_of c))) me with
    | Some buf =>
      match punpack b nv (snd (rcv_of c)) buf with
      | Some us => Some (add_all add (sch us) T)
      | None => None
      end
    | None => None
    end
  | _, _ => None
  end.

(** exchange_ghosts on rank [me]: local arrays [Us] of all ranks, ghost array [G] of [me]. *)
Definition pexchange sch b nv C me Us G :=
  transfer (fun _ v => v) sch b nv (fun c => (p_send_count c, p_send c)) (fun c => (p_recv_count c, p_recv c)) C me Us G.
(** reduce_ghosts on rank [me]: ghost arrays [Gs] of all ranks, local array [U] of [me]. *)
Definition preduce add sch b nv C me Gs U :=
  transfer add sch b nv (fun c => (p_recv_count c, p_recv c)) (fun c => (p_send_count c, p_send c)) C me Gs U.
End Transfer.

(** ** Masks recorded by discover_ghosts *)

(** AMRmesh_hashmap_new.cpp:386-396: face of the octant recorded for a direction. *)
Definition face_of (d : offset) : Z :=
  if d AX =? -1 then 0 else if d AX =? 1 then 1
  else if d AY =? -1 then 2 else if d AY =? 1 then 3
  else if d AZ =? -1 then 4 else 5.
(** l.345-359, register_neighbor: one table entry per (octant, rank), masks combined by or. *)
Definition oct_mask (g : geom) (K : Z) (I : list Z) (A : oct) (r : nat) : Z :=
  fold_left (fun m d => match dir_ranks g K I A d with
                        | Some rs => if existsb (Z.eqb (Z.of_nat r)) rs then Z.lor m (2^(face_of d)) else m
                        | None => m
                        end) (filter (dir_inside g A) (directions g)) 0.
(** l.448-489: the masks are stored in the order of the send lists. *)
Definition masked_sends (g : geom) (K : Z) (I : list Z) (R : rank) : list (list (nat * Z)) :=
  map (fun x : nat * list nat =>
         map (fun i => (i, match nth_error (loc R) i with Some A => oct_mask g K I A (fst x) | None => 0 end)) (snd x))
      (combine (seq 0 (length (snds R))) (snds R)).
