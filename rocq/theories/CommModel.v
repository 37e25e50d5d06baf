(** Model of core/src/mpi/ViewCommunicator.{h,cpp} on flat buffers.

    The state of the job is the list, rank by rank, of the data of each rank. A Kokkos view
    of octant data is a list of rows: row [o] holds the [e] values of octant [o] in the
    order enumerated by userdata_utils::get_U (see IndexModel for that flattening).
    Pack buffers are LayoutLeft views with the octant index rightmost: flat lists where
    value [i] of slot [k] is at position [k*e + i].
    Parallel kernels are lists of independent updates; the updates of a kernel happen in
    the order given by an arbitrary permutation.
    [None] is an out-of-range access, an MPI size mismatch or a failed release assertion.
    Index arithmetic is unbounded (uint32_t in the code). *)
From Verif Require Import Base OctreeModel RefineModel.

Section Comm.
Context {X : Type}.

(** A communicator as one rank stores it: send_sizes and send_iOcts (ViewCommunicator.h:
    120-125). *)
Record comm := mkComm { c_sizes : list nat; c_idx : list nat }.

Fixpoint nsum (l : list nat) : nat := match l with [] => 0 | x :: l => x + nsum l end.

(** private_init_map, ViewCommunicator.cpp:62-84: MPI_Alltoall of the send sizes. *)
Definition recv_sizes (C : list comm) (r : nat) : list nat := map (fun c => nth r (c_sizes c) 0%nat) C.

(** Value [i] of octant [o] (get_U). *)
Definition get_row (U : list (list X)) (o i : nat) : option X :=
  match nth_error U o with Some row => nth_error row i | None => None end.

(** ViewCommunicator.h:233-240: octants sent to the rank itself and their offset. *)
Definition n_self (c : comm) (me : nat) : nat := nth me (c_sizes c) 0%nat.
Definition first_of (sizes : list nat) (me : nat) : nat := nsum (firstn me sizes).

(** fill_send_buffer, l.247-268. *)
Definition pack (c : comm) (me : nat) (e : nat) (U : list (list X)) : option (list X) :=
  let nl := n_self c me in
  let fl := first_of (c_sizes c) me in
  mapM (fun index =>
          let iGhost := Nat.div index e in
          match nth_error (c_idx c) (if Nat.ltb iGhost fl then iGhost else iGhost + nl) with
          | Some o => get_row U o (Nat.modulo index e)
          | None => None
          end) (seq 0 ((length (c_idx c) - nl) * e)).

(** get_subviews, l.176-201: one slice per rank; the slice of rank [skip] is empty and takes
    no room. *)
Fixpoint subviews (k : nat) (off : nat) (skip : option nat) (e : nat) (sizes : list nat) (buf : list X) : list (list X) :=
  match sizes with
  | [] => []
  | s :: sizes =>
    if match skip with Some m => Nat.eqb k m | None => false end
    then [] :: subviews (S k) off skip e sizes buf
    else firstn (s * e) (skipn (off * e) buf) :: subviews (S k) (off + s) skip e sizes buf
  end.

(** Writes (position, value) into a flat array, in the given order. *)
Definition write_all (ws : list (nat * X)) (G : list X) : list X :=
  fold_left (fun G w => upd_nth (fst w) (fun _ => snd w) G) ws G.
(** Writes of a block starting at [off]. *)
Definition block (off : nat) (vals : list X) : list (nat * X) := combine (seq off (length vals)) vals.

(** Messages for rank [me] from every source: MPI_Isend / MPI_Irecv pairs of l.297-320. A
    message whose size differs from the posted receive is an error. Empty slices are
    neither sent nor received. *)
Definition messages (me : nat) (sizes : list nat) (e : nat) (bufs : list (list (list X))) : option (list (list X)) :=
  mapM (fun x : nat * (nat * list (list X)) =>
          let '(s, (n, sb)) := x in
          if Nat.eqb s me then Some []
          else match nth_error sb me with
               | Some m => if Nat.eqb (length m) (n * e) then Some m else None
               | None => None
               end)
       (combine (seq 0 (length sizes)) (combine sizes bufs)).

(** copy_local, l.322-340: list of writes into the ghost array. *)
Definition copy_local (c : comm) (me : nat) (rs : list nat) (e : nat) (U : list (list X)) : option (list (nat * X)) :=
  let nl := n_self c me in
  let fs := first_of (c_sizes c) me in
  let fr := first_of rs me in
  mapM (fun index =>
          let iGhost := Nat.div index e in
          let i := Nat.modulo index e in
          match nth_error (c_idx c) (iGhost + fs) with
          | Some o => match get_row U o i with Some v => Some (((iGhost + fr) * e + i)%nat, v) | None => None end
          | None => None
          end) (seq 0 (nl * e)).

(** Writes of the received messages when the ghost array itself is the receive buffer
    (contiguous octants, l.275-281): message of rank [s] goes to the slice of rank [s]. *)
Fixpoint direct_writes (off e : nat) (sizes : list nat) (msgs : list (list X)) : list (nat * X) :=
  match sizes, msgs with
  | s :: sizes, m :: msgs => block (off * e) m ++ direct_writes (off + s) e sizes msgs
  | _, _ => []
  end.
(** Same with a separate unpack buffer (l.282-293) that has no room for the rank itself,
    then unpacked (l.354-368). *)
Fixpoint buffered (k off me e : nat) (sizes : list nat) (msgs : list (list X)) : list (nat * X) :=
  match sizes, msgs with
  | s :: sizes, m :: msgs =>
    if Nat.eqb k me then buffered (S k) off me e sizes msgs
    else block (off * e) m ++ buffered (S k) (off + s) me e sizes msgs
  | _, _ => []
  end.
Definition unpack_writes (c : comm) (me : nat) (rs : list nat) (e : nat) (buf : list X) : list (nat * X) :=
  let nl := n_self c me in
  let fr := first_of rs me in
  map (fun x => let index := fst x in
                let k := Nat.div index e in
                (((if Nat.ltb k fr then k else k + nl) * e + Nat.modulo index e)%nat, snd x))
      (block 0 buf).

(** exchange_ghosts, l.204-370, on rank [me]. [contiguous] selects the code path. [sch] is
    the order in which the writes of the parallel kernels and of the message deliveries
    happen. [G0] is the previous content of the ghost array (checked extent: l.224);
    [B0] the initial content of the unpack buffer. *)
Definition exchange_rank (contiguous : bool) (sch : list (nat * X) -> list (nat * X))
    (C : list comm) (me : nat) (e : nat) (Us : list (list (list X))) (G0 B0 : list X) : option (list X) :=
  let rs := recv_sizes C me in
  if negb (Nat.eqb (length G0) (nsum rs * e)) then None else
  match nth_error C me, nth_error Us me,
        mapM (fun x : nat * (comm * list (list X)) =>
                let '(s, (c, U)) := x in
                match pack c s e U with
                | Some b => Some (subviews 0 0 (Some s) e (c_sizes c) b)
                | None => None
                end) (combine (seq 0 (length C)) (combine C Us)) with
  | Some c, Some U, Some bufs =>
    match messages me rs e bufs, copy_local c me rs e U with
    | Some msgs, Some wl =>
      if contiguous then Some (write_all (sch (direct_writes 0 e rs msgs ++ wl)) G0)
      else
        if negb (Nat.eqb (length B0) ((nsum rs - n_self c me) * e)) then None else
        let buf := write_all (sch (buffered 0 0 me e rs msgs)) B0 in
        Some (write_all (sch (wl ++ unpack_writes c me rs e buf)) G0)
    | _, _ => None
    end
  | _, _, _ => None
  end.

(** ** reduce_ghosts, l.391-522 *)
Variable add : X -> X -> X.

(** unpack_reduce, l.373-389: one atomic addition per value, in any order. The target
    (octant, value) pairs are given with the value to add. *)
Definition add_all (ws : list (nat * nat * X)) (U : list (list X)) : list (list X) :=
  fold_left (fun U w => let '(o, i, v) := w in upd_nth o (upd_nth i (fun x => add x v)) U) ws U.
Definition reduce_updates (c : comm) (e : nat) (buf : list X) : option (list (nat * nat * X)) :=
  mapM (fun x : nat * X =>
          let index := fst x in
          match nth_error (c_idx c) (Nat.div index e) with
          | Some o => Some (o, Nat.modulo index e, snd x)
          | None => None
          end) (block 0 buf).

(** Rank [me] after reduce_ghosts: [Gs] are the (flat) ghost arrays of all ranks. Packing
    the ghost array with the octant index rightmost gives the same flat list, so both code
    paths send the slices of l.425/449. The receive buffer of l.457-469 is sliced by send
    sizes; the message from rank [r] is the slice of r's ghost array that came from [me]. *)
Definition reduce_rank (sch : list (nat * nat * X) -> list (nat * nat * X))
    (C : list comm) (me : nat) (e : nat) (Gs : list (list X)) (U : list (list X)) : option (list (list X)) :=
  match nth_error C me, nth_error Gs me with
  | Some c, Some G =>
    if negb (Nat.eqb (length G) (nsum (recv_sizes C me) * e)) then None (* l.410 *)
    else if negb (Nat.eqb (n_self c me) 0) then None (* l.411 *)
    else
      let bufs := map (fun x : nat * list X => subviews 0 0 (Some (fst x)) e (recv_sizes C (fst x)) (snd x))
                      (combine (seq 0 (length C)) Gs) in
      match messages me (c_sizes c) e bufs with
      | Some msgs =>
        match reduce_updates c e (concat msgs) with
        | Some us => Some (add_all (sch us) U)
        | None => None
        end
      | None => None
      end
  | _, _ => None
  end.

(** ** private_init_domains, ViewCommunicator.cpp:7-59
    [dom] gives the destination rank of every local item. The sizes are counted by atomic
    increments (any order gives the count); the index list is filled rank by rank by a
    prefix scan. Destinations out of range are out-of-bounds writes. *)
Definition domain_comm (P : nat) (dom : list nat) : option comm :=
  if negb (forallb (fun d => Nat.ltb d P) dom) then None else
  let sizes := map (fun r => length (filter (Nat.eqb r) dom)) (seq 0 P) in
  Some (mkComm sizes
    (flat_map (fun r => if Nat.ltb 0 (nth r sizes 0%nat)
                        then filter (fun i => match nth_error dom i with Some d => Nat.eqb d r | None => false end) (seq 0 (length dom))
                        else []) (seq 0 P))).
End Comm.
Arguments comm : clear implicits.

(** ViewCommunicator(std::map), ViewCommunicator.cpp:86-128, and the views built by
    discover_ghosts and loadBalance: send lists per destination, concatenated. *)
Definition comm_of (lists : list (list nat)) : comm := mkComm (map (@length nat) lists) (concat lists).

(** utils/mpi/MpiComm_single.tpp:19-33, the build without MPI: MPI_Allreduce and
    MPI_Alltoall do std::copy(sendbuf, sendbuf+count-1, recvbuf). With count 0 the end of
    the range lies before its beginning. *)
Definition serial_copy {X} (send recv : list X) (count : nat) : option (list X) :=
  match count with
  | O => None
  | S c => Some (firstn c send ++ skipn c recv)
  end.
(** recv_sizes of a communicator in that build (ViewCommunicator.cpp:54 and 73-76): the
    receive view has just been allocated, hence zero. *)
Definition serial_recv_sizes (c : comm) : option (list nat) := serial_copy (c_sizes c) [O] 1.
