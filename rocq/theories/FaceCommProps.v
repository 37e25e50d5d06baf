(** C22: exchange and reduction of partial ghost blocks. *)
From Verif Require Import Base OctreeSpec OctreeGeom OctreeModel FindNeighbors MarkerProofs MarkerLoop GhostExchange InitProofs RefineModel RefineProps
  CommSpec CommModel CommProofs LookupModel CellModel CellSpec CellProofs FaceMaskModel FaceMaskProps IndexProps.

(** * Vocabulary
    [Ls] gives for every rank, then for every destination, the octants to send with their
    masks. *)
Definition gmap_of (L : list (list (nat * Z))) : gmap :=
  mkGmap (map (@length _) L) (map fst (concat L)) (map snd (concat L)).
Definition entries (Ls : list (list (list (nat * Z)))) (s r : nat) : list (nat * Z) := nth r (nth s Ls []) [].
(** Ghost slot [k] of rank [r] is a copy of octant [o] of rank [s], sent with mask [m], where
    (s, (o, m)) is entry [k] of this list. *)
Definition morigins (Ls : list (list (list (nat * Z)))) (r : nat) : list (nat * (nat * Z)) :=
  flat_map (fun s => map (pair s) (entries Ls s r)) (seq 0 (length Ls)).
(** Place of variable [v] of cell [c] in the data of an octant. *)
Definition value_index (b c : axis -> Z) (v : nat) : nat :=
  Z.to_nat (cell_number b c + b AX * b AY * b AZ * Z.of_nat v).
Definition values_per_octant (b : axis -> Z) (nv : nat) : nat := (Z.to_nat (b AX * b AY * b AZ) * nv)%nat.
(** One list per destination, masks of 6 bits, octants that exist, [n] values per octant. *)
Definition masked_maps_ok {X} (n : nat) (Ls : list (list (list (nat * Z)))) (Us : list (list (list X))) : Prop :=
  length Us = length Ls /\
  forall s L U, nth_error Ls s = Some L -> nth_error Us s = Some U ->
    length L = length Ls /\ (forall row, In row U -> length row = n) /\
    forall l o m, In l L -> In (o, m) l -> (o < length U)%nat /\ 0 <= m < 64.

(** * Generic lemmas *)
Lemma alltoallv_parts {A} (P : list (list (list A))) me :
  alltoallv (map (fun p => (map (@length A) p, concat p)) P) (map (fun p => length (nth me p [])) P) me = Some (concat (map (fun p => nth me p []) P)).
Proof.
  unfold alltoallv.
  replace (combine (map (fun p => length (nth me p [])) P) (map (fun p => (map (@length A) p, concat p)) P))
    with (map (fun p : list (list A) => (length (nth me p []), (map (@length A) p, concat p))) P)
    by (induction P as [|p P IH]; [reflexivity|cbn; rewrite IH; reflexivity]).
  rewrite mapM_map.
  assert (SL : forall p : list (list A), firstn (nth me (map (@length A) p) O) (skipn (first_of (map (@length A) p) me) (concat p)) = nth me p []).
  { clear. unfold first_of. revert me. intros me p. revert me. induction p as [|x p IH]; intros [|me]; cbn [map nth firstn nsum concat]; [reflexivity|reflexivity| |].
    - cbn [skipn]. rewrite firstn_app, Nat.sub_diag, firstn_all. cbn. apply app_nil_r.
    - rewrite skipn_app. rewrite (skipn_all2 x) by lia. cbn [app]. rewrite Nat.add_comm, Nat.add_sub. apply IH. }
  rewrite (mapM_ext _ (fun p => Some (nth me p []))).
  2: { intros p _. rewrite SL, Nat.eqb_refl. reflexivity. }
  assert (E : forall l : list (list (list A)), mapM (fun p => Some (nth me p [])) l = Some (map (fun p => nth me p []) l)).
  { induction l as [|p l IH]; [reflexivity|]. cbn. rewrite IH. reflexivity. }
  rewrite E. reflexivity.
Qed.

Lemma scan_app cnt l1 l2 : forall acc, scan cnt acc (l1 ++ l2) = scan cnt acc l1 ++ scan cnt (acc + nsum (map cnt l1)) l2.
Proof.
  induction l1 as [|m l1 IH]; intros acc; cbn [app scan map nsum]; [rewrite Nat.add_0_r; reflexivity|].
  rewrite IH. cbn. rewrite Nat.add_assoc. reflexivity.
Qed.
Lemma scan_ranks_eq cnt segs : forall pre offset,
  scan_ranks cnt (length pre) offset (map (@length Z) segs) (pre ++ concat segs) =
  (scan cnt offset (concat segs), map (fun seg => nsum (map cnt seg)) segs).
Proof.
  induction segs as [|seg segs IH]; intros pre offset; cbn [map scan_ranks concat]; [reflexivity|].
  rewrite skipn_app, skipn_all, Nat.sub_diag. cbn [skipn app]. rewrite firstn_app, Nat.sub_diag, firstn_all. cbn [firstn]. rewrite app_nil_r.
  specialize (IH (pre ++ seg) (offset + nsum (map cnt seg))%nat). rewrite app_length, <- app_assoc in IH. rewrite IH. rewrite scan_app. reflexivity.
Qed.
Lemma nsum_app l1 l2 : nsum (l1 ++ l2) = (nsum l1 + nsum l2)%nat.
Proof. induction l1; cbn; lia. Qed.
Lemma nsum_segs cnt (segs : list (list Z)) : nsum (map (fun seg => nsum (map cnt seg)) segs) = nsum (map cnt (concat segs)).
Proof. induction segs as [|s segs IH]; [reflexivity|]. cbn [map nsum concat]. rewrite map_app, nsum_app, IH. reflexivity. Qed.

Lemma block_app {X} (l1 l2 : list X) off : block off (l1 ++ l2) = block off l1 ++ block (off + length l1) l2.
Proof. unfold block. rewrite app_length, seq_app. apply combine_app'. apply seq_length. Qed.

Section Fill.
Variable t : list (list Z).
Notation cells m := (row_of_mask t m).
Definition listed (om : nat * Z) : list (nat * Z) := map (pair (fst om)) (cells (snd om)).

Lemma fill_writes_eq oms : forall acc,
  fill_writes t (map fst oms) (map snd oms) (scan (fun m => length (cells m)) acc (map snd oms)) = block acc (flat_map listed oms).
Proof.
  induction oms as [|[o m] oms IH]; intros acc; [reflexivity|]. cbn [map fst snd scan flat_map]. unfold fill_writes in *. cbn [combine flat_map].
  rewrite IH. rewrite block_app. assert (LL : length (listed (o, m)) = length (cells m)) by apply map_length. rewrite LL. reflexivity.
Qed.
Lemma listed_length oms : length (flat_map listed oms) = nsum (map (fun m => length (cells m)) (map snd oms)).
Proof. induction oms as [|[o m] oms IH]; [reflexivity|]. cbn [flat_map map nsum snd]. rewrite app_length, IH. unfold listed. rewrite map_length. reflexivity. Qed.
Lemma fill_eq sch oms counts : reorders sch -> nsum counts = nsum (map (fun m => length (cells m)) (map snd oms)) ->
  fill sch t (map fst oms) (map snd oms) (scan (fun m => length (cells m)) 0 (map snd oms)) counts = Some (flat_map listed oms).
Proof.
  intros HS HC. unfold fill. rewrite fill_writes_eq, HC, <- listed_length.
  assert (FB : forallb (fun w : nat * (nat * Z) => Nat.ltb (fst w) (length (flat_map listed oms))) (block 0 (flat_map listed oms)) = true).
  { apply forallb_forall. intros [p v] H. apply block_In in H. destruct H as (i & -> & Hi). apply Nat.ltb_lt. apply nth_error_Some. cbn. congruence. }
  rewrite FB. f_equal. apply write_all_covers.
  - apply repeat_length.
  - intros p v H. apply (Permutation_in _ (HS _)) in H. apply block_In in H. destruct H as (i & -> & Hi). exact Hi.
  - intros p Hp. destruct (nth_error (flat_map listed oms) p) as [v|] eqn:E; [|apply nth_error_None in E; lia].
    exists v. apply (Permutation_in _ (Permutation_sym (HS _))). apply block_In. exists p. auto.
Qed.
End Fill.

Lemma map_pair_eta {A B} (l : list (A * B)) : combine (map fst l) (map snd l) = l.
Proof. induction l as [|[a b] l IH]; [reflexivity|]. cbn. rewrite IH. reflexivity. Qed.
Lemma map_fst_combine {A B} (l : list A) : forall m : list B, length l = length m -> map fst (combine l m) = l.
Proof. induction l as [|a l IH]; intros [|b m] H; try discriminate; [reflexivity|]. cbn. rewrite IH by (cbn in H; lia). reflexivity. Qed.
Lemma map_snd_combine {A B} (l : list A) : forall m : list B, length l = length m -> map snd (combine l m) = m.
Proof. induction l as [|a l IH]; intros [|b m] H; try discriminate; [reflexivity|]. cbn. rewrite IH by (cbn in H; lia). reflexivity. Qed.
Lemma nth_map_seq {A} (f : nat -> A) n k d : (k < n)%nat -> nth k (map f (seq 0 n)) d = f k.
Proof. intros H. rewrite (nth_indep _ d (f O)) by (rewrite map_length, seq_length; exact H). rewrite map_nth, seq_nth by exact H. reflexivity. Qed.
Lemma list_as_seq {A} (l : list A) d : l = map (fun i => nth i l d) (seq 0 (length l)).
Proof.
  apply nth_error_ext'. intros i. rewrite nth_error_map. destruct (Nat.lt_ge_cases i (length l)) as [H|H].
  - rewrite seq_nth' by exact H. cbn. apply nth_error_nth'. exact H.
  - rewrite (proj2 (nth_error_None l i)) by lia. rewrite (proj2 (nth_error_None (seq 0 (length l)) i)) by (rewrite seq_length; lia). reflexivity.
Qed.

(** * The communicator built by every rank *)
Section Init.
Variable b : axis -> Z.
Variable gc : Z.
Variable t : list (list Z).
Hypothesis Ht : facemask_table b gc = Some t.
Variable Ls : list (list (list (nat * Z))).
Notation P := (length Ls).
Hypothesis HL : forall s, (s < P)%nat -> length (nth s Ls []) = P.
Hypothesis Hm : forall s r o m, (s < P)%nat -> (r < P)%nat -> In (o, m) (entries Ls s r) -> 0 <= m < 64.

(** Entries sent by [s] to [r] as numbered by the receiver. *)
Definition slot_base (s r : nat) : nat := length (flat_map (fun s' => entries Ls s' r) (seq 0 s)).
Definition slots (s r : nat) : list (nat * Z) := combine (seq (slot_base s r) (length (entries Ls s r))) (map snd (entries Ls s r)).
Definition sends (s r : nat) : list (nat * Z) := flat_map (listed t) (entries Ls s r).
Definition recvs (s r : nat) : list (nat * Z) := flat_map (listed t) (slots s r).
Definition pcomm_of (me : nat) : pcomm :=
  mkPcomm (map (fun r => length (sends me r)) (seq 0 P)) (flat_map (sends me) (seq 0 P))
          (map (fun s => length (recvs s me)) (seq 0 P)) (flat_map (fun s => recvs s me) (seq 0 P)).

Lemma slots_all me n : flat_map (fun s => slots s me) (seq 0 n) =
  combine (seq 0 (slot_base n me)) (map snd (flat_map (fun s => entries Ls s me) (seq 0 n))).
Proof.
  induction n as [|n IH]; [reflexivity|]. rewrite seq_S, !flat_map_app, IH. cbn [flat_map]. rewrite !app_nil_r, map_app.
  assert (SB : slot_base (S n) me = (slot_base n me + length (entries Ls n me))%nat).
  { unfold slot_base. rewrite seq_S, flat_map_app, app_length. cbn [flat_map]. rewrite app_nil_r. reflexivity. }
  rewrite SB, seq_app. rewrite combine_app'; [reflexivity|].
  rewrite seq_length, map_length. reflexivity.
Qed.
Lemma send_concat me : (me < P)%nat -> concat (nth me Ls []) = flat_map (entries Ls me) (seq 0 P).
Proof.
  intros H. rewrite flat_map_concat_map. f_equal. rewrite (list_as_seq (nth me Ls []) []) at 1. rewrite HL by exact H. reflexivity.
Qed.
Lemma slots_length s r : length (slots s r) = length (entries Ls s r).
Proof. unfold slots. rewrite combine_length, seq_length, map_length. lia. Qed.
Lemma slots_masks s r : map snd (slots s r) = map snd (entries Ls s r).
Proof. apply map_snd_combine. rewrite seq_length, map_length. reflexivity. Qed.
Lemma recvs_length s r : length (recvs s r) = length (sends s r).
Proof. unfold recvs, sends. rewrite !listed_length, slots_masks. reflexivity. Qed.

Lemma pinit_eq sch me : reorders sch -> (me < P)%nat -> pinit sch b gc (map gmap_of Ls) me = Some (pcomm_of me).
Proof.
  intros HS Hme. unfold pinit. rewrite Ht. rewrite nth_error_map, (nth_error_nth' Ls [] Hme). cbn [option_map gmap_of m_sizes m_iOcts m_masks].
  set (L := nth me Ls []).
  set (rmasks := flat_map (fun s => map snd (entries Ls s me)) (seq 0 P)).
  assert (ERS : map (fun x => nth me (m_sizes x) O) (map gmap_of Ls) = map (fun s => length (entries Ls s me)) (seq 0 P)).
  { rewrite map_map. rewrite (list_as_seq Ls []) at 1. rewrite map_map. apply map_ext. intros s. cbn [gmap_of m_sizes].
    unfold entries. change O with (length (@nil (nat * Z))) at 1. rewrite map_nth. reflexivity. }
  assert (ERM : alltoallv (map (fun x => (m_sizes x, m_masks x)) (map gmap_of Ls)) (map (fun x => nth me (m_sizes x) O) (map gmap_of Ls)) me = Some rmasks).
  { rewrite ERS. pose proof (alltoallv_parts (map (map (map snd)) Ls) me) as Q.
    rewrite !map_map in Q. rewrite !map_map. 
    rewrite (map_ext (fun x => (m_sizes (gmap_of x), m_masks (gmap_of x))) (fun x => (map (@length Z) (map (map snd) x), concat (map (map snd) x)))).
    2: { intros x. cbn [gmap_of m_sizes m_masks]. rewrite concat_map, map_map. f_equal. apply map_ext. intros l. rewrite map_length. reflexivity. }
    etransitivity; [|etransitivity; [exact Q|]].
    - f_equal. rewrite (list_as_seq Ls []) at 2. rewrite map_map. apply map_ext. intros s. unfold entries.
      change (@nil Z) with (map (@snd nat Z) []). rewrite map_nth, map_length. reflexivity.
    - f_equal. unfold rmasks. rewrite flat_map_concat_map. f_equal. rewrite (list_as_seq Ls []) at 1. rewrite map_map. apply map_ext. intros s. unfold entries.
      change (@nil Z) with (map (@snd nat Z) []). rewrite map_nth. reflexivity. }
  rewrite ERM, ERS. clear ERM ERS.
  assert (RC : rmasks = concat (map (fun s => map snd (entries Ls s me)) (seq 0 P))) by (apply flat_map_concat_map).
  assert (SC : map snd (concat L) = concat (map (map snd) L)) by apply concat_map.
  assert (FB : forallb (fun m => (0 <=? m) && (m <? 64)) (map snd (concat L) ++ rmasks) = true).
  { apply forallb_forall. intros m H. apply in_app_or in H. assert (0 <= m < 64); [|lia]. destruct H as [H|H].
    - unfold L in H. rewrite send_concat in H by exact Hme. apply in_map_iff in H. destruct H as ([o m'] & <- & H). apply in_flat_map in H. destruct H as (r & Hr & H).
      apply in_seq in Hr. exact (Hm me r o m' Hme ltac:(lia) H).
    - apply in_flat_map in H. destruct H as (s & Hs & H). apply in_map_iff in H. destruct H as ([o m'] & <- & H). apply in_seq in Hs. exact (Hm s me o m' ltac:(lia) Hme H). }
  rewrite FB. clear FB.
  set (cnt := fun m => length (row_of_mask t m)).
  pose proof (scan_ranks_eq cnt (map (map snd) L) [] 0) as S1. cbn [length app] in S1. rewrite map_map in S1.
  rewrite (map_ext (fun x : list (nat * Z) => length (map snd x)) (@length _)) in S1 by (intros; apply map_length).
  rewrite SC. rewrite S1. clear S1.
  pose proof (scan_ranks_eq cnt (map (fun s => map snd (entries Ls s me)) (seq 0 P)) [] 0) as S2. cbn [length app] in S2. rewrite map_map in S2.
  rewrite (map_ext (fun s => length (map snd (entries Ls s me))) (fun s => length (entries Ls s me))) in S2 by (intros; apply map_length).
  rewrite RC, S2. clear S2.
  rewrite <- SC. unfold cnt. rewrite fill_eq; [|exact HS|].
  2: { rewrite SC. apply nsum_segs. }
  assert (NR : nsum (map (fun s => length (entries Ls s me)) (seq 0 P)) = slot_base P me).
  { unfold slot_base. rewrite flat_map_concat_map, <- nsum_lengths, map_map. reflexivity. }
  rewrite NR. rewrite <- RC.
  assert (RE : rmasks = map snd (flat_map (fun s => entries Ls s me) (seq 0 P))) by (unfold rmasks; rewrite !flat_map_concat_map, concat_map, map_map; reflexivity).
  assert (LE : length (seq 0 (slot_base P me)) = length (map snd (flat_map (fun s => entries Ls s me) (seq 0 P)))) by (rewrite seq_length, map_length; reflexivity).
  pose proof (fill_eq t sch (flat_map (fun s => slots s me) (seq 0 P)) (map (fun seg => nsum (map cnt seg)) (map (fun s => map snd (entries Ls s me)) (seq 0 P))) HS) as FE.
  assert (F1 : map fst (flat_map (fun s => slots s me) (seq 0 P)) = seq 0 (slot_base P me)) by (rewrite slots_all; apply map_fst_combine, LE).
  assert (F2 : map snd (flat_map (fun s => slots s me) (seq 0 P)) = rmasks) by (rewrite slots_all, RE; apply map_snd_combine, LE).
  rewrite F1, F2 in FE. unfold cnt in FE. rewrite FE.
  2: { rewrite RC. apply nsum_segs. }
  f_equal. unfold pcomm_of. f_equal.
  - rewrite map_map. unfold L. rewrite (list_as_seq (nth me Ls []) []) at 1. rewrite HL by exact Hme. rewrite map_map. apply map_ext. intros r.
    unfold sends. rewrite listed_length. reflexivity.
  - unfold L. rewrite send_concat by exact Hme. apply flat_map_flat_map'.
  - rewrite map_map. apply map_ext. intros s. rewrite recvs_length. unfold sends. rewrite listed_length. reflexivity.
  - apply flat_map_flat_map'.
Qed.
End Init.

(** * Transfer of values *)
Section Transfer.
Context {X : Type}.
Variable d : X.
Variable b : axis -> Z.
Variable nv : nat.

Definition posn (l : list (nat * Z)) : list (nat * nat) :=
  flat_map (fun oc => map (fun v => (fst oc, at_ivar b (snd oc) v)) (seq 0 nv)) l.
Definition val (U : list (list X)) (p : nat * nat) : X := nth (snd p) (nth (fst p) U []) d.
Definition readable (U : list (list X)) (p : nat * nat) : Prop := exists row, nth_error U (fst p) = Some row /\ (snd p < length row)%nat.

Lemma val_get U p : readable U p -> get_row U (fst p) (snd p) = Some (val U p).
Proof.
  intros (row & H1 & H2). unfold get_row, val. rewrite H1. rewrite (nth_error_nth U (fst p) [] H1). apply nth_error_nth'. exact H2.
Qed.
Lemma posn_length l : length (posn l) = (length l * nv)%nat.
Proof. unfold posn. induction l as [|x l IH]; [reflexivity|]. cbn [flat_map length]. rewrite app_length, IH, map_length, seq_length. lia. Qed.
Lemma posn_nth l i : (i < length l * nv)%nat ->
  nth_error (posn l) i = match nth_error l (i / nv) with Some oc => Some (fst oc, at_ivar b (snd oc) (i mod nv)) | None => None end.
Proof.
  intros Hi. destruct (divmod_lt _ _ _ Hi) as (H1 & H2 & H3). unfold posn. rewrite flat_map_concat_map. rewrite H3 at 1.
  rewrite (rect_get nv); [|intros row Hr; apply in_map_iff in Hr; destruct Hr as (x & <- & _); rewrite map_length, seq_length; reflexivity|exact H2].
  unfold get_row. rewrite nth_error_map. destruct (nth_error l (i / nv)) as [oc|]; [|reflexivity]. cbn [option_map].
  rewrite nth_error_map, seq_nth' by exact H2. reflexivity.
Qed.
Lemma ppack_eq l U : (forall p, In p (posn l) -> readable U p) -> ppack b nv l U = Some (map (val U) (posn l)).
Proof.
  intros H. unfold ppack. apply mapM_seq; [rewrite map_length; apply posn_length|]. intros i Hi. rewrite nth_error_map.
  pose proof (posn_nth l i Hi) as Q. destruct (nth_error l (i / nv)) as [[o c]|] eqn:E.
  - rewrite Q. cbn [option_map fst snd]. cbn [fst snd] in Q. apply nth_error_In in Q. exact (val_get U _ (H _ Q)).
  - apply nth_error_None in E. destruct (divmod_lt _ _ _ Hi) as (H1 & _). lia.
Qed.
Lemma punpack_eq l (buf : list X) : length buf = (length l * nv)%nat -> punpack b nv l buf = Some (combine (posn l) buf).
Proof.
  intros HB. unfold punpack. apply mapM_seq; [rewrite combine_length, posn_length, HB; apply Nat.min_id|]. intros i Hi.
  pose proof (posn_nth l i Hi) as Q. destruct (nth_error l (i / nv)) as [[o c]|] eqn:E.
  - destruct (nth_error buf i) as [v|] eqn:Ev; [|apply nth_error_None in Ev; lia]. symmetry. apply nth_error_combine. split; [exact Q|exact Ev].
  - apply nth_error_None in E. destruct (divmod_lt _ _ _ Hi) as (H1 & _). lia.
Qed.

Variable P : nat.
Variables S R : nat -> nat -> list (nat * Z).
Hypothesis SR : forall s r, length (R s r) = length (S s r).
Variable Us : list (list (list X)).
Hypothesis HU : length Us = P.
Hypothesis HR : forall s r p, (s < P)%nat -> (r < P)%nat -> In p (posn (S s r)) -> readable (nth s Us []) p.

Lemma flat_posn {A} (f : A -> list (nat * Z)) l : posn (flat_map f l) = flat_map (fun x => posn (f x)) l.
Proof. unfold posn. apply flat_map_flat_map'. Qed.
Lemma map_flat {A B C} (h : B -> C) (f : A -> list B) l : map h (flat_map f l) = flat_map (fun x => map h (f x)) l.
Proof. induction l as [|x l IH]; [reflexivity|]. cbn. rewrite map_app, IH. reflexivity. Qed.

Definition updates (me : nat) : list (nat * nat * X) :=
  flat_map (fun s => combine (posn (R s me)) (map (val (nth s Us [])) (posn (S s me)))) (seq 0 P).

Lemma transfer_eq add sch snd_of rcv_of C me T : (me < P)%nat -> length C = P ->
  (forall s c, nth_error C s = Some c -> snd_of c = (map (fun r => length (S s r)) (seq 0 P), flat_map (S s) (seq 0 P)) /\
                                         rcv_of c = (map (fun r => length (R r s)) (seq 0 P), flat_map (fun r => R r s) (seq 0 P))) ->
  transfer add sch b nv snd_of rcv_of C me Us T = Some (add_all add (sch (updates me)) T).
Proof.
  intros Hme HC HCS. unfold transfer.
  set (parts := map (fun s => map (fun r => map (val (nth s Us [])) (posn (S s r))) (seq 0 P)) (seq 0 P)).
  assert (E1 : mapM (fun x : pcomm * list (list X) => match ppack b nv (snd (snd_of (fst x))) (snd x) with
                | Some buf => Some (scale nv (fst (snd_of (fst x))), buf) | None => None end) (combine C Us) = Some (map (fun p => (map (@length X) p, concat p)) parts)).
  { apply mapM_Some, Forall2_nth. unfold parts. rewrite !map_length, seq_length, combine_length, HC, HU. split; [lia|].
    intros s [c U] y H1 H2. apply nth_error_combine in H1. destruct H1 as [H1 H1'].
    assert (Hs : (s < P)%nat) by (rewrite <- HC; apply nth_error_Some; congruence).
    rewrite map_map, nth_error_map, seq_nth' in H2 by exact Hs. cbn [option_map] in H2. injection H2 as <-.
    destruct (HCS s c H1) as [EQ _]. cbn [fst snd]. rewrite EQ. cbn [fst snd]. rewrite <- (nth_error_nth Us s [] H1').
    rewrite ppack_eq.
    - f_equal. f_equal.
      + unfold scale. rewrite !map_map. apply map_ext. intros r. rewrite map_length, posn_length. reflexivity.
      + rewrite flat_posn, map_flat. apply flat_map_concat_map.
    - intros p Hp. rewrite flat_posn in Hp. apply in_flat_map in Hp. destruct Hp as (r & Hr & Hp). apply in_seq in Hr. apply (HR s r); [exact Hs|lia|exact Hp]. }
  rewrite E1. destruct (nth_error C me) as [c|] eqn:Ec; [|apply nth_error_None in Ec; lia].
  destruct (HCS me c Ec) as [_ ->]. cbn [fst snd].
  assert (EP : forall {B} (f : nat -> B) (h : list (list X) -> B), (forall s, (s < P)%nat -> h (nth s parts []) = f s) -> map h parts = map f (seq 0 P)).
  { intros B f h H. rewrite (list_as_seq parts []) at 1. unfold parts at 2. rewrite map_length, seq_length, map_map. apply map_ext_in. intros s Hs. apply in_seq in Hs. apply H. lia. }
  assert (NP : forall s, (s < P)%nat -> nth me (nth s parts []) [] = map (val (nth s Us [])) (posn (S s me))).
  { intros s Hs. unfold parts. rewrite nth_map_seq by exact Hs. rewrite nth_map_seq by exact Hme. reflexivity. }
  assert (E2 : scale nv (map (fun s => length (R s me)) (seq 0 P)) = map (fun p => length (nth me p [])) parts).
  { symmetry. unfold scale. rewrite map_map. apply EP. intros s Hs. rewrite NP by exact Hs. rewrite map_length, posn_length, SR. reflexivity. }
  rewrite E2, alltoallv_parts.
  rewrite (EP _ (fun s => map (val (nth s Us [])) (posn (S s me)))) by exact NP.
  assert (LEN : forall l, length (concat (map (fun s => map (val (nth s Us [])) (posn (S s me))) l)) = (length (flat_map (fun s => R s me) l) * nv)%nat).
  { induction l as [|s l IH]; [reflexivity|]. cbn [map concat flat_map]. rewrite !app_length, IH, map_length, posn_length, SR. lia. }
  rewrite punpack_eq by apply LEN. f_equal. f_equal. f_equal. unfold updates. rewrite flat_posn.
  clear - SR. generalize (seq 0 P) as l0. intros l0. induction l0 as [|s l IH]; [reflexivity|]. cbn [flat_map map concat]. rewrite combine_app', IH; [reflexivity|].
  rewrite map_length, !posn_length, SR. reflexivity.
Qed.
End Transfer.

(** * The table of cells *)
Definition near_faceb (b : axis -> Z) (gc mask : Z) (c : axis -> Z) : bool :=
  existsb (fun a => (Z.testbit mask (lower_face a) && (c a <? gc)) || (Z.testbit mask (upper_face a) && (b a - gc <=? c a))) [AX; AY; AZ].
Lemma near_faceb_spec b gc mask c : near_faceb b gc mask c = true <-> near_face b gc mask c.
Proof.
  unfold near_faceb, near_face. rewrite existsb_exists. split.
  - intros (a & _ & H). exists a. rewrite orb_true_iff, !andb_true_iff in H. destruct H as [[H1 H2]|[H1 H2]]; [left|right]; (split; [exact H1|lia]).
  - intros (a & H). exists a. split; [destruct a; cbn; auto|]. rewrite orb_true_iff, !andb_true_iff. destruct H as [[H1 H2]|[H1 H2]]; [left|right]; (split; [exact H1|lia]).
Qed.

Lemma value_index_at b c v : in_block b c -> at_ivar b (cell_number b c) v = value_index b c v.
Proof.
  intros H. unfold at_ivar, value_index, cell_number. destruct (encode_div (b AX) (b AY) (c AX) (c AY) (c AZ) (H AX) (H AY)) as (-> & -> & ->). reflexivity.
Qed.
Lemma value_index_inj b c v c' v' : in_block b c -> in_block b c' -> value_index b c v = value_index b c' v' -> cell_number b c = cell_number b c' /\ v = v'.
Proof.
  intros H H' E. pose proof (cell_number_range b c H) as R. pose proof (cell_number_range b c' H') as R'. unfold value_index in E.
  set (N := b AX * b AY * b AZ) in *. assert (0 <= N * Z.of_nat v /\ 0 <= N * Z.of_nat v') by nia.
  assert (E' : cell_number b c + N * Z.of_nat v = cell_number b c' + N * Z.of_nat v') by lia.
  apply mix_inj in E'; [|assumption..]. destruct E' as [E1 E2]. split; [exact E1|lia].
Qed.
Lemma value_index_lt b c v nv : in_block b c -> (v < nv)%nat -> (value_index b c v < Z.to_nat (b AX * b AY * b AZ) * nv)%nat.
Proof.
  intros H Hv. pose proof (cell_number_range b c H) as R. unfold value_index. set (N := b AX * b AY * b AZ) in *.
  assert (NV : N * (Z.of_nat v + 1) <= N * Z.of_nat nv) by (apply Z.mul_le_mono_nonneg_l; lia).
  assert (EN : Z.of_nat (Z.to_nat N * nv) = N * Z.of_nat nv) by (rewrite Nat2Z.inj_mul, Z2Nat.id by lia; reflexivity). assert (0 <= N * Z.of_nat v) by nia. lia.
Qed.

Section Table.
Variable b : axis -> Z.
Variable gc : Z.
Hypothesis SB : small_block b.
Hypothesis G0 : 0 <= gc.
Hypothesis GX : gc <= b AX.
Hypothesis GY : gc <= b AY.

Lemma table_ok : exists t, facemask_table b gc = Some t /\
  forall m, 0 <= m < 64 -> NoDup (row_of_mask t m) /\
    forall i, In i (row_of_mask t m) <-> exists c, in_block b c /\ near_face b gc m c /\ i = cell_number b c.
Proof.
  assert (G31 : gc < 2^31) by (destruct SB as (H & _); specialize (H AX); lia).
  pose proof (fun m => C22_cells b SB gc m G0 GX GY G31) as CC.
  destruct (mapM_total (mask_cells b gc) (zrange 1 64)) as [t' Et]; [intros m _; destruct (CC m) as (l & E & _); eauto|].
  exists ([] :: t'). unfold facemask_table. rewrite Et. split; [replace (gc <=? b AX) with true by lia; reflexivity|].
  intros m Hm. destruct (Z.eq_dec m 0) as [->|N].
  - cbn. split; [constructor|]. intros i. split; [intros []|]. intros (c & _ & (a & H) & _). rewrite !Z.testbit_0_l in H. destruct H as [[H _]|[H _]]; discriminate.
  - destruct (CC m) as (l & E & ND & HI). assert (ER : row_of_mask ([] :: t') m = l); [|rewrite ER; auto].
    unfold row_of_mask. replace (Z.to_nat m) with (S (Z.to_nat (m - 1))) by lia. cbn [nth].
    apply mapM_Some, Forall2_nth in Et. destruct Et as [EL EN].
    assert (Hz : nth_error (zrange 1 64) (Z.to_nat (m - 1)) = Some m).
    { unfold zrange. rewrite nth_error_map, seq_nth' by lia. cbn [option_map]. f_equal. lia. }
    destruct (nth_error t' (Z.to_nat (m - 1))) as [l'|] eqn:El.
    + rewrite (nth_error_nth t' _ [] El). specialize (EN _ _ _ Hz El). cbn beta in EN. congruence.
    + apply nth_error_None in El. rewrite <- EL in El. apply nth_error_None in El. congruence.
Qed.
End Table.

(** * Structure of the updates *)
Section Structure.
Context {X : Type}.
Variable d : X.
Variable b : axis -> Z.
Variable nv : nat.
Variable t : list (list Z).
Variable Ls : list (list (list (nat * Z))).
Notation P := (length Ls).

(** Entries sent by [s] to [r] with their slot numbers. *)
Definition numbered_entries (s r : nat) : list (nat * (nat * Z)) := combine (seq (slot_base Ls s r) (length (entries Ls s r))) (entries Ls s r).
Lemma slots_numbered s r : slots Ls s r = map (fun e => (fst e, snd (snd e))) (numbered_entries s r).
Proof.
  unfold slots, numbered_entries. generalize (slot_base Ls s r). induction (entries Ls s r) as [|e l IH]; intros n; [reflexivity|]. cbn. rewrite IH. reflexivity.
Qed.
Lemma entries_numbered s r : entries Ls s r = map snd (numbered_entries s r).
Proof. unfold numbered_entries. rewrite map_snd_combine; [reflexivity|apply seq_length]. Qed.

Definition upd_of (to from : nat * (nat * Z) -> nat) (U : list (list X)) (e : nat * (nat * Z)) : list (nat * nat * X) :=
  flat_map (fun c => map (fun v => (to e, at_ivar b c v, val d U (from e, at_ivar b c v))) (seq 0 nv)) (row_of_mask t (snd (snd e))).
Lemma zip_updates (to from : nat * (nat * Z) -> nat) U es :
  combine (posn b nv (flat_map (listed t) (map (fun e => (to e, snd (snd e))) es))) (map (val d U) (posn b nv (flat_map (listed t) (map (fun e => (from e, snd (snd e))) es)))) =
  flat_map (upd_of to from U) es.
Proof.
  induction es as [|e es IH]; [reflexivity|]. cbn [map flat_map]. unfold posn in *. rewrite !flat_map_app, map_app. rewrite combine_app', IH.
  - f_equal. unfold upd_of, listed. cbn [fst snd]. clear IH. induction (row_of_mask t (snd (snd e))) as [|c l IH]; [reflexivity|]. cbn [map flat_map fst snd].
    rewrite map_app, combine_app', IH; [|rewrite !map_length; reflexivity]. f_equal. rewrite map_map. clear. induction (seq 0 nv) as [|v l IH]; [reflexivity|]. cbn. rewrite IH. reflexivity.
  - rewrite map_length. unfold listed. cbn [fst snd]. clear. induction (row_of_mask t (snd (snd e))) as [|c l IH]; [reflexivity|]. cbn [map flat_map]. rewrite !app_length, IH, !map_length. reflexivity.
Qed.
Lemma morigins_numbered r : combine (seq 0 (length (morigins Ls r))) (morigins Ls r) =
  flat_map (fun s => map (fun e => (fst e, (s, snd e))) (numbered_entries s r)) (seq 0 P).
Proof.
  unfold morigins. generalize P as n. induction n as [|n IH]; [reflexivity|]. rewrite seq_S, !flat_map_app, app_length, seq_app, combine_app', IH by apply seq_length.
  f_equal. cbn [flat_map plus]. rewrite !app_nil_r. unfold numbered_entries.
  assert (E : length (flat_map (fun s => map (pair s) (entries Ls s r)) (seq 0 n)) = slot_base Ls n r).
  { unfold slot_base. clear. induction (seq 0 n) as [|s l IH]; [reflexivity|]. cbn. rewrite !app_length, IH, map_length. reflexivity. }
  rewrite E, map_length. generalize (slot_base Ls n r). clear. induction (entries Ls n r) as [|e l IH]; intros k; [reflexivity|]. cbn. rewrite IH. reflexivity.
Qed.

Lemma exchange_updates Us r : updates d b nv P (sends t Ls) (recvs t Ls) Us r =
  flat_map (fun x => upd_of fst (fun e => fst (snd e)) (nth (fst (snd x)) Us []) (fst x, snd (snd x))) (combine (seq 0 (length (morigins Ls r))) (morigins Ls r)).
Proof.
  rewrite morigins_numbered, flat_map_flat_map'. unfold updates. apply flat_map_ext. intros s. rewrite flat_map_map'. cbn [fst snd].
  unfold sends, recvs. rewrite slots_numbered. rewrite (entries_numbered s r).
  rewrite (map_ext snd (fun e : nat * (nat * Z) => (fst (snd e), snd (snd e)))) by (intros [? [? ?]]; reflexivity).
  rewrite zip_updates. apply flat_map_ext. intros [k e]. reflexivity.
Qed.
Lemma reduce_updates_masked Gs me : updates d b nv P (fun s r => recvs t Ls r s) (fun s r => sends t Ls r s) Gs me =
  flat_map (fun q => flat_map (upd_of (fun e => fst (snd e)) fst (nth q Gs [])) (numbered_entries me q)) (seq 0 P).
Proof.
  unfold updates. apply flat_map_ext. intros q. unfold sends, recvs. rewrite slots_numbered. rewrite (entries_numbered me q).
  rewrite (map_ext snd (fun e : nat * (nat * Z) => (fst (snd e), snd (snd e)))) by (intros [? [? ?]]; reflexivity). apply zip_updates.
Qed.
End Structure.

Lemma hits_In {X} o i (ws : list (nat * nat * X)) x : In x (hits o i ws) <-> In (o, i, x) ws.
Proof.
  unfold hits. rewrite in_flat_map. split.
  - intros ([[o' i'] v] & H1 & H2). destruct (Nat.eqb_spec o' o) as [->|]; [|destruct H2]. destruct (Nat.eqb_spec i' i) as [->|]; [|destruct H2].
    destruct H2 as [->|[]]. exact H1.
  - intros H. exists (o, i, x). split; [exact H|]. rewrite !Nat.eqb_refl. left. reflexivity.
Qed.
Lemma fold_last {X} (l : list X) : forall x z, (forall y, In y l -> y = z) -> fold_left (fun _ v => v) l x = match l with [] => x | _ => z end.
Proof.
  induction l as [|y l IH]; intros x z H; [reflexivity|]. cbn [fold_left]. rewrite (IH y z) by (intros; apply H; right; assumption).
  destruct l; [apply H; left; reflexivity|reflexivity].
Qed.
Lemma hits_perm {X} o i (ws ws' : list (nat * nat * X)) : Permutation ws ws' -> Permutation (hits o i ws) (hits o i ws').
Proof. intros H. unfold hits. induction H; cbn [flat_map]; [constructor|apply Permutation_app_head; assumption| |etransitivity; eassumption]. rewrite !app_assoc. apply Permutation_app_tail, Permutation_app_comm. Qed.

(** * C22 *)
Section C22.
Context {X : Type}.
Variable d : X.
Variables (b : axis -> Z) (gc : Z) (nv : nat) (Ls : list (list (list (nat * Z)))).
Hypothesis SB : small_block b.
Hypothesis G0 : 0 <= gc.
Hypothesis GX : gc <= b AX.
Hypothesis GY : gc <= b AY.
Notation P := (length Ls).
Notation nval := (values_per_octant b nv).

Lemma entries_In s r e : In e (entries Ls s r) -> exists L l, nth_error Ls s = Some L /\ nth_error L r = Some l /\ In e l.
Proof.
  unfold entries. intros H. destruct (nth_error Ls s) as [L|] eqn:E.
  - rewrite (nth_error_nth Ls s [] E) in H. exists L. destruct (nth_error L r) as [l|] eqn:E'.
    + rewrite (nth_error_nth L r [] E') in H. eauto.
    + rewrite nth_overflow in H by (apply nth_error_None; exact E'). destruct H.
  - rewrite (nth_overflow Ls) in H by (apply nth_error_None; exact E). destruct r; destruct H.
Qed.

Lemma morigins_at r k s o m : nth_error (morigins Ls r) k = Some (s, (o, m)) -> (s < P)%nat /\ In (o, m) (entries Ls s r).
Proof.
  intros H. apply nth_error_In in H. unfold morigins in H. apply in_flat_map in H. destruct H as (s' & Hs & H). apply in_map_iff in H. destruct H as (e & E & H).
  injection E as -> ->. apply in_seq in Hs. split; [lia|exact H].
Qed.

Lemma pinit_all sch t (Us : list (list (list X))) : facemask_table b gc = Some t -> masked_maps_ok nval Ls Us -> reorders sch ->
  mapM (pinit sch b gc (map gmap_of Ls)) (seq 0 P) = Some (map (pcomm_of t Ls) (seq 0 P)).
Proof.
  intros Et (HL & HM) HS. apply mapM_Some, Forall2_nth. rewrite map_length. split; [reflexivity|]. intros i x y H1 H2. rewrite nth_error_map, H1 in H2. injection H2 as <-.
  apply nth_error_In, in_seq in H1. apply pinit_eq; [exact Et| | |exact HS|lia].
  - intros s Hs. destruct (nth_error Us s) as [U|] eqn:EU; [|apply nth_error_None in EU; lia].
    exact (proj1 (HM s _ U (nth_error_nth' Ls [] Hs) EU)).
  - intros s r o m Hs Hr HI. apply entries_In in HI. destruct HI as (L & l & H3 & H4 & H5).
    destruct (nth_error Us s) as [U|] eqn:EU; [|apply nth_error_None in EU; lia].
    destruct (HM s L U H3 EU) as (_ & _ & Q). apply (Q l o m (nth_error_In _ _ H4) H5).
Qed.

(** After exchange_ghosts, the cells of a ghost block near the faces of its mask hold the
    values of the owner and the others are unchanged, whatever the order of the kernel
    iterations. In particular sender and receiver agree on the number and order of cells. *)
Theorem C22_exchange (Us : list (list (list X))) schI sch r (G : list (list X)) : masked_maps_ok nval Ls Us -> (r < P)%nat ->
  reorders schI -> reorders sch ->
  length G = length (morigins Ls r) -> (forall row, In row G -> length row = nval) ->
  exists C G', mapM (pinit schI b gc (map gmap_of Ls)) (seq 0 P) = Some C /\
    pexchange sch b nv C r Us G = Some G' /\ length G' = length G /\
    forall k s o m c v, nth_error (morigins Ls r) k = Some (s, (o, m)) -> in_block b c -> (v < nv)%nat ->
      exists x, get_row G' k (value_index b c v) = Some x /\
        (near_face b gc m c -> get_row (nth s Us []) o (value_index b c v) = Some x) /\
        (~ near_face b gc m c -> get_row G k (value_index b c v) = Some x).
Proof.
  intros OK Hr HI HS HG HGr. destruct (table_ok b gc SB G0 GX GY) as (t & Et & TB).
  pose proof OK as (HL & HM).
  exists (map (pcomm_of t Ls) (seq 0 P)).
  assert (ENT : forall s q o m, (s < P)%nat -> In (o, m) (entries Ls s q) -> 0 <= m < 64 /\ exists row, nth_error (nth s Us []) o = Some row /\ length row = nval).
  { intros s q o m Hs H. apply entries_In in H. destruct H as (L & l & H1 & H2 & H3).
    destruct (nth_error Us s) as [U|] eqn:EU; [|apply nth_error_None in EU; lia]. destruct (HM s L U H1 EU) as (_ & HR & HO).
    destruct (HO l o m (nth_error_In _ _ H2) H3) as [O1 O2]. split; [exact O2|]. rewrite (nth_error_nth Us s [] EU).
    destruct (nth_error U o) as [row|] eqn:Eo; [|apply nth_error_None in Eo; lia]. exists row. split; [reflexivity|]. apply HR, (nth_error_In _ _ Eo). }
  assert (READ : forall s q p, (s < P)%nat -> (q < P)%nat -> In p (posn b nv (sends t Ls s q)) -> readable (nth s Us []) p).
  { intros s q p Hs Hq Hp. unfold posn in Hp. apply in_flat_map in Hp. destruct Hp as ([o i] & Hp & Hv). apply in_map_iff in Hv. destruct Hv as (v & <- & Hv). apply in_seq in Hv.
    unfold sends in Hp. apply in_flat_map in Hp. destruct Hp as ([o' m] & Hom & Hp). unfold listed in Hp. apply in_map_iff in Hp. destruct Hp as (i' & E & Hi). cbn [fst snd] in E, Hi.
    injection E as -> ->. destruct (ENT s q o m Hs Hom) as (Hm & row & R1 & R2). exists row. cbn [fst snd]. split; [exact R1|]. rewrite R2.
    apply (TB m Hm) in Hi. destruct Hi as (c & C1 & _ & ->). rewrite value_index_at by exact C1. apply value_index_lt; [exact C1|lia]. }
  exists (add_all (fun _ v => v) (sch (updates d b nv P (sends t Ls) (recvs t Ls) Us r)) G).
  split; [eapply pinit_all; eassumption|]. split.
  { unfold pexchange. apply (transfer_eq d b nv P (sends t Ls) (recvs t Ls)).
    - intros. apply recvs_length.
    - exact HL.
    - exact READ.
    - exact Hr.
    - rewrite map_length, seq_length. reflexivity.
    - intros s c Hc. rewrite nth_error_map in Hc. destruct (nth_error (seq 0 P) s) as [s'|] eqn:Es; [|discriminate]. injection Hc as <-.
      assert (s' = s). { assert (s < P)%nat by (rewrite <- (seq_length P 0); apply nth_error_Some; congruence). rewrite seq_nth' in Es by assumption. congruence. }
      subst s'. split; reflexivity. }
  split; [apply add_all_length|].
  intros k s o m c v Hk IB Hv. destruct (morigins_at r k s o m Hk) as [Hs Hom]. destruct (ENT s r o m Hs Hom) as (Hm & row & R1 & R2).
  pose proof (value_index_lt b c v nv IB Hv) as VI.
  set (i := value_index b c v) in *.
  assert (UIN : forall x, In (k, i, x) (updates d b nv P (sends t Ls) (recvs t Ls) Us r) <-> near_face b gc m c /\ x = val d (nth s Us []) (o, i)).
  { intros x. rewrite exchange_updates. rewrite in_flat_map. split.
    - intros ([k' [s' [o' m']]] & H1 & H2). apply In_nth_error in H1. destruct H1 as [j H1]. apply nth_error_combine in H1. destruct H1 as [H1 H1'].
      assert (Hj : (j < length (morigins Ls r))%nat) by (apply nth_error_Some; congruence). rewrite seq_nth' in H1 by exact Hj. injection H1 as <-.
      unfold upd_of in H2. cbn [fst snd] in H2. apply in_flat_map in H2. destruct H2 as (ic & H2 & H3). apply in_map_iff in H3. destruct H3 as (v' & E & Hv'). injection E as E1 E2 E3.
      subst j. rewrite Hk in H1'. injection H1' as <- <- <-. apply (TB m Hm) in H2. destruct H2 as (c' & C1 & C2 & ->). rewrite value_index_at in E2 by exact C1.
      destruct (value_index_inj b c' v' c v C1 IB E2) as [Q1 Q2]. pose proof (cell_number_inj b c' c C1 IB Q1) as Q3. split.
      + destruct C2 as (a & C2). exists a. rewrite <- Q3. exact C2.
      + rewrite <- E3, value_index_at, E2 by exact C1. reflexivity.
    - intros (NF & ->). exists (k, (s, (o, m))). split.
      + apply nth_error_In with (n := k). apply nth_error_combine. split; [apply seq_nth', nth_error_Some; congruence|exact Hk].
      + unfold upd_of. cbn [fst snd]. apply in_flat_map. exists (cell_number b c). split; [apply (TB m Hm); eauto|]. apply in_map_iff. exists v.
        rewrite value_index_at by exact IB. split; [reflexivity|]. apply in_seq. lia. }
  rewrite add_all_get.
  assert (HK : (k < length G)%nat) by (rewrite HG; apply nth_error_Some; congruence).
  destruct (nth_error G k) as [grow|] eqn:Egk; [|apply nth_error_None in Egk; lia].
  assert (HGI : exists g0, get_row G k i = Some g0).
  { unfold get_row. rewrite Egk. pose proof (HGr grow (nth_error_In _ _ Egk)) as LG. unfold values_per_octant in LG. destruct (nth_error grow i) as [g0|] eqn:E; [eauto|]. apply nth_error_None in E. lia. }
  destruct HGI as [g0 HGI]. rewrite HGI. cbn [option_map]. eexists. split; [reflexivity|].
  rewrite (fold_last _ _ (val d (nth s Us []) (o, i))).
  2: { intros y Hy. apply hits_In in Hy. apply (Permutation_in _ (HS _)) in Hy. apply UIN in Hy. apply Hy. }
  destruct (hits k i (sch (updates d b nv P (sends t Ls) (recvs t Ls) Us r))) as [|y l] eqn:EH.
  - split; [|reflexivity]. intros NF. exfalso.
    assert (In (val d (nth s Us []) (o, i)) []) as []. rewrite <- EH. apply hits_In. apply (Permutation_in _ (Permutation_sym (HS _))). apply UIN. auto.
  - assert (NF : near_face b gc m c). { assert (Hy : In y (y :: l)) by (left; reflexivity). rewrite <- EH in Hy. apply hits_In in Hy. apply (Permutation_in _ (HS _)) in Hy. apply UIN in Hy. apply Hy. }
    split; [|tauto]. intros _. change o with (fst (o, i)) at 1. apply (val_get d). exists row. cbn [fst snd]. split; [exact R1|]. rewrite R2. exact VI.
Qed.

(** Values held by the ghost slots of all ranks for variable [v] of cell [c] of octant [o] of
    rank [me], where that cell was exchanged. *)
Definition masked_copies (Gs : list (list (list X))) (me o : nat) (c : axis -> Z) (v : nat) : list X :=
  flat_map (fun q => flat_map (fun x : nat * (nat * (nat * Z)) =>
      let '(k, (s, (o', m))) := x in
      if (Nat.eqb s me && Nat.eqb o' o && near_faceb b gc m c)%bool then [nth (value_index b c v) (nth k (nth q Gs []) []) d] else [])
    (combine (seq 0 (length (morigins Ls q))) (morigins Ls q))) (seq 0 P).

Variable add : X -> X -> X.
Hypothesis addC : forall x y, add x y = add y x.
Hypothesis addA : forall x y z, add x (add y z) = add (add x y) z.
Hypothesis add0 : forall x, add x d = x.

Lemma flat_map_one {A B} (f : A -> list B) l a : NoDup l -> In a l -> (forall x, In x l -> x <> a -> f x = []) -> flat_map f l = f a.
Proof.
  induction 1 as [|x l NI ND IH]; intros HI Hf; [destruct HI|]. cbn [flat_map]. destruct HI as [->|HI].
  - rewrite flat_map_nil; [apply app_nil_r|]. intros y Hy. apply Hf; [right; exact Hy|]. intros ->. exact (NI Hy).
  - rewrite Hf; [|left; reflexivity|intros ->; exact (NI HI)]. apply IH; [exact HI|]. intros y Hy. apply Hf. right. exact Hy.
Qed.
Lemma hits_flat_map {A} o i (f : A -> list (nat * nat * X)) l : hits o i (flat_map f l) = flat_map (fun x => hits o i (f x)) l.
Proof. unfold hits. apply flat_map_flat_map'. Qed.

(** After reduce_ghosts every owner value is increased by the values of all its exchanged
    ghost copies, each counted once. *)
Theorem C22_reduce (Us Gs : list (list (list X))) schI sch me : masked_maps_ok nval Ls Us -> (me < P)%nat ->
  reorders schI -> reorders sch -> length Gs = P ->
  (forall q G, nth_error Gs q = Some G -> length G = length (morigins Ls q) /\ forall row, In row G -> length row = nval) ->
  exists C U', mapM (pinit schI b gc (map gmap_of Ls)) (seq 0 P) = Some C /\
    preduce add sch b nv C me Gs (nth me Us []) = Some U' /\ length U' = length (nth me Us []) /\
    forall o c v, in_block b c -> (v < nv)%nat ->
      get_row U' o (value_index b c v) =
      option_map (fun x => add x (sum add d (masked_copies Gs me o c v))) (get_row (nth me Us []) o (value_index b c v)).
Proof.
  intros OK Hme HI HS HG HGr. destruct (table_ok b gc SB G0 GX GY) as (t & Et & TB).
  pose proof OK as (HL & HM).
  exists (map (pcomm_of t Ls) (seq 0 P)).
  assert (ENT : forall s q o m, (s < P)%nat -> In (o, m) (entries Ls s q) -> 0 <= m < 64).
  { intros s q o m Hs H. apply entries_In in H. destruct H as (L & l & H1 & H2 & H3).
    destruct (nth_error Us s) as [U|] eqn:EU; [|apply nth_error_None in EU; lia]. destruct (HM s L U H1 EU) as (_ & HR & HO).
    destruct (HO l o m (nth_error_In _ _ H2) H3) as [O1 O2]. exact O2. }
  assert (NUM : forall s q k o m, (s < P)%nat -> (q < P)%nat -> In (k, (o, m)) (numbered_entries Ls s q) -> In (o, m) (entries Ls s q) /\ nth_error (morigins Ls q) k = Some (s, (o, m))).
  { intros s q k o m Hs Hq H. split; [unfold numbered_entries in H; apply in_combine_r in H; exact H|].
    assert (H' : In (k, (s, (o, m))) (combine (seq 0 (length (morigins Ls q))) (morigins Ls q))).
    { rewrite morigins_numbered. apply in_flat_map. exists s. split; [apply in_seq; lia|]. apply in_map_iff. exists (k, (o, m)). auto. }
    apply In_nth_error in H'. destruct H' as [j H']. apply nth_error_combine in H'. destruct H' as [H1 H2].
    rewrite seq_nth' in H1 by (apply nth_error_Some; congruence). injection H1 as <-. exact H2. }
  assert (READ : forall q s p, (q < P)%nat -> (s < P)%nat -> In p (posn b nv (recvs t Ls s q)) -> readable (nth q Gs []) p).
  { intros q s p Hq Hs Hp. unfold posn in Hp. apply in_flat_map in Hp. destruct Hp as ([k i] & Hp & Hv). apply in_map_iff in Hv. destruct Hv as (v & <- & Hv). apply in_seq in Hv.
    unfold recvs in Hp. rewrite slots_numbered in Hp. apply in_flat_map in Hp. destruct Hp as ([k' m] & Hom & Hp). unfold listed in Hp. apply in_map_iff in Hp. destruct Hp as (i' & E & Hi). cbn [fst snd] in E, Hi.
    injection E as -> ->. apply in_map_iff in Hom. destruct Hom as ([k2 [o m2]] & E & Hom). cbn [fst snd] in E. injection E as -> ->.
    destruct (NUM s q k o m Hs Hq Hom) as [N1 N2]. pose proof (ENT s q o m Hs N1) as Hm.
    destruct (nth_error Gs q) as [G|] eqn:EG; [|apply nth_error_None in EG; lia]. destruct (HGr q G EG) as [LG RG].
    assert (HK : (k < length G)%nat) by (rewrite LG; apply nth_error_Some; congruence).
    destruct (nth_error G k) as [row|] eqn:Ek; [|apply nth_error_None in Ek; lia].
    exists row. cbn [fst snd]. rewrite (nth_error_nth Gs q [] EG). split; [exact Ek|]. rewrite (RG row (nth_error_In _ _ Ek)).
    apply (TB m Hm) in Hi. destruct Hi as (c & C1 & _ & ->). rewrite value_index_at by exact C1. apply value_index_lt; [exact C1|lia]. }
  exists (add_all add (sch (updates d b nv P (fun s r => recvs t Ls r s) (fun s r => sends t Ls r s) Gs me)) (nth me Us [])).
  split; [eapply pinit_all; eassumption|]. split.
  { unfold preduce. apply (transfer_eq d b nv P (fun s r => recvs t Ls r s) (fun s r => sends t Ls r s)).
    - intros. symmetry. apply recvs_length.
    - exact HG.
    - exact READ.
    - exact Hme.
    - rewrite map_length, seq_length. reflexivity.
    - intros s c Hc. rewrite nth_error_map in Hc. destruct (nth_error (seq 0 P) s) as [s'|] eqn:Es; [|discriminate]. injection Hc as <-.
      assert (s' = s). { assert (s < P)%nat by (rewrite <- (seq_length P 0); apply nth_error_Some; congruence). rewrite seq_nth' in Es by assumption. congruence. }
      subst s'. split; reflexivity. }
  split; [apply add_all_length|].
  intros o c v IB Hv. rewrite add_all_get. destruct (get_row (nth me Us []) o (value_index b c v)) as [x|]; [|reflexivity]. cbn [option_map]. f_equal.
  rewrite (fold_left_sum add d addA add0). f_equal.
  rewrite (sum_perm add d addC addA _ _ (hits_perm o (value_index b c v) _ _ (HS _))). f_equal.
  rewrite reduce_updates_masked, hits_flat_map. unfold masked_copies. apply flat_map_ext_in'. intros q Hq. apply in_seq in Hq.
  rewrite hits_flat_map, morigins_numbered, flat_map_flat_map'.
  rewrite (flat_map_one _ (seq 0 P) me).
  - rewrite flat_map_map'. apply flat_map_ext_in'. intros [k [o' m]] He. cbn [fst snd]. rewrite Nat.eqb_refl. cbn [andb].
    destruct (NUM me q k o' m Hme ltac:(lia) He) as [N1 N2]. pose proof (ENT me q o' m Hme N1) as Hm.
    unfold upd_of. cbn [fst snd]. rewrite hits_flat_map.
    assert (ONE : forall ic, In ic (row_of_mask t m) ->
       hits o (value_index b c v) (map (fun v0 => (o', at_ivar b ic v0, val d (nth q Gs []) (k, at_ivar b ic v0))) (seq 0 nv)) =
       if (Nat.eqb o' o && (ic =? cell_number b c))%bool then [nth (value_index b c v) (nth k (nth q Gs []) []) d] else []).
    { intros ic Hic. apply (TB m Hm) in Hic. destruct Hic as (c' & C1 & _ & ->). unfold hits. rewrite flat_map_map'.
      destruct (Nat.eqb_spec o' o) as [->|NE]; cbn [andb]; [|apply flat_map_nil; reflexivity].
      destruct (Z.eqb_spec (cell_number b c') (cell_number b c)) as [EC|NE].
      - rewrite (flat_map_one _ (seq 0 nv) v).
        + rewrite EC, value_index_at, Nat.eqb_refl by exact IB. reflexivity.
        + apply seq_NoDup.
        + apply in_seq. lia.
        + intros v' _ NV. rewrite EC, value_index_at by exact IB. destruct (Nat.eqb_spec (value_index b c v') (value_index b c v)) as [E|]; [|reflexivity].
          apply value_index_inj in E; [|exact IB..]. destruct E. contradiction.
      - apply flat_map_nil. intros v' _. rewrite value_index_at by exact C1. destruct (Nat.eqb_spec (value_index b c' v') (value_index b c v)) as [E|]; [|reflexivity].
        apply value_index_inj in E; [|assumption..]. destruct E. contradiction. }
    rewrite (flat_map_ext_in' _ _ _ ONE).
    destruct (Nat.eqb o' o); cbn [andb]; [|apply flat_map_nil; reflexivity].
    destruct (near_faceb b gc m c) eqn:NF.
    + apply near_faceb_spec in NF. rewrite (flat_map_one _ (row_of_mask t m) (cell_number b c)).
      * rewrite Z.eqb_refl. reflexivity.
      * apply (TB m Hm).
      * apply (TB m Hm). eauto.
      * intros ic _ NE. destruct (Z.eqb_spec ic (cell_number b c)); [contradiction|reflexivity].
    + apply flat_map_nil. intros ic Hic. destruct (Z.eqb_spec ic (cell_number b c)) as [E|]; [|reflexivity]. exfalso.
      apply (TB m Hm) in Hic. destruct Hic as (c' & C1 & C2 & ->). pose proof (cell_number_inj b c' c C1 IB E) as Q.
      assert (near_face b gc m c) by (destruct C2 as (a & C2); exists a; rewrite <- Q; exact C2). apply near_faceb_spec in H. congruence.
  - apply seq_NoDup.
  - apply in_seq. lia.
  - intros s _ NE. rewrite flat_map_map'. apply flat_map_nil. intros [k [o' m]] _. cbn [fst snd]. destruct (Nat.eqb_spec s me); [contradiction|reflexivity].
Qed.
End C22.
