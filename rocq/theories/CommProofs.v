(** Proofs about the flat buffers of ViewCommunicator. *)
From Verif Require Import Base OctreeSpec OctreeModel FindNeighbors MarkerLoop GhostExchange BalanceLists BalanceProofs
  RefineModel RefineProps CommSpec CommModel.

(** * Rows of equal length *)
Section Rows.
Context {X : Type}.
Implicit Types rows : list (list X).

Definition rect (e : nat) rows : Prop := forall row, In row rows -> length row = e.
Lemma rect_cons e r rows : rect e (r :: rows) <-> length r = e /\ rect e rows.
Proof.
  unfold rect. split.
  - intros H. split; [apply H; left; reflexivity|intros; apply H; right; auto].
  - intros [H1 H2] row [<-|H]; auto.
Qed.
Lemma rect_length e rows : rect e rows -> length (concat rows) = (length rows * e)%nat.
Proof.
  induction rows as [|r rows IH]; intros H; [reflexivity|]. apply rect_cons in H. destruct H as [H1 H2].
  cbn [concat length]. rewrite app_length, IH by exact H2. lia.
Qed.
Lemma rect_get e rows k i : rect e rows -> (i < e)%nat -> nth_error (concat rows) (k * e + i) = get_row rows k i.
Proof.
  revert k. induction rows as [|r rows IH]; intros k H Hi.
  - unfold get_row. destruct k; cbn [concat nth_error]; [destruct i|destruct (S k * e + i)%nat]; reflexivity.
  - apply rect_cons in H. destruct H as [H1 H2]. destruct k as [|k]; cbn [concat].
    + cbn [Nat.mul Nat.add]. rewrite nth_error_app1 by lia. reflexivity.
    + rewrite nth_error_app2 by lia. replace (S k * e + i - length r)%nat with (k * e + i)%nat by lia. rewrite IH by auto. reflexivity.
Qed.
Lemma get_row_some e rows k i v : rect e rows -> get_row rows k i = Some v -> (k < length rows)%nat /\ (i < e)%nat.
Proof.
  unfold get_row. intros H E. destruct (nth_error rows k) as [row|] eqn:Ek; [|discriminate]. split.
  - apply nth_error_Some. congruence.
  - rewrite <- (H row (nth_error_In _ _ Ek)). apply nth_error_Some. congruence.
Qed.
Lemma get_row_ok e rows k i : rect e rows -> (k < length rows)%nat -> (i < e)%nat -> exists v, get_row rows k i = Some v.
Proof.
  unfold get_row. intros H Hk Hi. destruct (nth_error rows k) as [row|] eqn:Ek; [|apply nth_error_None in Ek; lia].
  destruct (nth_error row i) as [v|] eqn:Ei; [eauto|]. apply nth_error_None in Ei. rewrite (H row (nth_error_In _ _ Ek)) in Ei. lia.
Qed.

Lemma mapM_seq {Y} (f : nat -> option Y) n (l : list Y) : length l = n -> (forall i, (i < n)%nat -> f i = nth_error l i) ->
  mapM f (seq 0 n) = Some l.
Proof.
  intros HL H. apply mapM_Some, Forall2_nth. rewrite seq_length. split; [auto|]. intros i x y Hx Hy.
  assert (Hi : (i < n)%nat) by (rewrite <- HL; apply nth_error_Some; congruence).
  rewrite (nth_error_nth' _ O) in Hx by (rewrite seq_length; exact Hi). rewrite seq_nth in Hx by exact Hi. injection Hx as <-.
  cbn. rewrite H by exact Hi. exact Hy.
Qed.
Lemma divmod_lt n e index : (index < n * e)%nat -> (index / e < n)%nat /\ (index mod e < e)%nat /\ index = (index / e * e + index mod e)%nat.
Proof.
  intros H. assert (e <> O) by (intros ->; lia). split; [apply Nat.div_lt_upper_bound; lia|]. split; [apply Nat.mod_upper_bound; auto|].
  rewrite Nat.mul_comm. apply Nat.div_mod. auto.
Qed.
Lemma divmod_of k e i : (i < e)%nat -> ((k * e + i) / e = k /\ (k * e + i) mod e = i)%nat.
Proof.
  intros H. split.
  - rewrite Nat.div_add_l by lia. rewrite Nat.div_small by lia. lia.
  - rewrite Nat.add_comm, Nat.mod_add by lia. apply Nat.mod_small, H.
Qed.
Lemma mapM_rows e (F : nat -> nat -> option X) rows : rect e rows ->
  (forall k i, (k < length rows)%nat -> (i < e)%nat -> F k i = get_row rows k i) ->
  mapM (fun index => F (Nat.div index e) (Nat.modulo index e)) (seq 0 (length rows * e)) = Some (concat rows).
Proof.
  intros HR H. apply mapM_seq; [apply rect_length, HR|]. intros index Hi. destruct (divmod_lt _ _ _ Hi) as (H1 & H2 & H3).
  rewrite H by auto. rewrite <- (rect_get e) by auto. rewrite <- H3. reflexivity.
Qed.

(** * Writes *)
Lemma write_all_length ws : forall G : list X, length (write_all ws G) = length G.
Proof. unfold write_all. induction ws as [|w ws IH]; intros G; [reflexivity|]. cbn [fold_left]. rewrite IH. apply upd_nth_length. Qed.
Lemma write_all_spec ws : forall (G R : list X), length G = length R ->
  (forall p v, In (p, v) ws -> nth_error R p = Some v) ->
  (forall p, (p < length R)%nat -> nth_error G p = nth_error R p \/ exists v, In (p, v) ws) ->
  write_all ws G = R.
Proof.
  unfold write_all. induction ws as [|[p v] ws IH]; intros G R HL H1 H2.
  - cbn. apply nth_error_ext'. intros i. destruct (Nat.lt_ge_cases i (length R)) as [Hi|Hi].
    + destruct (H2 i Hi) as [E|(v & [])]. exact E.
    + rewrite (proj2 (nth_error_None R i)) by lia. apply nth_error_None. lia.
  - cbn [fold_left fst snd]. apply IH.
    + rewrite upd_nth_length. exact HL.
    + intros q w Hq. apply H1. right. exact Hq.
    + intros q Hq. rewrite upd_nth_get. destruct (Nat.eqb_spec p q) as [<-|E].
      * left. rewrite (H1 p v (or_introl eq_refl)). destruct (nth_error G p) eqn:EG; [reflexivity|]. apply nth_error_None in EG. lia.
      * destruct (H2 q Hq) as [Q|(w & [Q|Q])]; [left; exact Q|congruence|right; eauto].
Qed.
Lemma write_all_covers ws (G R : list X) : length G = length R ->
  (forall p v, In (p, v) ws -> nth_error R p = Some v) ->
  (forall p, (p < length R)%nat -> exists v, In (p, v) ws) -> write_all ws G = R.
Proof. intros HL H1 H2. apply write_all_spec; auto. Qed.

Lemma block_In off (vals : list X) p v : In (p, v) (block off vals) <-> exists i, p = (off + i)%nat /\ nth_error vals i = Some v.
Proof.
  unfold block. split.
  - intros H. apply In_nth_error in H. destruct H as [i Hi]. apply nth_error_combine in Hi. destruct Hi as [H1 H2]. exists i. split; [|exact H2].
    assert (Hlt : (i < length vals)%nat) by (apply nth_error_Some; congruence).
    rewrite (nth_error_nth' _ O) in H1 by (rewrite seq_length; exact Hlt). rewrite seq_nth in H1 by exact Hlt. congruence.
  - intros (i & -> & Hi). apply nth_error_In with (n := i). apply nth_error_combine. split; [|exact Hi].
    assert (Hlt : (i < length vals)%nat) by (apply nth_error_Some; congruence).
    rewrite (nth_error_nth' _ O) by (rewrite seq_length; exact Hlt). rewrite seq_nth by exact Hlt. reflexivity.
Qed.

Lemma direct_writes_In e p v : forall (msgs : list (list X)) sizes off, length sizes = length msgs ->
  (In (p, v) (direct_writes off e sizes msgs) <->
   exists k m i, nth_error msgs k = Some m /\ nth_error m i = Some v /\ p = ((off + nsum (firstn k sizes)) * e + i)%nat).
Proof.
  induction msgs as [|m msgs IH]; intros [|s sizes] off HL; try discriminate.
  - cbn. split; [intros []|intros (k & m & i & H & _); destruct k; discriminate].
  - cbn [direct_writes]. rewrite in_app_iff, block_In, IH by (cbn in HL; lia). split.
    + intros [(i & -> & Hi)|(k & m' & i & H1 & H2 & ->)].
      * exists O, m, i. cbn [nth_error firstn nsum]. split; [reflexivity|]. split; [exact Hi|]. lia.
      * exists (S k), m', i. cbn [nth_error firstn nsum]. split; [exact H1|]. split; [exact H2|]. lia.
    + intros ([|k] & m' & i & H1 & H2 & ->); cbn [nth_error firstn nsum] in *.
      * left. injection H1 as <-. exists i. split; [lia|exact H2].
      * right. exists k, m', i. split; [exact H1|]. split; [exact H2|]. lia.
Qed.

(** * Slices *)
Definition zero_at {Y} (me : nat) : list (list Y) -> list (list Y) := upd_nth me (fun _ => []).

Lemma subviews_parts e skip (parts : list (list (list X))) : (forall rows, In rows parts -> rect e rows) ->
  forall k off buf, (forall m, skip = Some m -> (k <= m)%nat -> forall rows, nth_error parts (m - k) = Some rows -> rows = []) ->
  skipn (off * e) buf = concat (concat parts) ->
  forall sizes, (forall j rows, nth_error parts j = Some rows -> (skip = Some (k + j)%nat \/ nth_error sizes j = Some (length rows))) ->
  length sizes = length parts ->
  subviews k off skip e sizes buf = map (@concat X) parts.
Proof.
  induction parts as [|rows parts IH]; intros HR k off buf Hskip Hbuf sizes Hsz HL; destruct sizes as [|s sizes]; try discriminate; [reflexivity|].
  cbn [subviews map]. cbn [concat] in Hbuf. rewrite concat_app in Hbuf.
  assert (HR1 : rect e rows) by (apply HR; left; reflexivity).
  assert (HR2 : forall rows, In rows parts -> rect e rows) by (intros; apply HR; right; auto).
  assert (Hskip' : forall m, skip = Some m -> (S k <= m)%nat -> forall rows, nth_error parts (m - S k) = Some rows -> rows = []).
  { intros m Em Hm rows' E. apply (Hskip m Em ltac:(lia)). replace (m - k)%nat with (S (m - S k)) by lia. exact E. }
  assert (Hsz' : forall j rows, nth_error parts j = Some rows -> (skip = Some (S k + j)%nat \/ nth_error sizes j = Some (length rows))).
  { intros j r E. destruct (Hsz (S j) r E) as [H|H]; [left; rewrite H; f_equal; lia|right; exact H]. }
  case_eq (match skip with Some m => (k =? m)%nat | None => false end); intros Hs.
  - destruct skip as [m|]; [|discriminate]. apply Nat.eqb_eq in Hs. subst m.
    assert (rows = []) by (apply (Hskip k eq_refl ltac:(lia)); rewrite Nat.sub_diag; reflexivity). subst rows. cbn [concat app] in *.
    f_equal. apply IH; auto.
  - assert (Hrl : length rows = s).
    { destruct (Hsz O rows eq_refl) as [H|H]; [|cbn in H; congruence]. rewrite H in Hs. rewrite Nat.add_0_r, Nat.eqb_refl in Hs. discriminate. }
    assert (HLc : length (concat rows) = (s * e)%nat) by (rewrite (rect_length e) by auto; congruence).
    f_equal.
    + rewrite Hbuf, <- HLc. rewrite firstn_app, firstn_all, Nat.sub_diag. cbn. apply app_nil_r.
    + apply IH; auto.
      replace ((off + s) * e)%nat with (off * e + s * e)%nat by lia.
      apply nth_error_ext'. intros i. rewrite nth_error_skipn. replace (off * e + s * e + i)%nat with (off * e + (s * e + i))%nat by lia.
      rewrite <- nth_error_skipn, Hbuf, nth_error_app2 by lia. f_equal. lia.
Qed.

Lemma nsum_lengths {Y} (ls : list (list Y)) : nsum (map (@length Y) ls) = length (concat ls).
Proof. induction ls as [|l ls IH]; [reflexivity|]. cbn [map nsum concat]. rewrite app_length. lia. Qed.
Lemma first_of_before {Y} (ls : list (list Y)) k : first_of (map (@length Y) ls) k = before ls k.
Proof. unfold first_of, before. rewrite firstn_map. apply nsum_lengths. Qed.

(** Skipping a part is reading the concatenation without it. *)
Lemma skip_nth {Y} me : forall (ls : list (list Y)) l k, nth_error ls me = Some l ->
  nth_error (concat ls) (if Nat.ltb k (before ls me) then k else k + length l) = nth_error (concat (zero_at me ls)) k.
Proof.
  unfold before, zero_at. induction me as [|me IH]; intros [|x ls] l k H; try discriminate; cbn [nth_error firstn concat upd_nth app length] in *.
  - injection H as ->. destruct (Nat.ltb_spec k 0); [lia|]. rewrite nth_error_app2 by lia. f_equal. lia.
  - rewrite app_length. destruct (Nat.ltb_spec k (length x + length (concat (firstn me ls)))) as [Hk|Hk].
    + destruct (Nat.lt_ge_cases k (length x)) as [H1|H1]; [rewrite !nth_error_app1 by exact H1; reflexivity|].
      rewrite !nth_error_app2 by exact H1. rewrite <- (IH ls l) by exact H. destruct (Nat.ltb_spec (k - length x) (length (concat (firstn me ls)))); [reflexivity|lia].
    + rewrite !nth_error_app2 by lia. rewrite <- (IH ls l) by exact H. destruct (Nat.ltb_spec (k - length x) (length (concat (firstn me ls)))); [lia|]. f_equal. lia.
Qed.
Lemma zero_length {Y} me : forall (ls : list (list Y)) l, nth_error ls me = Some l -> length (concat (zero_at me ls)) = (length (concat ls) - length l)%nat /\ (length l <= length (concat ls))%nat.
Proof.
  unfold zero_at. induction me as [|me IH]; intros [|x ls] l H; try discriminate; cbn [nth_error upd_nth concat app] in *; rewrite !app_length.
  - injection H as ->. lia.
  - destruct (IH ls l H). lia.
Qed.
Lemma zero_at_get {Y} me (ls : list (list Y)) k : nth_error (zero_at me ls) k = if Nat.eqb me k then option_map (fun _ => []) (nth_error ls k) else nth_error ls k.
Proof. apply upd_nth_get. Qed.
Lemma zero_at_map {Y Z'} (f : Y -> Z') me (ls : list (list Y)) : zero_at me (map (map f) ls) = map (map f) (zero_at me ls).
Proof.
  unfold zero_at. revert ls. induction me as [|me IH]; intros [|x ls]; cbn; try reflexivity. f_equal. apply IH.
Qed.

Lemma buffered_direct e me : forall (msgs : list (list X)) sizes k off, length sizes = length msgs ->
  (forall m, (k <= me)%nat -> nth_error msgs (me - k) = Some m -> m = []) ->
  buffered k off me e sizes msgs = direct_writes off e (if Nat.leb k me then upd_nth (me - k) (fun _ => O) sizes else sizes) msgs.
Proof.
  induction msgs as [|m msgs IH]; intros [|s sizes] k off HL Hm; try discriminate.
  - cbn [buffered upd_nth]. destruct (Nat.leb k me); [destruct (me - k)%nat|]; reflexivity.
  - cbn [buffered]. destruct (Nat.eqb_spec k me) as [->|E].
    + rewrite Nat.leb_refl, Nat.sub_diag. cbn [upd_nth direct_writes]. rewrite (Hm m (le_n me)) by (rewrite Nat.sub_diag; reflexivity).
      unfold block at 1. cbn [length seq combine app]. rewrite Nat.add_0_r.
      rewrite IH; [|cbn in HL; lia|intros; lia]. destruct (Nat.leb_spec (S me) me); [lia|reflexivity].
    + rewrite IH; [|cbn in HL; lia|].
      2:{ intros m' Hk E'. apply Hm; [lia|]. replace (me - k)%nat with (S (me - S k)) by lia. exact E'. }
      destruct (Nat.leb_spec k me) as [Hk|Hk], (Nat.leb_spec (S k) me) as [Hk'|Hk']; try lia; [|reflexivity].
      replace (me - k)%nat with (S (me - S k)) by lia. reflexivity.
Qed.
Lemma upd_lengths {Y} me (ls : list (list Y)) : upd_nth me (fun _ => O) (map (@length Y) ls) = map (@length Y) (zero_at me ls).
Proof. unfold zero_at. revert me. induction ls as [|x ls IH]; intros [|me]; cbn; try reflexivity. f_equal. apply IH. Qed.

Definition row_of (U : list (list X)) (o : nat) : list X := nth o U [].
Lemma row_of_get (U : list (list X)) o : (o < length U)%nat -> nth_error U o = Some (row_of U o).
Proof. intros H. apply nth_error_nth', H. Qed.
End Rows.

(** * exchange_ghosts *)
Section Exchange.
Context {X : Type}.
Variables (e : nat) (Ls : list (list (list nat))) (Us : list (list (list X))).
Hypothesis HC : comm_ok e Ls Us.
Let P := length Ls.

Lemma Us_at s L : nth_error Ls s = Some L -> exists U, nth_error Us s = Some U.
Proof.
  intros H. destruct (nth_error Us s) as [U|] eqn:E; [eauto|]. apply nth_error_None in E. rewrite (proj1 HC) in E.
  assert (nth_error Ls s <> None) by congruence. apply nth_error_Some in H0. lia.
Qed.

Lemma rows_rect (U : list (list X)) (l : list nat) : rect e U -> (forall o, In o l -> (o < length U)%nat) -> rect e (map (row_of U) l).
Proof.
  intros H Ho row Hr. apply in_map_iff in Hr. destruct Hr as (o & <- & Hi). apply H. apply nth_error_In with (n := o).
  apply row_of_get, Ho, Hi.
Qed.

Lemma pack_eq s L U : nth_error Ls s = Some L -> nth_error Us s = Some U -> (s < length L)%nat ->
  pack (comm_of L) s e U = Some (concat (concat (zero_at s (map (map (row_of U)) L)))).
Proof.
  intros HL HU Hs. destruct (proj2 HC s L U HL HU) as (H1 & H2 & H3).
  assert (Hl : nth_error L s = Some (nth s L [])) by (apply nth_error_nth', Hs).
  unfold pack. cbn [c_idx c_sizes comm_of].
  assert (En : n_self (comm_of L) s = length (nth s L [])) by (unfold n_self; cbn [c_sizes comm_of]; rewrite <- (map_nth (@length nat)); reflexivity).
  rewrite En. rewrite first_of_before. rewrite zero_at_map, concat_map_map.
  set (rows := map (row_of U) (concat (zero_at s L))).
  assert (HLr : length rows = (length (concat L) - length (nth s L []))%nat) by (unfold rows; rewrite map_length; apply (proj1 (zero_length s L _ Hl))).
  rewrite <- HLr.
  apply (mapM_rows e (fun iGhost i => match nth_error (concat L) (if Nat.ltb iGhost (before L s) then iGhost else iGhost + length (nth s L [])) with
     | Some o => get_row U o i | None => None end)).
  - apply rows_rect; auto. intros o Ho. apply in_concat in Ho. destruct Ho as (l & Hl' & Ho). apply In_nth_error in Hl'. destruct Hl' as [j Hj].
    rewrite zero_at_get in Hj. destruct (Nat.eqb s j).
    + destruct (nth_error L j); [|discriminate]. cbn in Hj. injection Hj as <-. destruct Ho.
    + apply (H3 l o); [eapply nth_error_In, Hj|exact Ho].
  - intros k i Hk Hi. rewrite (skip_nth s L _ k Hl). unfold get_row at 2, rows. rewrite nth_error_map.
    destruct (nth_error (concat (zero_at s L)) k) as [o|] eqn:Ek; [|reflexivity]. cbn [option_map]. unfold get_row.
    rewrite row_of_get; [reflexivity|]. apply nth_error_In in Ek. apply in_concat in Ek. destruct Ek as (l & Hl' & Ho). apply In_nth_error in Hl'. destruct Hl' as [j Hj].
    rewrite zero_at_get in Hj. destruct (Nat.eqb s j).
    + destruct (nth_error L j); [|discriminate]. cbn in Hj. injection Hj as <-. destruct Ho.
    + apply (H3 l o); [eapply nth_error_In, Hj|exact Ho].
Qed.

Variable me : nat.
Hypothesis Hme : (me < P)%nat.
(** What each source sends to [me], as rows. *)
Definition part (LU : list (list nat) * list (list X)) : list (list X) := map (row_of (snd LU)) (nth me (fst LU) []).
Let parts := map part (combine Ls Us).

Lemma parts_nth s L U : nth_error Ls s = Some L -> nth_error Us s = Some U -> nth_error parts s = Some (map (row_of U) (nth me L [])).
Proof.
  intros H1 H2. unfold parts. rewrite nth_error_map.
  rewrite (proj2 (nth_error_combine Ls Us s L U)) by auto. reflexivity.
Qed.
Lemma parts_inv s rows : nth_error parts s = Some rows -> exists L U, nth_error Ls s = Some L /\ nth_error Us s = Some U /\ rows = map (row_of U) (nth me L []).
Proof.
  unfold parts. rewrite nth_error_map. destruct (nth_error (combine Ls Us) s) as [[L U]|] eqn:E; [|discriminate]. intros [= <-].
  apply nth_error_combine in E. exists L, U. split; [apply E|]. split; [apply E|reflexivity].
Qed.
Lemma parts_length : length parts = P.
Proof. unfold parts. rewrite map_length, combine_length, (proj1 HC). unfold P. lia. Qed.
Lemma parts_rect rows : In rows parts -> rect e rows.
Proof.
  intros H. apply In_nth_error in H. destruct H as [s Hs]. apply parts_inv in Hs. destruct Hs as (L & U & HL & HU & ->).
  destruct (proj2 HC s L U HL HU) as (H1 & H2 & H3). apply rows_rect; auto. intros o Ho.
  apply (H3 (nth me L []) o); [|exact Ho]. apply nth_In. rewrite H1. exact Hme.
Qed.
Lemma all_rect : rect e (concat parts).
Proof. intros row Hr. apply in_concat in Hr. destruct Hr as (rows & H1 & H2). exact (parts_rect rows H1 row H2). Qed.

Lemma recv_sizes_eq : recv_sizes (map comm_of Ls) me = map (@length _) parts.
Proof.
  unfold recv_sizes. rewrite map_map. apply nth_error_ext'. intros s. rewrite !nth_error_map.
  destruct (nth_error Ls s) as [L|] eqn:HL.
  - destruct (Us_at s L HL) as [U HU]. rewrite (parts_nth s L U HL HU). cbn [option_map comm_of c_sizes]. f_equal. rewrite map_length.
    change O with (length (@nil nat)). apply (map_nth (@length nat)).
  - destruct (nth_error parts s) as [r|] eqn:E; [|reflexivity]. apply parts_inv in E. destruct E as (L & U & E & _). congruence.
Qed.

Lemma bufs_eq : exists bufs, mapM (fun x : nat * (comm * list (list X)) =>
                let '(s, (c, U)) := x in
                match pack c s e U with
                | Some b => Some (subviews 0 0 (Some s) e (c_sizes c) b)
                | None => None
                end) (combine (seq 0 (length (map comm_of Ls))) (combine (map comm_of Ls) Us)) = Some bufs /\ length bufs = P /\
  forall s L U, nth_error Ls s = Some L -> nth_error Us s = Some U -> nth_error bufs s = Some (map (@concat X) (zero_at s (map (map (row_of U)) L))).
Proof.
  set (f := fun x : nat * (comm * list (list X)) => _).
  assert (Hf : forall s L U, nth_error Ls s = Some L -> nth_error Us s = Some U ->
     f (s, (comm_of L, U)) = Some (map (@concat X) (zero_at s (map (map (row_of U)) L)))).
  { intros s L U HL HU. destruct (proj2 HC s L U HL HU) as (H1 & H2 & H3).
    assert (Hs : (s < length L)%nat) by (rewrite H1; apply nth_error_Some; congruence).
    unfold f. rewrite pack_eq by auto. f_equal.
    set (pp := zero_at s (map (map (row_of U)) L)).
    assert (Hpp : forall j rows, nth_error pp j = Some rows -> (j = s /\ rows = []) \/ (j <> s /\ exists l, nth_error L j = Some l /\ rows = map (row_of U) l)).
    { intros j rows. unfold pp. rewrite zero_at_get, nth_error_map. destruct (Nat.eqb_spec s j) as [->|E]; destruct (nth_error L j) as [l|]; cbn [option_map]; intros [= <-]; eauto 6. }
    apply subviews_parts.
    - intros rows Hr. apply In_nth_error in Hr. destruct Hr as [j Hj]. destruct (Hpp j rows Hj) as [[_ ->]|(_ & l & El & ->)]; [intros ? []|].
      apply rows_rect; auto. intros o Ho. apply (H3 l o); [eapply nth_error_In, El|exact Ho].
    - intros m [= <-] _ rows. rewrite Nat.sub_0_r. intros E. destruct (Hpp _ _ E) as [[_ ->]|[Q _]]; [reflexivity|congruence].
    - reflexivity.
    - intros j rows Hj. destruct (Hpp j rows Hj) as [[-> ->]|(_ & l & El & ->)]; [left; reflexivity|right].
      cbn [comm_of c_sizes]. rewrite nth_error_map, El. cbn. rewrite map_length. reflexivity.
    - unfold pp, zero_at. rewrite upd_nth_length, map_length. cbn. rewrite map_length. reflexivity. }
  assert (Hx : forall s x, nth_error (combine (seq 0 (length (map comm_of Ls))) (combine (map comm_of Ls) Us)) s = Some x ->
     exists L U, x = (s, (comm_of L, U)) /\ nth_error Ls s = Some L /\ nth_error Us s = Some U).
  { intros s [s' [c U]] E. apply nth_error_combine in E. destruct E as [E1 E2]. apply nth_error_combine in E2. destruct E2 as [E2 E3].
    rewrite nth_error_map in E2. destruct (nth_error Ls s) as [L|] eqn:HL; [|discriminate]. injection E2 as <-.
    assert (Hs : (s < length (map comm_of Ls))%nat) by (rewrite map_length; apply nth_error_Some; congruence).
    rewrite (nth_error_nth' _ O) in E1 by (rewrite seq_length; exact Hs). rewrite seq_nth in E1 by exact Hs. cbn in E1. injection E1 as <-.
    exists L, U. auto. }
  assert (HLc : length (combine (seq 0 (length (map comm_of Ls))) (combine (map comm_of Ls) Us)) = P).
  { rewrite !combine_length, seq_length, map_length, (proj1 HC). unfold P. lia. }
  destruct (mapM_total f (combine (seq 0 (length (map comm_of Ls))) (combine (map comm_of Ls) Us))) as [bufs Eb].
  { intros x Hx'. apply In_nth_error in Hx'. destruct Hx' as [s Hs]. destruct (Hx s x Hs) as (L & U & -> & HL & HU). rewrite (Hf s L U HL HU). eauto. }
  exists bufs. split; [exact Eb|]. split; [rewrite (mapM_length _ _ _ Eb); exact HLc|].
  intros s L U HL HU.
  assert (Hs : nth_error (combine (seq 0 (length (map comm_of Ls))) (combine (map comm_of Ls) Us)) s = Some (s, (comm_of L, U))).
  { destruct (nth_error (combine (seq 0 (length (map comm_of Ls))) (combine (map comm_of Ls) Us)) s) as [x|] eqn:E.
    - destruct (Hx s x E) as (L' & U' & -> & HL' & HU'). rewrite HL in HL'. rewrite HU in HU'. injection HL' as <-. injection HU' as <-. reflexivity.
    - apply nth_error_None in E. assert (nth_error Ls s <> None) by congruence. apply nth_error_Some in H. unfold P in HLc. lia. }
  destruct (mapM_nth _ _ _ s _ Eb Hs) as (y & Hy & Ey). rewrite (Hf s L U HL HU) in Ey. congruence.
Qed.

Lemma messages_eq bufs : length bufs = P ->
  (forall s L U, nth_error Ls s = Some L -> nth_error Us s = Some U -> nth_error bufs s = Some (map (@concat X) (zero_at s (map (map (row_of U)) L)))) ->
  messages me (map (@length _) parts) e bufs = Some (zero_at me (map (@concat X) parts)).
Proof.
  intros HLb Hb. unfold messages. rewrite map_length, parts_length.
  apply mapM_Some, Forall2_nth. split.
  { unfold zero_at. rewrite upd_nth_length, !combine_length, seq_length, !map_length, parts_length. lia. }
  intros s [s' [n sb]] y Hx Hy. apply nth_error_combine in Hx. destruct Hx as [E1 E2]. apply nth_error_combine in E2. destruct E2 as [E2 E3].
  rewrite nth_error_map in E2. destruct (nth_error parts s) as [rows|] eqn:Er; [|discriminate]. injection E2 as <-.
  assert (Hs : (s < P)%nat) by (rewrite <- parts_length; apply nth_error_Some; congruence).
  rewrite (nth_error_nth' _ O) in E1 by (rewrite seq_length; exact Hs). rewrite seq_nth in E1 by exact Hs. cbn in E1. injection E1 as <-.
  rewrite zero_at_get, nth_error_map, Er in Hy. rewrite (Nat.eqb_sym me s) in Hy. destruct (Nat.eqb_spec s me) as [E|E]; [exact Hy|].
  cbn [option_map] in Hy. injection Hy as <-.
  destruct (parts_inv s rows Er) as (L & U & HL & HU & ->). rewrite (Hb s L U HL HU) in E3. injection E3 as <-.
  rewrite nth_error_map, zero_at_get. destruct (Nat.eqb_spec s me) as [Q|_]; [contradiction|]. rewrite nth_error_map.
  destruct (proj2 HC s L U HL HU) as (H1 & H2 & H3).
  rewrite (nth_error_nth' L []) by (rewrite H1; exact Hme). cbn [option_map].
  rewrite (rect_length e) by (apply parts_rect; eapply nth_error_In, Er). rewrite Nat.eqb_refl. reflexivity.
Qed.

Lemma copy_local_eq L U : nth_error Ls me = Some L -> nth_error Us me = Some U ->
  exists wl, copy_local (comm_of L) me (map (@length _) parts) e U = Some wl /\
    forall p v, In (p, v) wl <-> exists k i, p = ((k + before parts me) * e + i)%nat /\ get_row (map (row_of U) (nth me L [])) k i = Some v.
Proof.
  intros HL HU. destruct (proj2 HC me L U HL HU) as (H1 & H2 & H3).
  assert (Hl : nth_error L me = Some (nth me L [])) by (apply nth_error_nth'; rewrite H1; exact Hme).
  unfold copy_local. rewrite first_of_before.
  assert (En : n_self (comm_of L) me = length (nth me L [])) by (unfold n_self; cbn [c_sizes comm_of]; rewrite <- (map_nth (@length nat)); reflexivity).
  rewrite En. cbn [comm_of c_sizes c_idx]. rewrite first_of_before.
  set (l := nth me L []) in *. set (rows := map (row_of U) l).
  assert (HR : rect e rows) by (apply rows_rect; auto; intros o Ho; apply (H3 l o); [eapply nth_error_In, Hl|exact Ho]).
  set (f := fun index : nat => _).
  assert (Hf : forall index, (index < length l * e)%nat -> exists v, get_row rows (index / e) (index mod e) = Some v /\
     f index = Some (((index / e + before parts me) * e + index mod e)%nat, v)).
  { intros index Hi. destruct (divmod_lt _ _ _ Hi) as (Q1 & Q2 & Q3). unfold f.
    destruct (nth_error l (index / e)) as [o|] eqn:Eo; [|apply nth_error_None in Eo; lia].
    assert (Eo' : nth_error (concat L) (index / e + before L me) = Some o) by (rewrite Nat.add_comm; exact (concat_nth L me l _ o Hl Eo)).
    rewrite Eo'. destruct (get_row_ok e rows (index / e) (index mod e) HR) as [v Ev]; [unfold rows; rewrite map_length; exact Q1|exact Q2|].
    exists v. split; [exact Ev|]. unfold get_row, rows in Ev. rewrite nth_error_map, Eo in Ev. cbn [option_map] in Ev.
    unfold get_row. rewrite row_of_get, Ev; [reflexivity|]. apply (H3 l o); [eapply nth_error_In, Hl|eapply nth_error_In, Eo]. }
  destruct (mapM_total f (seq 0 (length l * e))) as [wl Ew].
  { intros index Hi. apply in_seq in Hi. destruct (Hf index ltac:(lia)) as (v & _ & E). eauto. }
  exists wl. split; [exact Ew|]. intros p v. split.
  - intros H. destruct (mapM_In _ _ _ _ Ew H) as (index & Hi & E). apply in_seq in Hi. destruct (Hf index ltac:(lia)) as (v' & E1 & E2).
    rewrite E2 in E. injection E as <- <-. eauto.
  - intros (k & i & -> & Ev). destruct (get_row_some e rows k i v HR Ev) as [Hk Hi]. unfold rows in Hk. rewrite map_length in Hk.
    assert (Hin : In (k * e + i)%nat (seq 0 (length l * e))) by (apply in_seq; nia).
    destruct (mapM_In_fwd _ _ _ _ Ew Hin) as (y & Hy & Ey). destruct (Hf (k * e + i)%nat ltac:(nia)) as (v' & E1 & E2).
    destruct (divmod_of k e i Hi) as [D1 D2]. rewrite D1, D2 in *. rewrite E2 in Ey. injection Ey as <-. rewrite Ev in E1. injection E1 as <-. exact Hy.
Qed.

Lemma before_concat_rows k : (before (map (@concat X) parts) k = before parts k * e)%nat.
Proof.
  unfold before. rewrite firstn_map. rewrite <- (rect_length e).
  - f_equal. generalize (firstn k parts) as q. induction q as [|x q IH]; [reflexivity|]. cbn [map concat]. rewrite IH, concat_app. reflexivity.
  - intros row Hr. apply in_concat in Hr. destruct Hr as (rows & Q1 & Q2). apply (parts_rect rows); [|exact Q2].
    rewrite <- (firstn_skipn k parts). apply in_or_app. left. exact Q1.
Qed.

Lemma concat_concat_map (q : list (list (list X))) : concat (map (@concat X) q) = concat (concat q).
Proof. induction q as [|x q IH]; [reflexivity|]. cbn [map concat]. rewrite IH, concat_app. reflexivity. Qed.

Lemma direct_sound sizes msgs p v : sizes = map (@length _) parts -> msgs = zero_at me (map (@concat X) parts) ->
  In (p, v) (direct_writes 0 e sizes msgs) -> nth_error (concat (concat parts)) p = Some v.
Proof.
  intros -> -> H. apply direct_writes_In in H; [|unfold zero_at; rewrite upd_nth_length, !map_length; reflexivity].
  destruct H as (k & m & i & H1 & H2 & ->). rewrite zero_at_get in H1. destruct (Nat.eqb_spec me k) as [->|Hk].
  - destruct (nth_error (map (concat (A:=X)) parts) k); [|discriminate]. cbn in H1. injection H1 as <-. destruct i; discriminate.
  - rewrite <- concat_concat_map. cbn [Nat.add]. rewrite firstn_map, nsum_lengths. fold (before parts k). rewrite <- before_concat_rows.
    unfold before. eapply concat_nth; eauto.
Qed.
Lemma direct_covers sizes msgs p : sizes = map (@length _) parts -> msgs = zero_at me (map (@concat X) parts) ->
  (p < length (concat (concat parts)))%nat ->
  (exists v, In (p, v) (direct_writes 0 e sizes msgs)) \/ (exists rows k i v, nth_error parts me = Some rows /\ p = ((k + before parts me) * e + i)%nat /\ get_row rows k i = Some v).
Proof.
  intros -> -> Hp. rewrite <- concat_concat_map in Hp. destruct (concat_pos _ p Hp) as (k & l & H1 & H2 & H3).
  assert (Ev : exists v, nth_error (concat (map (concat (A:=X)) parts)) p = Some v).
  { destruct (nth_error (concat (map (concat (A:=X)) parts)) p) eqn:E; [eauto|]. apply nth_error_None in E. lia. }
  destruct Ev as [v Ev]. rewrite Ev in H3. rewrite before_concat_rows in H2, H3.
  destruct (Nat.eq_dec k me) as [->|Hk].
  - right. rewrite nth_error_map in H1. destruct (nth_error parts me) as [rows|] eqn:Er; [|discriminate]. cbn in H1. injection H1 as <-.
    assert (HR : rect e rows) by (eapply parts_rect, nth_error_In, Er).
    set (q := (p - before parts me * e)%nat) in *.
    assert (Hq : (q < length rows * e)%nat) by (rewrite <- (rect_length e) by auto; apply nth_error_Some; congruence).
    destruct (divmod_lt _ _ _ Hq) as (Q1 & Q2 & Q3).
    exists rows, (q / e)%nat, (q mod e)%nat, v. split; [reflexivity|]. split.
    + clearbody parts. unfold q in Q3. fold q in Q3. nia.
    + rewrite <- (rect_get e) by auto. rewrite <- Q3. exact H3.
  - left. exists v. apply direct_writes_In; [unfold zero_at; rewrite upd_nth_length, !map_length; reflexivity|].
    exists k, l, (p - before parts k * e)%nat. rewrite zero_at_get. destruct (Nat.eqb_spec me k); [congruence|]. split; [exact H1|]. split; [exact H3|].
    rewrite firstn_map, nsum_lengths. unfold before in *. cbn [Nat.add]. lia.
Qed.

Lemma zero_at_concat (q : list (list (list X))) : zero_at me (map (@concat X) q) = map (@concat X) (zero_at me q).
Proof. unfold zero_at. generalize me as m. induction q as [|x q IH]; intros [|m]; cbn [map upd_nth]; try reflexivity. f_equal. apply IH. Qed.

Lemma unpack_In c sizes nl (buf : list X) p v : n_self c me = nl ->
  (In (p, v) (unpack_writes c me sizes e buf) <->
   exists q, nth_error buf q = Some v /\ p = ((if Nat.ltb (q / e) (first_of sizes me) then q / e else q / e + nl) * e + q mod e)%nat).
Proof.
  intros <-. unfold unpack_writes. rewrite in_map_iff. split.
  - intros ([index w] & E & H). cbn [fst snd] in E. injection E as <- <-. apply block_In in H. destruct H as (i & -> & Hi). exists i. split; [exact Hi|reflexivity].
  - intros (q & Hq & ->). exists (q, v). split; [reflexivity|]. apply block_In. exists q. auto.
Qed.

Lemma exchange_rank_eq contiguous sch G0 B0 : (forall ws, Permutation (sch ws) ws) ->
  length G0 = (length (concat parts) * e)%nat ->
  (contiguous = false -> length B0 = (length (concat (zero_at me parts)) * e)%nat) ->
  exchange_rank contiguous sch (map comm_of Ls) me e Us G0 B0 = Some (concat (concat parts)).
Proof.
  intros Hsch HG HB. unfold exchange_rank. rewrite recv_sizes_eq.
  assert (HLme : exists L, nth_error Ls me = Some L).
  { destruct (nth_error Ls me) eqn:E; [eauto|]. apply nth_error_None in E. unfold P in Hme. lia. }
  destruct HLme as [L HL]. destruct (Us_at me L HL) as [U HU].
  rewrite nsum_lengths, HG, Nat.eqb_refl. cbn [negb].
  rewrite nth_error_map, HL, HU. cbn [option_map].
  destruct bufs_eq as (bufs & Eb & HLb & Hb). rewrite Eb. rewrite (messages_eq bufs HLb Hb).
  destruct (copy_local_eq L U HL HU) as (wl & Ew & Hwl). rewrite Ew.
  assert (HR : length (concat (concat parts)) = (length (concat parts) * e)%nat) by (apply rect_length, all_rect).
  assert (Hpm : nth_error parts me = Some (map (row_of U) (nth me L []))) by (apply parts_nth; auto).
  assert (Wl : forall p v, In (p, v) wl -> nth_error (concat (concat parts)) p = Some v).
  { intros p v H. apply Hwl in H. destruct H as (k & i & -> & E).
    assert (Hrr : rect e (map (row_of U) (nth me L []))) by (eapply parts_rect, nth_error_In, Hpm).
    destruct (get_row_some e _ k i v Hrr E) as [Hk Hi].
    rewrite rect_get by (auto using all_rect). unfold get_row in E |- *.
    destruct (nth_error (map (row_of U) (nth me L [])) k) as [row|] eqn:Ek; [|discriminate].
    rewrite (Nat.add_comm k). unfold before. rewrite (concat_nth parts me _ k row Hpm Ek). exact E. }
  assert (Cl : forall rows k i v, nth_error parts me = Some rows -> get_row rows k i = Some v -> In (((k + before parts me) * e + i)%nat, v) wl).
  { intros rows k i v Er E. rewrite Hpm in Er. injection Er as <-. apply Hwl. eauto. }
  destruct contiguous.
  - f_equal. apply write_all_covers; [lia| |].
    + intros p v H. apply (Permutation_in _ (Hsch _)) in H. apply in_app_or in H. destruct H as [H|H]; [eapply direct_sound; eauto|apply Wl, H].
    + intros p Hp. destruct (direct_covers _ _ p eq_refl eq_refl Hp) as [(v & H)|(rows & k & i & v & Er & -> & E)].
      * exists v. apply (Permutation_in _ (Permutation_sym (Hsch _))), in_or_app. left. exact H.
      * exists v. apply (Permutation_in _ (Permutation_sym (Hsch _))), in_or_app. right. eapply Cl; eauto.
  - specialize (HB eq_refl).
    destruct (zero_length me parts _ Hpm) as [Z1 Z2]. rewrite map_length in Z1, Z2.
    assert (En : n_self (comm_of L) me = length (nth me L [])) by (unfold n_self; cbn [c_sizes comm_of]; rewrite <- (map_nth (@length nat)); reflexivity).
    rewrite En. replace (length (concat parts) - length (nth me L []))%nat with (length (concat (zero_at me parts))) by (rewrite Z1; reflexivity).
    rewrite HB, Nat.eqb_refl. cbn [negb]. f_equal.
    assert (HRz : rect e (concat (zero_at me parts))).
    { intros row Hr. apply in_concat in Hr. destruct Hr as (rows & Q1 & Q2). apply In_nth_error in Q1. destruct Q1 as [j Hj].
      rewrite zero_at_get in Hj. destruct (Nat.eqb me j).
      - destruct (nth_error parts j); [|discriminate]. cbn in Hj. injection Hj as <-. destruct Q2.
      - apply (parts_rect rows); [eapply nth_error_In, Hj|exact Q2]. }
    assert (Ebuf : write_all (sch (buffered 0 0 me e (map (@length _) parts) (zero_at me (map (@concat X) parts)))) B0 = concat (concat (zero_at me parts))).
    { rewrite buffered_direct; cycle 1.
      { unfold zero_at. rewrite upd_nth_length, !map_length. reflexivity. }
      { intros m _. rewrite Nat.sub_0_r, zero_at_get, Nat.eqb_refl. destruct (nth_error (map (concat (A:=X)) parts) me); intros [= <-]; reflexivity. }
      cbn [Nat.leb]. rewrite Nat.sub_0_r, upd_lengths, zero_at_concat.
      set (zp := zero_at me parts) in *.
      assert (Hzr : forall rows, In rows zp -> rect e rows).
      { intros rows Q row Hr. apply HRz, in_concat. exists rows. auto. }
      assert (Hbz : forall k, (before (map (@concat X) zp) k = before zp k * e)%nat).
      { intros k. unfold before. rewrite firstn_map, concat_concat_map. apply rect_length. intros row Hr. apply in_concat in Hr. destruct Hr as (rows & Q1 & Q2).
        apply (Hzr rows); [|exact Q2]. rewrite <- (firstn_skipn k zp). apply in_or_app. left. exact Q1. }
      apply write_all_covers.
      - rewrite HB. symmetry. apply rect_length, HRz.
      - intros p v H. apply (Permutation_in _ (Hsch _)) in H. apply direct_writes_In in H; [|rewrite !map_length; reflexivity].
        destruct H as (k & m & i & Q1 & Q2 & ->). rewrite <- concat_concat_map. cbn [Nat.add]. rewrite firstn_map, nsum_lengths. fold (before zp k). rewrite <- Hbz.
        unfold before. eapply concat_nth; eauto.
      - intros p Hp. rewrite <- concat_concat_map in Hp. destruct (concat_pos _ p Hp) as (k & l & Q1 & Q2 & Q3).
        destruct (nth_error (concat (map (concat (A:=X)) zp)) p) as [v|] eqn:Ev; [|apply nth_error_None in Ev; lia].
        exists v. apply (Permutation_in _ (Permutation_sym (Hsch _))). apply direct_writes_In; [rewrite !map_length; reflexivity|].
        exists k, l, (p - before (map (@concat X) zp) k)%nat. split; [exact Q1|]. split; [exact Q3|].
        cbn [Nat.add]. rewrite firstn_map, nsum_lengths. fold (before zp k). rewrite <- Hbz. lia. }
    rewrite Ebuf. apply write_all_covers; [lia| |].
    + intros p v H. apply (Permutation_in _ (Hsch _)) in H. apply in_app_or in H. destruct H as [H|H]; [apply Wl, H|].
      apply (unpack_In _ _ _ _ _ _ En) in H. destruct H as (q & Hq & ->). rewrite first_of_before.
      assert (Hlt : (q < length (concat (zero_at me parts)) * e)%nat) by (rewrite <- (rect_length e) by exact HRz; apply nth_error_Some; congruence).
      destruct (divmod_lt _ _ _ Hlt) as (D1 & D2 & D3).
      rewrite rect_get by (auto using all_rect). rewrite D3, rect_get in Hq by auto. unfold get_row in Hq |- *.
      assert (El : length (nth me L []) = length (map (row_of U) (nth me L []))) by (rewrite map_length; reflexivity). rewrite El.
      rewrite (skip_nth me parts _ (q / e) Hpm). exact Hq.
    + intros p Hp. rewrite HR in Hp. destruct (divmod_lt _ _ _ Hp) as (D1 & D2 & D3).
      set (k := (p / e)%nat) in *. set (i := (p mod e)%nat) in *.
      destruct (get_row_ok e (concat parts) k i all_rect D1 D2) as [v Ev].
      assert (Hb1 : (before parts me <= length (concat parts))%nat) by (rewrite <- before_all; apply before_mono; rewrite parts_length; lia).
      assert (Hb2 : before parts (S me) = (before parts me + length (nth me L []))%nat) by (rewrite (before_S parts me _ Hpm), map_length; reflexivity).
      assert (Hz : forall j, (j < length (concat (zero_at me parts)))%nat -> k = (if Nat.ltb j (before parts me) then j else j + length (nth me L []))%nat ->
         exists v, In (p, v) (sch (wl ++ unpack_writes (comm_of L) me (map (@length _) parts) e (concat (concat (zero_at me parts)))))).
      { intros j Hj Ek. destruct (get_row_ok e (concat (zero_at me parts)) j i HRz Hj D2) as [w Ew']. exists w.
        apply (Permutation_in _ (Permutation_sym (Hsch _))), in_or_app. right. apply (unpack_In _ _ _ _ _ _ En). exists (j * e + i)%nat. split.
        - rewrite rect_get by auto. exact Ew'.
        - destruct (divmod_of j e i D2) as [F1 F2]. rewrite F1, F2, first_of_before, <- Ek. exact D3. }
      destruct (Nat.lt_ge_cases k (before parts me)) as [K1|K1].
      * apply (Hz k).
        -- assert (before parts (S me) <= length (concat parts))%nat by (rewrite <- before_all; apply before_mono; rewrite parts_length; lia). lia.
        -- destruct (Nat.ltb_spec k (before parts me)); lia.
      * destruct (Nat.lt_ge_cases k (before parts (S me))) as [K2|K2].
        -- exists v. apply (Permutation_in _ (Permutation_sym (Hsch _))), in_or_app. left. rewrite D3.
           replace k with ((k - before parts me) + before parts me)%nat by lia. apply (Cl (map (row_of U) (nth me L []))); [exact Hpm|].
           unfold get_row in Ev |- *. destruct (nth_error (map (row_of U) (nth me L [])) (k - before parts me)) as [row|] eqn:Erow.
           2:{ apply nth_error_None in Erow. rewrite map_length in Erow. lia. }
           pose proof (concat_nth parts me _ _ row Hpm Erow) as Q. fold (before parts me) in Q.
           replace (before parts me + (k - before parts me))%nat with k in Q by lia. rewrite Q in Ev. exact Ev.
        -- apply (Hz (k - length (nth me L []))%nat); [lia|]. destruct (Nat.ltb_spec (k - length (nth me L [])) (before parts me)); lia.
Qed.
End Exchange.

(** The list-level exchange of OctreeModel is what the flat buffers compute. *)
Lemma pick_rows {X} (U : list X) d (l : list nat) : (forall o, In o l -> (o < length U)%nat) ->
  pick U l = Some (map (fun o => nth o U d) l).
Proof.
  unfold pick. induction l as [|o l IH]; intros H; [reflexivity|]. cbn [mapM map].
  rewrite (nth_error_nth' U d) by (apply H; left; reflexivity). rewrite IH by (intros; apply H; right; auto). reflexivity.
Qed.
Lemma recv_parts {X} (e : nat) Ls (Us : list (list (list X))) me : comm_ok e Ls Us -> (me < length Ls)%nat ->
  recv Ls Us me = Some (concat (map (part me) (combine Ls Us))).
Proof.
  intros HC Hme. unfold recv.
  assert (E : mapM (fun sd : list (list nat) * list (list X) => match nth_error (fst sd) me with Some idx => pick (snd sd) idx | None => None end) (combine Ls Us)
     = Some (map (part me) (combine Ls Us))).
  { apply mapM_Some, Forall2_nth. rewrite map_length. split; [reflexivity|]. intros s [L U] y Hx Hy. rewrite nth_error_map, Hx in Hy. injection Hy as <-.
    apply nth_error_combine in Hx. destruct Hx as [HL HU]. destruct (proj2 HC s L U HL HU) as (H1 & H2 & H3). cbn [fst snd].
    rewrite (nth_error_nth' L []) by lia. rewrite (pick_rows U []).
    - reflexivity.
    - intros o Ho. apply (H3 (nth me L []) o); [apply nth_In; lia|exact Ho]. }
  rewrite E. reflexivity.
Qed.

Lemma flat_map_flat_map' {A B C} (f : B -> list C) (h : A -> list B) l : flat_map f (flat_map h l) = flat_map (fun x => flat_map f (h x)) l.
Proof. induction l as [|x l IH]; [reflexivity|]. cbn [flat_map]. rewrite flat_map_app, IH. reflexivity. Qed.
Lemma flat_map_ext_in' {A B} (f h : A -> list B) l : (forall x, In x l -> f x = h x) -> flat_map f l = flat_map h l.
Proof. induction l as [|x l IH]; intros H; [reflexivity|]. cbn [flat_map]. rewrite (H x (or_introl eq_refl)), IH by (intros; apply H; right; auto). reflexivity. Qed.
Lemma flat_map_map' {A B C} (f : B -> list C) (h : A -> B) l : flat_map f (map h l) = flat_map (fun x => f (h x)) l.
Proof. induction l as [|x l IH]; [reflexivity|]. cbn [flat_map map]. rewrite IH. reflexivity. Qed.

Lemma combine_app' {A B} (a a' : list A) : forall b b' : list B, length a = length b -> combine (a ++ a') (b ++ b') = combine a b ++ combine a' b'.
Proof. induction a as [|x a IH]; intros [|y b] b' H; try discriminate; [reflexivity|]. cbn [app combine]. f_equal. apply IH. cbn in H. lia. Qed.
Lemma flat_map_nil {A B} (f : A -> list B) l : (forall x, In x l -> f x = []) -> flat_map f l = [].
Proof. induction l as [|x l IH]; intros H; [reflexivity|]. cbn [flat_map]. rewrite H by (left; reflexivity). apply IH. intros; apply H; right; auto. Qed.

Lemma seg_select {A B C} (f : A * B -> list C) : forall (segs : list (list A)) me seg (G : list B), nth_error segs me = Some seg ->
  length G = length (concat segs) ->
  (forall j sg x row, j <> me -> nth_error segs j = Some sg -> In x sg -> f (x, row) = []) ->
  flat_map f (combine (concat segs) G) = flat_map f (combine seg (firstn (length seg) (skipn (before segs me) G))).
Proof.
  induction segs as [|sg segs IH]; intros me seg G Hs HL Hf; [destruct me; discriminate|].
  cbn [concat] in HL |- *. rewrite app_length in HL.
  assert (EG : G = firstn (length sg) G ++ skipn (length sg) G) by (symmetry; apply firstn_skipn).
  assert (HLf : length (firstn (length sg) G) = length sg) by (rewrite firstn_length; lia).
  assert (HLs : length (skipn (length sg) G) = length (concat segs)) by (rewrite skipn_length; lia).
  rewrite EG at 1. rewrite combine_app' by (symmetry; exact HLf). rewrite flat_map_app. destruct me as [|me]; cbn [nth_error] in Hs.
  - injection Hs as <-. unfold before. cbn [firstn concat length skipn].
    rewrite (flat_map_nil f (combine (concat segs) _)); [apply app_nil_r|]. intros [x row] Hx. apply in_combine_l in Hx. apply in_concat in Hx.
    destruct Hx as (sg' & H1 & H2). apply In_nth_error in H1. destruct H1 as [j Hj]. apply (Hf (S j) sg' x row); auto.
  - rewrite (flat_map_nil f (combine sg _)).
    + cbn [app]. rewrite (IH me seg (skipn (length sg) G) Hs HLs).
      * f_equal. f_equal. f_equal. unfold before. cbn [firstn concat]. rewrite app_length.
        apply nth_error_ext'. intros i. rewrite !nth_error_skipn. f_equal. lia.
      * intros j sg' x row Hj E Hx. apply (Hf (S j) sg' x row); auto.
    + intros [x row] Hx. apply in_combine_l in Hx. apply (Hf O sg x row); auto.
Qed.

Lemma combine_concat {A B C} (f : A * B -> list C) : forall (ls : list (list A)) (ms : list (list B)),
  length ls = length ms -> (forall j l m, nth_error ls j = Some l -> nth_error ms j = Some m -> length l = length m) ->
  flat_map f (combine (concat ls) (concat ms)) = flat_map (fun x => flat_map f (combine (fst x) (snd x))) (combine ls ms).
Proof.
  induction ls as [|l ls IH]; intros [|m ms] HL H; try discriminate; [reflexivity|]. cbn [concat combine flat_map fst snd].
  rewrite combine_app' by (apply (H O); reflexivity). rewrite flat_map_app. f_equal. apply IH; [cbn in HL; lia|]. intros j. apply (H (S j)).
Qed.

(** * reduce_ghosts *)
Section Reduce.
Context {X : Type}.
Variable add : X -> X -> X.

(** Values added to value [i] of octant [o] by a list of updates. *)
Definition hits (o i : nat) (ws : list (nat * nat * X)) : list X :=
  flat_map (fun w => let '(o', i', v) := w in if (Nat.eqb o' o && Nat.eqb i' i)%bool then [v] else []) ws.

Lemma add_all_get ws : forall (U : list (list X)) o i, get_row (add_all add ws U) o i = option_map (fun x => fold_left add (hits o i ws) x) (get_row U o i).
Proof.
  unfold add_all. induction ws as [|[[o' i'] v] ws IH]; intros U o i.
  - cbn. destruct (get_row U o i); reflexivity.
  - cbn [fold_left hits flat_map]. rewrite IH. unfold get_row at 1 2. rewrite upd_nth_get.
    destruct (Nat.eqb_spec o' o) as [->|E]; cbn [andb app].
    + destruct (nth_error U o) as [row|]; [|reflexivity]. cbn [option_map]. rewrite upd_nth_get.
      destruct (Nat.eqb_spec i' i) as [->|E']; cbn [andb app]; destruct (nth_error row i); reflexivity.
    + reflexivity.
Qed.
Lemma add_all_length ws : forall U : list (list X), length (add_all add ws U) = length U.
Proof. unfold add_all. induction ws as [|[[o i] v] ws IH]; intros U; [reflexivity|]. cbn [fold_left]. rewrite IH. apply upd_nth_length. Qed.

Variable zero : X.
Hypothesis addC : forall x y, add x y = add y x.
Hypothesis addA : forall x y z, add x (add y z) = add (add x y) z.
Hypothesis add0 : forall x, add x zero = x.

Notation sum := (sum add zero).
Lemma fold_left_sum l : forall x, fold_left add l x = add x (sum l).
Proof.
  induction l as [|y l IH]; intros x; cbn [fold_left sum fold_right]; [symmetry; apply add0|].
  rewrite IH, <- addA. reflexivity.
Qed.
Lemma sum_perm l l' : Permutation l l' -> sum l = sum l'.
Proof.
  unfold sum. induction 1; cbn; [reflexivity|congruence| |congruence].
  rewrite !addA. f_equal. apply addC.
Qed.

Lemma subviews_nth m e : forall sizes (buf : list X) k off n j, nth_error sizes j = Some n -> ((k + j)%nat = m -> n = O) ->
  (forall j', (k + j')%nat = m -> nth j' sizes O = O) ->
  nth_error (subviews k off (Some m) e sizes buf) j = Some (firstn (n * e) (skipn ((off + nsum (firstn j sizes)) * e) buf)).
Proof.
  induction sizes as [|s sizes IH]; intros buf k off n j Hj Hm Hz; [destruct j; discriminate|].
  cbn [subviews]. destruct (Nat.eqb_spec k m) as [E|E].
  - assert (s = O) by (apply (Hz O); lia). subst s. destruct j as [|j]; cbn [nth_error firstn nsum] in *.
    + injection Hj as <-. reflexivity.
    + rewrite (IH buf (S k) off n j Hj); [f_equal; f_equal; f_equal; lia|intros; apply Hm; lia|intros; apply (Hz (S j')); lia].
  - destruct j as [|j]; cbn [nth_error firstn nsum] in *.
    + injection Hj as <-. rewrite Nat.add_0_r. reflexivity.
    + rewrite (IH buf (S k) (off + s)%nat n j Hj); [f_equal; f_equal; f_equal; lia|intros; apply Hm; lia|intros; apply (Hz (S j')); lia].
Qed.

Lemma slice_rows e (rows : list (list X)) a n : rect e rows ->
  firstn (n * e) (skipn (a * e) (concat rows)) = concat (firstn n (skipn a rows)).
Proof.
  revert a. induction rows as [|r rows IH]; intros a H.
  - rewrite !skipn_nil, !firstn_nil. reflexivity.
  - apply rect_cons in H. destruct H as [H1 H2]. destruct a as [|a].
    + clear IH. cbn [Nat.mul skipn]. revert n r H1. induction rows as [|r' rows IH]; intros n r H1.
      * cbn [concat]. rewrite app_nil_r. destruct n as [|n]; [reflexivity|]. cbn [firstn concat]. rewrite firstn_nil. cbn [concat]. rewrite app_nil_r.
        apply firstn_all2. lia.
      * apply rect_cons in H2. destruct H2 as [H2 H3]. destruct n as [|n]; [reflexivity|]. cbn [firstn]. cbn [concat].
        replace (S n * e)%nat with (length r + n * e)%nat by lia. rewrite firstn_app_2. f_equal. apply (IH H3 n r' H2).
    + cbn [skipn concat]. replace (S a * e)%nat with (length r + a * e)%nat by lia.
      rewrite <- (IH a H2). f_equal. apply nth_error_ext'. intros i. rewrite !nth_error_skipn, nth_error_app2 by lia. f_equal. lia.
Qed.

Lemma reduce_updates_eq e idx rows (sizes : list nat) : length idx = length rows -> rect e rows ->
  exists us, reduce_updates (mkComm sizes idx) e (concat rows) = Some us /\
    forall d o i, (i < e)%nat -> hits o i us = flat_map (fun x : nat * list X => if Nat.eqb (fst x) o then [nth i (snd x) d] else []) (combine idx rows).
Proof.
  intros HL HR. unfold reduce_updates. cbn [c_idx].
  set (urow := fun x : nat * list X => map (fun jv : nat * X => (fst x, fst jv, snd jv)) (combine (seq 0 e) (snd x))).
  set (urows := map urow (combine idx rows)).
  assert (HU : rect e urows).
  { intros u Hu. unfold urows in Hu. apply in_map_iff in Hu. destruct Hu as ([o r] & <- & Hin). apply in_combine_r in Hin. unfold urow. cbn [snd].
    rewrite map_length, combine_length, seq_length, (HR r Hin). lia. }
  assert (HLu : length urows = length rows) by (unfold urows; rewrite map_length, combine_length; lia).
  exists (concat urows). split.
  - apply mapM_Some, Forall2_nth. unfold block. rewrite combine_length, seq_length, Nat.min_id, !(rect_length e) by auto. split; [lia|].
    intros index [p v] y Hx Hy. apply nth_error_combine in Hx. destruct Hx as [Hp Hv].
    assert (Hi : (index < length rows * e)%nat) by (rewrite <- (rect_length e) by auto; apply nth_error_Some; congruence).
    rewrite (nth_error_nth' _ O) in Hp by (rewrite seq_length; exact Hi). rewrite seq_nth in Hp by exact Hi.
    cbn in Hp. injection Hp as <-. destruct (divmod_lt _ _ _ Hi) as (D1 & D2 & D3).
    rewrite D3 in Hv, Hy. rewrite rect_get in Hv by auto. rewrite rect_get in Hy by auto. cbn [fst snd].
    unfold get_row in Hv, Hy. destruct (nth_error rows (index / e)) as [row|] eqn:Er; [|discriminate].
    destruct (nth_error idx (index / e)) as [o|] eqn:Eo; [|apply nth_error_None in Eo; lia].
    unfold urows in Hy. rewrite nth_error_map in Hy. rewrite (proj2 (nth_error_combine idx rows _ o row)) in Hy by auto. cbn [option_map] in Hy.
    unfold urow in Hy. cbn [fst snd] in Hy. rewrite nth_error_map in Hy.
    rewrite (proj2 (nth_error_combine (seq 0 e) row (index mod e) (index mod e)%nat v)) in Hy.
    + injection Hy as <-. reflexivity.
    + split; [|exact Hv]. rewrite (nth_error_nth' _ O) by (rewrite seq_length; exact D2). rewrite seq_nth by exact D2. reflexivity.
  - intros d o i Hi. unfold hits, urows. rewrite <- flat_map_concat_map, flat_map_flat_map'.
    apply flat_map_ext_in'. intros [o' row] Hin. apply in_combine_r in Hin. specialize (HR row Hin). unfold urow. cbn [fst snd].
    rewrite flat_map_map'. cbn [fst snd]. clear -HR Hi. destruct (Nat.eqb o' o); cbn [andb].
    + assert (G : forall (row : list X) a j, (j < length row)%nat -> flat_map (fun x : nat * X => if Nat.eqb (fst x) (a + j) then [snd x] else []) (combine (seq a (length row)) row) = [nth j row d]).
      { clear. induction row as [|v row IH]; intros a j Hj; [cbn in Hj; lia|]. cbn [length seq combine flat_map fst snd]. destruct j as [|j].
        - rewrite Nat.add_0_r, Nat.eqb_refl. cbn [nth app]. f_equal.
          assert (Q : forall (q : list X) b, (a < b)%nat -> flat_map (fun x : nat * X => if Nat.eqb (fst x) a then [snd x] else []) (combine (seq b (length q)) q) = []).
          { clear. induction q as [|w q IH]; intros b Hb; [reflexivity|]. cbn [length seq combine flat_map fst snd]. destruct (Nat.eqb_spec b a); [lia|]. apply IH. lia. }
          apply Q. lia.
        - destruct (Nat.eqb_spec a (a + S j)); [lia|]. cbn [app nth]. replace (a + S j)%nat with (S a + j)%nat by lia. apply IH. cbn in Hj. lia. }
      specialize (G row O i). rewrite HR in G. apply G. exact Hi.
    + induction (combine (seq 0 e) row) as [|x q IH]; [reflexivity|exact IH].
Qed.

Section ReduceRank.
Variables (e : nat) (Ls : list (list (list nat))) (Gs : list (list (list X))) (me : nat).
Let P := length Ls.
Hypothesis Hme : (me < P)%nat.
Hypothesis HLs : forall s L, nth_error Ls s = Some L -> length L = P /\ nth s L [] = [].
Hypothesis HLG : length Gs = P.
Hypothesis HGs : forall r G, nth_error Gs r = Some G -> rect e G /\ length G = length (origins Ls r).

Let segs r := map (fun sL : nat * list (list nat) => map (pair (fst sL)) (nth r (snd sL) [])) (combine (seq 0 P) Ls).
Lemma seq_nth' n i : (i < n)%nat -> nth_error (seq 0 n) i = Some i.
Proof. intros H. rewrite (nth_error_nth' _ O) by (rewrite seq_length; exact H). rewrite seq_nth by exact H. reflexivity. Qed.
Lemma segs_nth r s L : nth_error Ls s = Some L -> nth_error (segs r) s = Some (map (pair s) (nth r L [])).
Proof.
  intros H. unfold segs. rewrite nth_error_map. rewrite (proj2 (nth_error_combine (seq 0 P) Ls s s L)); [reflexivity|].
  split; [|exact H]. apply seq_nth'. apply nth_error_Some. congruence.
Qed.
Lemma segs_inv r s sg : nth_error (segs r) s = Some sg -> exists L, nth_error Ls s = Some L /\ sg = map (pair s) (nth r L []).
Proof.
  unfold segs. rewrite nth_error_map. destruct (nth_error (combine (seq 0 P) Ls) s) as [[s' L]|] eqn:E; [|discriminate]. intros [= <-].
  apply nth_error_combine in E. destruct E as [E1 E2]. rewrite seq_nth' in E1 by (apply nth_error_Some; congruence). injection E1 as <-. eauto.
Qed.
Lemma rs_segs r : recv_sizes (map comm_of Ls) r = map (@length _) (segs r).
Proof.
  unfold recv_sizes. rewrite map_map. apply nth_error_ext'. intros s. rewrite !nth_error_map.
  destruct (nth_error Ls s) as [L|] eqn:HL.
  - rewrite (segs_nth r s L HL). cbn [option_map comm_of c_sizes]. f_equal. rewrite map_length.
    change O with (length (@nil nat)). apply (map_nth (@length nat)).
  - destruct (nth_error (segs r) s) as [sg|] eqn:E; [|reflexivity]. apply segs_inv in E. destruct E as (L & E & _). congruence.
Qed.

Lemma reduce_rank_eq d sch U : (forall ws, Permutation (sch ws) ws) -> rect e U ->
  exists U', reduce_rank add sch (map comm_of Ls) me e (map (@concat X) Gs) U = Some U' /\ length U' = length U /\
    forall o i, get_row U' o i = option_map (fun x => add x (sum (contributions d Ls Gs me o i))) (get_row U o i).
Proof.
  intros Hsch HRU.
  assert (HLme : exists L, nth_error Ls me = Some L).
  { destruct (nth_error Ls me) eqn:E; [eauto|]. apply nth_error_None in E. unfold P in Hme. lia. }
  destruct HLme as [L HL]. destruct (HLs me L HL) as [HLL Hself].
  assert (HGme : exists G, nth_error Gs me = Some G).
  { destruct (nth_error Gs me) eqn:E; [eauto|]. apply nth_error_None in E. lia. }
  destruct HGme as [G HG]. destruct (HGs me G HG) as [HRG HLGm].
  unfold reduce_rank. rewrite !nth_error_map, HL, HG. cbn [option_map]. rewrite rs_segs, nsum_lengths.
  rewrite (rect_length e) by exact HRG. rewrite HLGm. change (origins Ls me) with (concat (segs me)). rewrite Nat.eqb_refl. cbn [negb].
  assert (En : n_self (comm_of L) me = O) by (unfold n_self; cbn [c_sizes comm_of]; change O with (length (@nil nat)); rewrite map_nth, Hself; reflexivity).
  rewrite En. cbn [Nat.eqb negb].
  set (slice := fun rG : nat * list (list X) => firstn (length (nth (fst rG) L [])) (skipn (before (segs (fst rG)) me) (snd rG))).
  set (slices := map slice (combine (seq 0 P) Gs)).
  assert (Hsl : forall r G, nth_error Gs r = Some G -> nth_error slices r = Some (slice (r, G))).
  { intros r G' H. unfold slices. rewrite nth_error_map. rewrite (proj2 (nth_error_combine (seq 0 P) Gs r r G')); [reflexivity|].
    split; [|exact H]. apply seq_nth'. rewrite <- HLG. apply nth_error_Some. congruence. }
  assert (HLsl : length slices = P) by (unfold slices; rewrite map_length, combine_length, seq_length; lia).
  assert (Hlen : forall r G, nth_error Gs r = Some G -> length (slice (r, G)) = length (nth r L [])).
  { intros r G' H. unfold slice. cbn [fst snd]. rewrite firstn_length, skipn_length. destruct (HGs r G' H) as [_ Q]. rewrite Q. change (origins Ls r) with (concat (segs r)).
    rewrite <- before_all.
    assert (before (segs r) (S me) <= before (segs r) (length (segs r)))%nat by (apply before_mono; unfold segs; rewrite map_length, combine_length, seq_length; unfold P in *; lia).
    rewrite (before_S (segs r) me _ (segs_nth r me L HL)), map_length in H0. lia. }
  assert (Em : messages me (c_sizes (comm_of L)) e
      (map (fun x : nat * list X => subviews 0 0 (Some (fst x)) e (recv_sizes (map comm_of Ls) (fst x)) (snd x))
           (combine (seq 0 (length (map comm_of Ls))) (map (@concat X) Gs))) = Some (map (@concat X) slices)).
  { unfold messages. cbn [comm_of c_sizes]. rewrite !map_length, HLL. apply mapM_Some, Forall2_nth. split.
    { rewrite !combine_length, !map_length, !combine_length, !seq_length, map_length. unfold P in *. lia. }
    intros r [r' [n sb]] y Hx Hy. apply nth_error_combine in Hx. destruct Hx as [E1 E2]. apply nth_error_combine in E2. destruct E2 as [E2 E3].
    rewrite nth_error_map in E2. destruct (nth_error L r) as [l|] eqn:El; [|discriminate]. injection E2 as <-.
    assert (Hr : (r < P)%nat) by (rewrite <- HLL; apply nth_error_Some; congruence).
    rewrite seq_nth' in E1 by exact Hr. injection E1 as <-.
    destruct (nth_error Gs r) as [G'|] eqn:EG; [|apply nth_error_None in EG; lia].
    rewrite nth_error_map, (Hsl r G' EG) in Hy. cbn [option_map] in Hy. injection Hy as <-.
    assert (Enl : nth r L [] = l) by (apply nth_error_nth, El).
    destruct (Nat.eqb_spec r me) as [->|Hne].
    - unfold slice. cbn [fst snd]. rewrite Hself. reflexivity.
    - rewrite nth_error_map in E3. rewrite (proj2 (nth_error_combine (seq 0 (length Ls)) (map (concat (A:=X)) Gs) r r (concat G'))) in E3.
      2:{ split; [apply seq_nth'; exact Hr|]. rewrite nth_error_map, EG. reflexivity. }
      cbn [option_map fst snd] in E3. injection E3 as <-. rewrite rs_segs.
      rewrite (subviews_nth r e _ _ 0 0 (length l) me).
      + cbn [Nat.add]. rewrite firstn_map, nsum_lengths. fold (before (segs r) me). destruct (HGs r G' EG) as [HRG' HLG'].
        rewrite slice_rows by exact HRG'. unfold slice. cbn [fst snd]. rewrite Enl.
        assert (Q : length (concat (firstn (length l) (skipn (before (segs r) me) G'))) = (length l * e)%nat).
        { rewrite (rect_length e).
          - f_equal. pose proof (Hlen r G' EG) as Q. unfold slice in Q. cbn [fst snd] in Q. rewrite Enl in Q. exact Q.
          - intros row Hrow. apply HRG'. rewrite <- (firstn_skipn (before (segs r) me) G'). apply in_or_app. right.
            rewrite <- (firstn_skipn (length l) (skipn (before (segs r) me) G')). apply in_or_app. left. exact Hrow. }
        rewrite Q, Nat.eqb_refl. reflexivity.
      + rewrite nth_error_map, (segs_nth r me L HL). cbn [option_map]. rewrite map_length, Enl. reflexivity.
      + cbn [Nat.add]. intros; congruence.
      + intros j' Hj. cbn [Nat.add] in Hj. subst j'. destruct (nth_error Ls r) as [Lr|] eqn:ELr; [|apply nth_error_None in ELr; unfold P in Hr; lia].
        apply nth_error_nth. rewrite nth_error_map, (segs_nth r r Lr ELr). cbn [option_map]. rewrite (proj2 (HLs r Lr ELr)). reflexivity. }
  rewrite Em. rewrite concat_concat_map.
  assert (HRs : rect e (concat slices)).
  { intros row Hr. apply in_concat in Hr. destruct Hr as (sl & H1 & H2). unfold slices in H1. apply in_map_iff in H1. destruct H1 as ([r G'] & <- & Hin).
    apply In_nth_error in Hin. destruct Hin as [j Hj]. apply nth_error_combine in Hj. destruct Hj as [J1 J2].
    destruct (HGs j G' J2) as [HRG' _]. apply HRG'. unfold slice in H2. cbn [fst snd] in H2.
    rewrite <- (firstn_skipn (before (segs r) me) G'). apply in_or_app. right.
    rewrite <- (firstn_skipn (length (nth r L [])) (skipn (before (segs r) me) G')). apply in_or_app. left. exact H2. }
  assert (HLc : length (concat L) = length (concat slices)).
  { rewrite <- !nsum_lengths. f_equal. apply nth_error_ext'. intros r. rewrite !nth_error_map.
    destruct (nth_error L r) as [l|] eqn:El.
    - assert (Hr : (r < P)%nat) by (rewrite <- HLL; apply nth_error_Some; congruence).
      destruct (nth_error Gs r) as [G'|] eqn:EG; [|apply nth_error_None in EG; lia].
      rewrite (Hsl r G' EG). cbn [option_map]. f_equal. rewrite (Hlen r G' EG). rewrite (nth_error_nth L r [] El). reflexivity.
    - apply nth_error_None in El. destruct (nth_error slices r) eqn:E; [|reflexivity].
      assert (r < length slices)%nat by (apply nth_error_Some; congruence). lia. }
  destruct (reduce_updates_eq e (concat L) (concat slices) (map (@length nat) L) HLc HRs) as (us & Eu & Hu).
  unfold comm_of. rewrite Eu. eexists. split; [reflexivity|]. split; [apply add_all_length|].
  intros o i. rewrite add_all_get. destruct (get_row U o i) as [x|] eqn:Ex; [|reflexivity]. cbn [option_map]. f_equal.
  destruct (get_row_some e U o i x HRU Ex) as [_ Hi].
  rewrite fold_left_sum. f_equal.
  assert (Hp : Permutation (hits o i (sch us)) (hits o i us)) by (unfold hits; apply Permutation_flat_map, Hsch).
  rewrite (sum_perm _ _ Hp), (Hu d o i Hi). f_equal. unfold contributions.
  rewrite combine_concat; [|lia|].
  2:{ intros r l m El Em'. assert (Hr : (r < P)%nat) by (rewrite <- HLL; apply nth_error_Some; congruence).
      destruct (nth_error Gs r) as [G'|] eqn:EG; [|apply nth_error_None in EG; lia]. rewrite (Hsl r G' EG) in Em'. injection Em' as <-.
      rewrite (Hlen r G' EG), (nth_error_nth L r [] El). reflexivity. }
  rewrite (flat_map_concat_map _ (combine L slices)), (flat_map_concat_map _ (combine (seq 0 (length Ls)) Gs)). f_equal.
  apply nth_error_ext'. intros r. rewrite !nth_error_map.
  destruct (Nat.lt_ge_cases r P) as [Hr|Hr].
  - destruct (nth_error L r) as [l|] eqn:El; [|apply nth_error_None in El; lia].
    destruct (nth_error Gs r) as [G'|] eqn:EG; [|apply nth_error_None in EG; lia].
    rewrite (proj2 (nth_error_combine L slices r l (slice (r, G')))) by auto.
    rewrite (proj2 (nth_error_combine (seq 0 (length Ls)) Gs r r G')) by (split; [apply seq_nth'; exact Hr|exact EG]).
    cbn [option_map fst snd]. f_equal. destruct (HGs r G' EG) as [_ HLG']. change (origins Ls r) with (concat (segs r)) in *.
    rewrite (seg_select _ (segs r) me (map (pair me) (nth r L [])) G').
    + rewrite map_length. unfold slice. cbn [fst snd]. rewrite (nth_error_nth L r [] El).
      generalize (firstn (length l) (skipn (before (segs r) me) G')) as q. clear. induction l as [|a l IH]; intros [|b q]; try reflexivity.
      cbn [combine map flat_map fst snd]. rewrite IH, Nat.eqb_refl. reflexivity.
    + apply segs_nth, HL.
    + exact HLG'.
    + intros j sg x' row Hj E Hx. apply segs_inv in E. destruct E as (L' & _ & ->). apply in_map_iff in Hx. destruct Hx as (o' & <- & _).
      cbn [fst snd]. destruct (Nat.eqb_spec j me); [contradiction|reflexivity].
  - rewrite !(proj2 (nth_error_None _ r)); [reflexivity|rewrite combine_length, seq_length; unfold P in *; lia|rewrite combine_length; lia].
Qed.
End ReduceRank.
End Reduce.
