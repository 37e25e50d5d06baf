(** List lemmas for load balancing: gathering variable counts in place, slices of a
    concatenation, binary search. *)
From Verif Require Import Base MortonModel MortonProofs OctreeSpec OctreeGeom OctreeModel FindNeighbors
  MarkerProofs MarkerLoop ApplyProofs MeshSpec GhostProofs GhostExchange.

Lemma down_closed (q : nat -> bool) P :
  (forall i j, (i <= j)%nat -> (j < P)%nat -> q j = true -> q i = true) ->
  exists e, (e <= P)%nat /\ forall i, (i < P)%nat -> (q i = true <-> (i < e)%nat).
Proof.
  induction P as [|n IH]; intros H; [exists O; split; [lia|intros; lia]|].
  destruct IH as (e & He & HI); [intros i j Hij Hj; apply H; lia|].
  destruct (q n) eqn:Q.
  - exists (S n). split; [lia|]. intros i Hi. split; [lia|]. intros _. apply (H i n); [lia|lia|exact Q].
  - exists e. split; [lia|]. intros i Hi. destruct (Nat.eq_dec i n) as [->|Hn].
    + rewrite Q. split; [discriminate|lia].
    + apply HI. lia.
Qed.

Lemma filter_none {A} (f : A -> bool) l : (forall x, In x l -> f x = false) -> filter f l = [].
Proof. induction l as [|x l IH]; intros H; [reflexivity|]. cbn. rewrite (H x (or_introl eq_refl)). apply IH. intros y Hy. apply H. right. exact Hy. Qed.
Lemma filter_all {A} (f : A -> bool) l : (forall x, In x l -> f x = true) -> filter f l = l.
Proof. induction l as [|x l IH]; intros H; [reflexivity|]. cbn. rewrite (H x (or_introl eq_refl)). f_equal. apply IH. intros y Hy. apply H. right. exact Hy. Qed.
Lemma filter_interval (f : nat -> bool) P d e : (d <= e)%nat -> (e <= P)%nat ->
  (forall i, (i < P)%nat -> (f i = true <-> (d <= i < e)%nat)) -> filter f (seq 0 P) = seq d (e - d).
Proof.
  intros Hd He H.
  replace P with (d + ((e - d) + (P - e)))%nat by lia. rewrite !seq_app, !filter_app. cbn [Nat.add].
  rewrite filter_none, filter_all, filter_none, app_nil_r; [reflexivity|..].
  - intros x Hx. apply in_seq in Hx. apply not_true_is_false. intros E. apply H in E; lia.
  - intros x Hx. apply in_seq in Hx. apply H; lia.
  - intros x Hx. apply in_seq in Hx. apply not_true_is_false. intros E. apply H in E; lia.
Qed.

(** * Slices *)
Definition sl {A} (a b : nat) (l : list A) : list A := firstn (b - a) (skipn a l).
Lemma nth_error_skipn {A} (l : list A) : forall a i, nth_error (skipn a l) i = nth_error l (a + i).
Proof.
  induction l as [|x l IH]; intros a i; [rewrite skipn_nil; destruct i, a; reflexivity|].
  destruct a as [|a]; [reflexivity|]. cbn [skipn Nat.add nth_error]. apply IH.
Qed.
Lemma nth_error_firstn {A} (l : list A) : forall n i, nth_error (firstn n l) i = if (i <? n)%nat then nth_error l i else None.
Proof.
  induction l as [|x l IH]; intros n i; [rewrite firstn_nil; destruct i, (_ <? n)%nat; reflexivity|].
  destruct n as [|n]; [destruct i; reflexivity|]. destruct i as [|i]; [reflexivity|]. cbn [firstn nth_error]. rewrite IH. reflexivity.
Qed.
Lemma sl_nth {A} (l : list A) a b i : nth_error (sl a b l) i = if (i <? b - a)%nat then nth_error l (a + i) else None.
Proof. unfold sl. rewrite nth_error_firstn, nth_error_skipn. reflexivity. Qed.
Lemma sl_length {A} (l : list A) a b : (b <= length l)%nat -> length (sl a b l) = (b - a)%nat.
Proof. intros H. unfold sl. rewrite firstn_length, skipn_length. lia. Qed.
Lemma sl_app {A} (l r : list A) a b : sl a b (l ++ r) =
  sl (Nat.min a (length l)) (Nat.min b (length l)) l ++ sl (a - length l) (b - length l) r.
Proof.
  unfold sl. rewrite skipn_app, firstn_app. f_equal.
  - destruct (Nat.le_gt_cases (length l) a) as [H|H].
    + rewrite (skipn_all2 l) by exact H. rewrite (Nat.min_r a) by lia. rewrite (skipn_all2 l) by lia. rewrite !firstn_nil. reflexivity.
    + rewrite (Nat.min_l a) by lia. destruct (Nat.le_gt_cases b (length l)).
      * rewrite (Nat.min_l b) by lia. reflexivity.
      * rewrite (Nat.min_r b) by lia. rewrite !firstn_all2; [reflexivity|rewrite skipn_length; lia..].
  - f_equal. rewrite skipn_length. lia.
Qed.
Lemma sl_split {A} (l : list A) a b c : (a <= b)%nat -> (b <= c)%nat -> sl a b l ++ sl b c l = sl a c l.
Proof.
  intros H1 H2. unfold sl. replace (skipn b l) with (skipn (b - a) (skipn a l)).
  2:{ apply nth_error_ext'. intros i. rewrite !nth_error_skipn. f_equal. lia. }
  generalize (skipn a l) as m. intros m. replace (c - a)%nat with ((b - a) + (c - b))%nat by lia.
  generalize (b - a)%nat (c - b)%nat. intros n. clear. revert m. induction n as [|n IH]; intros m k; [reflexivity|].
  destruct m as [|x m]; [rewrite skipn_nil, !firstn_nil; reflexivity|]. cbn [Nat.add firstn skipn app]. f_equal. apply IH.
Qed.
Lemma pick_seq {A} (l : list A) : forall n a, (a + n <= length l)%nat -> pick l (seq a n) = Some (sl a (a + n) l).
Proof.
  unfold pick. induction n as [|n IH]; intros a H.
  - unfold sl. replace (a + 0 - a)%nat with O by lia. reflexivity.
  - cbn [seq mapM]. destruct (nth_error l a) as [x|] eqn:E; [|apply nth_error_None in E; lia].
    rewrite IH by lia. f_equal. rewrite <- (sl_split l a (S a) (a + S n)) by lia.
    replace (S a + n)%nat with (a + S n)%nat by lia. replace (sl a (S a) l) with [x]; [reflexivity|].
    unfold sl. replace (S a - a)%nat with 1%nat by lia. apply nth_error_split in E. destruct E as (l1 & l2 & -> & <-).
    rewrite skipn_app, skipn_all, Nat.sub_diag. reflexivity.
Qed.

(** * MPI_Allgatherv in place *)
Section Agv.
Variables (v : nat -> Z) (k T : nat -> Z) (P Q : nat).
Hypothesis Hk : forall i j, (i <= j)%nat -> (j < P)%nat -> k i <= k j.
Hypothesis HTm : forall a b, (a <= b)%nat -> (b <= Q)%nat -> T a <= T b.
Hypothesis Hlast : forall i, (i < P)%nat -> k i < T Q.

Definition slot_ok (r : nat) (bc : list Z * nat) : Prop :=
  snd bc = length (filter (fun i => (T r <=? k i) && (k i <? T (S r))) (seq 0 P)) /\
  forall i, (i < P)%nat -> T r <= k i < T (S r) -> nth_error (fst bc) i = Some (v i).

Lemma agv_gen bl : forall s displ, (s + length bl = Q)%nat -> (displ <= P)%nat ->
  (forall i, (i < P)%nat -> ((i < displ)%nat <-> k i < T s)) ->
  (forall j bc, nth_error bl j = Some bc -> slot_ok (s + j) bc) ->
  agv displ bl = map v (seq displ (P - displ)).
Proof.
  induction bl as [|[buf cnt] bl IH]; intros s displ Hs Hd Hdk HS.
  - cbn [agv length] in *. replace (P - displ)%nat with O; [reflexivity|].
    destruct (Nat.eq_dec displ P) as [->|Hn]; [lia|]. exfalso.
    assert (Hlt : (displ < P)%nat) by lia. specialize (Hlast displ Hlt). rewrite <- Hs, Nat.add_0_r in Hlast.
    apply Hdk in Hlast; lia.
  - cbn [agv length] in *.
    destruct (HS O (buf, cnt) eq_refl) as [Hc Hb]. rewrite Nat.add_0_r in Hc, Hb. cbn [fst snd] in Hc, Hb.
    destruct (down_closed (fun i => k i <? T (S s)) P) as (e & He & HE).
    { intros i j Hij Hj E. specialize (Hk i j Hij Hj). lia. }
    assert (Hde : (displ <= e)%nat).
    { destruct (Nat.le_gt_cases displ e) as [H|H]; [exact H|]. exfalso.
      assert (H1 : k e < T s) by (apply Hdk; lia).
      pose proof (HTm s (S s) ltac:(lia) ltac:(lia)).
      assert (H2 : (e < e)%nat) by (apply HE; lia). lia. }
    assert (Ecnt : cnt = (e - displ)%nat).
    { rewrite Hc, (filter_interval _ P displ e Hde He), seq_length; [reflexivity|].
      intros i Hi. specialize (HE i Hi). specialize (Hdk i Hi). lia. }
    assert (E1 : firstn cnt (skipn displ buf) = map v (seq displ cnt)).
    { apply nth_error_ext'. intros i.
      replace (firstn cnt (skipn displ buf)) with (sl displ (displ + cnt) buf) by (unfold sl; f_equal; lia).
      rewrite sl_nth. destruct (Nat.ltb_spec i (displ + cnt - displ)) as [H|H].
      - rewrite nth_error_map, (nth_error_nth' _ O) by (rewrite seq_length; lia). rewrite seq_nth by lia. cbn [option_map].
        apply Hb; [lia|]. assert (Hi : (displ + i < P)%nat) by lia. pose proof (HE _ Hi) as HEi. pose proof (Hdk _ Hi) as Hdi. lia.
      - symmetry. apply nth_error_None. rewrite map_length, seq_length. lia. }
    rewrite E1. replace (displ + cnt)%nat with e by lia. rewrite (IH (S s) e); [|lia|lia| |].
    + replace (P - displ)%nat with (cnt + (P - e))%nat by lia. rewrite seq_app, map_app. replace (displ + cnt)%nat with e by lia. reflexivity.
    + intros i Hi. specialize (HE i Hi). lia.
    + intros j bc Hj. replace (S s + j)%nat with (s + S j)%nat by lia. apply HS. exact Hj.
Qed.
Lemma agv_spec bl : length bl = Q -> (forall i, (i < P)%nat -> T O <= k i) ->
  (forall r bc, nth_error bl r = Some bc -> slot_ok r bc) -> agv 0 bl = map v (seq 0 P).
Proof.
  intros HQ H0 HS. rewrite (agv_gen bl 0 0).
  - rewrite Nat.sub_0_r. reflexivity.
  - exact HQ.
  - lia.
  - intros i Hi. specialize (H0 i Hi). lia.
  - exact HS.
Qed.
End Agv.

(** * Binary search among the local octants *)
Lemma lower_bound_found g octs key j : wf_geom g ->
  (forall o, In o octs -> valid g o) -> zsorted g octs ->
  (exists o, nth_error octs j = Some o /\ zkey g o = key) ->
  forall fuel b e, 0 <= b <= Z.of_nat j -> Z.of_nat j <= e -> e < Z.of_nat (length octs) ->
  e - b < Z.of_nat fuel -> lower_bound fuel g octs b e key = Some (Z.of_nat j).
Proof.
  intros WF HV HS (o & Hj & Hkey).
  assert (MONO : forall a b x y, (a < b)%nat -> nth_error octs a = Some x -> nth_error octs b = Some y -> zkey g x < zkey g y).
  { clear -HS. induction HS as [|z l HS IH HF]; intros a b x y Hab Ha Hb; [destruct a; discriminate|].
    destruct b as [|b]; [lia|]. destruct a as [|a]; cbn [nth_error] in *.
    - injection Ha as ->. rewrite Forall_forall in HF. apply HF. eapply nth_error_In, Hb.
    - eapply (IH a b); eauto. lia. }
  induction fuel as [|fuel IH]; intros b e Hb He Hlen Hf; [lia|]. cbn [lower_bound].
  destruct (Z.ltb_spec b e) as [Hlt|Hge].
  - cbv zeta. set (pv := b + (e - b) / 2).
    assert (Hpv : b <= pv < e).
    { unfold pv. pose proof (Z.div_mod (e - b) 2 ltac:(lia)). pose proof (Z.mod_pos_bound (e - b) 2 ltac:(lia)). lia. }
    destruct (nth_error octs (Z.to_nat pv)) as [q|] eqn:Eq; [|apply nth_error_None in Eq; lia].
    rewrite compute_morton_zkey; [|exact WF|apply HV; eapply nth_error_In, Eq].
    destruct (Nat.lt_trichotomy (Z.to_nat pv) j) as [H|[H|H]].
    + pose proof (MONO _ _ q o H Eq Hj). destruct (Z.eqb_spec (zkey g q) key); [lia|]. destruct (Z.ltb_spec (zkey g q) key); [|lia].
      apply IH; lia.
    + rewrite H in Eq. rewrite Hj in Eq. injection Eq as <-. rewrite Hkey, Z.eqb_refl. f_equal. lia.
    + pose proof (MONO _ _ o q H Hj Eq). destruct (Z.eqb_spec (zkey g q) key); [lia|]. destruct (Z.ltb_spec (zkey g q) key); [lia|].
      apply IH; lia.
  - f_equal. lia.
Qed.
Lemma lower_bound_morton_found g octs key j o : wf_geom g ->
  (forall o, In o octs -> valid g o) -> zsorted g octs ->
  nth_error octs j = Some o -> zkey g o = key -> lower_bound_morton g octs key = Some (Z.of_nat j).
Proof.
  intros WF HV HS Hj Hk. unfold lower_bound_morton.
  assert (j < length octs)%nat by (apply nth_error_Some; congruence).
  destruct (length octs) as [|n] eqn:En; [lia|].
  apply lower_bound_found; eauto; rewrite ?En; lia.
Qed.
