(** Load balancing, main results. *)
From Verif Require Import Base MortonModel MortonProofs OctreeSpec OctreeGeom OctreeModel FindNeighbors
  MarkerProofs MarkerLoop ApplyProofs MeshSpec GhostProofs GhostExchange AdaptProofs BalanceLists BalanceProofs.

Lemma cut_spec (h : nat -> nat) : forall n a, (forall r, (h r <= h (S r))%nat) ->
  cut (h a) (map (fun r => Z.of_nat (h (S r) - h r)) (seq a n)) = map (fun r => seq (h r) (h (S r) - h r)) (seq a n).
Proof.
  induction n as [|n IH]; intros a Hm; [reflexivity|]. cbn [seq map cut]. rewrite Nat2Z.id. f_equal.
  replace (h a + (h (S a) - h a))%nat with (h (S a)) by (specialize (Hm a); lia). apply IH, Hm.
Qed.

Lemma mapM_pure {A B} (f : A -> option B) (h : A -> B) l : (forall x, In x l -> f x = Some (h x)) -> mapM f l = Some (map h l).
Proof.
  induction l as [|x l IH]; intros H; [reflexivity|]. cbn [mapM map]. rewrite (H x (or_introl eq_refl)), IH; [reflexivity|].
  intros y Hy. apply H. right. exact Hy.
Qed.

Section LB.
Variable g : geom.
Hypothesis WF : wf_geom g.
Variable ord : order.
Hypothesis Hord : ord_ok ord.
Variable M : mesh.
Hypothesis HM : mesh_ok g M.
Hypothesis Hne : M <> [].
Variable level : nat.
Hypothesis Hlevel : 3 * Z.of_nat level < 64.

Let L := leaves M.
Let locs := map loc M.
Let P := length M.
Let N := length L.
Definition dflt : oct := mkOct 0 0 0 0.
Let lf (i : nat) : oct := nth i L dflt.

Lemma HTL : tiles g L. Proof. apply (ok_tiles g M HM). Qed.
Lemma HSL : zsorted g L. Proof. apply (ok_sorted g M HM). Qed.
Lemma Hlocs_len : length locs = P. Proof. unfold locs. apply map_length. Qed.
Lemma Hlocs_ne l : In l locs -> l <> [].
Proof. unfold locs. intros H. apply in_map_iff in H. destruct H as (R & <- & HR). apply (ok_nonempty g M HM R HR). Qed.
Lemma HP0 : (0 < P)%nat. Proof. unfold P. destruct M; [congruence|cbn; lia]. Qed.
Lemma HPN : (P <= N)%nat.
Proof. unfold N, L, leaves. rewrite <- Hlocs_len. apply before_ge, Hlocs_ne. Qed.

Lemma rank_loc r R : nth_error M r = Some R -> nth_error locs r = Some (loc R).
Proof. intros H. unfold locs. rewrite nth_error_map, H. reflexivity. Qed.

Lemma first_before r R : nth_error M r = Some R -> gfirst R = Z.of_nat (before locs r) /\ gtotal R = Z.of_nat N.
Proof.
  intros H. destruct (ok_numbered g M HM r R H) as [Ht Hf]. split; [|exact Ht].
  pose proof (ok_nonempty g M HM R (nth_error_In _ _ H)) as Hn.
  destruct (loc R) as [|A l] eqn:El; [congruence|]. destruct (Hf O A eq_refl) as [H0 H1].
  pose proof (rank_loc r R H) as Hl. rewrite El in Hl.
  pose proof (concat_nth locs r (A :: l) 0 A Hl eq_refl) as H2. fold (before locs r) in H2.
  unfold leaves in H1. fold locs in H1.
  assert (ND : NoDup (concat locs)) by (apply (tiles_NoDup g), HTL).
  assert (E : Z.to_nat (gfirst R + Z.of_nat 0) = (before locs r + 0)%nat).
  { apply (proj1 (NoDup_nth_error (concat locs)) ND); [apply nth_error_Some; congruence|congruence]. }
  lia.
Qed.
Lemma head_total R0 M' : M = R0 :: M' -> gtotal R0 = Z.of_nat N.
Proof. intros E. apply (first_before 0 R0). rewrite E. reflexivity. Qed.
Lemma before_len r R : nth_error M r = Some R -> before locs (S r) = (before locs r + length (loc R))%nat.
Proof. intros H. apply before_S, rank_loc, H. Qed.
Lemma before_P : before locs P = N.
Proof. rewrite <- Hlocs_len, before_all. reflexivity. Qed.
Lemma lf_nth c : (c < N)%nat -> nth_error L c = Some (lf c).
Proof. intros H. apply nth_error_nth', H. Qed.
Lemma lf_in c : (c < N)%nat -> In (lf c) L.
Proof. intros H. eapply nth_error_In, lf_nth, H. Qed.
Lemma lf_valid c : (c < N)%nat -> valid g (lf c).
Proof. intros H. apply (tiles_valid g L), lf_in, H. apply HTL. Qed.
Lemma lf_lt a b : (a < b)%nat -> (b < N)%nat -> zkey g (lf a) < zkey g (lf b).
Proof. intros H1 H2. apply (SS_nth _ _ HSL a b); [exact H1|apply lf_nth; lia|apply lf_nth; lia]. Qed.
Lemma lf_rank r R i : nth_error M r = Some R -> (i < length (loc R))%nat -> nth_error (loc R) i = Some (lf (before locs r + i)).
Proof.
  intros H Hi. destruct (nth_error (loc R) i) as [A|] eqn:E; [|apply nth_error_None in E; lia].
  pose proof (concat_nth locs r (loc R) i A (rank_loc r R H) E) as E2. fold (before locs r) in E2.
  change (concat locs) with L in E2. rewrite lf_nth in E2; [symmetry; exact E2|]. apply nth_error_Some. congruence.
Qed.

(** * Ideal cut positions *)
Let idx (i : nat) : nat := Z.to_nat (Z.of_nat N * Z.of_nat i / Z.of_nat P).
Lemma idx_Z i : Z.of_nat (idx i) = Z.of_nat N * Z.of_nat i / Z.of_nat P.
Proof. unfold idx. rewrite Z2Nat.id; [reflexivity|]. apply Z.div_pos; [lia|]. pose proof HP0. lia. Qed.
Lemma idx_lt i : (idx i < idx (S i))%nat.
Proof.
  pose proof HP0. pose proof HPN. apply Nat2Z.inj_lt. rewrite !idx_Z.
  apply Z.lt_le_trans with ((Z.of_nat N * Z.of_nat i + 1 * Z.of_nat P) / Z.of_nat P).
  - rewrite Z.div_add by lia. lia.
  - apply Z.div_le_mono; lia.
Qed.
Lemma idx_mono i j : (i <= j)%nat -> (idx i <= idx j)%nat.
Proof. intros H. induction H as [|j H IH]; [lia|]. pose proof (idx_lt j). lia. Qed.
Lemma idx_strict i j : (i < j)%nat -> (idx i < idx j)%nat.
Proof. intros H. pose proof (idx_lt i). pose proof (idx_mono (S i) j H). lia. Qed.
Lemma idx_0 : idx 0 = O.
Proof. unfold idx. rewrite Z.mul_0_r, Zdiv_0_l. reflexivity. Qed.
Lemma idx_P : idx P = N.
Proof. unfold idx. rewrite Z.div_mul; [lia|]. pose proof HP0. lia. Qed.
Lemma idx_N i : (i < P)%nat -> (idx i < N)%nat.
Proof. intros H. rewrite <- idx_P. apply idx_strict, H. Qed.

Let K (i : nat) : Z := zkey g (lf (idx i)).

Lemma keys_spec : agv 0 (map (lb_buffer g P) M) = map K (seq 0 P).
Proof.
  apply (agv_spec K (fun i => Z.of_nat (idx i)) (fun r => Z.of_nat (before locs r)) P P).
  - intros i j H _. pose proof (idx_mono i j H). lia.
  - intros a b H _. pose proof (before_mono locs a b H). lia.
  - intros i Hi. rewrite before_P. pose proof (idx_N i Hi). lia.
  - apply map_length.
  - intros i Hi. unfold before. cbn. lia.
  - intros r bc H. rewrite nth_error_map in H. destruct (nth_error M r) as [R|] eqn:ER; [|discriminate].
    injection H as <-. destruct (first_before r R ER) as [Ef Et]. pose proof (before_len r R ER) as Es.
    unfold lb_buffer. rewrite Ef, Et. split; cbn [fst snd].
    + f_equal. apply filter_ext. intros i. rewrite <- idx_Z, Es. rewrite Nat2Z.inj_add. reflexivity.
    + intros i Hi Hr. rewrite nth_error_map, (nth_error_nth' _ O) by (rewrite seq_length; lia). rewrite seq_nth by lia.
      cbn [option_map Nat.add]. rewrite <- idx_Z. rewrite Es in Hr.
      replace ((Z.of_nat (before locs r) <=? Z.of_nat (idx i)) && (Z.of_nat (idx i) <? Z.of_nat (before locs r) + Z.of_nat (length (loc R)))) with true by lia.
      rewrite (lf_rank r R _ ER) by lia. f_equal. unfold K.
      replace (before locs r + Z.to_nat (Z.of_nat (idx i) - Z.of_nat (before locs r)))%nat with (idx i) by lia.
      apply compute_morton_zkey; [exact WF|]. apply lf_valid, idx_N, Hi.
Qed.

(** The first leaf has key 0. *)
Lemma first_key : zkey g (lf 0) = 0.
Proof.
  pose proof HP0. pose proof HPN.
  assert (D : in_dom g (mkPt 0 0 0)).
  { intros a. pose proof (wf_minmax g WF). pose proof (ncell_pos g WF a (lmax g) ltac:(lia)). destruct a; cbn [pc ptx pty ptz]; lia. }
  destruct (tiles_leaf g L _ HTL D) as (B & HB & Hc).
  pose proof (tiles_valid g L B HTL HB) as HV. apply (covers_key g WF B _ HV D) in Hc.
  assert (E0 : pkey (mkPt 0 0 0) = 0) by reflexivity. rewrite E0 in Hc.
  pose proof (zkey_nonneg g WF B HV). pose proof (zkey_nonneg g WF (lf 0) (lf_valid 0 ltac:(lia))).
  apply In_nth_error in HB. destruct HB as [c Hcc]. assert (c < N)%nat by (apply nth_error_Some; congruence).
  rewrite lf_nth in Hcc by assumption. injection Hcc as Ecc. subst B.
  destruct c as [|c]; [lia|]. pose proof (lf_lt 0 (S c) ltac:(lia) ltac:(lia)). lia.
Qed.

Let ts := truncate_all level (map K (seq 1 (P - 1))) 0.
Let Jb := 0 :: ts.

Lemma K_sorted : StronglySorted Z.lt (0 :: map K (seq 1 (P - 1))).
Proof.
  assert (E : 0 = K 0) by (unfold K; rewrite idx_0, first_key; reflexivity).
  assert (G : forall n a, (a + n <= P)%nat -> StronglySorted Z.lt (map K (seq a n))).
  { induction n as [|n IH]; intros a Ha; [constructor|]. cbn [seq map]. constructor; [apply IH; lia|].
    rewrite Forall_forall. intros y Hy. apply in_map_iff in Hy. destruct Hy as (i & <- & Hi). apply in_seq in Hi.
    unfold K. apply lf_lt; [apply idx_strict; lia|apply idx_N; lia]. }
  pose proof HP0. specialize (G P O ltac:(lia)). replace P with (S (P - 1)) in G at 1 by lia. cbn [seq map] in G. rewrite E. exact G.
Qed.
Lemma K_leaf k : In k (map K (seq 1 (P - 1))) -> exists X, In X L /\ zkey g X = k.
Proof.
  intros H. apply in_map_iff in H. destruct H as (i & <- & Hi). apply in_seq in Hi. exists (lf (idx i)).
  split; [apply lf_in, idx_N; lia|reflexivity].
Qed.
Lemma truncate_all_length lv ks : forall p, length (truncate_all lv ks p) = length ks.
Proof. induction ks as [|k ks IH]; intros p; [reflexivity|]. cbn [truncate_all length]. f_equal. apply IH. Qed.
Lemma Jb_len : length Jb = P.
Proof. unfold Jb, ts. cbn [length]. rewrite truncate_all_length, map_length, seq_length. pose proof HP0. lia. Qed.

Lemma intervals_eq : lb_intervals g level M = Some (Jb ++ [morton_max64]).
Proof.
  unfold lb_intervals. cbv zeta. fold P. rewrite keys_spec, map_length, seq_length, Nat.eqb_refl. unfold Jb, ts.
  pose proof HP0. destruct P as [|n] eqn:EP; [lia|]. replace (S n - 1)%nat with n by lia. reflexivity.
Qed.

Lemma cs_exist : exists cs, length cs = P /\ StronglySorted lt cs /\ nth_error cs 0 = Some O /\
  forall i t, nth_error Jb i = Some t -> exists c, nth_error cs i = Some c /\ (c < N)%nat /\ zkey g (lf c) = t.
Proof.
  destruct (truncate_all_spec g L level _ WF HTL 0 K_sorted K_leaf) as (S1 & _ & S3). fold ts in S1, S3.
  destruct (positions g L Jb HSL S1) as (cs & El & Es & Hc).
  { intros t [<-|Ht]; [|apply S3, Ht]. exists (lf 0). split; [|apply first_key]. apply lf_in. pose proof HP0; pose proof HPN; lia. }
  exists cs. rewrite Jb_len in El. split; [exact El|]. split; [exact Es|].
  assert (Q : forall i t, nth_error Jb i = Some t -> exists c, nth_error cs i = Some c /\ (c < N)%nat /\ zkey g (lf c) = t).
  { intros i t Ht. destruct (Hc i t Ht) as (c & B & H1 & H2 & H3). exists c. split; [exact H1|].
    assert (c < N)%nat by (apply nth_error_Some; congruence). split; [assumption|]. rewrite lf_nth in H2 by assumption. congruence. }
  split; [|exact Q].
  destruct (Q O 0 eq_refl) as (c & H1 & H2 & H3). rewrite H1. f_equal. destruct c as [|c]; [reflexivity|].
  pose proof (lf_lt 0 (S c) ltac:(lia) H2). pose proof first_key. lia.
Qed.

Variable cs : list nat.
Hypothesis Hcl : length cs = P.
Hypothesis Hcs : StronglySorted lt cs.
Hypothesis Hc0 : nth_error cs 0 = Some O.
Hypothesis HcJ : forall i t, nth_error Jb i = Some t -> exists c, nth_error cs i = Some c /\ (c < N)%nat /\ zkey g (lf c) = t.

Let c (i : nat) : nat := nth i (cs ++ [N]) N.
Lemma c_0 : c 0 = O.
Proof. unfold c. destruct cs as [|x l]; [discriminate|]. cbn in Hc0. injection Hc0 as ->. reflexivity. Qed.
Lemma c_nth i : (i < P)%nat -> nth_error cs i = Some (c i).
Proof. intros H. unfold c. rewrite app_nth1 by lia. apply nth_error_nth'. lia. Qed.
Lemma c_P i : (P <= i)%nat -> c i = N.
Proof.
  intros H. unfold c. rewrite app_nth2 by lia. rewrite Hcl. destruct (i - P)%nat as [|k]; [reflexivity|]. destruct k; reflexivity.
Qed.
Lemma c_N i : (i < P)%nat -> (c i < N)%nat.
Proof.
  intros H. destruct (nth_error Jb i) as [t|] eqn:Et; [|apply nth_error_None in Et; rewrite Jb_len in Et; lia].
  destruct (HcJ i t Et) as (k & H1 & H2 & H3). rewrite c_nth in H1 by exact H. injection H1 as ->. exact H2.
Qed.
Lemma c_le_N i : (c i <= N)%nat.
Proof. destruct (Nat.lt_ge_cases i P) as [H|H]; [pose proof (c_N i H); lia|rewrite c_P by exact H; lia]. Qed.
Lemma c_strict i j : (i < j)%nat -> (i < P)%nat -> (c i < c j)%nat.
Proof.
  intros H Hi. destruct (Nat.lt_ge_cases j P) as [Hj|Hj]; [|rewrite (c_P j Hj); apply c_N, Hi].
  apply (SS_nth _ _ Hcs i j); [exact H|apply c_nth; lia|apply c_nth; lia].
Qed.
Lemma c_mono i : (c i <= c (S i))%nat.
Proof. destruct (Nat.lt_ge_cases i P) as [H|H]; [pose proof (c_strict i (S i) ltac:(lia) H); lia|rewrite !c_P by lia; lia]. Qed.
Lemma J_c i : (i < P)%nat -> nth_error Jb i = Some (zkey g (lf (c i))).
Proof.
  intros H. destruct (nth_error Jb i) as [t|] eqn:Et; [|apply nth_error_None in Et; rewrite Jb_len in Et; lia].
  destruct (HcJ i t Et) as (k & H1 & H2 & H3). rewrite c_nth in H1 by exact H. injection H1 as ->. congruence.
Qed.
Lemma lf_max i : (i < N)%nat -> zkey g (lf i) < morton_max64.
Proof.
  intros Hi. pose proof (lf_valid i Hi) as HV. pose proof (zkey_lt g WF _ HV) as H1. pose proof (wf_max20 g WF). pose proof (proj1 HV).
  pose proof (pow2_pos (3*(lmax g - lev (lf i))) ltac:(lia)) as P0.
  assert (HB : 2^(3*lmax g) <= 2^60) by (apply Z.pow_le_mono_r; lia).
  change (2^60) with 1152921504606846976 in HB. unfold morton_max64. change (2^64-1) with 18446744073709551615. lia.
Qed.

(** * New owners *)
Let T (r : nat) : Z := nth r (map (head_key g) locs ++ [morton_max64]) 0.
Lemma T_lf r : (r < P)%nat -> T r = zkey g (lf (before locs r)).
Proof.
  intros H. unfold T. rewrite app_nth1 by (rewrite map_length, Hlocs_len; exact H).
  destruct (nth_error M r) as [R|] eqn:ER; [|apply nth_error_None in ER; unfold P in H; lia].
  pose proof (rank_loc r R ER) as Hl. apply (map_nth_error (head_key g)) in Hl. apply (nth_error_nth _ _ 0) in Hl. rewrite Hl.
  pose proof (ok_nonempty g M HM R (nth_error_In _ _ ER)) as Hn. destruct (loc R) as [|A l] eqn:E; [congruence|].
  pose proof (lf_rank r R 0 ER) as Hf. rewrite E in Hf. specialize (Hf ltac:(cbn; lia)). cbn [nth_error] in Hf.
  rewrite Nat.add_0_r in Hf. injection Hf as <-. reflexivity.
Qed.
Lemma T_P : T P = morton_max64.
Proof. unfold T. rewrite app_nth2 by (rewrite map_length, Hlocs_len; lia). rewrite map_length, Hlocs_len, Nat.sub_diag. reflexivity. Qed.
Lemma before_strict r s : (r < s)%nat -> (s <= P)%nat -> (before locs r < before locs s)%nat.
Proof.
  intros H Hs. pose proof (before_mono locs (S r) s H) as B.
  destruct (nth_error M r) as [R|] eqn:ER; [|apply nth_error_None in ER; unfold P in *; lia].
  pose proof (before_len r R ER). pose proof (ok_nonempty g M HM R (nth_error_In _ _ ER)). destruct (loc R); [congruence|cbn in *; lia].
Qed.
Lemma T_mono a b : (a <= b)%nat -> (b <= P)%nat -> T a <= T b.
Proof.
  intros H Hb. destruct (Nat.eq_dec a b) as [->|Hn]; [lia|]. destruct (Nat.eq_dec b P) as [->|HbP].
  - rewrite T_P, T_lf by lia. pose proof (before_strict a P ltac:(lia) ltac:(lia)). rewrite before_P in *. pose proof (lf_max (before locs a) ltac:(lia)). lia.
  - rewrite !T_lf by lia. pose proof (before_strict a b ltac:(lia) ltac:(lia)). pose proof (before_strict b P ltac:(lia) ltac:(lia)). rewrite before_P in *.
    pose proof (lf_lt (before locs a) (before locs b) ltac:(lia) ltac:(lia)). lia.
Qed.
(** Key intervals of the old owners correspond to index intervals. *)
Lemma T_range r k : (r < P)%nat -> (k < N)%nat -> (T r <= zkey g (lf k) < T (S r) <-> (before locs r <= k < before locs (S r))%nat).
Proof.
  intros Hr Hk. pose proof (before_strict r P Hr ltac:(lia)). rewrite before_P in *.
  assert (A1 : T r <= zkey g (lf k) <-> (before locs r <= k)%nat).
  { rewrite T_lf by exact Hr. destruct (Nat.lt_trichotomy k (before locs r)) as [Q|[Q|Q]].
    - pose proof (lf_lt k (before locs r) Q ltac:(lia)). lia.
    - subst k. lia.
    - pose proof (lf_lt (before locs r) k Q ltac:(lia)). lia. }
  assert (A2 : zkey g (lf k) < T (S r) <-> (k < before locs (S r))%nat).
  { destruct (Nat.eq_dec (S r) P) as [E|E].
    - rewrite E, T_P, before_P. pose proof (lf_max k Hk). lia.
    - pose proof (before_strict (S r) P ltac:(lia) ltac:(lia)). rewrite before_P in *. rewrite T_lf by lia.
      destruct (Nat.lt_trichotomy k (before locs (S r))) as [Q|[Q|Q]].
      + pose proof (lf_lt k _ Q ltac:(lia)). lia.
      + subst k. lia.
      + pose proof (lf_lt _ k Q ltac:(lia)). lia. }
  lia.
Qed.

Lemma old_eq : fix_intervals (map (lb_old_begin g) M) morton_max64 = map (head_key g) locs ++ [morton_max64].
Proof.
  rewrite <- heads_fix; [|exact WF|exact HTL|exact HSL|exact Hlocs_ne]. f_equal. unfold locs. rewrite map_map.
  apply map_ext_in. intros R HR. unfold lb_old_begin. destruct (loc R) as [|A l] eqn:E; [reflexivity|]. cbn [head_key].
  apply compute_morton_zkey; [exact WF|]. apply (tiles_valid g L _ HTL). unfold L, leaves. apply in_concat. exists (loc R).
  split; [apply in_map, HR|]. rewrite E. left. reflexivity.
Qed.
Let old := map (head_key g) locs ++ [morton_max64].
Lemma old_nth r : (r <= P)%nat -> nth_error old r = Some (T r).
Proof. intros H. apply nth_error_nth'. unfold old. rewrite app_length, map_length, Hlocs_len. cbn. lia. Qed.
Lemma tl_nth {A} (l : list A) r : nth_error (tl l) r = nth_error l (S r).
Proof. destruct l; [destruct r; reflexivity|reflexivity]. Qed.

Let J := Jb ++ [morton_max64].
Lemma J_nth i : (i < P)%nat -> nth_error J i = Some (zkey g (lf (c i))).
Proof. intros H. unfold J. rewrite nth_error_app1 by (rewrite Jb_len; exact H). apply J_c, H. Qed.
Lemma J_P : nth_error J P = Some morton_max64.
Proof. unfold J. rewrite nth_error_app2 by (rewrite Jb_len; lia). rewrite Jb_len, Nat.sub_diag. reflexivity. Qed.

Lemma oct_intervals_eq : lb_oct_intervals g J M = Some (map (fun i => Z.of_nat (c i)) (seq 0 P) ++ [Z.of_nat N]).
Proof.
  unfold lb_oct_intervals. cbv zeta. fold P. rewrite old_eq. fold old.
  set (h := fun r i => let mine := (T r <=? zkey g (lf (c i))) && (zkey g (lf (c i)) <? T (S r)) in
                       (mine, if mine then Z.of_nat (c i) else 0)).
  set (out := fun r => (map (fun i => snd (h r i)) (seq 0 P), length (filter (fun i => fst (h r i)) (seq 0 P)))).
  assert (PV : forall r R, nth_error M r = Some R -> lb_pivots g J P R (T r) (T (S r)) = Some (out r)).
  { intros r R HR. unfold lb_pivots. assert (Hr : (r < P)%nat) by (apply nth_error_Some; congruence).
    rewrite (mapM_pure _ (h r)).
    - unfold out. rewrite map_map. do 2 f_equal. clear. induction (seq 0 P) as [|i l IH]; [reflexivity|]. cbn [map filter].
      destruct (fst (h r i)); cbn [length]; rewrite IH; reflexivity.
    - intros i Hi. apply in_seq in Hi. rewrite J_nth by lia. unfold h. cbv zeta.
      destruct ((T r <=? zkey g (lf (c i))) && (zkey g (lf (c i)) <? T (S r))) eqn:E; [|reflexivity].
      pose proof (c_N i ltac:(lia)) as HcN.
      assert (Q : (before locs r <= c i < before locs (S r))%nat) by (apply T_range; lia).
      pose proof (before_len r R HR) as Es. destruct (first_before r R HR) as [Ef _].
      rewrite (lower_bound_morton_found g (loc R) _ (c i - before locs r) (lf (c i))); [|exact WF| | | |reflexivity].
      + rewrite Ef. do 2 f_equal. lia.
      + intros o Ho. apply (tiles_valid g L _ HTL). unfold L, leaves. apply in_concat. exists (loc R). split; [apply in_map; eapply nth_error_In, HR|exact Ho].
      + pose proof HSL as HS'. unfold L, leaves, zsorted in HS'. apply nth_error_split in HR. destruct HR as (l1 & l2 & EM & _).
        rewrite EM, map_app, concat_app in HS'. apply SS_app_inv in HS'. destruct HS' as (_ & HS' & _). cbn [map concat] in HS'.
        apply SS_app_inv in HS'. apply HS'.
      + rewrite (lf_rank r R _ HR) by lia. do 2 f_equal. lia. }
  assert (PM : mapM (fun x => let '(R, (ob, oe)) := x in lb_pivots g J P R ob oe) (combine M (combine old (tl old))) = Some (map out (seq 0 P))).
  { apply mapM_Some, Forall2_nth. split.
    - rewrite !combine_length, map_length, seq_length. unfold old. rewrite app_length, map_length, Hlocs_len. cbn [length].
      destruct (map (head_key g) locs ++ [morton_max64]) as [|z zs] eqn:Eo; [symmetry in Eo; apply app_cons_not_nil in Eo; destruct Eo|].
      apply (f_equal (@length Z)) in Eo. rewrite app_length, map_length, Hlocs_len in Eo. cbn in Eo |- *. fold P. lia.
    - intros r [R [ob oe]] o Hx Ho. apply nth_error_combine in Hx. destruct Hx as [HR Hx]. apply nth_error_combine in Hx. destruct Hx as [Hb He].
      assert (Hr : (r < P)%nat) by (apply nth_error_Some; congruence).
      rewrite tl_nth in He. rewrite old_nth in Hb, He by lia. injection Hb as <-. injection He as <-.
      rewrite nth_error_map, (nth_error_nth' _ O) in Ho by (rewrite seq_length; lia). rewrite seq_nth in Ho by lia. cbn in Ho. injection Ho as <-.
      apply PV, HR. }
  rewrite PM.
  assert (AG : agv 0 (map out (seq 0 P)) = map (fun i => Z.of_nat (c i)) (seq 0 P)).
  { apply (agv_spec _ (fun i => zkey g (lf (c i))) T P P).
    - intros i j Hij Hj. destruct (Nat.eq_dec i j) as [->|Hn]; [lia|]. pose proof (lf_lt (c i) (c j)). pose proof (c_strict i j ltac:(lia) ltac:(lia)). pose proof (c_N j Hj). lia.
    - intros a b. apply T_mono.
    - intros i Hi. rewrite T_P. apply lf_max, c_N, Hi.
    - rewrite map_length, seq_length. reflexivity.
    - intros i Hi. rewrite T_lf by apply HP0. unfold before. cbn [firstn concat length]. rewrite first_key. apply zkey_nonneg; [exact WF|]. apply lf_valid, c_N, Hi.
    - intros r bc H. rewrite nth_error_map in H. assert (Hr : (r < P)%nat).
      { destruct (nth_error (seq 0 P) r) eqn:E; [|discriminate]. rewrite <- (seq_length P 0). apply nth_error_Some. congruence. }
      rewrite (nth_error_nth' _ O) in H by (rewrite seq_length; lia). rewrite seq_nth in H by lia. cbn in H. injection H as <-.
      unfold out, slot_ok. cbn [fst snd]. split.
      + f_equal.
      + intros i Hi Hk. rewrite nth_error_map, (nth_error_nth' _ O) by (rewrite seq_length; lia). rewrite seq_nth by lia. cbn [option_map Nat.add].
        unfold h. cbv zeta. cbn [snd].
        replace ((T r <=? zkey g (lf (c i))) && (zkey g (lf (c i)) <? T (S r))) with true by lia. reflexivity. }
  rewrite AG, map_length, seq_length, Nat.eqb_refl.
  pose proof head_total as HH. destruct M as [|R0 M']; [congruence|]. do 3 f_equal. apply (HH R0 M' eq_refl).
Qed.

(** * Communicator *)
Definition cutpos (f n x : nat) : nat := Nat.min (x - f) n.
Let h (f n : nat) (r : nat) : nat := cutpos f n (c r).
Let sends1 (f n : nat) : list (list nat) := map (fun r => seq (h f n r) (h f n (S r) - h f n r)) (seq 0 P).

Let OI := map (fun i => Z.of_nat (c i)) (seq 0 P) ++ [Z.of_nat N].
Lemma OI_nth i : (i <= P)%nat -> nth_error OI i = Some (Z.of_nat (c i)).
Proof.
  intros H. unfold OI. destruct (Nat.eq_dec i P) as [->|Hn].
  - rewrite nth_error_app2; rewrite map_length, seq_length; [|lia]. rewrite Nat.sub_diag, c_P by lia. reflexivity.
  - rewrite nth_error_app1 by (rewrite map_length, seq_length; lia). rewrite nth_error_map, (nth_error_nth' _ O) by (rewrite seq_length; lia).
    rewrite seq_nth by lia. reflexivity.
Qed.
Lemma sizes_eq r R : nth_error M r = Some R ->
  lb_sizes OI P R = Some (map (fun q => Z.of_nat (h (before locs r) (length (loc R)) (S q) - h (before locs r) (length (loc R)) q)) (seq 0 P)).
Proof.
  intros HR. unfold lb_sizes. apply mapM_pure. intros q Hq. apply in_seq in Hq. rewrite !OI_nth by lia. f_equal.
  destruct (first_before r R HR) as [-> _]. unfold h, cutpos. pose proof (c_mono q).
  destruct (Z.gtb_spec (Z.min (Z.of_nat (c (S q))) (Z.of_nat (before locs r) + Z.of_nat (length (loc R)))) (Z.max (Z.of_nat (c q)) (Z.of_nat (before locs r)))); lia.
Qed.
Let sends := map (fun x => sends1 (before locs (fst x)) (length (loc (snd x)))) (combine (seq 0 P) M).

Lemma sends_eq : lb_sends g level M = Some (J, OI, sends).
Proof.
  unfold lb_sends. replace (64 <=? 3 * Z.of_nat level) with false by lia. rewrite andb_false_r.
  rewrite intervals_eq. fold J. rewrite oct_intervals_eq. fold OI P.
  assert (E : mapM (lb_sizes OI P) M = Some (map (fun x => map (fun q => Z.of_nat (h (before locs (fst x)) (length (loc (snd x))) (S q) - h (before locs (fst x)) (length (loc (snd x))) q)) (seq 0 P)) (combine (seq 0 P) M))).
  { apply mapM_Some, Forall2_nth. split; [rewrite map_length, combine_length, seq_length; fold P; lia|].
    intros r R y HR Hy. rewrite nth_error_map in Hy. assert (Hr : (r < P)%nat) by (apply nth_error_Some; congruence).
    assert (Hx : nth_error (combine (seq 0 P) M) r = Some (r, R)).
    { apply nth_error_combine. split; [|exact HR]. rewrite (nth_error_nth' _ O) by (rewrite seq_length; lia). rewrite seq_nth by lia. reflexivity. }
    rewrite Hx in Hy. cbn in Hy. injection Hy as <-. apply (sizes_eq r R HR). }
  rewrite E. do 2 f_equal. unfold sends. rewrite map_map. apply map_ext. intros [r R]. cbn [fst snd]. unfold sends1.
  assert (E0 : h (before locs r) (length (loc R)) 0 = O) by (unfold h, cutpos; rewrite c_0; reflexivity).
  rewrite <- E0 at 1. apply cut_spec. intros q. unfold h, cutpos. pose proof (c_mono q). lia.
Qed.

(** What rank [q] receives is the slice of the concatenated data between its cut positions. *)
Lemma recv_slice {A} q : (q < P)%nat -> forall (ls : list (list A)) (f : nat),
  recv (map (fun x => sends1 (fst x) (length (snd x))) (combine (map (fun i => (f + before ls i)%nat) (seq 0 (length ls))) ls)) ls q
  = Some (sl (c q - f) (c (S q) - f) (concat ls)).
Proof.
  intros Hq ls. induction ls as [|l ls IH]; intros f.
  - cbn. unfold sl. rewrite skipn_nil, firstn_nil. reflexivity.
  - cbn [length seq map combine concat]. rewrite sl_app.
    assert (E : map (fun i => (f + before (l :: ls) i)%nat) (seq 1 (length ls)) = map (fun i => (f + length l + before ls i)%nat) (seq 0 (length ls))).
    { rewrite <- seq_shift, map_map. apply map_ext. intros i. unfold before. cbn [firstn concat]. rewrite app_length. lia. }
    rewrite E. specialize (IH (f + length l)%nat). unfold recv in IH |- *.
    cbn [combine map mapM fst snd].
    assert (E1 : nth_error (sends1 (f + before (l :: ls) 0) (length l)) q =
      Some (seq (h f (length l) q) (h f (length l) (S q) - h f (length l) q))).
    { unfold sends1. rewrite nth_error_map, (nth_error_nth' _ O) by (rewrite seq_length; lia). rewrite seq_nth by lia.
      replace (f + before (l :: ls) 0)%nat with f by (unfold before; cbn; lia). reflexivity. }
    rewrite E1. rewrite pick_seq by (unfold h, cutpos; pose proof (c_mono q); lia).
    destruct (mapM _ (combine _ ls)) as [r|] eqn:Er; [|discriminate]. injection IH as IH. cbn [concat]. rewrite IH. do 2 f_equal.
    + unfold h, cutpos. pose proof (c_mono q). f_equal. lia.
    + f_equal; lia.
Qed.

Lemma exchange_slices {A} (ls : list (list A)) : map (@length A) ls = map (@length oct) locs ->
  exchange sends ls = Some (map (fun q => sl (c q) (c (S q)) (concat ls)) (seq 0 P)).
Proof.
  intros Hlen. unfold exchange.
  assert (HlP : length ls = P) by (rewrite <- (map_length (@length A)), Hlen, map_length; apply Hlocs_len).
  assert (ES : length sends = P) by (unfold sends; rewrite map_length, combine_length, seq_length; fold P; lia).
  rewrite ES. apply mapM_pure. intros q Hq. apply in_seq in Hq.
  pose proof (recv_slice q ltac:(lia) ls 0) as R. rewrite !Nat.sub_0_r in R. rewrite <- R. f_equal.
  unfold sends. apply nth_error_ext'. intros i. rewrite !nth_error_map.
  destruct (Nat.lt_ge_cases i P) as [Hi|Hi].
  - destruct (nth_error M i) as [Ri|] eqn:ER; [|apply nth_error_None in ER; unfold P in Hi; lia].
    destruct (nth_error ls i) as [l|] eqn:El; [|apply nth_error_None in El; lia].
    assert (Hx : nth_error (combine (seq 0 P) M) i = Some (i, Ri)).
    { apply nth_error_combine. split; [|exact ER]. rewrite (nth_error_nth' _ O) by (rewrite seq_length; lia). rewrite seq_nth by lia. reflexivity. }
    assert (Hy : nth_error (combine (map (fun i => (0 + before ls i)%nat) (seq 0 (length ls))) ls) i = Some (before ls i, l)).
    { apply nth_error_combine. split; [|exact El]. rewrite nth_error_map, (nth_error_nth' _ O) by (rewrite seq_length; lia). rewrite seq_nth by lia. reflexivity. }
    rewrite Hx, Hy. cbn [option_map fst snd]. do 2 f_equal.
    + assert (EB : forall a b, map (@length A) a = map (@length oct) b -> forall r, before a r = before b r).
      { clear. induction a as [|x a IH]; intros [|y b] H r; try discriminate; [unfold before; rewrite !firstn_nil; reflexivity|].
        cbn [map] in H. injection H as H1 H2. destruct r as [|r]; [reflexivity|]. specialize (IH b H2 r). unfold before in *. cbn [firstn concat]. rewrite !app_length. lia. }
      symmetry. apply EB, Hlen.
    + pose proof (rank_loc i Ri ER) as Hr. apply (map_nth_error (@length oct)) in Hr. rewrite <- Hlen in Hr. rewrite nth_error_map, El in Hr.
      cbn in Hr. congruence.
  - replace (nth_error (combine (seq 0 P) M) i) with (@None (nat * rank)).
    2:{ symmetry. apply nth_error_None. rewrite combine_length, seq_length. lia. }
    replace (nth_error (combine (map (fun i => (0 + before ls i)%nat) (seq 0 (length ls))) ls) i) with (@None (nat * list A)).
    2:{ symmetry. apply nth_error_None. rewrite combine_length, map_length, seq_length. lia. }
    reflexivity.
Qed.

Let locs' := map (fun q => sl (c q) (c (S q)) L) (seq 0 P).
Lemma slices_concat {A} (l : list A) : forall n a, concat (map (fun q => sl (c q) (c (S q)) l) (seq a n)) = sl (c a) (c (a + n)) l.
Proof.
  induction n as [|n IH]; intros a.
  - cbn. rewrite Nat.add_0_r. unfold sl. rewrite Nat.sub_diag. reflexivity.
  - cbn [seq map concat]. rewrite IH. replace (a + S n)%nat with (S a + n)%nat by lia. apply sl_split; [apply c_mono|].
    clear IH. induction n as [|n IHn]; [rewrite Nat.add_0_r; lia|]. replace (S a + S n)%nat with (S (S a + n)) by lia. pose proof (c_mono (S a + n)). lia.
Qed.
Lemma locs'_concat : concat locs' = L.
Proof.
  unfold locs'. rewrite slices_concat. cbn [Nat.add]. rewrite c_0, c_P by lia. unfold sl. cbn [skipn]. rewrite Nat.sub_0_r. apply firstn_all.
Qed.
Lemma locs'_nth q : (q < P)%nat -> nth_error locs' q = Some (sl (c q) (c (S q)) L).
Proof. intros H. unfold locs'. rewrite nth_error_map, (nth_error_nth' _ O) by (rewrite seq_length; lia). rewrite seq_nth by lia. reflexivity. Qed.
Lemma locs'_len : length locs' = P.
Proof. unfold locs'. rewrite map_length, seq_length. reflexivity. Qed.
Lemma slice_length q : length (sl (c q) (c (S q)) L) = (c (S q) - c q)%nat.
Proof. apply sl_length. fold N. apply c_le_N. Qed.
Lemma slice_head q : (q < P)%nat -> exists l, sl (c q) (c (S q)) L = lf (c q) :: l.
Proof.
  intros H. pose proof (c_strict q (S q) ltac:(lia) H). pose proof (sl_nth L (c q) (c (S q)) 0) as E.
  destruct (Nat.ltb_spec 0 (c (S q) - c q)); [|lia]. rewrite Nat.add_0_r, lf_nth in E by (apply c_N, H).
  destruct (sl (c q) (c (S q)) L) as [|A l]; [discriminate|]. cbn in E. injection E as ->. eauto.
Qed.
Lemma locs'_ne l : In l locs' -> l <> [].
Proof.
  unfold locs'. intros H. apply in_map_iff in H. destruct H as (q & <- & Hq). apply in_seq in Hq.
  destruct (slice_head q ltac:(lia)) as [l ->]. discriminate.
Qed.
Lemma slice_in q A : (q < P)%nat -> In A (sl (c q) (c (S q)) L) -> exists i, (c q <= i < c (S q))%nat /\ A = lf i.
Proof.
  intros Hq HA. apply In_nth_error in HA. destruct HA as [i Hi]. rewrite sl_nth in Hi. destruct (Nat.ltb_spec i (c (S q) - c q)); [|discriminate].
  exists (c q + i)%nat. split; [lia|]. pose proof (c_le_N (S q)). rewrite lf_nth in Hi by lia. congruence.
Qed.
Lemma J_heads : J = map (head_key g) locs' ++ [morton_max64].
Proof.
  unfold J. f_equal. apply nth_error_ext'. intros i. rewrite nth_error_map. destruct (Nat.lt_ge_cases i P) as [H|H].
  - rewrite J_c, locs'_nth by exact H. cbn [option_map]. destruct (slice_head i H) as [l ->]. reflexivity.
  - replace (nth_error Jb i) with (@None Z) by (symmetry; apply nth_error_None; rewrite Jb_len; exact H).
    replace (nth_error locs' i) with (@None (list oct)) by (symmetry; apply nth_error_None; rewrite locs'_len; exact H). reflexivity.
Qed.

Lemma J_incr : strictly_increasing J = true.
Proof.
  unfold strictly_increasing. apply forallb_forall. intros [a b] Hab. apply In_nth_error in Hab. destruct Hab as [i Hi].
  apply nth_error_combine in Hi. destruct Hi as [H1 H2]. rewrite tl_nth in H2. cbn [fst snd].
  assert (HiP : (S i < length J)%nat) by (apply nth_error_Some; congruence).
  unfold J in HiP. rewrite app_length, Jb_len in HiP. cbn in HiP. rewrite J_nth in H1 by lia. injection H1 as <-.
  destruct (Nat.eq_dec (S i) P) as [E|E].
  - rewrite E, J_P in H2. injection H2 as <-. pose proof (lf_max (c i) (c_N i ltac:(lia))). lia.
  - rewrite J_nth in H2 by lia. injection H2 as <-. pose proof (lf_lt (c i) (c (S i)) (c_strict i (S i) ltac:(lia) ltac:(lia)) (c_N (S i) ltac:(lia))). lia.
Qed.

Lemma OI_len : length OI = S P.
Proof. unfold OI. rewrite app_length, map_length, seq_length. cbn. lia. Qed.
Lemma OI_pair i a b : nth_error (combine OI (tl OI)) i = Some (a, b) -> (i < P)%nat /\ a = Z.of_nat (c i) /\ b = Z.of_nat (c (S i)).
Proof.
  intros H. apply nth_error_combine in H. destruct H as [H1 H2]. rewrite tl_nth in H2.
  assert (HiP : (S i < length OI)%nat) by (apply nth_error_Some; congruence). rewrite OI_len in HiP.
  rewrite OI_nth in H1, H2 by lia. split; [lia|]. split; congruence.
Qed.

Theorem loadBalance_main : exists M', loadBalance ord g level M = Some M' /\ mesh_ok g M' /\
  map loc M' = locs' /\ leaves M' = leaves M.
Proof.
  unfold loadBalance. rewrite sends_eq, J_incr. cbn [negb].
  assert (E1 : forallb (fun p => fst p <=? snd p) (combine OI (tl OI)) = true).
  { apply forallb_forall. intros [a b] Hab. apply In_nth_error in Hab. destruct Hab as [i Hi]. apply OI_pair in Hi. destruct Hi as (_ & -> & ->).
    cbn [fst snd]. pose proof (c_mono i). lia. }
  rewrite E1. cbn [negb]. fold locs. rewrite (exchange_slices locs eq_refl). change (concat locs) with L. fold locs'.
  assert (E2 : forallb (fun x => Z.of_nat (length (fst x)) =? snd (snd x) - fst (snd x)) (combine locs' (combine OI (tl OI))) = true).
  { apply forallb_forall. intros [l [a b]] Hab. apply In_nth_error in Hab. destruct Hab as [i Hi]. apply nth_error_combine in Hi. destruct Hi as [Hl Hi].
    apply OI_pair in Hi. destruct Hi as (Hi & -> & ->). rewrite locs'_nth in Hl by exact Hi. injection Hl as <-. cbn [fst snd].
    rewrite slice_length. pose proof (c_mono i). lia. }
  rewrite E2. cbn [negb].
  assert (E3 : forallb (fun x => within g (fst x) (fst (snd x)) (snd (snd x))) (combine locs' (combine J (tl J))) = true).
  { apply forallb_forall. intros [l [a b]] Hab. apply In_nth_error in Hab. destruct Hab as [i Hi]. apply nth_error_combine in Hi. destruct Hi as [Hl Hi].
    apply nth_error_combine in Hi. destruct Hi as [Ha Hb]. rewrite tl_nth in Hb. cbn [fst snd].
    assert (HiP : (i < P)%nat) by (rewrite <- locs'_len; apply nth_error_Some; congruence).
    rewrite locs'_nth in Hl by exact HiP. injection Hl as <-. rewrite J_nth in Ha by exact HiP. injection Ha as <-.
    destruct (slice_head i HiP) as [l El]. unfold within. rewrite El.
    assert (HV : forall k, (c i <= k < c (S i))%nat -> valid g (lf k)) by (intros k Hk; apply lf_valid; pose proof (c_le_N (S i)); lia).
    pose proof (c_strict i (S i) ltac:(lia) HiP) as Hcc.
    rewrite compute_morton_zkey; [|exact WF|apply HV; lia].
    assert (Hlast : In (last (lf (c i) :: l) (lf (c i))) (sl (c i) (c (S i)) L)).
    { rewrite El. clear. generalize (lf (c i)) at 1 3 as x. revert l. induction l as [|y l IH]; intros x; [left; reflexivity|].
      cbn [last]. right. apply IH. }
    apply slice_in in Hlast; [|exact HiP]. destruct Hlast as (k & Hk & Ek). rewrite Ek.
    rewrite compute_morton_zkey; [|exact WF|apply HV, Hk]. rewrite Z.leb_refl. cbn [andb]. apply Z.ltb_lt.
    pose proof (c_le_N (S i)). destruct (Nat.eq_dec (S i) P) as [E|E].
    - rewrite E, J_P in Hb. injection Hb as <-. apply lf_max. lia.
    - rewrite J_nth in Hb by lia. injection Hb as <-. apply lf_lt; [lia|apply c_N; lia]. }
  rewrite E3. cbn [negb].
  assert (E4 : all_some_pos locs' = true).
  { apply forallb_forall. intros l Hl. pose proof (locs'_ne l Hl). destruct l; [congruence|reflexivity]. }
  rewrite E4. cbn [negb].
  assert (HT' : tiles g (concat locs')) by (rewrite locs'_concat; apply HTL).
  assert (HS' : zsorted g (concat locs')) by (rewrite locs'_concat; apply HSL).
  assert (HB' : balanced g (concat locs')) by (rewrite locs'_concat; apply (ok_balanced g M HM)).
  assert (HJ : intervals_ok g locs' J) by (rewrite J_heads; apply heads_ok; [exact WF|exact HT'|exact HS'|exact locs'_ne]).
  assert (HF : firstn (length M) OI = firsts_from 0 locs').
  { apply nth_error_ext'. intros i. fold P. rewrite nth_error_firstn. destruct (Nat.ltb_spec i P) as [Hi|Hi].
    - rewrite OI_nth by lia. rewrite (firsts_from_nth _ _ _ _ (locs'_nth i Hi)). f_equal. cbn [Z.add]. f_equal.
      assert (Q : forall k, (k <= P)%nat -> length (concat (firstn k locs')) = c k).
      { intros k Hk. unfold locs'. rewrite firstn_map. assert (ES : firstn k (seq 0 P) = seq 0 k).
        { replace P with (k + (P - k))%nat by lia. rewrite seq_app, firstn_app, seq_length, Nat.sub_diag. cbn [firstn]. rewrite app_nil_r.
          apply firstn_all2. rewrite seq_length. lia. }
        rewrite ES, slices_concat. cbn [Nat.add]. rewrite c_0, sl_length; [lia|]. fold N. apply c_le_N. }
      symmetry. apply Q. lia.
    - symmetry. apply nth_error_None. rewrite firsts_from_length, locs'_len. exact Hi. }
  assert (ET : match M with [] => 0 | R0 :: _ => gtotal R0 end = total_of locs').
  { unfold total_of. rewrite locs'_concat. 
    pose proof head_total as HH. destruct M as [|R0 M']; [congruence|]. apply (HH R0 M' eq_refl). }
  destruct (with_ghosts_spec g WF locs' J HJ HT' HB' ord Hord (firsts_from 0 locs') (total_of locs') (firsts_from_length _ _))
    as (M' & EM' & Eloc & Efst & Etot & Hsn & Hmap & Hgh).
  exists M'.
  assert (EL : leaves M' = leaves M) by (unfold leaves; rewrite Eloc; apply locs'_concat).
  split.
  { rewrite HF. clear HF. destruct M as [|R0 M0]; [congruence|]. rewrite ET. exact EM'. }
  split; [|split; [exact Eloc|exact EL]].
  constructor.
  - rewrite EL. apply HTL.
  - rewrite EL. apply (ok_balanced g M HM).
  - rewrite EL. apply HSL.
  - intros R HR. apply locs'_ne. rewrite <- Eloc. apply in_map, HR.
  - intros R HR. unfold leaves. rewrite Eloc. apply Hgh, HR.
  - exact Hsn.
  - exact Hmap.
  - apply numbered_intro; rewrite Eloc; assumption.
Qed.

(** Data exchanged with the same communicator keeps its global order. *)
Lemma data_moves {A} (D : list (list A)) : map (@length A) D = map (@length oct) locs ->
  exists D', exchange sends D = Some D' /\ map (@length A) D' = map (@length oct) locs' /\ concat D' = concat D.
Proof.
  intros H. rewrite (exchange_slices D H). eexists. split; [reflexivity|].
  assert (EN : length (concat D) = N).
  { unfold N, L, leaves. fold locs. clear -H. revert H. generalize locs. induction D as [|x D IH]; intros [|y l] H; try discriminate; [reflexivity|].
    cbn [map] in H. injection H as H1 H2. cbn [concat]. rewrite !app_length. rewrite (IH l H2). lia. }
  split.
  - unfold locs'. rewrite !map_map. apply map_ext. intros q. rewrite slice_length, sl_length; [reflexivity|]. rewrite EN. apply c_le_N.
  - rewrite slices_concat. cbn [Nat.add]. rewrite c_0, c_P by lia. unfold sl. cbn [skipn]. rewrite Nat.sub_0_r, <- EN. apply firstn_all.
Qed.

(** Without compaction the cut positions are the ideal ones. *)
Lemma truncate0 ks : (forall k, In k ks -> 0 <= k < 2^64) -> forall p, truncate_all 0 ks p = ks.
Proof.
  induction ks as [|k ks IH]; intros H p; [reflexivity|]. cbn [truncate_all truncate]. rewrite truncate_step by (apply H; left; reflexivity).
  change (2^(3 * Z.of_nat 0)) with 1. rewrite Z.div_1_r, Z.mul_1_r. f_equal. apply IH. intros y Hy. apply H. right. exact Hy.
Qed.
Lemma c_level0 i : level = O -> c i = idx (Nat.min i P).
Proof.
  intros E. destruct (Nat.lt_ge_cases i P) as [Hi|Hi].
  2:{ rewrite c_P by exact Hi. rewrite Nat.min_r by exact Hi. symmetry. apply idx_P. }
  rewrite Nat.min_l by lia. destruct i as [|i]; [rewrite c_0, idx_0; reflexivity|].
  pose proof (J_c (S i) Hi) as HJ. unfold Jb, ts in HJ. cbn [nth_error] in HJ. rewrite E, truncate0 in HJ.
  - rewrite nth_error_map, (nth_error_nth' _ O), seq_nth in HJ by (rewrite ?seq_length; lia). cbn [option_map Nat.add] in HJ. injection HJ as HJ.
    unfold K in HJ. pose proof (idx_N (S i) Hi) as H1. pose proof (c_N (S i) Hi) as H2.
    destruct (Nat.lt_trichotomy (c (S i)) (idx (S i))) as [Q|[Q|Q]]; [|exact Q|].
    + pose proof (lf_lt _ _ Q H1). lia.
    + pose proof (lf_lt _ _ Q H2). lia.
  - intros k Hk. destruct (K_leaf k Hk) as (X & HX & <-). apply In_nth_error in HX. destruct HX as [a Ha].
    assert (Hlt : (a < N)%nat) by (apply nth_error_Some; congruence). rewrite lf_nth in Ha by exact Hlt. injection Ha as <-.
    pose proof (lf_max a Hlt) as Q. unfold morton_max64 in Q. pose proof (zkey_nonneg g WF _ (lf_valid a Hlt)).
    change (2^64-1) with 18446744073709551615 in Q. change (2^64) with 18446744073709551616. lia.
Qed.
Lemma idx_step i : Z.of_nat N / Z.of_nat P <= Z.of_nat (idx (S i)) - Z.of_nat (idx i) <= Z.of_nat N / Z.of_nat P + 1.
Proof.
  pose proof HP0 as Hp. rewrite !idx_Z. replace (Z.of_nat N * Z.of_nat (S i)) with (Z.of_nat N * Z.of_nat i + Z.of_nat N) by lia.
  set (x := Z.of_nat N * Z.of_nat i). set (n := Z.of_nat N). set (d := Z.of_nat P). assert (0 < d) by lia. clearbody x n d.
  pose proof (Z.div_mod x d ltac:(lia)). pose proof (Z.mod_pos_bound x d ltac:(lia)).
  pose proof (Z.div_mod n d ltac:(lia)). pose proof (Z.mod_pos_bound n d ltac:(lia)).
  pose proof (Z.div_mod (x + n) d ltac:(lia)). pose proof (Z.mod_pos_bound (x + n) d ltac:(lia)). nia.
Qed.
Lemma sizes_level0 l : level = O -> In l locs' -> Z.of_nat N / Z.of_nat P <= Z.of_nat (length l) <= Z.of_nat N / Z.of_nat P + 1.
Proof.
  intros E Hl. unfold locs' in Hl. apply in_map_iff in Hl. destruct Hl as (q & <- & Hq). apply in_seq in Hq.
  rewrite slice_length, !c_level0 by exact E. rewrite !Nat.min_l by lia. pose proof (idx_step q). pose proof (idx_lt q). lia.
Qed.
End LB.

(** Result of loadBalance: leaves unchanged, consistent mesh, same number of ranks; any
    per-octant data sent along the returned communicator keeps its global order; with
    [level] = 0 the ranks are balanced to within one octant. *)
Theorem loadBalance_full g ord level M : wf_geom g -> ord_ok ord -> mesh_ok g M -> M <> [] -> 3 * Z.of_nat level < 64 ->
  exists M' sends J OI, loadBalance ord g level M = Some M' /\ mesh_ok g M' /\ length M' = length M /\ leaves M' = leaves M /\
    lb_sends g level M = Some (J, OI, sends) /\
    (forall A (D : list (list A)), map (@length A) D = map (@length oct) (map loc M) ->
       exists D', exchange sends D = Some D' /\ map (@length A) D' = map (@length oct) (map loc M') /\ concat D' = concat D) /\
    (level = O -> forall R, In R M' ->
       Z.of_nat (length (leaves M)) / Z.of_nat (length M) <= Z.of_nat (length (loc R)) <= Z.of_nat (length (leaves M)) / Z.of_nat (length M) + 1).
Proof.
  intros WF Hord HM Hne Hlv.
  destruct (cs_exist g WF M HM Hne level) as (cs & H1 & H2 & H3 & H4).
  destruct (loadBalance_main g WF ord Hord M HM Hne level Hlv cs H1 H2 H3 H4) as (M' & E1 & E2 & E3 & E4).
  exists M'. do 3 eexists. split; [exact E1|]. split; [exact E2|]. split.
  { rewrite <- (map_length loc M'), E3, map_length, seq_length. reflexivity. }
  split; [exact E4|]. split; [eapply sends_eq; eassumption|]. split.
  - intros A D HD. rewrite E3. eapply data_moves; eassumption.
  - intros E R HR. assert (Hl : In (loc R) (map loc M')) by apply in_map, HR. rewrite E3 in Hl.
    eapply sizes_level0; eassumption.
Qed.
