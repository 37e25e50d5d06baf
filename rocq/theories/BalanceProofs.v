(** Load balancing: the new interval starts are keys of existing leaves, every rank gets a
    contiguous non-empty range of leaves, and the result is a consistent mesh with the same
    leaves. *)
From Verif Require Import Base MortonModel MortonProofs OctreeSpec OctreeGeom OctreeModel FindNeighbors
  MarkerProofs MarkerLoop ApplyProofs MeshSpec GhostProofs GhostExchange AdaptProofs BalanceLists.

(** * Truncated keys *)
Lemma truncate_step key b : 0 <= key < 2^64 ->
  shl64 (Z.shiftr key (3 * Z.of_nat b)) (3 * Z.of_nat b) = key / 2^(3 * Z.of_nat b) * 2^(3 * Z.of_nat b).
Proof.
  intros Hk. unfold shl64. rewrite Z.shiftr_div_pow2, Z.shiftl_mul_pow2 by lia.
  change 0xffffffffffffffff with (Z.ones 64). rewrite Z.land_ones by lia. apply Z.mod_small.
  pose proof (pow2_pos (3 * Z.of_nat b) ltac:(lia)) as Hp. set (w := 2^(3 * Z.of_nat b)) in *. clearbody w.
  pose proof (Z.mul_div_le key w Hp). pose proof (Z.div_pos key w ltac:(lia) Hp). split; [nia|lia].
Qed.
Lemma truncate_spec a key prev : 0 <= key < 2^64 -> prev < key ->
  prev < truncate a key prev <= key /\
  exists b, truncate a key prev = key / 2^(3 * Z.of_nat b) * 2^(3 * Z.of_nat b).
Proof.
  intros Hk Hp. induction a as [|a IH]; cbn [truncate]; rewrite truncate_step by exact Hk.
  - split; [|exists O; reflexivity]. change (2^(3 * Z.of_nat 0)) with 1. rewrite Z.div_1_r. lia.
  - pose proof (pow2_pos (3 * Z.of_nat (S a)) ltac:(lia)) as Hw.
    pose proof (Z.mul_div_le key _ Hw).
    destruct (Z.leb_spec (key / 2^(3 * Z.of_nat (S a)) * 2^(3 * Z.of_nat (S a))) prev) as [H'|H']; [exact IH|].
    split; [lia|]. exists (S a). reflexivity.
Qed.

Lemma aligned_key x y z k : 0 <= x < 2^21 -> 0 <= y < 2^21 -> 0 <= z < 2^21 -> 0 <= k ->
  morton3 (x / 2^k * 2^k) (y / 2^k * 2^k) (z / 2^k * 2^k) = morton3 x y z / 2^(3*k) * 2^(3*k).
Proof.
  intros Hx Hy Hz Hk. pose proof (pow2_pos k Hk) as Pk.
  assert (R : forall u, 0 <= u < 2^21 -> 0 <= u / 2^k * 2^k < 2^21).
  { intros u Hu. pose proof (Z.mul_div_le u (2^k) Pk). pose proof (Z.div_pos u (2^k) ltac:(lia) Pk). split; [nia|lia]. }
  assert (Z0 : morton3 (x / 2^k * 2^k) (y / 2^k * 2^k) (z / 2^k * 2^k) mod 2^(3*k) = 0).
  { apply Z.bits_inj'. intros n Hn. rewrite Z.bits_0.
    destruct (Z.lt_ge_cases n (3*k)) as [Hlt|Hge]; [|rewrite Z.mod_pow2_bits_high by lia; reflexivity].
    rewrite Z.mod_pow2_bits_low by lia. rewrite morton3_testbit by (auto; lia).
    assert (n / 3 < k) by (apply Z.div_lt_upper_bound; lia).
    assert (0 <= n / 3) by (apply Z.div_pos; lia).
    unfold sel3. destruct (n mod 3 =? 0); [|destruct (n mod 3 =? 1)]; rewrite Z.mul_pow2_bits_low by lia; reflexivity. }
  pose proof (morton3_div _ _ _ k (R x Hx) (R y Hy) (R z Hz) Hk) as D. rewrite !Z.div_mul in D by lia.
  rewrite (morton3_div x y z k Hx Hy Hz Hk) in D. rewrite D.
  pose proof (Z.div_mod (morton3 (x / 2^k * 2^k) (y / 2^k * 2^k) (z / 2^k * 2^k)) (2^(3*k))
     ltac:(pose proof (pow2_pos (3*k) ltac:(lia)); lia)) as DM. rewrite Z0 in DM. lia.
Qed.

(** A truncated leaf key is the key of a leaf. *)
Lemma truncated_leaf g L X b : wf_geom g -> tiles g L -> In X L -> 0 <= b ->
  exists B, In B L /\ zkey g B = zkey g X / 2^(3*b) * 2^(3*b).
Proof.
  intros WF HT HX Hb0. pose proof (tiles_valid g L X HT HX) as HV. pose proof (proj1 HV) as HlX.
  destruct (Z.le_gt_cases b (lmax g - lev X)) as [Hb|Hb].
  - exists X. split; [exact HX|]. rewrite zkey_mk by assumption.
    replace (3 * (lmax g - lev X)) with (3 * (lmax g - lev X - b) + 3 * b) by lia. rewrite Z.pow_add_r by lia.
    rewrite Z.mul_assoc, Z.div_mul; [reflexivity|]. pose proof (pow2_pos (3*b) ltac:(lia)); lia.
  - pose proof (corner_in_dom g X HV) as HcD. pose proof (in_dom_21 g WF _ HcD) as R.
    pose proof (pow2_pos b ltac:(lia)) as Pb.
    set (p := pt_of (fun a => pc (corner g X) a / 2^b * 2^b)).
    assert (Hp : in_dom g p).
    { intros a. unfold p. rewrite pc_pt_of. specialize (HcD a).
      pose proof (Z.mul_div_le (pc (corner g X) a) (2^b) Pb). pose proof (Z.div_pos (pc (corner g X) a) (2^b) ltac:(lia) Pb).
      split; [nia|lia]. }
    assert (Ekey : pkey p = zkey g X / 2^(3*b) * 2^(3*b)).
    { rewrite (zkey_corner g WF X HV). unfold pkey, p. cbn [pt_of ptx pty ptz].
      apply aligned_key; [apply (R AX)|apply (R AY)|apply (R AZ)|lia]. }
    destruct (tiles_leaf g L p HT Hp) as (B & HB & HcB). exists B. split; [exact HB|].
    pose proof (tiles_valid g L B HT HB) as HVB. pose proof (proj1 HVB) as HlB.
    pose proof HcB as Kc. apply (covers_key g WF B p HVB Hp) in Kc. rewrite Ekey in Kc.
    set (s := lmax g - lev B) in *. assert (Hs : 0 <= s) by lia.
    pose proof (zkey_mk g WF B HVB) as EB. fold s in EB.
    destruct (Z.le_gt_cases s b) as [Hsb|Hsb].
    + rewrite EB in Kc |- *. replace (3*b) with (3*(b-s) + 3*s) in Kc |- * by lia.
      rewrite Z.pow_add_r in Kc |- * by lia.
      pose proof (pow2_pos (3*s) ltac:(lia)) as Ps.
      set (q := zkey g X / (2^(3*(b-s)) * 2^(3*s))) in *. set (w := 2^(3*s)) in *. set (u := 2^(3*(b-s))) in *.
      clearbody q w u. rewrite Z.mul_assoc in Kc |- *. set (c := q * u) in *. clearbody c. clear -Kc Ps.
      assert (mk B = c) by nia. congruence.
    + exfalso. assert (EqB : B = X).
      { apply (tiles_unique g L (corner g X) B X HT HcD HB HX); [|apply corner_covers; exact HV].
        apply (covers_key g WF B _ HVB HcD). rewrite <- (zkey_corner g WF X HV). fold s.
        pose proof (pow2_pos (3*b) ltac:(lia)) as Pw.
        pose proof (Z.div_mod (zkey g X) (2^(3*b)) ltac:(lia)) as DM.
        pose proof (Z.mod_pos_bound (zkey g X) (2^(3*b)) Pw) as MB.
        assert (Es : 2^(3*s) = 2^(3*(s-b)) * 2^(3*b)) by (rewrite <- Z.pow_add_r by lia; f_equal; lia).
        rewrite EB in *. rewrite Es in *.
        set (q := zkey g X / 2^(3*b)) in *. set (r := zkey g X mod 2^(3*b)) in *. set (w := 2^(3*b)) in *.
        set (u := 2^(3*(s-b))) in *. set (z := zkey g X) in *. set (k := mk B) in *. clearbody q r w u z k.
        clear -DM MB Kc Pw. split; [lia|].
        assert (q + 1 <= k * u + u); [|nia]. assert (q < k * u + u); [|lia].
        replace (k * (u * w) + u * w) with ((k * u + u) * w) in Kc by ring. nia. }
      subst B. lia.
Qed.

(** Truncating increasing leaf keys keeps them increasing. *)
Lemma truncate_all_spec g L level keys : wf_geom g -> tiles g L -> forall prev,
  StronglySorted Z.lt (prev :: keys) -> (forall k, In k keys -> exists X, In X L /\ zkey g X = k) ->
  StronglySorted Z.lt (prev :: truncate_all level keys prev) /\
  Forall2 (fun t k => t <= k) (truncate_all level keys prev) keys /\
  (forall t, In t (truncate_all level keys prev) -> exists B, In B L /\ zkey g B = t).
Proof.
  intros WF HT. induction keys as [|k keys IH]; intros prev HS HL; cbn [truncate_all].
  - split; [exact HS|]. split; [constructor|intros t []].
  - destruct (HL k (or_introl eq_refl)) as (X & HX & EX). pose proof (tiles_valid g L X HT HX) as HV.
    pose proof (zkey_nonneg g WF X HV) as H0. pose proof (zkey_lt g WF X HV) as H1.
    pose proof (wf_max20 g WF). pose proof (proj1 HV).
    pose proof (pow2_pos (3*(lmax g - lev X)) ltac:(lia)) as P0.
    assert (HB : 2^(3*lmax g) <= 2^60) by (apply Z.pow_le_mono_r; lia).
    assert (Hk : 0 <= k < 2^64) by (subst k; change (2^64) with 18446744073709551616; change (2^60) with 1152921504606846976 in HB; lia).
    inversion HS as [|? ? HS1 HF]; subst. pose proof (Forall_inv HF) as Hpk. cbn in Hpk.
    destruct (truncate_spec level (zkey g X) prev Hk Hpk) as [HT1 (b & HT2)].
    set (t := truncate level (zkey g X) prev) in *. cbv zeta.
    assert (HS' : StronglySorted Z.lt (t :: keys)).
    { inversion HS1 as [|? ? HS2 HF2]; subst. constructor; [exact HS2|]. rewrite Forall_forall in HF2 |- *. intros y Hy. specialize (HF2 y Hy). lia. }
    destruct (IH t HS') as (A1 & A2 & A3); [intros y Hy; apply HL; right; exact Hy|].
    split; [|split].
    + constructor; [exact A1|]. constructor; [lia|]. inversion A1 as [|? ? _ HF3]; subst.
      rewrite Forall_forall in HF3 |- *. intros y Hy. specialize (HF3 y Hy). lia.
    + constructor; [lia|exact A2].
    + intros y [<-|Hy]; [|apply A3, Hy]. rewrite HT2. apply truncated_leaf; auto. lia.
Qed.

Lemma SS_nth {A} (R : A -> A -> Prop) l : StronglySorted R l -> forall i j x y, (i < j)%nat ->
  nth_error l i = Some x -> nth_error l j = Some y -> R x y.
Proof.
  induction 1 as [|z l HS IH HF]; intros i j x y Hij Hi Hj; [destruct i; discriminate|].
  destruct j as [|j]; [lia|]. destruct i as [|i]; cbn [nth_error] in *.
  - injection Hi as ->. rewrite Forall_forall in HF. apply HF. eapply nth_error_In, Hj.
  - apply (IH i j); auto. lia.
Qed.

(** * Prefix counts *)
Definition before {A} (ls : list (list A)) (r : nat) : nat := length (concat (firstn r ls)).
Lemma before_S {A} (ls : list (list A)) r l : nth_error ls r = Some l -> before ls (S r) = (before ls r + length l)%nat.
Proof.
  unfold before. revert r. induction ls as [|x ls IH]; intros [|r] H; try discriminate; cbn [nth_error] in H.
  - injection H as ->. cbn [firstn concat length]. rewrite app_nil_r. reflexivity.
  - cbn [firstn concat]. rewrite !app_length. specialize (IH r H). cbn [firstn] in IH |- *. rewrite IH. lia.
Qed.
Lemma before_mono {A} (ls : list (list A)) a b : (a <= b)%nat -> (before ls a <= before ls b)%nat.
Proof.
  unfold before. revert a b. induction ls as [|x ls IH]; intros a b H; [rewrite !firstn_nil; lia|].
  destruct a as [|a]; [cbn; lia|]. destruct b as [|b]; [lia|]. cbn [firstn concat]. rewrite !app_length. specialize (IH a b). lia.
Qed.
Lemma before_all {A} (ls : list (list A)) : before ls (length ls) = length (concat ls).
Proof. unfold before. rewrite firstn_all. reflexivity. Qed.
Lemma before_ge {A} (ls : list (list A)) : (forall l, In l ls -> l <> []) -> (length ls <= length (concat ls))%nat.
Proof.
  induction ls as [|x ls IH]; intros H; [cbn; lia|]. cbn [length concat]. rewrite app_length.
  specialize (IH (fun l Hl => H l (or_intror Hl))). destruct x; [destruct (H [] (or_introl eq_refl) eq_refl)|cbn; lia].
Qed.
(** Every position of a concatenation belongs to one of the lists. *)
Lemma concat_pos {A} (ls : list (list A)) : forall c, (c < length (concat ls))%nat ->
  exists r l, nth_error ls r = Some l /\ (before ls r <= c < before ls (S r))%nat /\
    nth_error l (c - before ls r) = nth_error (concat ls) c.
Proof.
  induction ls as [|x ls IH]; intros c Hc; [cbn in Hc; lia|]. cbn [concat] in Hc |- *. rewrite app_length in Hc.
  destruct (Nat.lt_ge_cases c (length x)) as [H|H].
  - exists O, x. split; [reflexivity|]. rewrite nth_error_app1 by exact H. unfold before. cbn [firstn concat length]. rewrite app_nil_r.
    split; [lia|]. f_equal. lia.
  - destruct (IH (c - length x)%nat ltac:(lia)) as (r & l & H1 & H2 & H3). exists (S r), l. split; [exact H1|].
    unfold before in *. cbn [firstn concat] in *. rewrite !app_length. rewrite nth_error_app2 by exact H. rewrite <- H3.
    split; [lia|]. f_equal. lia.
Qed.

(** A strictly increasing list of leaf keys designates strictly increasing positions. *)
Lemma positions g L J : zsorted g L -> StronglySorted Z.lt J ->
  (forall t, In t J -> exists B, In B L /\ zkey g B = t) ->
  exists cs, length cs = length J /\ StronglySorted lt cs /\
    forall i t, nth_error J i = Some t -> exists c B, nth_error cs i = Some c /\ nth_error L c = Some B /\ zkey g B = t.
Proof.
  intros HS. induction J as [|t J IH]; intros HJ HL.
  - exists []. split; [reflexivity|]. split; [constructor|]. intros [|i]; discriminate.
  - inversion HJ as [|? ? HJ1 HF]; subst. destruct IH as (cs & E & S1 & H1); [exact HJ1|intros; apply HL; right; assumption|].
    destruct (HL t (or_introl eq_refl)) as (B & HB & EB). apply In_nth_error in HB. destruct HB as [c Hc].
    exists (c :: cs). split; [cbn; congruence|]. split.
    + constructor; [exact S1|]. rewrite Forall_forall. intros c' Hc'. apply In_nth_error in Hc'. destruct Hc' as [i Hi].
      destruct (nth_error J i) as [t'|] eqn:Et.
      2:{ exfalso. apply nth_error_None in Et. assert (i < length cs)%nat by (apply nth_error_Some; congruence). lia. }
      destruct (H1 i t' Et) as (c'' & B' & E1 & E2 & E3). rewrite Hi in E1. injection E1 as <-.
      rewrite Forall_forall in HF. specialize (HF t' (nth_error_In _ _ Et)).
      destruct (Nat.lt_trichotomy c c') as [H|[H|H]]; [exact H|exfalso|exfalso].
      * subst c'. rewrite Hc in E2. injection E2 as ->. lia.
      * pose proof (SS_nth _ _ HS c' c B' B H E2 Hc) as Q. cbn in Q. lia.
    + intros [|i] t' Ht'; cbn [nth_error] in *; [injection Ht' as <-; eauto|apply H1, Ht'].
Qed.
