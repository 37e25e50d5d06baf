(** Ghost discovery: rank lookup by key, ranks registered for an octant, send lists and
    ghost lists. *)
From Verif Require Import Base MortonModel MortonProofs OctreeSpec OctreeGeom OctreeModel FindNeighbors
  MarkerProofs MarkerLoop ApplyProofs MeshSpec.

(** * Binary search in the interval starts *)
Definition nondec (J : list Z) : Prop :=
  forall i j a b, (i <= j)%nat -> nth_error J i = Some a -> nth_error J j = Some b -> a <= b.

Lemma upper_bound_spec fuel J key P : forall b e,
  (forall i, 0 <= i < P -> exists v, nth_error J (Z.to_nat i) = Some v) ->
  nondec J -> 0 <= b <= e -> e <= P -> e - b < Z.of_nat fuel ->
  (forall i v, 0 <= i < b -> nth_error J (Z.to_nat i) = Some v -> v <= key) ->
  (forall i v, e <= i < P -> nth_error J (Z.to_nat i) = Some v -> key < v) ->
  exists r, upper_bound fuel J b e key = Some r /\ b <= r <= e /\
    (forall i v, 0 <= i < r -> nth_error J (Z.to_nat i) = Some v -> v <= key) /\
    (forall i v, r <= i < P -> nth_error J (Z.to_nat i) = Some v -> key < v).
Proof.
  induction fuel as [|fuel IH]; intros b e Hdef Hnd Hbe HeP Hf Hlo Hhi; [lia|].
  cbn [upper_bound]. destruct (Z.ltb_spec b e) as [Hlt|Hge].
  - cbv zeta. set (pv := b + (e - b) / 2).
    pose proof (Z.div_mod (e - b) 2 ltac:(lia)) as D. pose proof (Z.mod_pos_bound (e-b) 2 ltac:(lia)) as D2.
    assert (Hpv : b <= pv < e) by (unfold pv; lia).
    destruct (Hdef pv ltac:(lia)) as [v Hv]. rewrite Hv.
    destruct (Z.leb_spec v key) as [Hle|Hgt].
    + destruct (IH (pv + 1) e) as (r & Er & Hr & H1 & H2); try assumption; try (unfold pv in *; lia).
      { intros i w Hi Hw. destruct (Z.lt_ge_cases i b); [eapply Hlo; eauto; lia|].
        pose proof (Hnd (Z.to_nat i) (Z.to_nat pv) w v ltac:(lia) Hw Hv). lia. }
      exists r. split; [exact Er|]. split; [lia|]. auto.
    + destruct (IH b pv) as (r & Er & Hr & H1 & H2); try assumption; try (unfold pv in *; lia).
      { intros i w Hi Hw. pose proof (Hnd (Z.to_nat pv) (Z.to_nat i) v w ltac:(lia) Hv Hw). lia. }
      exists r. split; [exact Er|]. split; [lia|]. auto.
  - exists b. split; [reflexivity|]. split; [lia|]. assert (b = e) by lia. subst. auto.
Qed.

(** The rank whose half-open interval contains the key is found, also when other
    intervals are empty. *)
Lemma find_rank_spec J key r lo hi :
  nondec J -> nth_error J r = Some lo -> nth_error J (S r) = Some hi -> lo <= key < hi ->
  find_rank J key = Some (Z.of_nat r).
Proof.
  intros Hnd Hlo Hhi Hk. unfold find_rank. cbv zeta.
  assert (HlenS : (S r < length J)%nat) by (apply nth_error_Some; congruence).
  set (P := Z.of_nat (length J) - 1).
  destruct (upper_bound_spec (S (length J)) J key P 0 P) as (b & Eb & Hb & H1 & H2); try (unfold P; lia).
  { intros i Hi. destruct (nth_error J (Z.to_nat i)) eqn:E; [eauto|]. apply nth_error_None in E. unfold P in Hi. lia. }
  { exact Hnd. }
  rewrite Eb. f_equal.
  assert (HrP : 0 <= Z.of_nat r < P) by (unfold P; lia).
  assert (Z.of_nat r < b).
  { destruct (Z.lt_ge_cases (Z.of_nat r) b); [assumption|]. exfalso.
    specialize (H2 (Z.of_nat r) lo ltac:(lia)). rewrite Nat2Z.id in H2. specialize (H2 Hlo). lia. }
  assert (b <= Z.of_nat (S r)).
  { destruct (Z.lt_ge_cases (Z.of_nat (S r)) b); [|lia]. exfalso.
    specialize (H1 (Z.of_nat (S r)) hi ltac:(lia)). rewrite Nat2Z.id in H1. specialize (H1 Hhi). lia. }
  lia.
Qed.

(** Ownership of keys. *)
Section Owner.
Variable g : geom.
Hypothesis WF : wf_geom g.
Variable locs : list (list oct).
Let L := concat locs.
Variable J : list Z.

(** Interval starts that are consistent with the leaves owned by every rank. *)
Definition intervals_ok : Prop :=
  length J = S (length locs) /\ nondec J /\
  forall r l A b e, nth_error locs r = Some l -> In A l ->
    nth_error J r = Some b -> nth_error J (S r) = Some e ->
    b <= zkey g A /\ zkey g A + 2^(3 * (lmax g - lev A)) <= e.

Hypothesis HJ : intervals_ok.
Hypothesis HT : tiles g L.
Hypothesis HB : balanced g L.

Definition owns (r : nat) (A : oct) : Prop := exists l, nth_error locs r = Some l /\ In A l.

Lemma in_L_owner A : In A L <-> exists r, owns r A.
Proof.
  unfold L, owns. rewrite in_concat. split.
  - intros (l & Hl & HA). apply In_nth_error in Hl. destruct Hl as [r Hr]. eauto.
  - intros (r & l & Hr & HA). exists l. split; [eapply nth_error_In, Hr|exact HA].
Qed.
Lemma owns_in r A : owns r A -> In A L.
Proof. intros H. apply in_L_owner. eauto. Qed.

Lemma J_at r : (r <= length locs)%nat -> exists v, nth_error J r = Some v.
Proof.
  intros H. destruct HJ as (Hl & _). destruct (nth_error J r) eqn:E; [eauto|].
  apply nth_error_None in E. lia.
Qed.

Lemma owner_key A r p : owns r A -> in_dom g p -> covers g A p -> find_rank J (pkey p) = Some (Z.of_nat r).
Proof.
  intros HO Hp HC. destruct HJ as (Hl & Hnd & Hin). pose proof (owns_in r A HO) as HAL.
  destruct HO as (l & Hr & HA).
  assert (Hrl : (r < length locs)%nat) by (apply nth_error_Some; congruence).
  destruct (J_at r ltac:(lia)) as [b Hb]. destruct (J_at (S r) ltac:(lia)) as [e He].
  destruct (Hin r l A b e Hr HA Hb He).
  apply (find_rank_spec J _ r b e Hnd Hb He).
  apply (covers_key g WF) in HC; [|apply (tiles_valid g L A HT HAL)|exact Hp]. lia.
Qed.

Lemma owner_unique A r r' : owns r A -> owns r' A -> r = r'.
Proof.
  intros H H'. pose proof (tiles_valid g L A HT (owns_in _ _ H)) as Hv.
  pose proof (owner_key A r _ H (corner_in_dom g A Hv) (corner_covers g A Hv)) as E.
  pose proof (owner_key A r' _ H' (corner_in_dom g A Hv) (corner_covers g A Hv)) as E'.
  rewrite E in E'. injection E'. lia.
Qed.

(** Owner of the leaf containing a point. *)
Lemma point_owner p : in_dom g p -> exists r A, owns r A /\ covers g A p /\ find_rank J (pkey p) = Some (Z.of_nat r).
Proof.
  intros Hp. destruct (tiles_leaf g L p HT Hp) as (A & HA & HC).
  apply in_L_owner in HA. destruct HA as [r HO]. exists r, A. split; [exact HO|]. split; [exact HC|].
  eapply owner_key; eauto.
Qed.

Lemma key_valid V : valid g V -> key_at (lmax g) V = pkey (corner g V).
Proof. intros H. unfold key_at. rewrite compute_morton_zkey by assumption. apply zkey_corner; assumption. Qed.

Lemma mnext_eq V : valid g V ->
  shift_level (shift_level (zkey g V) (lev V - lmax g) + 1) (lmax g - lev V) = zkey g V + 2^(3 * (lmax g - lev V)).
Proof.
  intros Hv. destruct (proj1 Hv) as [Hl1 Hl2].
  pose proof (zkey_mk g WF V Hv) as E. pose proof (zkey_nonneg g WF V Hv). pose proof (zkey_lt g WF V Hv) as Hlt.
  pose proof (wf_max20 g WF). pose proof (wf_lmin0 g WF).
  pose proof (Z.pow_pos_nonneg 2 (3 * (lmax g - lev V)) ltac:(lia) ltac:(lia)) as Hp.
  assert (H60 : 2^(3 * lmax g) <= 2^60) by (apply Z.pow_le_mono_r; lia).
  assert (E1 : shift_level (zkey g V) (lev V - lmax g) = mk V).
  { destruct (Z.eq_dec (lev V) (lmax g)) as [He|Hne].
    - replace (lev V - lmax g) with 0 by lia. rewrite shift_level_up; [|lia|lia|].
      + rewrite E. replace (lmax g - lev V) with 0 by lia. change (2 ^ (3 * 0)) with 1. lia.
      + change (2^(3*0)) with 1. lia.
    - rewrite shift_level_down by lia. rewrite E. replace (- (lev V - lmax g)) with (lmax g - lev V) by lia.
      apply Z.div_mul. lia. }
  rewrite E1. assert (0 <= mk V) by apply morton3_nonneg.
  rewrite shift_level_up; [rewrite E, Z.mul_add_distr_r, Z.mul_1_l; reflexivity|lia|apply Z.add_nonneg_nonneg; [assumption|discriminate]|].
  rewrite E in Hlt. rewrite Z.mul_add_distr_r, Z.mul_1_l. eapply Z.le_lt_trans; [exact Hlt|]. eapply Z.le_lt_trans; [exact H60|]. reflexivity.
Qed.

(** * Ranks registered for one octant and direction *)
Lemma dir_ranks_spec A d : In A L -> direction g d -> inside g A d ->
  exists rs, dir_ranks g (lmax g) J A d = Some rs /\
    (forall z, In z rs -> exists r, z = Z.of_nat r) /\
    (forall r, In (Z.of_nat r) rs <-> exists B, owns r B /\ adjacent g A d B).
Proof.
  intros HA Hd Hin. pose proof (tiles_valid g L A HT HA) as HvA.
  unfold dir_ranks. rewrite wrapped_target by assumption. cbv zeta. set (V := target g A d).
  assert (HvV : valid g V) by (apply target_valid; assumption).
  assert (ElV : lev V = lev A) by reflexivity.
  rewrite (key_valid V HvV).
  pose proof (corner_in_dom g V HvV) as HcD. pose proof (corner_covers g V HvV) as HcC.
  destruct (point_owner _ HcD) as (r0 & C & HOC & HCC & Hfr). rewrite Hfr.
  assert (ADJ : forall B, adjacent g A d B <-> exists q, facing g A d q /\ covers g B q)
    by (intros B; apply adjacent_facing; assumption).
  destruct HJ as (HlJ & Hnd & Hjin).
  assert (Hr0 : (r0 < length locs)%nat) by (destruct HOC as (l & Hl & _); apply nth_error_Some; congruence).
  destruct (J_at r0 ltac:(lia)) as [b Hb]. destruct (J_at (S r0) ltac:(lia)) as [e He].
  replace (Z.to_nat (Z.of_nat r0 + 1)) with (S r0) by lia. rewrite He.
  rewrite <- (zkey_corner g WF V HvV). rewrite <- ElV. rewrite mnext_eq by exact HvV.
  assert (Hlow : b <= zkey g V).
  { destruct HOC as (l & Hl & HCl). destruct (Hjin r0 l C b e Hl HCl Hb He) as [H1 H2].
    apply (covers_key g WF) in HCC; [|eapply tiles_valid; [exact HT|]; eapply (owns_in r0); exists l; eauto|exact HcD].
    rewrite (zkey_corner g WF V HvV). lia. }
  destruct ((lev V <? lmax g) && (zkey g V + 2 ^ (3 * (lmax g - lev V)) <? e)) eqn:ECase.
  - (* the whole same-size neighbour belongs to one rank *)
    apply andb_true_iff in ECase. destruct ECase as [_ Hmax]. apply Z.ltb_lt in Hmax.
    assert (OWN : forall p r B, in_dom g p -> covers g V p -> owns r B -> covers g B p -> r = r0).
    { intros p r B Hp HVp HO HBp. pose proof (owner_key B r p HO Hp HBp) as E1.
      apply (covers_key g WF) in HVp; [|assumption..].
      rewrite (find_rank_spec J (pkey p) r0 b e Hnd Hb He) in E1 by lia. injection E1. lia. }
    exists [Z.of_nat r0]. split; [reflexivity|]. split; [intros z [<-|[]]; eauto|].
    intros r. split.
    + intros [E|[]]. apply Nat2Z.inj in E. subst r.
      destruct (facing_exists g WF A d HvA Hd Hin) as [q Hq].
      destruct (point_owner q ltac:(apply Hq)) as (r & B & HOB & HBq & _).
      assert (r = r0) by (eapply (OWN q); eauto; apply Hq). subst r.
      exists B. split; [exact HOB|]. apply ADJ. eauto.
    + intros (B & HOB & HAB). apply ADJ in HAB. destruct HAB as (q & Hq & HBq). left. f_equal. symmetry.
      eapply (OWN q); eauto; apply Hq.
  - clear ECase.
    destruct (Z.eq_dec (lev A) (lmax g)) as [Hmax|Hnmax].
    + (* finest level: every suboctant has the key of V *)
      assert (KEY : forall s, In s (suboctants g V d) -> key_at (lmax g) s = pkey (corner g V)).
      { intros s Hs. apply in_suboctants in Hs. destruct Hs as [Hls Hcs].
        rewrite <- (zkey_corner g WF V HvV), (zkey_mk g WF V HvV).
        unfold key_at, compute_morton. rewrite shift_level_down by lia.
        replace (- (lmax g - lev s)) with 1 by lia. replace (lmax g - lev V) with 0 by lia.
        change (2^(3*0)) with 1. rewrite !Z.mul_1_r.
        pose proof (valid_21 g WF V HvV) as HV21.
        assert (B20 : forall a, 0 <= coord V a < 2^20).
        { intros a. destruct (proj2 HvV a) as [c1 c2]. split; [exact c1|].
          pose proof (ncell_le g WF a (lev V) ltac:(destruct HvV; lia)).
          pose proof (wf_max20 g WF). pose proof (wf_lmin0 g WF).
          pose proof (Z.pow_le_mono_r 2 (lev V) 20 ltac:(lia) ltac:(lia)). lia. }
        assert (HALF : forall a, 0 <= coord s a < 2^21 /\ coord s a / 2^1 = coord V a).
        { intros a. destruct (Hcs a) as (k & Ek & Hk). pose proof (B20 a). pose proof (proj1 Hd a) as Hda.
          pose proof (proj2 (proj2 Hd) a) as Hfl.
          change (2^1) with 2.
          assert (0 <= (if d a =? -1 then 1 else 0) + k <= 1).
          { destruct (flat g a) eqn:F.
            - specialize (Hfl eq_refl). rewrite Hfl. cbn [Z.eqb]. lia.
            - destruct (Z.eqb_spec (d a) 0) as [Z0|Z0]; destruct (Z.eqb_spec (d a) (-1)); lia. }
          rewrite Ek. split; [lia|].
          symmetry. apply (Z.div_unique_pos _ 2 _ ((if d a =? -1 then 1 else 0) + k)); lia. }
        change (2^3) with (2^(3*1)). rewrite <- (morton3_div (cx s) (cy s) (cz s) 1).
        - destruct (HALF AX) as [_ HX], (HALF AY) as [_ HY], (HALF AZ) as [_ HZ].
          cbn [coord] in HX, HY, HZ. rewrite HX, HY, HZ, ?Z.mul_1_r. unfold mk. reflexivity.
        - apply (HALF AX).
        - apply (HALF AY).
        - apply (HALF AZ).
        - lia. }
      assert (E : mapM (fun s => find_rank J (key_at (lmax g) s)) (suboctants g V d)
                  = Some (map (fun _ => Z.of_nat r0) (suboctants g V d))).
      { rewrite (mapM_ext _ (fun s => Some ((fun _ => Z.of_nat r0) s))).
        - generalize (suboctants g V d) as ss. induction ss as [|s ss IHs]; [reflexivity|].
          cbn [mapM map]. rewrite IHs. reflexivity.
        - intros s Hs. rewrite (KEY s Hs). exact Hfr. }
      rewrite E. eexists. split; [reflexivity|]. split; [intros z Hz; apply in_map_iff in Hz; destruct Hz as (? & <- & _); eauto|].
      (* the only facing cell is V itself *)
      assert (FAC : forall q, facing g A d q -> q = corner g V).
      { intros q Hq. destruct Hq as (_ & Hqd & HqV & _). apply (pkey_inj g WF); [assumption..|].
        apply (covers_key g WF) in HqV; [|assumption..]. rewrite <- (zkey_corner g WF V HvV).
        fold V in HqV. replace (lmax g - lev V) with 0 in HqV by lia. change (2^(3*0)) with 1 in HqV. lia. }
      destruct (facing_exists g WF A d HvA Hd Hin) as [q0 Hq0]. pose proof (FAC q0 Hq0) as Eq0. subst q0.
      intros r. rewrite in_map_iff. split.
      * intros (s & Es & _). apply Nat2Z.inj in Es. subst r. exists C. split; [exact HOC|]. apply ADJ.
        exists (corner g V). auto.
      * intros (B & HOB & HAB). apply ADJ in HAB. destruct HAB as (q & Hq & HBq). rewrite (FAC q Hq) in HBq.
        pose proof (owner_key B r _ HOB HcD HBq) as E1. rewrite Hfr in E1. injection E1 as E1.
        assert (NE : suboctants g V d <> []).
        { intros E0. pose (s := oct_of (lev V + 1) (fun a => 2 * coord V a + (if d a =? -1 then 1 else 0))).
          assert (Hs : In s (suboctants g V d)).
          { apply in_suboctants. split; [reflexivity|]. intros a. exists 0. unfold s. rewrite coord_oct_of.
            split; [lia|]. destruct (flat g a); destruct (d a =? 0); lia. }
          rewrite E0 in Hs. destruct Hs. }
        destruct (suboctants g V d) as [|s ss]; [congruence|]. exists s. split; [exact E1|left; reflexivity].
    + (* coarser: one rank per facing suboctant *)
      assert (HlA : lev A < lmax g) by (destruct HvA; lia).
      assert (SUB : forall s, In s (suboctants g V d) -> exists r B, owns r B /\ adjacent g A d B /\
                 find_rank J (key_at (lmax g) s) = Some (Z.of_nat r)).
      { intros s Hs. destruct (suboctant_facing g WF A d s HvA Hd HlA Hin Hs) as (q & Hq & Hsq).
        assert (Hqd : in_dom g q) by apply Hq.
        assert (Els : lev s = lev A + 1) by (apply in_suboctants in Hs; rewrite (proj1 Hs); reflexivity).
        assert (Hvs : valid g s).
        { rewrite (covers_cell_at g s q Hsq). apply cell_at_valid; [destruct HvA; lia|exact Hqd]. }
        destruct (point_owner q Hqd) as (r & B & HOB & HBq & _).
        exists r, B. split; [exact HOB|]. assert (HAB : adjacent g A d B) by (apply ADJ; eauto).
        split; [exact HAB|]. rewrite key_valid by exact Hvs.
        apply (owner_key B r); [exact HOB|apply corner_in_dom, Hvs|].
        pose proof (HB A B HA (owns_in _ _ HOB) (adjacent_touch g A d B Hd HAB)).
        apply (covers_nest g B s q); [destruct Hvs; lia|exact HBq|exact Hsq|apply corner_covers, Hvs]. }
      destruct (mapM_total (fun s => find_rank J (key_at (lmax g) s)) (suboctants g V d)) as [rs Ers].
      { intros s Hs. destruct (SUB s Hs) as (r & B & _ & _ & E). eauto. }
      rewrite Ers. exists rs. split; [reflexivity|]. split.
      * intros z Hz. destruct (mapM_In _ _ _ _ Ers Hz) as (s & Hs & Es). destruct (SUB s Hs) as (r & B & _ & _ & E).
        rewrite E in Es. injection Es as <-. eauto.
      * intros r. split.
        -- intros Hz. destruct (mapM_In _ _ _ _ Ers Hz) as (s & Hs & Es). destruct (SUB s Hs) as (r' & B & HOB & HAB & E).
           rewrite E in Es. injection Es as Es. assert (r' = r) by lia. subst. eauto.
        -- intros (B & HOB & HAB). apply ADJ in HAB. destruct HAB as (q & Hq & HBq).
           pose proof (facing_suboctant g A d q HvA Hd HlA Hq) as Hs. fold V in Hs.
           assert (Hqd : in_dom g q) by apply Hq.
           destruct (SUB _ Hs) as (r' & B' & HOB' & HAB' & E').
           set (s := cell_at g (lev A + 1) q) in *.
           assert (Hvs : valid g s) by (apply cell_at_valid; [destruct HvA; lia|exact Hqd]).
           assert (r' = r).
           { rewrite key_valid in E' by exact Hvs.
             assert (HAB : adjacent g A d B) by (apply ADJ; eauto).
             pose proof (HB A B HA (owns_in _ _ HOB) (adjacent_touch g A d B Hd HAB)).
             assert (HBs : covers g B (corner g s)).
             { apply (covers_nest g B s q); [change (lev s) with (lev A + 1); lia|exact HBq|apply cell_at_covers|apply corner_covers, Hvs]. }
             pose proof (owner_key B r _ HOB (corner_in_dom g s Hvs) HBs) as E1. rewrite E' in E1. injection E1. lia. }
           subst r'. destruct (mapM_In_fwd _ _ _ _ Ers Hs) as (z & Hz & Ez). rewrite E' in Ez. injection Ez as ->. exact Hz.
Qed.

Lemma adjacent_inside A d B : valid g A -> direction g d -> adjacent g A d B -> inside g A d.
Proof. intros Hv Hd H. apply adjacent_facing in H; [|assumption..]. destruct H as (q & Hq & _). apply Hq. Qed.

Lemma oct_ranks_spec A : In A L ->
  exists rs, oct_ranks g (lmax g) J A = Some rs /\
    (forall r, In (Z.of_nat r) rs <-> exists B d, In d (directions g) /\ owns r B /\ adjacent g A d B).
Proof.
  intros HA. pose proof (tiles_valid g L A HT HA) as HvA. unfold oct_ranks.
  assert (FD : forall d, In d (filter (dir_inside g A) (directions g)) <-> In d (directions g) /\ inside g A d).
  { intros d. rewrite filter_In. split; intros [H1 H2]; (split; [exact H1|]);
      apply (dir_inside_spec g WF A d HvA (directions_spec g d H1)); exact H2. }
  destruct (mapM_total (dir_ranks g (lmax g) J A) (filter (dir_inside g A) (directions g))) as [ls El].
  { intros d Hd. apply FD in Hd. destruct Hd as [H1 H2].
    destruct (dir_ranks_spec A d HA (directions_spec g d H1) H2) as (rs & E & _). eauto. }
  rewrite El. eexists. split; [reflexivity|]. intros r. rewrite in_concat. split.
  - intros (rs & Hrs & Hr). destruct (mapM_In _ _ _ _ El Hrs) as (d & Hd & Ed). apply FD in Hd. destruct Hd as [H1 H2].
    destruct (dir_ranks_spec A d HA (directions_spec g d H1) H2) as (rs' & E & _ & HR). rewrite E in Ed. injection Ed as ->.
    apply HR in Hr. destruct Hr as (B & HO & HAB). eauto.
  - intros (B & d & Hd & HO & HAB).
    assert (Hi : inside g A d) by (eapply adjacent_inside; eauto; apply directions_spec, Hd).
    destruct (dir_ranks_spec A d HA (directions_spec g d Hd) Hi) as (rs & E & _ & HR).
    assert (HF : In d (filter (dir_inside g A) (directions g))) by (apply FD; auto).
    destruct (mapM_In_fwd _ _ _ _ El HF) as (rs' & Hrs & E'). rewrite E in E'. injection E' as <-.
    exists rs. split; [exact Hrs|]. apply HR. eauto.
Qed.

(** Octant [A] of rank [me] is registered for [r] iff a leaf of [r] touches it. *)
Lemma oct_ranks_touch A me : owns me A ->
  exists rs, oct_ranks g (lmax g) J A = Some rs /\
    (forall r, r <> me -> (In (Z.of_nat r) rs <-> exists B, owns r B /\ touch g A B)).
Proof.
  intros HO. pose proof (owns_in _ _ HO) as HA.
  destruct (oct_ranks_spec A HA) as (rs & E & HR). exists rs. split; [exact E|]. intros r Hr. rewrite HR. split.
  - intros (B & d & Hd & HB' & HAB). exists B. split; [exact HB'|]. eapply adjacent_touch; [apply directions_spec, Hd|exact HAB].
  - intros (B & HB' & T). pose proof (owns_in _ _ HB') as HBL.
    assert (NE : A <> B) by (intros ->; apply Hr; eapply owner_unique; eauto).
    destruct (touch_adjacent g A B (tiles_valid g L A HT HA) (tiles_valid g L B HT HBL) T) as (d & Hd & HAB).
    { intros p Hp HAp HBp. apply NE. eapply (tiles_unique g L p); eauto. }
    eauto.
Qed.
End Owner.
