(** Proofs about the marker correction loop of adapt: it terminates and computes the
    smallest legal decision, whatever the distribution of the octants. *)
From Verif Require Import Base MortonModel MortonProofs OctreeSpec OctreeGeom OctreeModel FindNeighbors.

(** * Marker lists as functions of the octant *)
Lemma list_as_fun (l : list oct) : forall (v : list Z) (f0 : oct -> Z), NoDup l -> length v = length l ->
  exists f, v = map f l /\ forall o, ~ In o l -> f o = f0 o.
Proof.
  induction l as [|o l IH]; intros v f0 ND HL.
  - destruct v; [|discriminate]. exists f0. split; [reflexivity|auto].
  - destruct v as [|z v]; [discriminate|]. inversion ND as [|? ? N1 N2]; subst.
    destruct (IH v f0 N2 ltac:(cbn in HL; lia)) as (f & E & Hf).
    exists (fun x => if oct_eq_dec x o then z else f x). split.
    + cbn. destruct (oct_eq_dec o o) as [_|]; [|contradiction]. f_equal. rewrite E at 1.
      apply map_ext_in. intros x Hx. destruct (oct_eq_dec x o); [subst; contradiction|reflexivity].
    + intros x Hx. destruct (oct_eq_dec x o) as [->|]; [exfalso; apply Hx; left; reflexivity|].
      apply Hf. intros H. apply Hx. right. exact H.
Qed.

Lemma NoDup_app_parts {A} (l1 l2 : list A) : NoDup (l1 ++ l2) ->
  NoDup l1 /\ NoDup l2 /\ forall x, In x l1 -> ~ In x l2.
Proof.
  induction l1 as [|x l1 IH]; cbn; intros H; [split; [constructor|split; [exact H|intros ? []]]|].
  inversion H as [|? ? N1 N2]; subst. destruct (IH N2) as (H1 & H2 & H3). rewrite in_app_iff in N1.
  split; [constructor; tauto|]. split; [exact H2|]. intros y [->|Hy]; [tauto|apply H3, Hy].
Qed.

Lemma lists_as_fun (ll : list (list oct)) : forall (vv : list (list Z)), NoDup (concat ll) ->
  Forall2 (fun l v => length v = length l) ll vv -> exists f, vv = map (map f) ll.
Proof.
  induction ll as [|l ll IH]; intros vv ND HF; inversion HF as [|? v ? vv' H1 H2]; subst.
  - exists (fun _ => 0). reflexivity.
  - cbn in ND. apply NoDup_app_parts in ND. destruct ND as (N1 & N2 & N3).
    destruct (IH vv' N2 H2) as (f0 & E0). destruct (list_as_fun l v f0 N1 H1) as (f & E & Hf).
    exists f. cbn. f_equal; [exact E|]. rewrite E0. apply map_ext_in. intros l' Hl'. apply map_ext_in.
    intros o Ho. symmetry. apply Hf. intros Hc. apply (N3 o Hc). apply in_concat. exists l'. auto.
Qed.

Fixpoint zsum (l : list Z) : Z := match l with [] => 0 | x :: l => x + zsum l end.
Lemma zsum_le {A} (f h : A -> Z) l : (forall x, In x l -> f x <= h x) -> zsum (map f l) <= zsum (map h l).
Proof.
  induction l as [|x l IH]; cbn; intros H; [lia|].
  pose proof (H x (or_introl eq_refl)). specialize (IH ltac:(intros; apply H; right; auto)). lia.
Qed.
Lemma zsum_lt {A} (f h : A -> Z) l : (forall x, In x l -> f x <= h x) -> map f l <> map h l ->
  zsum (map f l) < zsum (map h l).
Proof.
  induction l as [|x l IH]; cbn; intros H N; [congruence|].
  pose proof (H x (or_introl eq_refl)) as Hx. assert (H' : forall y, In y l -> f y <= h y) by (intros; apply H; right; auto).
  destruct (Z.eq_dec (f x) (h x)) as [E|E].
  - specialize (IH H'). assert (map f l <> map h l) by congruence. specialize (IH H0). lia.
  - pose proof (zsum_le f h l H'). lia.
Qed.
Lemma zsum_app l1 l2 : zsum (l1 ++ l2) = zsum l1 + zsum l2.
Proof. induction l1; cbn; lia. Qed.
Lemma zsum_bound {A} (f : A -> Z) l : (forall x, In x l -> -1 <= f x <= 1) ->
  - Z.of_nat (length l) <= zsum (map f l) <= Z.of_nat (length l).
Proof.
  induction l as [|x l IH]; intros H; [cbn; lia|]. pose proof (H x (or_introl eq_refl)).
  specialize (IH ltac:(intros; apply H; right; auto)). cbn [map zsum length]. lia.
Qed.

Lemma lz_eqb_eq a : forall b, lz_eqb a b = true <-> a = b.
Proof.
  induction a as [|x a IH]; intros [|y b]; cbn; split; try congruence; try discriminate.
  - intros H. apply andb_true_iff in H. destruct H as [H1 H2]. apply IH in H2. apply Z.eqb_eq in H1. congruence.
  - intros H. injection H as -> ->. rewrite Z.eqb_refl. apply IH. reflexivity.
Qed.

Lemma s32_small z : 0 <= z < 2^31 -> s32 z = z.
Proof. intros H. unfold s32. rewrite u32_small by lia. destruct (z <? 2^31) eqn:E; lia. Qed.

Section Markers.
Variable g : geom.
Hypothesis WF : wf_geom g.
Hypothesis Hmin1 : 1 <= lmin g.
Variable L : list oct.
Hypothesis HT : tiles g L.
Hypothesis HB : balanced g L.
Variable req : oct -> Z.
Hypothesis HR : good_request g L req.

Lemma L_valid A : In A L -> valid g A. Proof. apply tiles_valid; exact HT. Qed.
Lemma L_disjoint A B p : In A L -> In B L -> A <> B -> in_dom g p -> covers g A p -> ~ covers g B p.
Proof. intros HA HB' N Hp Ap Bp. apply N. eapply (tiles_unique g L p); eauto. Qed.

(** Refining everything that can be refined is always legal. *)
Lemma refine_all_legal : legal g L req (fun A => Z.min 1 (lmax g - lev A)).
Proof.
  intros A HA. destruct (HR A HA) as [R1 R2]. destruct (L_valid A HA) as [Hl _].
  split; [lia|]. split; [lia|]. split; [lia|]. split.
  - intros B HBL T. pose proof (HB A B HA HBL T). destruct (L_valid B HBL) as [Hl' _]. lia.
  - lia.
Qed.

(** * Invariant of a view of the markers *)
Definition good (f : oct -> Z) (o : oct) : Prop :=
  req o <= f o /\ forall m', legal g L req m' -> f o <= m' o.
Lemma good_bounds f o : In o L -> good f o -> -1 <= f o <= 1 /\ lmin g <= lev o + f o <= lmax g.
Proof.
  intros Ho [H1 H2]. specialize (H2 _ refine_all_legal). cbn in H2. destruct (HR o Ho). lia.
Qed.
(** The constraints on leaf [A] hold in the view [f]. *)
Definition stable (f : oct -> Z) (A : oct) : Prop :=
  (forall B, In B L -> touch g A B -> lev B + f B <= lev A + f A + 1) /\
  (f A = -1 -> forall s, sibling g A s -> In s L /\ f s = -1).

Section Rank.
Variables (lo gh : list oct).
Let st := lo ++ gh.
Hypothesis Hsub : incl st L.
Hypothesis Hnd : NoDup st.
Hypothesis Hcomp : forall A B, In A lo -> In B L -> touch g A B -> In B st.

Section Check.
Variables (i : nat) (A : oct) (f : oct -> Z).
Hypothesis HA : nth_error st i = Some A.
Hypothesis HAlo : In A lo.
Hypothesis Hgood : forall o, In o st -> good f o.

Let AL : In A L. Proof. apply Hsub. eapply nth_error_In, HA. Qed.
Let Av : valid g A := L_valid A AL.

Lemma fn_ok d : direction g d -> exists ns Bs, findNeighbors g st i d = Some ns /\ octs_at st ns Bs /\
  (forall B, In B Bs <-> In B L /\ adjacent g A d B).
Proof.
  intros Hd. destruct (findNeighbors_correct g WF L st i A HT HB Hsub HA (fun B => Hcomp A B HAlo) d Hd)
    as (ns & Bs & H1 & H2 & _ & H3). exists ns, Bs. auto.
Qed.

(** The neighbour rule computes a maximum. *)
Definition lift (B : oct) : Z := lev B - lev A + f B - 1.
Lemma nb_step_eq m n B : nth_error st n = Some B -> In B L -> -1 <= m <= 1 -> lmin g <= lev A + m <= lmax g ->
  nb_step st (map f st) A m n = Some (Z.max m (lift B)).
Proof.
  intros Hn HBL Hm Hl. unfold nb_step. rewrite Hn, nth_error_map, Hn. cbn [option_map].
  pose proof (good_bounds f B HBL (Hgood B (nth_error_In _ _ Hn))) as [b1 b2].
  pose proof (wf_max20 g WF). unfold lift.
  rewrite (u32_small (lev A + m)) by lia. rewrite (u32_small (lev B + f B - 1)) by lia.
  destruct (lev A + m <? lev B + f B - 1) eqn:E; f_equal; [|lia].
  destruct (Z_lt_ge_dec (lev B - lev A + f B - 1) 0); [lia|]. rewrite s32_small; lia.
Qed.
Lemma lift_bounds B : In B L -> In B st -> touch g A B -> lift B <= 1 /\ lev A + lift B <= lmax g.
Proof.
  intros HBL HBs T. pose proof (good_bounds f B HBL (Hgood B HBs)). pose proof (HB A B AL HBL T).
  unfold lift. lia.
Qed.

Definition mbound m := -1 <= m <= 1 /\ lmin g <= lev A + m <= lmax g.
(** Outcome of a fold that raises [m] to the lifts of the octants in [P]. *)
Definition raised (P : oct -> Prop) (m m' : Z) : Prop :=
  m <= m' /\ (forall B, P B -> lift B <= m') /\ (m' = m \/ exists B, P B /\ m' = lift B).

Lemma fold_nb ns Bs m : octs_at st ns Bs -> (forall B, In B Bs -> In B L /\ touch g A B) -> mbound m ->
  exists m', foldM (nb_step st (map f st) A) ns m = Some m' /\ mbound m' /\ raised (fun B => In B Bs) m m'.
Proof.
  intros H. revert m. induction H as [|n B ns Bs Hn H IH]; intros m HBs Hm.
  - exists m. split; [reflexivity|]. split; [exact Hm|]. split; [lia|]. split; [intros ? []|left; reflexivity].
  - cbn [foldM]. destruct (HBs B (or_introl eq_refl)) as [HBL T].
    rewrite (nb_step_eq m n B Hn HBL) by apply Hm.
    pose proof (lift_bounds B HBL (nth_error_In _ _ Hn) T) as LB.
    destruct (IH (Z.max m (lift B))) as (m' & E & Hm' & R1 & R2 & R3).
    { intros; apply HBs; right; assumption. }
    { unfold mbound in *. lia. }
    exists m'. split; [exact E|]. split; [exact Hm'|]. split; [lia|]. split.
    + intros C [->|HC]; [lia|apply R2, HC].
    + destruct R3 as [->|(C & HC & ->)]; [|right; exists C; split; [right; exact HC|reflexivity]].
      destruct (Z.max_spec m (lift B)) as [[_ ->]|[_ ->]]; [right; exists B; split; [left|]; reflexivity|left; reflexivity].
Qed.
Lemma fold_dirs ds m : (forall d, In d ds -> direction g d) -> mbound m ->
  exists m', foldM (dir_step g st (map f st) i A) ds m = Some m' /\ mbound m' /\
    raised (fun B => In B L /\ exists d, In d ds /\ adjacent g A d B) m m'.
Proof.
  revert m. induction ds as [|d ds IH]; intros m Hds Hm.
  - exists m. split; [reflexivity|]. split; [exact Hm|]. split; [lia|].
    split; [intros ? (_ & ? & [] & _)|left; reflexivity].
  - cbn [foldM]. pose proof (Hds d (or_introl eq_refl)) as Hd.
    destruct (fn_ok d Hd) as (ns & Bs & E1 & E2 & E3). unfold dir_step at 1. rewrite E1.
    destruct (fold_nb ns Bs m E2) as (m1 & F1 & Hm1 & A1 & A2 & A3).
    { intros B HBs. apply E3 in HBs. destruct HBs as [HBL HAd]. split; [exact HBL|].
      eapply adjacent_touch; eauto. }
    { exact Hm. }
    rewrite F1. destruct (IH m1) as (m2 & F2 & Hm2 & B1 & B2 & B3); [intros; apply Hds; right; assumption|exact Hm1|].
    exists m2. split; [exact F2|]. split; [exact Hm2|]. split; [lia|]. split.
    + intros B (HBL & d' & [->|Hd'] & HAd).
      * specialize (A2 B (proj2 (E3 B) (conj HBL HAd))). lia.
      * apply B2. split; [exact HBL|]. exists d'. auto.
    + destruct B3 as [->|(B & (HBL & d' & Hd' & HAd) & ->)].
      * destruct A3 as [->|(B & HBs & ->)]; [left; reflexivity|right; exists B; split; [|reflexivity]].
        apply E3 in HBs. destruct HBs. split; [assumption|]. exists d. split; [left; reflexivity|assumption].
      * right. exists B. split; [|reflexivity]. split; [exact HBL|]. exists d'. split; [right; exact Hd'|exact HAd].
Qed.

(** The sibling rule. *)
Lemma sibling_dirs_spec d : In d (sibling_dirs g A) -> lmin g < lev A ->
  direction g d /\ inside g A d /\ sibling g A (target g A d).
Proof.
  unfold sibling_dirs. rewrite in_map_iff. intros (o & <- & Ho) Hl. apply filter_In in Ho. destruct Ho as [Ho Hn].
  apply in_flat_map in Ho. destruct Ho as (z & Hz & Ho). apply in_flat_map in Ho. destruct Ho as (y & Hy & Ho).
  apply in_map_iff in Ho. destruct Ho as (x & <- & Hx). rewrite in_zrange in Hx, Hy.
  assert (Hz' : 0 <= z < 2 /\ (g3d g = false -> z = 0)).
  { destruct (g3d g); [rewrite in_zrange in Hz; split; [lia|discriminate]|].
    destruct Hz as [<-|[]]. split; [lia|reflexivity]. }
  clear Hz. set (o := mkoff x y z) in *. apply negb_true_iff in Hn. fold (all0 o) in Hn.
  assert (Ho : forall a, 0 <= o a <= 1 /\ (flat g a = true -> o a = 0)).
  { intros [| |]; cbn; (split; [lia|]); try discriminate. intros Hf. apply Hz'. destruct (g3d g); [discriminate|reflexivity]. }
  assert (EV : forall a, flat g a = false -> exists n, ncell g a (lev A) = 2 * n).
  { intros a F. unfold ncell. rewrite F. exists (gsize g a * 2^(lev A - 1 - lmin g)).
    replace (lev A - lmin g) with (1 + (lev A - 1 - lmin g)) by lia. rewrite Z.pow_add_r by lia. lia. }
  set (d := fun a => (if coord A a mod 2 =? 0 then 1 else -1) * o a).
  assert (HC : forall a, 0 <= coord A a + d a < ncell g a (lev A) /\ half g a (coord A a + d a) = half g a (coord A a)).
  { intros a. destruct Av as [_ Hc]. specialize (Hc a). destruct (Ho a) as [O1 O2]. unfold half, d.
    destruct (flat g a) eqn:F.
    - rewrite (O2 eq_refl). rewrite Z.mul_0_r, Z.add_0_r. auto.
    - destruct (EV a F) as [n En]. rewrite En in *.
      pose proof (Z.div_mod (coord A a) 2 ltac:(lia)) as DM. pose proof (Z.mod_pos_bound (coord A a) 2 ltac:(lia)) as MB.
      clear - DM MB O1 Hc. set (c := coord A a) in *. set (h := c / 2) in *. set (r := c mod 2) in *. clearbody h r.
      assert (o a = 0 \/ o a = 1) as [-> | ->] by lia.
      + rewrite Z.mul_0_r, Z.add_0_r. split; [lia|]. subst c. symmetry.
        apply Z.div_unique with r; lia.
      + destruct (r =? 0) eqn:E; (split; [lia|]); symmetry.
        * apply Z.div_unique with 1; lia.
        * apply Z.div_unique with 0; lia. }
  split; [|split].
  - split; [|split].
    + intros a. destruct (Ho a) as [O1 _]. unfold d. destruct (coord A a mod 2 =? 0); lia.
    + apply all0_false in Hn. destruct Hn as [a Ha]. exists a. unfold d. destruct (coord A a mod 2 =? 0); lia.
    + intros a F. destruct (Ho a) as [_ O2]. unfold d. rewrite (O2 F). lia.
  - intros a. right. apply HC.
  - split; [reflexivity|]. intros a. unfold target. rewrite coord_oct_of. rewrite Z.mod_small by apply HC. apply HC.
Qed.
Lemma sibling_dirs_complete s : lmin g < lev A -> sibling g A s -> s = A \/
  exists d, In d (sibling_dirs g A) /\ s = target g A d.
Proof.
  intros Hl [El Hs].
  destruct (oct_eq_dec s A) as [E|N]; [left; exact E|right].
  set (o := fun a => Z.abs (coord s a - coord A a)).
  assert (K : forall a, 0 <= o a <= 1 /\ (flat g a = true -> o a = 0) /\
    coord s a = coord A a + (if coord A a mod 2 =? 0 then 1 else -1) * o a).
  { intros a. specialize (Hs a). unfold half in Hs. unfold o.
    destruct (flat g a) eqn:F; [rewrite Hs; replace (coord A a - coord A a) with 0 by lia; cbn; lia|].
    pose proof (Z.div_mod (coord A a) 2 ltac:(lia)) as DM. pose proof (Z.mod_pos_bound (coord A a) 2 ltac:(lia)) as MB.
    pose proof (Z.div_mod (coord s a) 2 ltac:(lia)) as DM'. pose proof (Z.mod_pos_bound (coord s a) 2 ltac:(lia)) as MB'.
    split; [lia|]. split; [discriminate|]. destruct (coord A a mod 2 =? 0) eqn:E; lia. }
  exists (fun a => (if coord A a mod 2 =? 0 then 1 else -1) * mkoff (o AX) (o AY) (o AZ) a).
  assert (IN : In (fun a => (if coord A a mod 2 =? 0 then 1 else -1) * mkoff (o AX) (o AY) (o AZ) a) (sibling_dirs g A)).
  { unfold sibling_dirs. apply (in_map (fun (o : offset) (a : axis) => (if coord A a mod 2 =? 0 then 1 else -1) * o a)).
    apply filter_In. split.
    - apply in_flat_map. exists (o AZ). split.
      + destruct (g3d g) eqn:G; [apply in_zrange; pose proof (K AZ); lia|]. left. symmetry. apply K. cbn. rewrite G. reflexivity.
      + apply in_flat_map. exists (o AY). split; [apply in_zrange; pose proof (K AY); lia|].
        apply in_map_iff. exists (o AX). split; [reflexivity|]. apply in_zrange; pose proof (K AX); lia.
    - apply negb_true_iff. fold (all0 (mkoff (o AX) (o AY) (o AZ))). apply all0_false.
      assert (NN : ~ (forall a, o a = 0)).
      { intros H0. apply N. apply oct_ext; [exact El|]. intros a. destruct (K a) as (_ & _ & ->). rewrite (H0 a). lia. }
      destruct (Z.eq_dec (o AX) 0) as [x0|]; [|exists AX; assumption].
      destruct (Z.eq_dec (o AY) 0) as [y0|]; [|exists AY; assumption].
      destruct (Z.eq_dec (o AZ) 0) as [z0|]; [|exists AZ; assumption].
      exfalso. apply NN. intros [| |]; assumption. }
  split; [exact IN|].
  apply oct_ext; [exact El|]. intros a. unfold target. rewrite coord_oct_of.
  destruct (K a) as (K1 & K2 & K3).
  assert (EO : mkoff (o AX) (o AY) (o AZ) a = o a) by (destruct a; reflexivity). rewrite EO, <- K3.
  symmetry. apply Z.mod_small.
  (* siblings stay in the domain *)
  specialize (Hs a). unfold half in Hs. destruct Av as [_ Hc]. specialize (Hc a). rewrite K3.
  destruct (flat g a) eqn:F; [rewrite (K2 eq_refl); lia|].
  assert (EV : exists n, ncell g a (lev A) = 2 * n).
  { unfold ncell. rewrite F. exists (gsize g a * 2^(lev A - 1 - lmin g)).
    replace (lev A - lmin g) with (1 + (lev A - 1 - lmin g)) by lia. rewrite Z.pow_add_r by lia. lia. }
  destruct EV as [n En]. rewrite En in *. clear - K1 Hc.
  pose proof (Z.div_mod (coord A a) 2 ltac:(lia)) as DM. pose proof (Z.mod_pos_bound (coord A a) 2 ltac:(lia)) as MB.
  destruct (coord A a mod 2 =? 0) eqn:E; lia.
Qed.

Lemma sib_step_eq d m : In d (sibling_dirs g A) -> lmin g < lev A -> f A = -1 -> m = -1 \/ m = 0 ->
  exists m', sib_step g st (map f st) i A m d = Some m' /\ (m' = -1 \/ m' = 0) /\
    (m' = -1 <-> m = -1 /\ In (target g A d) L /\ f (target g A d) = -1).
Proof.
  intros Hd Hl HfA Hm. destruct (sibling_dirs_spec d Hd Hl) as (Dd & Di & Ds).
  destruct (fn_ok d Dd) as (ns & Bs & E1 & E2 & E3). unfold sib_step. rewrite E1.
  set (V := target g A d) in *.
  assert (VIN : In V L -> In V Bs).
  { intros HV. apply E3. split; [exact HV|]. apply adjacent_facing; [exact WF|exact Av|exact Dd|].
    destruct (facing_exists g WF A d Av Dd Di) as [q Hq]. exists q. split; [exact Hq|]. apply Hq. }
  inversion E2 as [F1 F2|n B ns' Bs' Hn HH F1 F2]; subst.
  - exfalso. destruct (facing_exists g WF A d Av Dd Di) as [q Hq].
    destruct (tiles_leaf g L q HT ltac:(apply Hq)) as (B & HBL & Bq).
    assert (In B []) as []. apply E3. split; [exact HBL|]. apply adjacent_facing; [exact WF|exact Av|exact Dd|]. eauto.
  - rewrite Hn, nth_error_map, Hn. cbn [option_map].
    destruct (proj1 (E3 B) (or_introl eq_refl)) as [HBL HAd].
    assert (T : touch g A B) by (eapply adjacent_touch; eauto).
    apply adjacent_facing in HAd; [|exact WF|exact Av|exact Dd]. destruct HAd as (q & Hq & Bq).
    assert (Vq : covers g V q) by apply Hq. assert (Hqd : in_dom g q) by apply Hq.
    destruct (good_bounds f B HBL (Hgood B (nth_error_In _ _ Hn))) as [g1 g2].
    pose proof (HB A B AL HBL T) as HB1. pose proof (L_valid B HBL) as Bv.
    (* B is not coarser than A: it would contain A *)
    assert (NC : lev A <= lev B).
    { destruct (Z_le_gt_dec (lev A) (lev B)) as [|C]; [assumption|exfalso].
      assert (Acov : covers g B (corner g A)).
      { intros a. pose proof (covers_coarser g B V q Bq Vq ltac:(change (lev V) with (lev A); destruct Av; lia) a) as C1.
        change (lev V) with (lev A) in C1. assert (E : lev A - lev B = 1) by lia. rewrite E in C1.
        change (2^1) with 2 in C1.
        assert (C2 : coord A a / 2 = coord V a / 2).
        { destruct Ds as [_ Ds]. specialize (Ds a). unfold half in Ds. destruct (flat g a); [rewrite Ds|symmetry; exact Ds]. reflexivity. }
        rewrite C1, <- C2. pose proof (corner_covers g A Av a) as Ca. rewrite <- Ca.
        change 2 with (2^1) at 3. rewrite <- E. symmetry. apply div_nest. destruct Av; lia. }
      assert (A = B).
      { eapply (tiles_unique g L (corner g A)); eauto; [apply corner_in_dom; exact Av|apply corner_covers; exact Av]. }
      subst B. lia. }
    pose proof (wf_max20 g WF). rewrite (u32_small (lev A + m)) by (destruct Av; lia). rewrite (u32_small (lev B + f B)) by (destruct Av; lia).
    destruct (lev A + m <? lev B + f B) eqn:EL.
    + exists 0. split; [reflexivity|]. split; [right; reflexivity|]. split; [lia|].
      intros (-> & HV & HfV). exfalso.
      assert (B = V) as -> by (eapply (tiles_unique g L q); eauto). change (lev V) with (lev A) in EL. lia.
    + exists m. split; [reflexivity|]. split; [exact Hm|]. split; [|intros (H1 & _); exact H1].
      intros ->. split; [reflexivity|]. assert (lev B = lev A) as El by lia.
      assert (B = V) as -> by (apply (covers_same_level g B V q); [exact Bq|exact Vq|exact El]).
      split; [exact HBL|]. lia.
Qed.
Lemma fold_sib ds m : (forall d, In d ds -> In d (sibling_dirs g A)) -> lmin g < lev A -> f A = -1 -> m = -1 \/ m = 0 ->
  exists m', foldM (sib_step g st (map f st) i A) ds m = Some m' /\ (m' = -1 \/ m' = 0) /\
    (m' = -1 <-> m = -1 /\ forall d, In d ds -> In (target g A d) L /\ f (target g A d) = -1).
Proof.
  intros Hds Hl HfA. revert m. induction ds as [|d ds IH]; intros m Hm.
  - exists m. split; [reflexivity|]. split; [exact Hm|]. split; [intros ->; split; [reflexivity|intros ? []]|intros [? _]; assumption].
  - cbn [foldM]. destruct (sib_step_eq d m (Hds d (or_introl eq_refl)) Hl HfA Hm) as (m1 & -> & H1 & H2).
    destruct (IH ltac:(intros; apply Hds; right; assumption) m1 H1) as (m2 & E & H3 & H4). exists m2.
    split; [exact E|]. split; [exact H3|]. rewrite H4, H2. split.
    + intros ((-> & HV & HfV) & H5). split; [reflexivity|]. intros d' [<-|Hd']; auto.
    + intros (-> & H5). split; [split; [reflexivity|apply H5; left; reflexivity]|]. intros d' Hd'. apply H5. right. exact Hd'.
Qed.

(** check21 never lowers a marker, never exceeds a legal decision, and leaves it
    unchanged only if the constraints on the octant hold. *)
Lemma check21_spec : exists m', check21 g st (map f st) i = Some m' /\ f A <= m' /\
  (forall m, legal g L req m -> (forall o, In o st -> f o <= m o) -> m' <= m A) /\
  (m' = f A -> stable f A).
Proof.
  unfold check21. rewrite HA, nth_error_map, HA. cbn [option_map].
  destruct (good_bounds f A AL (Hgood A (nth_error_In _ _ HA))) as [b1 b2].
  assert (S1 : exists m1, (if f A =? -1 then foldM (sib_step g st (map f st) i A) (sibling_dirs g A) (f A) else Some (f A)) = Some m1 /\
     mbound m1 /\ f A <= m1 /\ (forall m, legal g L req m -> (forall o, In o st -> f o <= m o) -> m1 <= m A) /\
     (m1 = f A -> f A = -1 -> forall s, sibling g A s -> In s L /\ f s = -1)).
  { destruct (f A =? -1) eqn:E.
    - assert (EA : f A = -1) by lia. assert (Hl : lmin g < lev A) by lia.
      destruct (fold_sib (sibling_dirs g A) (f A) (fun d H => H) Hl EA (or_introl EA)) as (m1 & F & H1 & H2).
      exists m1. split; [exact F|]. split; [unfold mbound; destruct Av; lia|]. split; [lia|]. split.
      + intros m Hm Hle. pose proof (Hle A (nth_error_In _ _ HA)) as HleA.
        destruct (Hm A AL) as (_ & M1 & _ & _ & M3). destruct (Z.eq_dec (m A) (-1)) as [EM|]; [|lia].
        assert (m1 = -1); [|lia]. apply H2. split; [exact EA|]. intros d Hd.
        destruct (sibling_dirs_spec d Hd Hl) as (Dd & Di & Ds). destruct (M3 EM _ Ds) as [I1 I2]. split; [exact I1|].
        assert (In (target g A d) st).
        { apply (Hcomp A); [exact HAlo|exact I1|]. apply (adjacent_touch g A d); [exact Dd|].
          apply adjacent_facing; [exact WF|exact Av|exact Dd|]. destruct (facing_exists g WF A d Av Dd Di) as [q Hq].
          exists q. split; [exact Hq|apply Hq]. }
        pose proof (Hle _ H). destruct (good_bounds f _ I1 (Hgood _ H)). lia.
      + intros Em _ s Hs. rewrite Em in H2. destruct (proj1 H2 EA) as [_ H3].
        destruct (sibling_dirs_complete s Hl Hs) as [->|(d & Hd & ->)]; [split; [exact AL|exact EA]|apply H3, Hd].
    - exists (f A). split; [reflexivity|]. split; [unfold mbound; lia|]. split; [lia|]. split.
      + intros m _ Hle. apply Hle. eapply nth_error_In, HA.
      + lia. }
  destruct S1 as (m1 & -> & Hb1 & G1 & G2 & G3).
  destruct (fold_dirs (directions g) m1 (fun d => directions_spec g d) Hb1) as (m2 & -> & Hb2 & R1 & R2 & R3).
  exists m2. split; [reflexivity|]. split; [lia|]. split.
  - intros m Hm Hle. destruct R3 as [->|(B & (HBL & d & Hd & HAd) & ->)]; [apply G2; assumption|].
    assert (T : touch g A B) by (eapply adjacent_touch; [apply directions_spec, Hd|exact HAd]).
    destruct (Hm A AL) as (_ & _ & _ & M2 & _). specialize (M2 B HBL T).
    pose proof (Hle B (Hcomp A B HAlo HBL T)). unfold lift. lia.
  - intros E. assert (m1 = f A) by lia. split.
    + intros B HBL T. destruct (oct_eq_dec A B) as [<-|N]; [lia|].
      destruct (touch_adjacent g A B Av (L_valid B HBL) T) as (d & Hd & HAd).
      { intros p Hp Ap. apply (L_disjoint A B p); assumption. }
      pose proof (R2 B (conj HBL (ex_intro _ d (conj Hd HAd)))) as RB. unfold lift in RB. lia.
    + intros EA. apply G3; assumption.
Qed.
End Check.

(** One sweep. *)
Lemma sweep_spec f : (forall o, In o st -> good f o) ->
  exists f', sweep g st (length lo) (map f lo) (map f gh) = Some (map f' lo) /\
    (forall o, ~ In o lo -> f' o = f o) /\ (forall o, In o st -> f o <= f' o /\ good f' o) /\
    (map f lo = map f' lo -> forall A, In A lo -> stable f A).
Proof.
  intros Hg. unfold sweep. rewrite <- map_app. fold st.
  assert (LOC : forall i, In i (seq 0 (length lo)) -> exists A, nth_error st i = Some A /\ In A lo /\ nth_error lo i = Some A).
  { intros i Hi. apply in_seq in Hi. destruct (nth_error lo i) as [A|] eqn:E; [|apply nth_error_None in E; lia].
    exists A. split; [unfold st; rewrite nth_error_app1 by lia; exact E|]. split; [eapply nth_error_In, E|reflexivity]. }
  destruct (mapM_total (check21 g st (map f st)) (seq 0 (length lo))) as [r Hr].
  { intros i Hi. destruct (LOC i Hi) as (A & H1 & H2 & _).
    destruct (check21_spec i A f H1 H2 Hg) as (m' & E & _). exists m'. exact E. }
  pose proof (mapM_length _ _ _ Hr) as HL. rewrite seq_length in HL.
  assert (NDlo : NoDup lo) by (apply NoDup_app_parts in Hnd; apply Hnd).
  destruct (list_as_fun lo r f NDlo HL) as (f' & Ef & Hf). exists f'. rewrite Hr, Ef. split; [reflexivity|].
  assert (PER : forall A, In A lo -> f A <= f' A /\
     (forall m, legal g L req m -> (forall o, In o st -> f o <= m o) -> f' A <= m A) /\ (f' A = f A -> stable f A)).
  { intros A HA. apply In_nth_error in HA. destruct HA as [i Hi].
    assert (Hi' : (i < length lo)%nat) by (apply nth_error_Some; congruence).
    assert (Hs : nth_error (seq 0 (length lo)) i = Some i).
    { rewrite (nth_error_nth' _ O) by (rewrite seq_length; lia). rewrite seq_nth by lia. reflexivity. }
    destruct (mapM_nth _ _ _ i i Hr Hs) as (y & Hy & Ey).
    destruct (LOC i ltac:(apply in_seq; lia)) as (A' & H1 & H2 & H3). assert (A' = A) as -> by congruence.
    destruct (check21_spec i A f H1 H2 Hg) as (m' & E & S1 & S2 & S3).
    assert (y = m') as -> by congruence. rewrite Ef, nth_error_map, Hi in Hy. cbn in Hy. injection Hy as Ey'.
    rewrite Ey'. auto. }
  split; [exact Hf|]. split.
  - intros o Ho. destruct (in_dec oct_eq_dec o lo) as [HI|HN].
    + destruct (PER o HI) as (P1 & P2 & P3). split; [exact P1|]. split; [destruct (Hg o Ho); lia|].
      intros m Hm. apply P2; [exact Hm|]. intros o' Ho'. apply (Hg o' Ho'). exact Hm.
    + unfold good. rewrite (Hf o HN). split; [lia|]. apply Hg, Ho.
  - intros E A HA. destruct (PER A HA) as (_ & _ & P3). apply P3. 
    clear - E HA. induction lo as [|x l IH]; [destruct HA|]. cbn in E. injection E as E1 E2.
    destruct HA as [<-|HA]; [symmetry; exact E1|apply IH; assumption].
Qed.

(** The local loop reaches a state where all constraints on local octants hold. *)
Lemma local_loop_spec : forall fuel f, (forall o, In o st -> good f o) ->
  Z.of_nat (length lo) - zsum (map f lo) < Z.of_nat fuel ->
  exists f' b, local_loop fuel g st (length lo) (map f lo) (map f gh) = Some (map f' lo, b) /\
    (forall o, ~ In o lo -> f' o = f o) /\ (forall o, In o st -> f o <= f' o /\ good f' o) /\
    (forall A, In A lo -> stable f' A) /\
    (b = false -> map f' lo = map f lo) /\ (b = true -> map f lo <> map f' lo).
Proof.
  induction fuel as [|fuel IH]; intros f Hg Hfu.
  { exfalso. assert (NB := zsum_bound f lo). assert (Hb : forall x, In x lo -> -1 <= f x <= 1).
    { intros x Hx. assert (In x st) by (apply in_app_iff; left; exact Hx). apply good_bounds; [apply Hsub; assumption|apply Hg; assumption]. }
    specialize (NB Hb). lia. }
  cbn [local_loop]. destruct (sweep_spec f Hg) as (f1 & E1 & O1 & G1 & S1). rewrite E1.
  destruct (lz_eqb (map f lo) (map f1 lo)) eqn:EQ.
  - apply lz_eqb_eq in EQ. exists f1, false. split; [reflexivity|]. split; [exact O1|]. split; [exact G1|].
    assert (EF : forall o, f1 o = f o).
    { intros o. destruct (in_dec oct_eq_dec o lo) as [HI|HN]; [|apply O1, HN].
      clear - EQ HI. induction lo as [|x l IH]; [destruct HI|]. cbn in EQ. injection EQ as E1 E2.
      destruct HI as [<-|HI]; [symmetry; exact E1|apply IH; assumption]. }
    split; [|split; [intros _; symmetry; exact EQ|discriminate]].
    intros A HA. destruct (S1 EQ A HA) as [T1 T2]. split; intros; rewrite ?EF in *.
    + apply T1; assumption.
    + apply T2; assumption.
  - assert (NE : map f lo <> map f1 lo) by (intros E; apply lz_eqb_eq in E; congruence).
    assert (LT : zsum (map f lo) < zsum (map f1 lo)).
    { apply zsum_lt; [|exact NE]. intros x Hx. apply G1. apply in_app_iff. left. exact Hx. }
    assert (EG : map f gh = map f1 gh).
    { apply map_ext_in. intros o Ho. symmetry. apply O1. apply NoDup_app_parts in Hnd. destruct Hnd as (_ & _ & D).
      intros C. apply (D o C Ho). }
    rewrite EG. destruct (IH f1) as (f2 & b & E2 & O2 & G2 & S2 & B1 & B2).
    { intros o Ho. apply G1, Ho. }
    { lia. }
    rewrite E2. exists f2, true. split; [reflexivity|].
    split; [intros o Ho; rewrite O2, O1 by exact Ho; reflexivity|].
    split; [intros o Ho; split; [|apply G2, Ho]; destruct (G1 o Ho); destruct (G2 o Ho); lia|].
    split; [exact S2|]. split; [discriminate|]. intros _ E.
    assert (LE2 : zsum (map f1 lo) <= zsum (map f2 lo)).
    { apply zsum_le. intros x Hx. apply G2. apply in_app_iff. left. exact Hx. }
    rewrite <- E in LE2. lia.
Qed.
End Rank.
End Markers.
