(** Applying a legal decision to a sorted, balanced tiling gives a sorted, balanced tiling
    in which every point moved by exactly the decided number of levels. *)
From Verif Require Import Base MortonModel MortonProofs OctreeSpec OctreeGeom OctreeModel FindNeighbors MarkerProofs.

(** * Sorted concatenations *)
Lemma SS_app {A} (R : A -> A -> Prop) l1 l2 : StronglySorted R l1 -> StronglySorted R l2 ->
  (forall x y, In x l1 -> In y l2 -> R x y) -> StronglySorted R (l1 ++ l2).
Proof.
  intros H1 H2 H. induction H1 as [|x l1 S IH F]; [exact H2|]. cbn. constructor.
  - apply IH. intros; apply H; [right|]; assumption.
  - apply Forall_app. split; [exact F|]. apply Forall_forall. intros y Hy. apply H; [left; reflexivity|exact Hy].
Qed.
Lemma SS_app_inv {A} (R : A -> A -> Prop) l1 l2 : StronglySorted R (l1 ++ l2) ->
  StronglySorted R l1 /\ StronglySorted R l2 /\ (forall x y, In x l1 -> In y l2 -> R x y).
Proof.
  induction l1 as [|x l1 IH]; cbn; intros H; [split; [constructor|split; [exact H|intros ? ? []]]|].
  inversion H as [|? ? S F]; subst. destruct (IH S) as (H1 & H2 & H3). apply Forall_app in F. destruct F as [F1 F2].
  split; [constructor; assumption|]. split; [exact H2|]. intros x' y [<-|Hx] Hy; [rewrite Forall_forall in F2; auto|auto].
Qed.
Lemma SS_flat_map {A B} (R : B -> B -> Prop) (Q : A -> A -> Prop) (h : A -> list B) l :
  StronglySorted Q l -> (forall x, In x l -> StronglySorted R (h x)) ->
  (forall x y u v, In x l -> In y l -> Q x y -> In u (h x) -> In v (h y) -> R u v) ->
  StronglySorted R (flat_map h l).
Proof.
  intros S. induction S as [|x l S IH F]; intros H1 H2; [constructor|]. cbn. apply SS_app.
  - apply H1. left. reflexivity.
  - apply IH; [intros; apply H1; right; assumption|]. intros; eapply H2; eauto; right; assumption.
  - intros u v Hu Hv. apply in_flat_map in Hv. destruct Hv as (y & Hy & Hv). rewrite Forall_forall in F.
    eapply (H2 x y); eauto; [left; reflexivity|right; exact Hy].
Qed.
Lemma SS_NoDup {A} (f : A -> Z) l : StronglySorted (fun a b => f a < f b) l -> NoDup l.
Proof.
  induction 1 as [|x l S IH F]; constructor; [|exact IH]. intros H. rewrite Forall_forall in F. specialize (F x H). lia.
Qed.

Section Apply.
Variable g : geom.
Hypothesis WF : wf_geom g.

(** The key computed by the code is the position on the Z-curve. *)
Lemma compute_morton_zkey o : valid g o -> compute_morton o (lmax g) = zkey g o.
Proof.
  intros Hv. rewrite zkey_mk by assumption. unfold compute_morton, mk.
  pose proof (zkey_lt g WF o Hv) as HL. pose proof (zkey_nonneg g WF o Hv) as HN. rewrite zkey_mk in HL, HN by assumption. unfold mk in HL, HN.
  pose proof (wf_max20 g WF). destruct Hv as [Hl _].
  assert (2^(3 * lmax g) <= 2^60) by (apply Z.pow_le_mono_r; lia).
  pose proof (pow2_pos (3 * (lmax g - lev o)) ltac:(lia)).
  apply shift_level_up; [lia|apply morton3_nonneg|]. change (2^60) with 1152921504606846976 in *. lia.
Qed.

Variable L : list oct.
Hypothesis HT : tiles g L.
Hypothesis HB : balanced g L.
Hypothesis HS : zsorted g L.
Variable m : oct -> Z.
Hypothesis Hmin1 : 1 <= lmin g.
Variable req : oct -> Z.
Hypothesis Hm : legal g L req m.

Let Lv A : In A L -> valid g A. Proof. apply tiles_valid; exact HT. Qed.

(** * Octants written for one leaf *)
Definition child_of (A B : oct) : Prop :=
  lev B = lev A + 1 /\ forall a, exists e, coord B a = 2 * coord A a + e /\ 0 <= e < (if flat g a then 1 else 2).
Lemma in_children A B : In B (apply1 g A 1) <-> child_of A B.
Proof.
  unfold apply1. rewrite Z.eqb_refl. rewrite in_map_iff. split.
  - intros (j & <- & Hj). apply in_zrange in Hj. split; [reflexivity|].
    pose proof (Z.div_mod j 4 ltac:(lia)) as D1. pose proof (Z.mod_pos_bound j 4 ltac:(lia)) as B1.
    set (dz := j / 4) in *. assert (Hdz : 0 <= dz < 2 /\ (g3d g = false -> dz = 0)) by (destruct (g3d g); lia).
    pose proof (Z.div_mod (j - dz * 4) 2 ltac:(lia)) as D2. pose proof (Z.mod_pos_bound (j - dz * 4) 2 ltac:(lia)) as B2.
    set (dy := (j - dz * 4) / 2) in *.
    intros [| |]; cbn [coord cx cy cz flat].
    + exists (j - dz * 4 - dy * 2). lia.
    + exists dy. lia.
    + exists dz. split; [lia|]. destruct (g3d g); cbn; lia.
  - intros [El H]. destruct (H AX) as (ex & Ex & Hx). destruct (H AY) as (ey & Ey & Hy). destruct (H AZ) as (ez & Ez & Hz).
    cbn [coord flat] in *. exists (ex + 2 * ey + 4 * ez).
    assert (D1 : (ex + 2 * ey + 4 * ez) / 4 = ez) by (symmetry; apply Z.div_unique with (ex + 2 * ey); lia).
    rewrite D1. replace (ex + 2 * ey + 4 * ez - ez * 4) with (ex + 2 * ey) by lia.
    assert (D2 : (ex + 2 * ey) / 2 = ey) by (symmetry; apply Z.div_unique with ex; lia). rewrite D2.
    split; [|apply in_zrange; destruct (g3d g); cbn in Hz; lia].
    apply oct_ext; [symmetry; exact El|]. intros [| |]; cbn [coord cx cy cz]; lia.
Qed.
Lemma child_covers A B p : valid g A -> in_dom g p -> child_of A B -> covers g B p -> lev B <= lmax g -> covers g A p.
Proof.
  intros HA Hp [El Hc] HBp Hl a. specialize (HBp a). destruct (Hc a) as (e & Ee & He).
  rewrite <- (div_nest g (pc p a) (lev A) (lev B)) by lia. rewrite HBp, Ee, El.
  replace (lev A + 1 - lev A) with 1 by lia. change (2^1) with 2.
  symmetry. apply Z.div_unique with e; destruct (flat g a); lia.
Qed.
Lemma child_valid A B : valid g A -> child_of A B -> lev B <= lmax g -> valid g B.
Proof.
  intros [Hl Hc] [El H] Hm'. split; [lia|]. intros a. specialize (Hc a). destruct (H a) as (e & Ee & He).
  rewrite El. replace (lev A + 1) with (lev A + 1) by lia. rewrite (ncell_split g a (lev A) 1) by lia.
  change (2^1) with 2. unfold ncell in Hc at 1. destruct (flat g a) eqn:F; [lia|]. unfold ncell. rewrite F. lia.
Qed.

(** The cell of level [l] around a point of a leaf. *)
Lemma child_cell A p : valid g A -> in_dom g p -> covers g A p -> lev A < lmax g -> child_of A (cell_at g (lev A + 1) p).
Proof.
  intros HA Hp HAp Hl. split; [reflexivity|]. intros a. unfold cell_at. rewrite coord_oct_of.
  specialize (HAp a). rewrite <- (div_nest g (pc p a) (lev A) (lev A + 1)) in HAp by lia.
  replace (lev A + 1 - lev A) with 1 in HAp by lia. change (2^1) with 2 in HAp.
  set (c := pc p a / 2^(lmax g - (lev A + 1))) in *. exists (c mod 2).
  pose proof (Z.div_mod c 2 ltac:(lia)). pose proof (Z.mod_pos_bound c 2 ltac:(lia)). split; [lia|].
  destruct (flat g a) eqn:F; [|lia]. specialize (Hp a). unfold ncell in Hp. rewrite F in Hp.
  assert (pc p a = 0) as Z0 by lia. unfold c. rewrite Z0, Z.div_0_l; [cbn; lia|].
  pose proof (pow2_pos (lmax g - (lev A + 1)) ltac:(lia)). lia.
Qed.
Lemma parent_cell A p : valid g A -> in_dom g p -> covers g A p -> 
  parent g A = cell_at g (lev A - 1) p.
Proof.
  intros HA Hp HAp. apply oct_ext; [reflexivity|]. intros a. unfold parent, cell_at. rewrite !coord_oct_of.
  rewrite <- (div_nest g (pc p a) (lev A - 1) (lev A)) by (destruct HA; lia). rewrite (HAp a).
  replace (lev A - (lev A - 1)) with 1 by lia. change (2^1) with 2. unfold half. destruct (flat g a) eqn:F; [|reflexivity].
  rewrite (valid_flat g A a HA F). reflexivity.
Qed.

(** First sibling. *)
Definition first_sib (A : oct) : bool := (cx A mod 2 =? 0) && (cy A mod 2 =? 0) && (cz A mod 2 =? 0).
Lemma first_sib_coord A : first_sib A = true <-> forall a, coord A a mod 2 = 0.
Proof.
  unfold first_sib. split.
  - intros H [| |]; cbn; lia.
  - intros H. pose proof (H AX). pose proof (H AY). pose proof (H AZ). cbn in *. lia.
Qed.
Definition eldest (A : oct) : oct := oct_of (lev A) (fun a => 2 * (coord A a / 2)).
Lemma eldest_sibling A : valid g A -> sibling g A (eldest A) /\ first_sib (eldest A) = true.
Proof.
  intros HA. split.
  - split; [reflexivity|]. intros a. unfold eldest. rewrite coord_oct_of. unfold half.
    destruct (flat g a) eqn:F; [rewrite (valid_flat g A a HA F); reflexivity|].
    rewrite Z.mul_comm, Z.div_mul by lia. reflexivity.
  - apply first_sib_coord. intros a. unfold eldest. rewrite coord_oct_of. rewrite Z.mul_comm. apply Z.mod_mul. lia.
Qed.
Lemma sibling_parent A s : sibling g A s -> parent g s = parent g A.
Proof.
  intros [El H]. apply oct_ext; [cbn; lia|]. intros a. unfold parent. rewrite !coord_oct_of. apply H.
Qed.
Lemma in_coarsened A B : valid g A -> lmin g < lev A -> (In B (apply1 g A (-1)) <-> first_sib A = true /\ B = parent g A).
Proof.
  intros HA Hl. unfold apply1. change (-1 =? 1) with false. change (-1 =? 0) with false. change (-1 =? -1) with true. cbv iota.
  fold (first_sib A). destruct (first_sib A).
  - pose proof (wf_max20 g WF). pose proof (wf_lmin0 g WF). rewrite u32_small by (destruct HA; lia).
    assert (E : mkOct (lev A - 1) (cx A / 2) (cy A / 2) (cz A / 2) = parent g A).
    { apply oct_ext; [reflexivity|]. intros a. unfold parent. rewrite coord_oct_of. unfold half.
      destruct (flat g a) eqn:F; [|destruct a; reflexivity]. rewrite (valid_flat g A a HA F).
      destruct a; try discriminate. cbn. pose proof (valid_flat g A AZ HA F) as E0. cbn in E0. rewrite E0. reflexivity. }
    rewrite E. cbn. split; [intros [<-|[]]; auto|intros [_ ->]; auto].
  - cbn. split; [intros []|intros [? _]; discriminate].
Qed.

Definition newleaves : list oct := flat_map (fun A => apply1 g A (m A)) L.

Lemma m_cases A : In A L -> (m A = 1 /\ lev A < lmax g) \/ m A = 0 \/ (m A = -1 /\ lmin g < lev A).
Proof. intros HA. destruct (Hm A HA) as (_ & H1 & H2 & _). lia. Qed.

(** The new leaf around a point has the decided level. *)
Lemma new_in A p : In A L -> in_dom g p -> covers g A p -> In (cell_at g (lev A + m A) p) newleaves.
Proof.
  intros HA Hp HAp. unfold newleaves. apply in_flat_map. destruct (m_cases A HA) as [[E Hl]|[E|[E Hl]]].
  - exists A. split; [exact HA|]. rewrite E. apply in_children. apply child_cell; auto.
  - exists A. split; [exact HA|]. rewrite E, Z.add_0_r. rewrite <- (covers_cell_at g A p HAp). left. reflexivity.
  - destruct (eldest_sibling A (Lv A HA)) as [Hs Hf]. destruct (Hm A HA) as (_ & _ & _ & _ & H5).
    destruct (H5 E _ Hs) as [He Eme]. exists (eldest A). split; [exact He|]. rewrite Eme, E.
    apply in_coarsened; [apply Lv, He|exact Hl|]. split; [exact Hf|].
    rewrite (sibling_parent A (eldest A) Hs). symmetry. apply parent_cell; auto.
Qed.
Lemma new_of B p : In B newleaves -> in_dom g p -> covers g B p ->
  exists A, In A L /\ covers g A p /\ B = cell_at g (lev A + m A) p.
Proof.
  unfold newleaves. rewrite in_flat_map. intros (A & HA & HBA) Hp HBp.
  destruct (m_cases A HA) as [[E Hl]|[E|[E Hl]]]; rewrite E in HBA.
  - apply in_children in HBA. exists A. split; [exact HA|]. pose proof HBA as [El _]. split.
    + apply (child_covers A B p); auto. lia.
    + rewrite E, <- El. apply covers_cell_at, HBp.
  - cbn in HBA. destruct HBA as [<-|[]]. exists A. split; [exact HA|]. split; [exact HBp|].
    rewrite E, Z.add_0_r. apply covers_cell_at, HBp.
  - apply in_coarsened in HBA; [|apply Lv, HA|exact Hl]. destruct HBA as [Hf ->].
    (* the cell of level lev A around p is a sibling of A *)
    assert (Hs : sibling g A (cell_at g (lev A) p)).
    { split; [reflexivity|]. intros a. specialize (HBp a). unfold parent in HBp. rewrite coord_oct_of in HBp.
      cbn [lev oct_of] in HBp. unfold cell_at. rewrite coord_oct_of. rewrite <- HBp. unfold half.
      destruct (flat g a) eqn:F.
      - specialize (Hp a). unfold ncell in Hp. rewrite F in Hp. assert (pc p a = 0) as -> by lia.
        destruct (Lv A HA) as [Hlv _].
        rewrite !Z.div_0_l; [reflexivity| |]; [pose proof (pow2_pos (lmax g - (lev A - 1)) ltac:(lia))|pose proof (pow2_pos (lmax g - lev A) ltac:(lia))]; lia.
      - rewrite <- (div_nest g (pc p a) (lev A - 1) (lev A)) by (destruct (Lv A HA); lia).
        replace (lev A - (lev A - 1)) with 1 by lia. reflexivity. }
    destruct (Hm A HA) as (_ & _ & _ & _ & H5). destruct (H5 E _ Hs) as [Hs1 Hs2].
    exists (cell_at g (lev A) p). split; [exact Hs1|]. split; [apply cell_at_covers|].
    rewrite Hs2. cbn [lev cell_at oct_of]. replace (lev A + -1) with (lev A - 1) by lia.
    rewrite <- (sibling_parent _ _ Hs).
    apply (parent_cell (cell_at g (lev A) p) p); [apply Lv, Hs1|exact Hp|apply cell_at_covers].
Qed.

Lemma new_valid B : In B newleaves -> valid g B.
Proof.
  unfold newleaves. rewrite in_flat_map. intros (A & HA & HBA). pose proof (Lv A HA) as Av.
  destruct (m_cases A HA) as [[E Hl]|[E|[E Hl]]]; rewrite E in HBA.
  - apply in_children in HBA. apply (child_valid A B); auto. destruct HBA; lia.
  - cbn in HBA. destruct HBA as [<-|[]]. exact Av.
  - apply in_coarsened in HBA; [|exact Av|exact Hl]. destruct HBA as [_ ->].
    rewrite (parent_cell A (corner g A)); [|exact Av|apply corner_in_dom; exact Av|apply corner_covers; exact Av].
    apply cell_at_valid; [destruct Av; lia|apply corner_in_dom; exact Av].
Qed.

(** * Z-order *)
Lemma interleave_20 x y z : 0 <= x < 2^20 -> 0 <= y < 2^20 -> 0 <= z < 2^20 -> interleave 20 x y z = interleave 21 x y z.
Proof. intros Hx Hy Hz. rewrite !interleave_morton3; try lia; change (2^(Z.of_nat 21)) with (2*2^20); lia. Qed.
Lemma child_key A B ex ey ez : valid g A -> lev A < lmax g -> lev B = lev A + 1 ->
  cx B = 2 * cx A + ex -> cy B = 2 * cy A + ey -> cz B = 2 * cz A + ez -> 0 <= ex < 2 -> 0 <= ey < 2 -> 0 <= ez < 2 ->
  zkey g B = zkey g A + (ex + 2 * ey + 4 * ez) * 8^(lmax g - lev A - 1).
Proof.
  intros Hv Hl El Ex Ey Ez Hx Hy Hz. unfold zkey. rewrite El, Ex, Ey, Ez. cbn [interleave].
  assert (M : forall c e, 0 <= e < 2 -> (2 * c + e) mod 2 = e /\ (2 * c + e) / 2 = c).
  { intros c e He. split; [symmetry; apply Z.mod_unique with c; lia|symmetry; apply Z.div_unique with e; lia]. }
  destruct (M (cx A) ex Hx) as [-> ->]. destruct (M (cy A) ey Hy) as [-> ->]. destruct (M (cz A) ez Hz) as [-> ->].
  fold (interleave 20 (cx A) (cy A) (cz A)).
  change (ex + 2 * ey + 4 * ez + 8 * interleave 20 (cx A) (cy A) (cz A)) with
     (ex + 2 * ey + 4 * ez + 8 * interleave 20 (cx A) (cy A) (cz A)).
  rewrite interleave_20.
  - replace (lmax g - lev A) with (1 + (lmax g - (lev A + 1))) by lia. rewrite Z.pow_add_r by lia.
    replace (1 + (lmax g - (lev A + 1)) - 1) with (lmax g - (lev A + 1)) by lia. change (8^1) with 8.
    cbn [interleave]. ring.
  - pose proof (wf_max20 g WF). destruct Hv as [Hlv Hc]. specialize (Hc AX). cbn [coord] in Hc.
    pose proof (ncell_le g WF AX (lev A) ltac:(lia)). assert (2^(lev A) <= 2^20) by (apply Z.pow_le_mono_r; lia). lia.
  - pose proof (wf_max20 g WF). destruct Hv as [Hlv Hc]. specialize (Hc AY). cbn [coord] in Hc.
    pose proof (ncell_le g WF AY (lev A) ltac:(lia)). assert (2^(lev A) <= 2^20) by (apply Z.pow_le_mono_r; lia). lia.
  - pose proof (wf_max20 g WF). destruct Hv as [Hlv Hc]. specialize (Hc AZ). cbn [coord] in Hc.
    pose proof (ncell_le g WF AZ (lev A) ltac:(lia)). assert (2^(lev A) <= 2^20) by (apply Z.pow_le_mono_r; lia). lia.
Qed.
Lemma eldest_key A : valid g A -> lmin g < lev A -> first_sib A = true -> zkey g (parent g A) = zkey g A.
Proof.
  intros Hv Hl Hf. pose proof (corner_in_dom g A Hv) as Hd. pose proof (corner_covers g A Hv) as Hc.
  assert (Pv : valid g (parent g A)).
  { rewrite (parent_cell A (corner g A)) by assumption. apply cell_at_valid; [destruct Hv; lia|exact Hd]. }
  rewrite !zkey_corner by assumption. f_equal.
  assert (E : forall a, pc (corner g (parent g A)) a = pc (corner g A) a).
  { intros a. unfold corner, parent. rewrite !pc_pt_of, !coord_oct_of. cbn [lev oct_of]. unfold half, width.
    apply first_sib_coord with (a := a) in Hf. destruct (flat g a); [reflexivity|].
    replace (lmax g - (lev A - 1)) with (1 + (lmax g - lev A)) by lia. rewrite Z.pow_add_r by (destruct Hv; lia).
    pose proof (Z.div_mod (coord A a) 2 ltac:(lia)). change (2^1) with 2. rewrite Hf in H. rewrite H at 2. ring. }
  destruct (corner g (parent g A)) as [x y z] eqn:E1, (corner g A) as [x' y' z'] eqn:E2.
  pose proof (E AX). pose proof (E AY). pose proof (E AZ). cbn in *. subst. reflexivity.
Qed.

(** Keys written for a leaf stay within the range of the leaf. *)
Lemma chunk_range A B : In A L -> In B (apply1 g A (m A)) ->
  zkey g A <= zkey g B < zkey g A + 2^(3 * (lmax g - lev A)).
Proof.
  intros HA HBA. pose proof (Lv A HA) as Av. 
  pose proof (pow2_pos (3 * (lmax g - lev A)) ltac:(destruct Av; lia)).
  destruct (m_cases A HA) as [[E Hl]|[E|[E Hl]]]; rewrite E in HBA.
  - apply in_children in HBA. assert (Bv : valid g B) by (apply (child_valid A B); auto; destruct HBA; lia).
    rewrite (zkey_corner g WF B Bv). apply covers_key; [exact WF|exact Av|apply corner_in_dom; exact Bv|].
    apply (child_covers A B); auto; [apply corner_in_dom; exact Bv|apply corner_covers; exact Bv|apply Bv].
  - cbn in HBA. destruct HBA as [<-|[]]. lia.
  - apply in_coarsened in HBA; [|exact Av|exact Hl]. destruct HBA as [Hf ->]. rewrite eldest_key by assumption. lia.
Qed.
Lemma chunk_sorted A : In A L -> zsorted g (apply1 g A (m A)).
Proof.
  intros HA. pose proof (Lv A HA) as Av. destruct (m_cases A HA) as [[E Hl]|[E|[E Hl]]]; rewrite E.
  - unfold apply1. change (1 =? 1) with true. cbv iota. unfold zsorted.
    set (mkc := fun j => mkOct (lev A + 1) (cx A * 2 + (j - j / 4 * 4 - (j - j / 4 * 4) / 2 * 2)) (cy A * 2 + (j - j / 4 * 4) / 2) (cz A * 2 + j / 4)).
    assert (K : forall j, 0 <= j < 8 -> zkey g (mkc j) = zkey g A + j * 8^(lmax g - lev A - 1)).
    { intros j Hj. pose proof (Z.div_mod j 4 ltac:(lia)) as D1. pose proof (Z.mod_pos_bound j 4 ltac:(lia)) as B1.
      set (dz := j / 4) in *. pose proof (Z.div_mod (j - dz * 4) 2 ltac:(lia)) as D2.
      pose proof (Z.mod_pos_bound (j - dz * 4) 2 ltac:(lia)) as B2. set (dy := (j - dz * 4) / 2) in *.
      rewrite (child_key A (mkc j) (j - dz * 4 - dy * 2) dy dz); unfold mkc; cbn [lev cx cy cz]; change (j / 4) with dz; change ((j - dz * 4) / 2) with dy; auto; try lia. }
    assert (P8 : 0 < 8^(lmax g - lev A - 1)) by (apply Z.pow_pos_nonneg; lia).
    assert (SR : forall n b, StronglySorted Z.lt (map (fun i => b + Z.of_nat i) (seq n 8)) /\ StronglySorted Z.lt (map (fun i => b + Z.of_nat i) (seq n 4))).
    { intros n b. assert (G : forall k n, StronglySorted Z.lt (map (fun i => b + Z.of_nat i) (seq n k))).
      { induction k as [|k IH]; intros n0; [constructor|]. cbn. constructor; [apply IH|]. apply Forall_forall.
        intros y Hy. apply in_map_iff in Hy. destruct Hy as (i & <- & Hi). apply in_seq in Hi. lia. }
      auto. }
    assert (SM : forall l, StronglySorted Z.lt l -> (forall j, In j l -> 0 <= j < 8) ->
       StronglySorted (fun a b => zkey g a < zkey g b) (map mkc l)).
    { induction 1 as [|j l S IH F]; intros HR; [constructor|]. cbn. constructor; [apply IH; intros; apply HR; right; assumption|].
      apply Forall_forall. intros o Ho. apply in_map_iff in Ho. destruct Ho as (j' & <- & Hj').
      rewrite Forall_forall in F. specialize (F j' Hj').
      rewrite !K by (apply HR; cbn; tauto). nia. }
    apply (SM (zrange 0 (if g3d g then 8 else 4))).
    + unfold zrange. destruct (g3d g); [apply (SR O 0)|apply (SR O 0)].
    + intros j Hj. apply in_zrange in Hj. destruct (g3d g); lia.
  - cbn. constructor; [constructor|constructor].
  - unfold apply1. change (-1 =? 1) with false. change (-1 =? 0) with false. change (-1 =? -1) with true. cbv iota.
    destruct (_ && _ && _); repeat constructor.
Qed.

Theorem newleaves_sorted : zsorted g newleaves.
Proof.
  unfold newleaves. apply (SS_flat_map _ (fun a b => zkey g a < zkey g b)).
  - exact HS.
  - intros A HA. apply chunk_sorted, HA.
  - intros A B u v HA HBL Hlt Hu Hv. pose proof (chunk_range A u HA Hu). pose proof (chunk_range B v HBL Hv).
    pose proof (tiles_key_order g WF L A B HT HA HBL Hlt). lia.
Qed.
Theorem newleaves_tiles : tiles g newleaves.
Proof.
  apply tiles_intro.
  - eapply SS_NoDup, newleaves_sorted.
  - apply new_valid.
  - intros p Hp. destruct (tiles_leaf g L p HT Hp) as (A & HA & HAp). exists (cell_at g (lev A + m A) p).
    split; [apply new_in; assumption|apply cell_at_covers].
  - intros p B B' Hp HBn HBn' HBp HBp'. destruct (new_of B p HBn Hp HBp) as (A & HA & HAp & ->).
    destruct (new_of B' p HBn' Hp HBp') as (A' & HA' & HAp' & ->).
    assert (A = A') as -> by (eapply (tiles_unique g L p); eauto). reflexivity.
Qed.
Theorem newleaves_balanced : balanced g newleaves.
Proof.
  intros B B' HBn HBn' (p & q & Hp & Hq & HBp & HBq & Hn).
  destruct (new_of B p HBn Hp HBp) as (A & HA & HAp & ->). destruct (new_of B' q HBn' Hq HBq) as (A' & HA' & HAq & ->).
  cbn [lev cell_at oct_of].
  assert (T : touch g A A') by (exists p, q; auto 7).
  destruct (Hm A HA) as (_ & _ & _ & H4 & _). destruct (Hm A' HA') as (_ & _ & _ & H4' & _).
  specialize (H4 A' HA' T). specialize (H4' A HA (touch_sym g A A' T)). lia.
Qed.
Theorem newleaves_level A B p : In A L -> In B newleaves -> in_dom g p -> covers g A p -> covers g B p ->
  lev B = lev A + m A.
Proof.
  intros HA HBn Hp HAp HBp. destruct (new_of B p HBn Hp HBp) as (A' & HA' & HAp' & ->).
  assert (A = A') as -> by (eapply (tiles_unique g L p); eauto). reflexivity.
Qed.
End Apply.
