(** Theorems C18, C52, C53 and C54: point location, owner of a position, boundary flag,
    constructor checks, periodic wrapping. *)
From Coq Require Import QArith Qround Qfield Lqa.
From Verif Require Import Base MortonModel OctreeSpec OctreeGeom OctreeModel FindNeighbors MeshSpec GhostExchange
  HistorySpec HistoryProofs BalanceProofs IndexProps OctreeProps LookupSpec LookupModel.
Open Scope Z_scope.

(** ** Rational floors *)
Lemma Qfloor_iff x c : Qfloor x = c <-> (inject_Z c <= x)%Q /\ (x < inject_Z (c + 1))%Q.
Proof.
  split.
  - intros <-. split; [apply Qfloor_le|apply Qlt_floor].
  - intros (H1 & H2). pose proof (Qfloor_le x) as F1. pose proof (Qlt_floor x) as F2.
    assert (inject_Z c < inject_Z (Qfloor x + 1))%Q by lra. assert (inject_Z (Qfloor x) < inject_Z (c + 1))%Q by lra.
    rewrite <- Zlt_Qlt in *. lia.
Qed.

Lemma inject_pos k : 0 < k -> (0 < inject_Z k)%Q.
Proof. intros. change 0%Q with (inject_Z 0). rewrite <- Zlt_Qlt. assumption. Qed.

Lemma Qfloor_mul_div x k : 0 < k -> Qfloor (x * inject_Z k) / k = Qfloor x.
Proof.
  intros Hk. pose proof (inject_pos k Hk) as Hq.
  destruct (proj1 (Qfloor_iff x _) eq_refl) as (A & B). destruct (proj1 (Qfloor_iff (x * inject_Z k) _) eq_refl) as (C & D).
  set (c := Qfloor x) in *. set (d := Qfloor (x * inject_Z k)) in *.
  assert (c * k < d + 1).
  { rewrite Zlt_Qlt, inject_Z_mult. eapply Qle_lt_trans; [|exact D]. apply Qmult_le_compat_r; lra. }
  assert (d < (c + 1) * k).
  { rewrite Zlt_Qlt, inject_Z_mult. eapply Qle_lt_trans; [exact C|]. apply Qmult_lt_r; lra. }
  symmetry. apply Z.div_unique_pos with (r := d - c * k); lia.
Qed.

Lemma slice_floor x n c : 0 < n ->
  ((inject_Z c / inject_Z n <= x)%Q /\ (x < inject_Z (c + 1) / inject_Z n)%Q) <-> Qfloor (x * inject_Z n) = c.
Proof.
  intros Hn. pose proof (inject_pos n Hn) as Hq. rewrite Qfloor_iff.
  assert (E : forall z, (z / inject_Z n * inject_Z n == z)%Q) by (intros z; field; lra).
  assert (E1 := E (inject_Z c)). assert (E2 := E (inject_Z (c + 1))).
  split; intros (H1 & H2); split.
  - rewrite <- E1. apply Qmult_le_compat_r; lra.
  - rewrite <- E2. apply Qmult_lt_r; lra.
  - rewrite <- E1 in H1. apply Qmult_le_r in H1; lra.
  - rewrite <- E2 in H2. apply Qmult_lt_r in H2; lra.
Qed.

(** ** The unit cell of a position *)
Section Point.
Variable g : geom.
Hypothesis WF : wf_geom g.

Definition pt_at (p : position) : pt :=
  pt_of (fun a => if flat g a then 0 else Qfloor (p a * inject_Z (ncell g a (lmax g)))).

Lemma pt_in_dom p : inside_domain g p -> in_dom g (pt_at p).
Proof.
  intros (H & _) a. unfold pt_at. rewrite pc_pt_of. pose proof (wf_minmax g WF) as MM.
  destruct (flat g a) eqn:F; [unfold ncell; rewrite F; lia|].
  destruct (H a F) as (H1 & H2). pose proof (ncell_pos g WF a (lmax g) MM) as NP. pose proof (inject_pos _ NP) as NQ.
  destruct (proj1 (Qfloor_iff (p a * inject_Z (ncell g a (lmax g))) _) eq_refl) as (A & B).
  set (f := Qfloor _) in *. set (N := inject_Z _) in *.
  assert (P0 : (0 < p a * N)%Q) by (apply Qmult_lt_0_compat; assumption).
  assert (P1 : (p a * N < 1 * N)%Q) by (apply Qmult_lt_r; assumption).
  assert (0 < f + 1) by (rewrite Zlt_Qlt; change (inject_Z 0) with 0%Q; lra).
  assert (f < ncell g a (lmax g)) by (rewrite Zlt_Qlt; fold N; lra). lia.
Qed.

Lemma contains_covers o p : inside_domain g p -> valid g o -> (contains g o p <-> covers g o (pt_at p)).
Proof.
  intros (H & HF) (Hl & Hc). unfold contains, covers. cbv zeta. split; intros X a; specialize (X a).
  - unfold pt_at. rewrite pc_pt_of. destruct (flat g a) eqn:F.
    + pose proof (Hc a). unfold ncell in H0. rewrite F in H0. rewrite Z.div_0_l by (pose proof (pow2_pos (lmax g - lev o)); lia). lia.
    + apply slice_floor in X; [|apply (ncell_pos g WF); lia]. rewrite <- X.
      pose proof (ncell_split g a (lev o) (lmax g - lev o) ltac:(lia) ltac:(lia)) as E. rewrite F in E.
      replace (lev o + (lmax g - lev o)) with (lmax g) in E by lia. rewrite E.
      assert (EQ : (p a * inject_Z (ncell g a (lev o) * 2 ^ (lmax g - lev o)) == p a * inject_Z (ncell g a (lev o)) * inject_Z (2 ^ (lmax g - lev o)))%Q)
        by (rewrite inject_Z_mult; ring).
      rewrite (Qfloor_comp _ _ EQ). apply Qfloor_mul_div. apply pow2_pos. lia.
  - unfold pt_at in X. rewrite pc_pt_of in X. destruct (flat g a) eqn:F.
    + pose proof (Hc a) as C. unfold ncell in *. rewrite F in *. assert (E : coord o a = 0) by lia. rewrite E.
      pose proof (HF a F) as P0. split; [|]; change (inject_Z 1) with 1%Q; change (inject_Z (0 + 1)) with 1%Q; change (inject_Z 0) with 0%Q; unfold Qdiv; rewrite P0; vm_compute; (reflexivity || discriminate).
    + apply slice_floor; [apply (ncell_pos g WF); lia|]. rewrite <- X.
      pose proof (ncell_split g a (lev o) (lmax g - lev o) ltac:(lia) ltac:(lia)) as E. rewrite F in E.
      replace (lev o + (lmax g - lev o)) with (lmax g) in E by lia. rewrite E.
      assert (EQ : (p a * inject_Z (ncell g a (lev o) * 2 ^ (lmax g - lev o)) == p a * inject_Z (ncell g a (lev o)) * inject_Z (2 ^ (lmax g - lev o)))%Q)
        by (rewrite inject_Z_mult; ring).
      rewrite (Qfloor_comp _ _ EQ). symmetry. apply Qfloor_mul_div. apply pow2_pos. lia.
Qed.

Lemma finest_at p : inside_domain g p -> finest_cell g p = cell_at g (lmax g) (pt_at p).
Proof.
  intros H. pose proof (pt_in_dom p H) as D. pose proof (wf_minmax g WF) as MM. pose proof (wf_max20 g WF).
  pose proof (in_dom_21 g WF (pt_at p) D) as B.
  assert (C : forall a, flat g a = false -> u32 (floor_div (p a) (cell_count g a (lmax g))) = pc (pt_at p) a).
  { intros a F. unfold floor_div. rewrite (cell_count_eq g WF) by (lia || assumption).
    assert (E : Qfloor (p a * inject_Z (ncell g a (lmax g))) = pc (pt_at p) a) by (unfold pt_at; rewrite pc_pt_of, F; reflexivity).
    rewrite E. specialize (B a). unfold u32. apply Z.mod_small. lia. }
  assert (W : forall a, pc (pt_at p) a / 2^(lmax g - lmax g) = pc (pt_at p) a) by (intros a; rewrite Z.sub_diag; apply Z.div_1_r).
  unfold finest_cell, cell_at. apply oct_ext; [reflexivity|]. intros [| |]; rewrite coord_oct_of; cbn [coord cx cy cz]; rewrite W.
  - apply C. reflexivity.
  - apply C. reflexivity.
  - destruct (g3d g) eqn:G; [apply C; cbn; rewrite G; reflexivity|]. unfold pt_at. rewrite pc_pt_of. cbn [flat]. rewrite G. reflexivity.
Qed.

Lemma cell_at_up l q : l <= lmax g ->
  mkOct (lev (cell_at g l q) - 1) (cx (cell_at g l q) / 2) (cy (cell_at g l q) / 2) (cz (cell_at g l q) / 2) = cell_at g (l - 1) q.
Proof.
  intros Hl. unfold cell_at, oct_of. cbn [lev cx cy cz]. 
  assert (E : forall z, z / 2^(lmax g - l) / 2 = z / 2^(lmax g - (l - 1))).
  { intros z. rewrite Z.div_div by (try apply Z.pow_nonzero; lia). f_equal.
    replace (lmax g - (l - 1)) with (Z.succ (lmax g - l)) by lia. rewrite Z.pow_succ_r by lia. lia. }
  rewrite !E. reflexivity.
Qed.

Lemma descend_found st L q A : tiles g L -> incl st L -> in_dom g q -> In A L -> covers g A q ->
  forall n l, lmin g <= lev A <= l -> l <= lmax g -> (Z.to_nat (l - lmin g) < n)%nat ->
  (In A st -> exists i, descend n st (cell_at g l q) = Some i /\ nth_error st i = Some A) /\
  (~ In A st -> descend n st (cell_at g l q) = None).
Proof.
  intros T HI D HA CA. induction n as [|n IH]; intros l Hl Hm Hn; [lia|]. cbn [descend].
  destruct (find_pos (cell_at g l q) st) as [i|] eqn:F.
  - pose proof (find_pos_some _ _ _ F) as N. assert (E : cell_at g l q = A).
    { apply (tiles_unique g L q); auto; [apply HI; eapply nth_error_In; exact N|apply cell_at_covers]. }
    split; intros HS; [|exfalso; apply HS; rewrite <- E; eapply nth_error_In; exact N].
    exists i. split; [reflexivity|congruence].
  - apply find_pos_none in F. rewrite cell_at_up by exact Hm.
    destruct (Z.eq_dec (lev A) l) as [EL|NL].
    + assert (E : A = cell_at g l q) by (rewrite <- EL; apply covers_cell_at; exact CA).
      split; intros HS; [congruence|]. clear IH. rewrite E in HS.
      (* nothing above: every other cell around q would be a second leaf at q *)
      assert (G : forall n l', l' < l -> descend n st (cell_at g l' q) = None).
      { clear -T HI D HA CA EL Hm. induction n as [|n IH]; intros l' Hl'; cbn [descend]; [reflexivity|].
        destruct (find_pos (cell_at g l' q) st) as [i|] eqn:F.
        - apply find_pos_some in F. apply nth_error_In in F. apply HI in F.
          assert (E : cell_at g l' q = A) by (apply (tiles_unique g L q); auto; apply cell_at_covers).
          apply (f_equal lev) in E. cbn [cell_at oct_of lev] in E. lia.
        - rewrite cell_at_up by lia. apply IH. lia. }
      apply G. lia.
    + apply IH; lia.
Qed.
End Point.

(** ** C18: the octant at a position *)
Theorem C18_location g M R p : wf_geom g -> mesh_ok g M -> In R M -> inside_domain g p ->
  exists A, In A (leaves M) /\ contains g A p /\ (forall B, In B (leaves M) -> contains g B p -> B = A) /\
    (* the rank finds it if it knows it *)
    (In A (loc R ++ gho R) -> exists i, getiOctFromPos g (loc R ++ gho R) p = Some i /\ nth_error (loc R ++ gho R) i = Some A) /\
    (~ In A (loc R ++ gho R) -> getiOctFromPos g (loc R ++ gho R) p = None).
Proof.
  intros WF OK HR HP. pose proof (pt_in_dom g WF p HP) as D. pose proof (ok_tiles g M OK) as T.
  destruct (tiles_leaf g _ _ T D) as (A & HA & CA). pose proof (tiles_valid g _ A T HA) as V.
  exists A. split; [exact HA|]. split; [apply contains_covers; assumption|]. split.
  - intros B HB CB. apply contains_covers in CB; [|exact WF|exact HP|apply (tiles_valid g _ B T HB)].
    apply (tiles_unique g _ _ B A T D HB HA CB CA).
  - assert (HI : incl (loc R ++ gho R) (leaves M)).
    { intros X HX. apply in_app_iff in HX. destruct HX as [HX|HX].
      - unfold leaves. apply in_concat. exists (loc R). split; [apply in_map, HR|exact HX].
      - apply (ok_ghosts g M OK R HR). exact HX. }
    unfold getiOctFromPos. rewrite (finest_at g WF p HP). pose proof (wf_minmax g WF). destruct V as (V & _).
    apply (descend_found g _ (leaves M) _ A T HI D HA CA); lia.
Qed.

(** ** C18: the rank owning a position *)
Lemma first_above_spec key : forall J k r, (forall j x, (j < r)%nat -> nth_error J j = Some x -> x <= key) ->
  (exists x, nth_error J r = Some x /\ key < x) -> first_above k J key = Some (k + r)%nat.
Proof.
  induction J as [|x J IH]; intros k r H (y & E & L); [destruct r; discriminate|]. cbn [first_above].
  destruct r as [|r]; cbn [nth_error] in E.
  - injection E as ->. replace (y >? key) with true by lia. f_equal. lia.
  - pose proof (H O x ltac:(lia) eq_refl). replace (x >? key) with false by lia.
    rewrite (IH (S k) r); [f_equal; lia| |].
    + intros j z Hj Hz. apply (H (S j) z); [lia|exact Hz].
    + exists y. auto.
Qed.

Lemma first_morton_zkey g o l : wf_geom g -> cubic g -> valid g o -> first_morton g (o :: l) = Some (zkey g o).
Proof.
  intros WF CU V. rewrite (zkey_corner g WF o V). unfold first_morton, pkey. pose proof V as (Hl & Hc).
  pose proof (wf_lmin0 g WF). pose proof (wf_max20 g WF).
  assert (C : forall a, flat g a = false -> u32 (floor_div (getCorner g o a) (2^lmax g)) = pc (corner g o) a).
  { intros a F. unfold corner. rewrite pc_pt_of. unfold width. rewrite F. unfold floor_div, getCorner.
    rewrite (cell_count_eq g WF) by (lia || assumption). unfold ncell. rewrite F, (CU a F).
    rewrite <- Z.pow_add_r by lia. replace (lmin g + (lev o - lmin g)) with (lev o) by lia.
    assert (EQ : (inject_Z (coord o a) / inject_Z (2 ^ lev o) * inject_Z (2 ^ lmax g) == inject_Z (coord o a * 2^(lmax g - lev o)))%Q).
    { replace (lmax g) with (lev o + (lmax g - lev o)) at 1 by lia. rewrite Z.pow_add_r by lia. rewrite !inject_Z_mult.
      field. pose proof (inject_pos (2^lev o) (pow2_pos (lev o) ltac:(lia))). lra. }
    rewrite (Qfloor_comp _ _ EQ), Qfloor_Z.
    pose proof (corner_in_dom g o V a) as X. unfold corner in X. rewrite pc_pt_of in X. unfold width in X. rewrite F in X.
    pose proof (ncell_21 g WF a (lmax g) ltac:(lia)). unfold u32. apply Z.mod_small. lia. }
  f_equal. change (ptx (corner g o)) with (pc (corner g o) AX). change (pty (corner g o)) with (pc (corner g o) AY).
  change (ptz (corner g o)) with (pc (corner g o) AZ).
  rewrite <- (C AX eq_refl), <- (C AY eq_refl). destruct (g3d g) eqn:G.
  - rewrite <- (C AZ) by (cbn; rewrite G; reflexivity). reflexivity.
  - f_equal. unfold corner. rewrite pc_pt_of, (valid_flat g o AZ V) by (cbn; rewrite G; reflexivity). reflexivity.
Qed.

Lemma sorted_split g a x b y c : zsorted g (a ++ x :: b ++ y :: c) -> zkey g x < zkey g y.
Proof.
  unfold zsorted. induction a as [|z a IH]; cbn [app]; intros H; inversion H; subst; [|apply IH; assumption].
  rewrite Forall_forall in H3. apply H3. apply in_app_iff. right. left. reflexivity.
Qed.

Lemma leaves_rank M r R : nth_error M r = Some R -> leaves M = concat (map loc (firstn r M)) ++ loc R ++ concat (map loc (skipn (S r) M)).
Proof.
  unfold leaves. revert r. induction M as [|X M IH]; intros [|r] H; cbn [nth_error] in H; try discriminate.
  - injection H as ->. reflexivity.
  - cbn [map concat firstn skipn]. rewrite (IH r H), app_assoc. reflexivity.
Qed.

(** Octants of an earlier rank come first in Morton order. *)
Lemma rank_order g M r s R S A B : zsorted g (leaves M) -> (r < s)%nat -> nth_error M r = Some R -> nth_error M s = Some S ->
  In A (loc R) -> In B (loc S) -> zkey g A < zkey g B.
Proof.
  intros Z Hrs HR HS HA HB.
  rewrite (leaves_rank M r R HR) in Z.
  assert (HB' : In B (concat (map loc (skipn (Datatypes.S r) M)))).
  { apply in_concat. exists (loc S). split; [|exact HB]. apply in_map.
    rewrite <- (firstn_skipn (Datatypes.S r) M) in HS. rewrite nth_error_app2 in HS; [eapply nth_error_In; exact HS|].
    rewrite firstn_length. lia. }
  apply in_split in HA. destruct HA as (a1 & a2 & E1). apply in_split in HB'. destruct HB' as (b1 & b2 & E2).
  rewrite E1, E2 in Z. replace (concat (map loc (firstn r M)) ++ (a1 ++ A :: a2) ++ b1 ++ B :: b2) with
    ((concat (map loc (firstn r M)) ++ a1) ++ A :: (a2 ++ b1) ++ B :: b2) in Z by (rewrite <- !app_assoc; cbn [app]; rewrite <- ?app_assoc; reflexivity).
  eapply sorted_split; exact Z.
Qed.

Lemma rank_head g M R o l A : zsorted g (leaves M) -> In R M -> loc R = o :: l -> In A (loc R) -> zkey g o <= zkey g A.
Proof.
  intros Z HR E HA. rewrite E in HA. destruct HA as [->|HA]; [lia|].
  apply In_nth_error in HR. destruct HR as (r & HR). rewrite (leaves_rank M r R HR), E in Z.
  apply in_split in HA. destruct HA as (a1 & a2 & ->).
  replace (concat (map loc (firstn r M)) ++ (o :: a1 ++ A :: a2) ++ concat (map loc (skipn (S r) M))) with
    (concat (map loc (firstn r M)) ++ o :: a1 ++ A :: (a2 ++ concat (map loc (skipn (S r) M)))) in Z
    by (cbn [app]; rewrite <- !app_assoc; reflexivity).
  apply sorted_split in Z. lia.
Qed.

Theorem C18_owner_partial g M p : wf_geom g -> cubic g -> mesh_ok g M -> inside_domain g p ->
  exists J r R A, morton_intervals g (map loc M) = Some J /\ getDomainFromPos g J p = Some (Z.of_nat r) /\
    nth_error M r = Some R /\ In A (loc R) /\ contains g A p.
Proof.
  intros WF CU OK HP. pose proof (pt_in_dom g WF p HP) as D. pose proof (ok_tiles g M OK) as T. pose proof (ok_sorted g M OK) as ZS.
  destruct (tiles_leaf g _ _ T D) as (A & HA & CA). pose proof (tiles_valid g _ A T HA) as V.
  assert (HA' := HA). unfold leaves in HA'. apply in_concat in HA'. destruct HA' as (l & Hl & HA').
  apply in_map_iff in Hl. destruct Hl as (R & <- & HR). assert (HRn := HR). apply In_nth_error in HRn. destruct HRn as (r & HRr).
  assert (FM : exists L, mapM (first_morton g) (map loc M) = Some L).
  { apply mapM_total. intros x Hx. apply in_map_iff in Hx. destruct Hx as (S & <- & HS).
    pose proof (ok_nonempty g M OK S HS). destruct (loc S) as [|o l] eqn:E; [contradiction|]. 
    exists (zkey g o). apply first_morton_zkey; auto. apply (tiles_valid g _ o T). unfold leaves. apply in_concat.
    exists (loc S). split; [apply in_map; exact HS|rewrite E; left; reflexivity]. }
  destruct FM as (L & EL).
  (* first key of rank s *)
  assert (FK : forall s S, nth_error M s = Some S -> exists o l, loc S = o :: l /\ In o (leaves M) /\ nth_error L s = Some (zkey g o)).
  { intros s S HS. pose proof (ok_nonempty g M OK S (nth_error_In _ _ HS)).
    destruct (loc S) as [|o l] eqn:E; [contradiction|]. exists o, l.
    assert (HO : In o (leaves M)). { unfold leaves. apply in_concat. exists (loc S). split; [apply in_map; eapply nth_error_In; exact HS|rewrite E; left; reflexivity]. }
    split; [reflexivity|]. split; [exact HO|].
    destruct (mapM_nth _ _ _ s (loc S) EL) as (y & Ey & Fy); [rewrite nth_error_map, HS; reflexivity|].
    rewrite E, (first_morton_zkey g o l WF CU (tiles_valid g _ o T HO)) in Fy. congruence. }
  assert (LL : length L = length M) by (rewrite (mapM_length _ _ _ EL), map_length; reflexivity).
  exists (L ++ [2^64 - 1]), r, R, A. unfold morton_intervals. rewrite EL. split; [reflexivity|].
  split; [|split; [exact HRr|split; [exact HA'|apply contains_covers; assumption]]].
  unfold getDomainFromPos. rewrite (finest_at g WF p HP). set (q := pt_at g p) in *.
  assert (KE : morton3 (cx (cell_at g (lmax g) q)) (cy (cell_at g (lmax g) q)) (cz (cell_at g (lmax g) q)) = pkey q).
  { unfold cell_at, oct_of, pkey. cbn [cx cy cz]. rewrite Z.sub_diag. change (2^0) with 1. rewrite !Z.div_1_r. reflexivity. }
  cbv zeta. rewrite KE. apply covers_key in CA; [|exact WF|exact V|exact D].
  assert (PL : nth_error L r <> None) by (apply nth_error_Some; rewrite LL; apply nth_error_Some; congruence).
  rewrite (first_above_spec (pkey q) (L ++ [2^64 - 1]) 0 (S r)).
  - cbn [Nat.add]. f_equal. lia.
  - intros j x Hj Hx. rewrite nth_error_app1 in Hx by (assert (nth_error L r <> None) by exact PL; apply nth_error_Some in H; lia).
    destruct (nth_error M j) as [S|] eqn:HS.
    2:{ apply nth_error_None in HS. assert (nth_error L j <> None) by congruence. apply nth_error_Some in H. lia. }
    destruct (FK j S HS) as (o & l & E & HO & X). rewrite X in Hx. injection Hx as <-.
    assert (zkey g o <= zkey g A); [|lia].
    destruct (Nat.eq_dec j r) as [->|NE].
    + assert (S = R) by congruence. subst S. eapply rank_head; eauto.
    + assert (zkey g o < zkey g A); [|lia]. eapply (rank_order g M j r S R); eauto; [lia|]. rewrite E. left. reflexivity.
  - destruct (nth_error M (S r)) as [S|] eqn:HS.
    + destruct (FK (Datatypes.S r) S HS) as (o & l & E & HO & X). exists (zkey g o). split.
      * rewrite nth_error_app1; [exact X|]. apply nth_error_Some. congruence.
      * assert (K : zkey g A < zkey g o) by (eapply (rank_order g M r (Datatypes.S r) R S); eauto; rewrite E; left; reflexivity).
        pose proof (tiles_key_order g WF (leaves M) A o T HA HO K). lia.
    + apply nth_error_None in HS. assert (r < length M)%nat by (apply nth_error_Some; congruence).
      exists (2^64 - 1). split; [rewrite nth_error_app2 by lia; replace (S r - length L)%nat with O by lia; reflexivity|].
      pose proof (zkey_lt g WF A V). pose proof (wf_max20 g WF). pose proof (wf_lmin0 g WF). pose proof (wf_minmax g WF).
      assert (2^(3 * lmax g) <= 2^60) by (apply Z.pow_le_mono_r; lia). lia.
Qed.

(** For a coarse grid that is not cubic the answer can be wrong: 4x2 cells on 4 ranks, the
    centre of cell (0,1) is said to belong to rank 0 but that cell is on rank 1. *)
Definition nc_g : geom := mkGeom false 2 2 4 2 1 false false false.
Definition nc_M : mesh := match private_init id_order nc_g 4 with Some M => M | None => [] end.
Definition nc_p : position := fun a => match a with AX => 1#8 | AY => 3#4 | AZ => 0 end%Q.
Theorem C18_refuted_non_cubic : exists g P M p J r A R, good_setup g P /\ reachable g P M /\ inside_domain g p /\
  morton_intervals g (map loc M) = Some J /\ getDomainFromPos g J p = Some r /\
  nth_error M 1 = Some R /\ In A (loc R) /\ contains g A p /\ r = 0.
Proof.
  exists nc_g, 4%nat, nc_M, nc_p. eexists _, _, (mkOct 2 0 1 0), _.
  split; [split; [apply wf_geom_check; reflexivity|cbn [nc_g lmin gsx gsy gsz]; lia]|].
  split; [apply (reach_init nc_g 4 id_order); [exact id_order_ok|vm_compute; reflexivity]|].
  split; [split; intros [| |] H; vm_compute in H |- *; try discriminate; repeat split|].
  split; [vm_compute; reflexivity|]. split; [vm_compute; reflexivity|]. split; [vm_compute; reflexivity|].
  split; [vm_compute; left; reflexivity|]. split; [|reflexivity].
  intros [| |]; vm_compute; split; (reflexivity || discriminate).
Qed.

(** ** C52: periodic wrapping *)
Lemma Qtrunc_nonneg y : (0 <= y)%Q -> Qtrunc y = Qfloor y.
Proof.
  destruct y as [n d]. intros H. unfold Qtrunc, Qfloor. cbn [Qnum Qden]. apply Z.quot_div_nonneg; [|lia].
  unfold Qle in H. cbn in H. lia.
Qed.
Lemma Qtrunc_neg y : (y <= 0)%Q -> Qtrunc y = - Qfloor (- y).
Proof.
  destruct y as [n d]. intros H. unfold Qtrunc, Qfloor, Qopp. cbn [Qnum Qden].
  assert (n <= 0) by (unfold Qle in H; cbn in H; lia).
  rewrite <- (Z.opp_involutive n) at 1. rewrite Z.quot_opp_l by lia. f_equal. apply Z.quot_div_nonneg; lia.
Qed.

Theorem C52_wrap_partial x xmin xmax : (xmin < xmax)%Q -> (xmin - (xmax - xmin) <= x)%Q ->
  (xmin <= wrap_position x xmin xmax)%Q /\ (wrap_position x xmin xmax < xmax)%Q /\
  exists k : Z, (wrap_position x xmin xmax == x + inject_Z k * (xmax - xmin))%Q.
Proof.
  intros HL HX. unfold wrap_position, fmod. set (L := (xmax - xmin)%Q) in *. set (y := (x - xmin + L)%Q).
  assert (HLp : (0 < L)%Q) by (unfold L; lra). assert (Hy : (0 <= y)%Q) by (unfold y; lra).
  assert (Hd : (0 <= y / L)%Q) by (apply Qle_shift_div_l; lra).
  rewrite (Qtrunc_nonneg _ Hd). destruct (proj1 (Qfloor_iff (y / L) _) eq_refl) as (A & B). set (f := Qfloor (y / L)) in *.
  assert (E : (y / L * L == y)%Q) by (field; lra).
  assert (A' : (inject_Z f * L <= y)%Q) by (rewrite <- E; apply Qmult_le_compat_r; lra).
  assert (B' : (y < inject_Z (f + 1) * L)%Q) by (rewrite <- E; apply Qmult_lt_r; lra).
  rewrite inject_Z_plus in B'. change (inject_Z 1) with 1%Q in B'.
  split; [lra|]. split; [unfold L in *; lra|].
  exists (1 + - f). rewrite inject_Z_plus, inject_Z_opp. change (inject_Z 1) with 1%Q. unfold y. ring.
Qed.

(** A particle that leaves the domain by more than one period on the lower side stays
    outside (unless it moved by a whole number of periods). *)
Theorem C52_refuted_large_step x xmin xmax : (xmin < xmax)%Q -> (x < xmin - (xmax - xmin))%Q ->
  (forall k : Z, ~ (x == xmin + inject_Z k * (xmax - xmin))%Q) -> (wrap_position x xmin xmax < xmin)%Q.
Proof.
  intros HL HX HK. unfold wrap_position, fmod. set (L := (xmax - xmin)%Q) in *. set (y := (x - xmin + L)%Q).
  assert (HLp : (0 < L)%Q) by (unfold L; lra). assert (Hy : (y < 0)%Q) by (unfold y; lra).
  assert (Hd : (y / L <= 0)%Q) by (apply Qle_shift_div_r; lra).
  rewrite (Qtrunc_neg _ Hd). destruct (proj1 (Qfloor_iff (- (y / L)) _) eq_refl) as (A & B). set (f := Qfloor _) in *.
  assert (E : (- (y / L) * L == - y)%Q) by (field; lra).
  assert (A' : (inject_Z f * L <= - y)%Q) by (rewrite <- E; apply Qmult_le_compat_r; lra).
  rewrite inject_Z_opp. destruct (Qle_lt_or_eq _ _ A') as [LT|EQ]; [lra|].
  exfalso. apply (HK (- f + -(1))). unfold y in EQ. rewrite inject_Z_plus, inject_Z_opp. change (inject_Z (-(1))) with (-(1))%Q. lra.
Qed.

(** So the full claim, with no bound on the displacement, is false. *)
Theorem C52_refuted : ~ (forall x xmin xmax, (xmin < xmax)%Q ->
  (xmin <= wrap_position x xmin xmax)%Q /\ (wrap_position x xmin xmax < xmax)%Q).
Proof. intros H. specialize (H (-9#4) 0 1)%Q. destruct H as (H & _); [reflexivity|]. vm_compute in H. apply H. reflexivity. Qed.

(** ** C53: constructor checks *)
Theorem C53_accepts g : fits g -> 0 <= lmin g <= 20 -> ctor_ok g = true.
Proof.
  intros (H1 & H2 & H3) Hl. unfold ctor_ok.
  assert (T : forall l, 0 <= l <= 20 -> u32 (2^l) = 2^l).
  { intros l Hll. unfold u32. apply Z.mod_small. pose proof (pow2_pos l ltac:(lia)).
    assert (2^l <= 2^20) by (apply Z.pow_le_mono_r; lia). lia. }
  rewrite (T (lmin g)) by lia. pose proof (pow2_pos (lmin g) ltac:(lia)) as PP.
  pose proof (H2 AX) as X. pose proof (H2 AY) as Y. pose proof (H2 AZ) as W. cbn [gsize flat] in X, Y, W.
  assert (E1 : (lmin g <=? lmax g) = true) by lia. assert (E2 : (gsx g <=? 2^lmin g) = true) by lia.
  assert (E3 : (gsy g <=? 2^lmin g) = true) by lia.
  assert (E4 : ((if gsz g <=? (if g3d g then 1 else 0) then 2^lmin g else 1) =? 0) = false) by (destruct (gsz g <=? (if g3d g then 1 else 0)); lia).
  rewrite E1, E2, E3, E4. cbn [andb negb].
  assert (E6 : g3d g || (gsz g =? 1) = true) by (destruct (g3d g); cbn [negb orb] in *; lia). rewrite E6, andb_true_r.
  destruct (0 <? lmin g) eqn:E0; [|reflexivity]. cbn [andb]. rewrite (T (lmin g - 1)) by lia.
  destruct (H3 ltac:(lia)) as (a & F & G). destruct a; cbn [gsize] in G.
  - replace (gsx g <=? 2^(lmin g - 1)) with false by lia. reflexivity.
  - replace (gsy g <=? 2^(lmin g - 1)) with false by lia. rewrite andb_false_r. reflexivity.
  - cbn [flat] in F. destruct (g3d g); [|discriminate]. replace (gsz g <=? 2^(lmin g - 1)) with false by lia. rewrite andb_false_r. reflexivity.
Qed.

(** What the checks do establish. Missing: the bound of the third direction, a positive
    number of cells, and in 2D that level_min could not be smaller. *)
Theorem C53_rejects_partial g : 0 <= lmin g <= 20 -> ctor_ok g = true ->
  lmin g <= lmax g /\ gsx g <= 2^lmin g /\ gsy g <= 2^lmin g /\ (g3d g = false -> gsz g = 1) /\
  (g3d g = true -> 0 < lmin g -> exists a, 2^(lmin g - 1) < gsize g a).
Proof.
  intros Hl H. unfold ctor_ok in H.
  assert (T : forall l, 0 <= l <= 20 -> u32 (2^l) = 2^l).
  { intros l Hll. unfold u32. apply Z.mod_small. pose proof (pow2_pos l ltac:(lia)).
    assert (2^l <= 2^20) by (apply Z.pow_le_mono_r; lia). lia. }
  rewrite (T (lmin g)) in H by lia. rewrite !andb_true_iff in H. destruct H as (((((A & B) & C) & D) & E) & F).
  split; [lia|]. split; [lia|]. split; [lia|]. split; [intros G; rewrite G in F; cbn in F; lia|].
  intros G L. rewrite G in E. rewrite (T (lmin g - 1)) in E by lia. apply negb_true_iff in E.
  destruct (gsx g <=? 2^(lmin g - 1)) eqn:X; [|exists AX; cbn [gsize]; lia].
  destruct (gsy g <=? 2^(lmin g - 1)) eqn:Y; [|exists AY; cbn [gsize]; lia].
  destruct (gsz g <=? 2^(lmin g - 1)) eqn:W; [|exists AZ; cbn [gsize]; lia].
  replace (0 <? lmin g) with true in E by lia. discriminate.
Qed.

(** A 3D grid with 3 cells along z at level_min 1 is accepted; so is a grid without cells. *)
Theorem C53_refuted : ~ (forall g, 0 <= lmin g <= 20 -> ctor_ok g = true -> fits g).
Proof.
  intros H. destruct (H (mkGeom true 1 2 2 2 3 false false false)) as (_ & A & _); [cbn; lia|reflexivity|].
  specialize (A AZ). vm_compute in A. destruct A as (_ & A). apply A. reflexivity.
Qed.
Theorem C53_refuted_accepts : exists g g', ctor_ok g = true /\ 2^lmin g < gsz g /\ ctor_ok g' = true /\ gsx g' = 0.
Proof. exists (mkGeom true 1 2 2 2 3 false false false), (mkGeom true 1 2 0 2 2 false false false). repeat split. Qed.

(** The reported number of octants is the number of coarse cells if that is below 2^32... *)
Theorem C53_count_partial g : (forall a, 0 <= gsize g a) -> gsx g * gsy g * gsz g < 2^32 -> gsx g * gsy g < 2^32 -> coarse_total g = gsx g * gsy g * gsz g.
Proof.
  intros H H1 H2. pose proof (H AX) as X. pose proof (H AY) as Y. pose proof (H AZ) as W. cbn [gsize] in X, Y, W.
  unfold coarse_total, u32. rewrite (Z.mod_small (gsx g * gsy g)) by nia. apply Z.mod_small. nia.
Qed.
(** ... and wrong above: an accepted 2048^3 coarse grid reports 0 octants. *)
Theorem C53_refuted_count : exists g, wf_geom g /\ fits g /\ ctor_ok g = true /\
  gsx g * gsy g * gsz g = 2^33 /\ coarse_total g = 0.
Proof.
  exists (mkGeom true 11 12 2048 2048 2048 false false false). split; [apply wf_geom_check; reflexivity|].
  split; [|vm_compute; repeat split]. unfold fits. cbn [lmin lmax g3d]. split; [lia|]. split.
  - intros [| |]; cbn [gsize gsx gsy gsz flat negb g3d]; change (2^11) with 2048; lia.
  - intros _. exists AX. cbn [gsize gsx flat]. change (2^(11-1)) with 1024. split; [reflexivity|lia].
Qed.

(** ** C54: boundary flag *)
Theorem C54_bound_3d_partial g o : wf_geom g -> g3d g = true -> valid g o -> (getBound g o = true <-> on_box g o).
Proof.
  intros WF G V. pose proof V as (Hl & Hc). pose proof (wf_max20 g WF).
  assert (F : forall a, flat g a = false) by (intros [| |]; cbn [flat]; rewrite ?G; reflexivity).
  assert (U : forall a, u32 (cell_count g a (lev o) - 1) = ncell g a (lev o) - 1).
  { intros a. rewrite (cell_count_eq g WF) by (lia || apply F). pose proof (ncell_pos g WF a (lev o) ltac:(lia)).
    pose proof (ncell_21 g WF a (lev o) ltac:(lia)). unfold u32. apply Z.mod_small. lia. }
  unfold getBound, on_box. cbv zeta. rewrite !U. rewrite !orb_true_iff, !Z.eqb_eq. split.
  - intros H0. destruct H0 as [[[[[H0|H0]|H0]|H0]|H0]|H0];
      [exists AX|exists AY|exists AZ|exists AX|exists AY|exists AZ]; (split; [apply F|]); cbn [coord]; auto.
  - intros (a & _ & [H0|H0]); destruct a; cbn [coord] in H0; tauto.
Qed.
(** In 2D every octant is flagged, since its third coordinate is 0. *)
Theorem C54_refuted_2d g o : wf_geom g -> g3d g = false -> valid g o -> getBound g o = true.
Proof.
  intros WF G V. pose proof (valid_flat g o AZ V) as Z0. cbn [flat coord] in Z0. rewrite G in Z0. specialize (Z0 eq_refl).
  unfold getBound. cbv zeta. rewrite Z0. cbn [Z.eqb]. rewrite !orb_true_r. reflexivity.
Qed.
Theorem C54_refuted : ~ (forall g o, wf_geom g -> valid g o -> (getBound g o = true <-> on_box g o)).
Proof.
  intros H. set (g := mkGeom false 2 2 4 4 1 false false false). set (o := mkOct 2 1 1 0).
  assert (WF : wf_geom g) by (apply wf_geom_check; reflexivity).
  assert (V : valid g o) by (split; [cbn; lia|intros [| |]; vm_compute; split; congruence]).
  destruct (proj1 (H g o WF V) eq_refl) as (a & F & [K|K]); destruct a; vm_compute in F, K; congruence.
Qed.
Example C54_inner_2d : let g := mkGeom false 2 2 4 4 1 false false false in let o := mkOct 2 1 1 0 in
  wf_geom g /\ valid g o /\ ~ on_box g o /\ getBound g o = true.
Proof.
  cbv zeta. split; [apply wf_geom_check; reflexivity|]. split; [split; [cbn; lia|intros [| |]; vm_compute; split; congruence]|].
  split; [|reflexivity]. intros (a & F & [H|H]); destruct a; vm_compute in F, H; congruence.
Qed.

(** * Concrete cases *)
Definition ex_p : position := fun a => match a with AX => 1#8 | AY => 3#8 | AZ => 3#4 end%Q.
Example ex_p_inside : inside_domain ex_g ex_p.
Proof. split; intros [| |] H; vm_compute in H |- *; try discriminate; repeat split. Qed.
(** The position is in one of the children of the refined cell. *)
Example ex_location : exists i, getiOctFromPos ex_g (loc ex_R ++ gho ex_R) ex_p = Some i /\
  nth_error (loc ex_R ++ gho ex_R) i = Some (mkOct 2 0 1 1).
Proof. eexists. vm_compute. split; reflexivity. Qed.
Definition cu_g : geom := mkGeom true 1 3 2 2 2 true false false.
Definition cu_M0 : mesh := match private_init id_order cu_g 3 with Some M => M | None => [] end.
Definition cu_M : mesh := match adapt 20 id_order cu_g cu_M0 (map (map ex_refine) (map loc cu_M0)) with Some M => M | None => [] end.
Example cu_setup : good_setup cu_g 3 /\ cubic cu_g.
Proof.
  split; [split; [apply wf_geom_check; reflexivity|cbn [cu_g lmin gsx gsy gsz]; lia]|]. intros [| |] _; reflexivity.
Qed.
Example cu_reach : reachable cu_g 3 cu_M.
Proof.
  apply (reach_adapt cu_g 3 id_order 20 cu_M0 (map (map ex_refine) (map loc cu_M0))); [|exact id_order_ok| |vm_compute; reflexivity].
  - apply (reach_init cu_g 3 id_order); [exact id_order_ok|vm_compute; reflexivity].
  - apply good_markers_of, good_request_check. vm_compute. reflexivity.
Qed.
Example cu_ok : mesh_ok cu_g cu_M. Proof. exact (reachable_ok cu_g 3 cu_M (proj1 cu_setup) cu_reach). Qed.
Example cu_owner : exists J, morton_intervals cu_g (map loc cu_M) = Some J /\
  getDomainFromPos cu_g J ex_p = Some 1 /\ getDomainFromPos cu_g J (fun _ => 7#8)%Q = Some 2.
Proof. eexists. vm_compute. repeat split. Qed.
Example ex_wrap : (wrap_position (-1#4) 0 1 == 3#4)%Q /\ (wrap_position (9#4) 0 1 == 1#4)%Q /\ (wrap_position (-9#4) 0 1 == -1#4)%Q.
Proof. vm_compute. repeat split. Qed.
Example ex_fits : fits ex_g /\ ctor_ok ex_g = true.
Proof.
  split; [|reflexivity]. unfold fits. cbn [ex_g lmin lmax]. split; [lia|]. split.
  - intros [| |]; cbn; lia.
  - intros _. exists AX. cbn. split; [reflexivity|lia].
Qed.

Print Assumptions C18_location.
Print Assumptions C18_owner_partial.
Print Assumptions C18_refuted_non_cubic.
Print Assumptions C52_wrap_partial.
Print Assumptions C52_refuted_large_step.
Print Assumptions C52_refuted.
Print Assumptions C53_refuted.
Print Assumptions C54_refuted.
Print Assumptions C53_accepts.
Print Assumptions C53_rejects_partial.
Print Assumptions C53_refuted_accepts.
Print Assumptions C53_count_partial.
Print Assumptions C53_refuted_count.
Print Assumptions C54_bound_3d_partial.
Print Assumptions C54_refuted_2d.
