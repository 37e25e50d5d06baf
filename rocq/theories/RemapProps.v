(** C27 and C28: values after an AMR cycle. *)
From Coq Require Import QArith.
From Verif Require Import Base OctreeSpec OctreeGeom OctreeModel FindNeighbors MeshSpec GhostExchange ApplyProofs AdaptProofs HistorySpec HistoryProofs
  CommProps OctreeProps CellModel CellSpec CellProps CellIterProps RemapModel RemapSpec RemapProofs.
Open Scope Z_scope.

(** * Where the new octants come from *)
Lemma parent_covers g A p : valid g A -> in_dom g p -> covers g A p -> covers g (parent g A) p.
Proof.
  intros HV HD HC a. specialize (HC a). unfold parent. rewrite coord_oct_of. cbn [oct_of lev]. unfold half. destruct (flat g a) eqn:F.
  - specialize (HD a). unfold ncell in HD. rewrite F in HD. assert (pc p a = 0) as E by lia. rewrite E in *.
    rewrite <- HC. rewrite !Z.div_0_l; [reflexivity| |]; apply Z.pow_nonzero; destruct HV; lia.
  - rewrite <- HC. destruct HV as [HL _]. replace (lmax g - (lev A - 1)) with (lmax g - lev A + 1) by lia.
    rewrite Z.pow_add_r by lia. change (2^1) with 2. rewrite Z.div_div by (try (apply Z.pow_nonzero); try apply Z.pow_pos_nonneg; lia). reflexivity.
Qed.
Lemma leaf_no_parent g L A : tiles g L -> In A L -> ~ In (parent g A) L.
Proof.
  intros T HA HP. pose proof (tiles_valid g L A T HA) as V.
  pose proof (tiles_unique g L (corner g A) A (parent g A) T (corner_in_dom g A V) HA HP (corner_covers g A V)
    (parent_covers g A _ V (corner_in_dom g A V) (corner_covers g A V))) as E.
  assert (H : lev A = lev (parent g A)) by (rewrite <- E; reflexivity). cbn in H. lia.
Qed.
Lemma leaf_no_grandparent g L A : tiles g L -> In A L -> lmin g <= lev A - 1 -> ~ In (parent g (parent g A)) L.
Proof.
  intros T HA HL HP. pose proof (tiles_valid g L A T HA) as V.
  assert (VP : valid g (parent g A)).
  { destruct V as [VL VC]. split; [unfold parent; cbn [oct_of lev]; lia|]. intros a. specialize (VC a). unfold parent. rewrite coord_oct_of. cbn [oct_of lev].
    pose proof (ncell_split g a (lev A - 1) 1 HL ltac:(lia)) as S. replace (lev A - 1 + 1) with (lev A) in S by lia. unfold half. change (2^1) with 2 in S.
    assert (F1 : flat g a = true -> ncell g a (lev A - 1) = 1) by (intros F; unfold ncell; rewrite F; reflexivity).
    destruct (flat g a); [rewrite F1 by reflexivity; lia|lia]. }
  pose proof (tiles_unique g L (corner g A) A (parent g (parent g A)) T (corner_in_dom g A V) HA HP (corner_covers g A V)
    (parent_covers g _ _ VP (corner_in_dom g A V) (parent_covers g A _ V (corner_in_dom g A V) (corner_covers g A V)))) as E.
  assert (H : lev A = lev (parent g (parent g A))) by (rewrite <- E; reflexivity). cbn in H. lia.
Qed.
Lemma siblings_touch g A B : valid g A -> valid g B -> lev A = lev B -> parent g A = parent g B -> touch g A B.
Proof.
  intros VA VB EL EP.
  assert (H : forall a, half g a (coord A a) = half g a (coord B a)).
  { intros a. rewrite <- (coord_oct_of (lev A - 1) (fun a => half g a (coord A a))). change (oct_of _ _) with (parent g A). rewrite EP. unfold parent. rewrite coord_oct_of. reflexivity. }
  pose (w := 2^(lmax g - lev A)). assert (W : 0 < w) by (apply Z.pow_pos_nonneg; destruct VA; lia).
  pose (P := fun a x y => if flat g a then 0 else if x <? y then (x + 1) * w - 1 else x * w).
  exists (pt_of (fun a => P a (coord A a) (coord B a))), (pt_of (fun a => P a (coord B a) (coord A a))).
  assert (D : forall X Y, valid g X -> lev X = lev A -> in_dom g (pt_of (fun a => P a (coord X a) (coord Y a))) /\ covers g X (pt_of (fun a => P a (coord X a) (coord Y a)))).
  { intros X Y [VL VC] EX. rewrite EX in *. split; intros a; rewrite pc_pt_of; specialize (VC a); unfold P.
    - destruct (flat g a) eqn:F; [unfold ncell; rewrite F; lia|].
      pose proof (ncell_split g a (lev A) (lmax g - lev A) ltac:(lia) ltac:(lia)) as S. rewrite F in S. replace (lev A + (lmax g - lev A)) with (lmax g) in S by lia.
      rewrite S. fold w. clear S. destruct (_ <? _); nia.
    - rewrite EX. fold w. destruct (flat g a) eqn:F; [unfold ncell in VC; rewrite F in VC; rewrite Z.div_0_l by lia; lia|].
      destruct (_ <? _); symmetry; [apply Z.div_unique with (w - 1); lia|apply Z.div_unique with 0; lia]. }
  destruct (D A B VA eq_refl) as (D1 & D2). destruct (D B A VB (eq_sym EL)) as (D3 & D4).
  split; [exact D1|]. split; [exact D3|]. split; [exact D2|]. split; [exact D4|].
  intros a. left. rewrite !pc_pt_of. unfold P. specialize (H a). unfold half in H. destruct (flat g a); [lia|].
  assert (C : coord A a = coord B a \/ coord A a = coord B a + 1 \/ coord B a = coord A a + 1) by lia. clear - W C.
  destruct (Z.ltb_spec (coord A a) (coord B a)); destruct (Z.ltb_spec (coord B a) (coord A a)); nia.
Qed.

(** Old octants that the new octant [A'] replaces. *)
Definition origin (g : geom) (L : list oct) (A' : oct) : list oct :=
  if in_dec oct_eq_dec A' L then [A'] else if in_dec oct_eq_dec (parent g A') L then [parent g A'] else children g A'.

Section Origin.
Variable g : geom.
Hypothesis WF : wf_geom g.
Hypothesis Hl1 : 1 <= lmin g.
Variable M : mesh.
Hypothesis OK : mesh_ok g M.
Variable req m : oct -> Z.
Hypothesis HM : legal g (leaves M) req m.
Let T := ok_tiles g M OK.

Lemma loc_leaf R A : In R M -> In A (loc R) -> In A (leaves M).
Proof. intros H1 H2. unfold leaves. apply in_concat. exists (loc R). split; [apply in_map, H1|exact H2]. Qed.

Lemma kept A : In A (leaves M) -> m A = 0 -> apply1 g A (m A) = [A] /\ origin g (leaves M) A = [A].
Proof.
  intros HA E. rewrite E. split; [reflexivity|]. unfold origin. destruct (in_dec oct_eq_dec A (leaves M)); [reflexivity|contradiction].
Qed.
Lemma refined A : In A (leaves M) -> m A = 1 -> Permutation (apply1 g A (m A)) (children g A) /\
  forall A', In A' (children g A) -> parent g A' = A /\ origin g (leaves M) A' = [A].
Proof.
  intros HA E. pose proof (tiles_valid g _ A T HA) as V. split.
  - rewrite E. apply NoDup_Permutation.
    + unfold apply1. cbn [Z.eqb Pos.eqb]. destruct (g3d g).
      * change (zrange 0 8) with [0;1;2;3;4;5;6;7]. cbn -[Z.add Z.mul]. repeat constructor; cbn -[Z.add Z.mul]; intros H; repeat (destruct H as [H|H]; [injection H; lia|]); exact H.
      * change (zrange 0 4) with [0;1;2;3]. cbn -[Z.add Z.mul]. repeat constructor; cbn -[Z.add Z.mul]; intros H; repeat (destruct H as [H|H]; [injection H; lia|]); exact H.
    + apply children_NoDup.
    + intros B. rewrite (in_children g (leaves M) T), in_children_spec. unfold child_of. split; intros [H1 H2]; (split; [exact H1|]); intros a; specialize (H2 a); unfold half in *.
      * destruct H2 as (e & H2 & H3). destruct V as [_ VC]. specialize (VC a). unfold ncell in VC. destruct (flat g a); lia.
      * destruct V as [_ VC]. specialize (VC a). unfold ncell in VC. destruct (flat g a); [exists 0; lia|]. exists (coord B a mod 2). lia.
  - intros A' HA'. apply in_children_parent in HA'. split; [exact HA'|]. unfold origin.
    destruct (in_dec oct_eq_dec A' (leaves M)) as [I|I]; [exfalso; apply (leaf_no_parent g _ A' T I); rewrite HA'; exact HA|].
    rewrite HA'. destruct (in_dec oct_eq_dec A (leaves M)); [reflexivity|contradiction].
Qed.
Lemma coarsened A : In A (leaves M) -> m A = -1 -> lmin g <= lev A - 1 /\
  apply1 g A (m A) = (if first_sib A then [parent g A] else []) /\ origin g (leaves M) (parent g A) = children g (parent g A) /\
  (forall B, In B (children g (parent g A)) -> In B (leaves M) /\ m B = -1).
Proof.
  intros HA E. pose proof (tiles_valid g _ A T HA) as V. pose proof (HM A HA) as (_ & _ & H3 & _ & H5). rewrite E in H3.
  split; [lia|]. split; [|split].
  - rewrite E. pose proof (in_coarsened g WF (leaves M) T Hl1 A) as IC.
    assert (X : forall B, In B (apply1 g A (-1)) <-> first_sib A = true /\ B = parent g A) by (intros B; apply IC; [exact V|lia]).
    unfold apply1 in *. cbn [Z.eqb Pos.eqb] in *. fold (first_sib A) in *. destruct (first_sib A); [|reflexivity].
    f_equal. apply (proj1 (X _)). left. reflexivity.
  - unfold origin. destruct (in_dec oct_eq_dec (parent g A) (leaves M)) as [I|I]; [exfalso; exact (leaf_no_parent g _ A T HA I)|].
    destruct (in_dec oct_eq_dec (parent g (parent g A)) (leaves M)) as [I2|I2]; [exfalso; exact (leaf_no_grandparent g _ A T HA ltac:(lia) I2)|reflexivity].
  - intros B HB. apply (H5 E). apply in_children_spec in HB. unfold parent in HB. cbn [oct_of lev] in HB. split; [lia|]. intros a.
    destruct HB as [_ HB]. rewrite HB, coord_oct_of. reflexivity.
Qed.

Lemma new_origin R A' : In R M -> In A' (flat_map (fun A => apply1 g A (m A)) (loc R)) ->
  valid g A' /\ known_origin g R A' (origin g (leaves M) A') /\
  (forall B, In B (origin g (leaves M) A') -> ~ In B (loc R) -> origin g (leaves M) A' = children g A').
Proof.
  intros HR HA'. assert (HN : In A' (newleaves g (leaves M) m)).
  { unfold newleaves, leaves. apply in_flat_map in HA'. destruct HA' as (A & HA & HI). apply in_flat_map. exists A. split; [apply (loc_leaf R A HR HA)|exact HI]. }
  pose proof (new_valid g WF (leaves M) T m Hl1 req HM A' HN) as V. split; [exact V|].
  apply in_flat_map in HA'. destruct HA' as (A & HA & HI). pose proof (loc_leaf R A HR HA) as HAL.
  destruct (m_cases g (leaves M) T m req HM A HAL) as [(E & _)|[E|(E & _)]].
  - destruct (refined A HAL E) as (P & Q). apply (Permutation_in _ P) in HI. destruct (Q A' HI) as (Q1 & Q2). rewrite Q2. split.
    + split; [right; left; rewrite Q1; split; [reflexivity|]|intros B [<-|[]]; apply in_app_iff; left; exact HA].
      pose proof (tiles_valid g _ A T HAL) as [VA _]. apply in_children_spec in HI. lia.
    + intros B [<-|[]] N. contradiction.
  - destruct (kept A HAL E) as (P & Q). rewrite P in HI. destruct HI as [<-|[]]. rewrite Q. split.
    + split; [left; reflexivity|]. intros B [<-|[]]. apply in_app_iff. left. exact HA.
    + intros B [<-|[]] N. contradiction.
  - destruct (coarsened A HAL E) as (P0 & P & Q & C). rewrite P in HI. destruct (first_sib A); [|destruct HI]. destruct HI as [<-|[]]. rewrite Q. split; [|reflexivity].
    split; [right; right; reflexivity|]. intros B HB. destruct (In_nth_error _ _ HA) as (i & Hi).
    destruct (mesh_local g M R i A WF OK HR Hi) as (_ & _ & NB). apply NB; [apply C, HB|].
    pose proof (tiles_valid g _ A T HAL) as VA. pose proof (tiles_valid g _ B T (proj1 (C B HB))) as VB.
    apply siblings_touch; [exact VA|exact VB| |].
    + apply in_children_spec in HB. unfold parent in HB. cbn [oct_of lev] in HB. lia.
    + apply in_children_parent in HB. symmetry. exact HB.
Qed.
End Origin.

(** * C28 *)
Lemma rows_at b V (octs : list oct) rows i B : holds b V octs rows -> nth_error octs i = Some B -> exists row, nth_error rows i = Some row /\ row_ok b V B row.
Proof.
  intros H HB. destruct (proj1 (Forall2_nth _ _ _) H) as [HL HN]. destruct (nth_error rows i) as [row|] eqn:E.
  - exists row. split; [reflexivity|]. exact (HN i B row HB E).
  - exfalso. apply nth_error_None in E. assert (i < length octs)%nat by (apply nth_error_Some; congruence). lia.
Qed.
Lemma map_loc_nth M M' g m r R R' : map loc M' = new_locs g M m -> nth_error M r = Some R -> nth_error M' r = Some R' ->
  loc R' = flat_map (fun A => apply1 g A (m A)) (loc R).
Proof.
  intros E H H'. assert (X : nth_error (map loc M') r = Some (loc R')) by (rewrite nth_error_map, H'; reflexivity).
  rewrite E in X. unfold new_locs in X. rewrite nth_error_map, H in X. injection X as X. symmetry. exact X.
Qed.

(** One pass over the cells of a rank gives the right values, even for families split over
    ranks, provided the copies of the ghost octants are up to date. *)
Theorem C28_one_pass g ord fuel M mk M' b V r R R' rowsL rowsG : wf_geom g -> 1 <= lmin g -> ord_ok ord -> mesh_ok g M -> good_markers g M mk ->
  adapt fuel ord g M mk = Some M' -> block_ok g b ->
  nth_error M r = Some R -> nth_error M' r = Some R' -> holds b V (loc R) rowsL -> holds b V (gho R) rowsG ->
  exists rows' n, remap_pass g b (loc R ++ gho R) (length (loc R)) (all_rows (rowsL, rowsG)) (loc R') = Some (rows', n) /\
    holds_remapped g b (leaves M) V (loc R') rows'.
Proof.
  intros WF L1 HOrd OK GM EA BO HR HR' HL HG.
  destruct (good_markers_fun g M mk (tiles_NoDup g _ (ok_tiles g M OK)) GM) as (req & -> & GR).
  destruct (adapt_inv g ord M req fuel M' WF L1 HOrd OK GR EA) as (m & [HM _] & OK' & EL & _).
  rewrite (map_loc_nth M M' g m r R R' EL HR HR'). pose proof (nth_error_In _ _ HR) as HRM.
  destruct (pass_ok g M R b V (all_rows (rowsL, rowsG)) (flat_map (fun A => apply1 g A (m A)) (loc R)) (origin g (leaves M)) WF OK HRM BO) as (rows' & n & E & F & _).
  - intros A' HA'. destruct (new_origin g WF L1 M OK req m HM R A' HRM HA') as (V' & KO & _). split; [exact V'|]. split; [exact KO|].
    intros i B HB _. unfold all_rows. cbn [fst snd]. apply (rows_at b V (loc R ++ gho R)); [|exact HB].
    apply Forall2_app; assumption.
  - exists rows', n. split; [exact E|exact F].
Qed.

Lemma combine3_nth {X Y Z} (a : list X) (b : list Y) (c : list Z) x : In x (combine a (combine b c)) ->
  exists i, nth_error a i = Some (fst x) /\ nth_error b i = Some (fst (snd x)) /\ nth_error c i = Some (snd (snd x)).
Proof.
  intros H. apply In_nth_error in H. destruct H as (i & H). exists i. destruct x as (x, (y, z)). cbn [fst snd].
  apply nth_error_combine in H. destruct H as [H1 H]. apply nth_error_combine in H. tauto.
Qed.

(** The full procedure on all ranks, when no coarsened family is split over ranks: it ends
    after one pass, whatever the ghost copies, and the values are right.
    Missing: split families, for which the procedure never ends (C28_diverges). *)
Theorem C28_remap_partial g ord fuel M mk M' b V D comm n : wf_geom g -> 1 <= lmin g -> ord_ok ord -> mesh_ok g M -> good_markers g M mk ->
  adapt fuel ord g M mk = Some M' -> block_ok g b ->
  Forall2 (fun R d => holds b V (loc R) (fst d)) M D -> families_on_one_rank g M M' ->
  exists D', remap_aux (S n) g b comm M M' D = Some D' /\
    Forall2 (fun R' rows => holds_remapped g b (leaves M) V (loc R') rows) M' D'.
Proof.
  intros WF L1 HOrd OK GM EA BO HD FAM.
  destruct (good_markers_fun g M mk (tiles_NoDup g _ (ok_tiles g M OK)) GM) as (req & -> & GR).
  destruct (adapt_inv g ord M req fuel M' WF L1 HOrd OK GR EA) as (m & [HM _] & OK' & EL & _).
  assert (LEN : length M' = length M).
  { assert (X : length (map loc M') = length (new_locs g M m)) by (rewrite EL; reflexivity). unfold new_locs in X. rewrite !map_length in X. exact X. }
  destruct (proj1 (Forall2_nth _ _ _) HD) as [LD ND].
  assert (ST : forall x, In x (combine M (combine M' D)) ->
    exists y, (let '(R, (R', d)) := x in remap_pass g b (loc R ++ gho R) (length (loc R)) (all_rows d) (loc R')) = Some y /\
      (holds_remapped g b (leaves M) V (loc (fst (snd x))) (fst y) /\ snd y = 0)).
  { intros (R, (R', d)) Hx. destruct (combine3_nth _ _ _ _ Hx) as (r & HR & HR' & Hd). cbn [fst snd] in *. pose proof (nth_error_In _ _ HR) as HRM.
    pose proof (map_loc_nth M M' g m r R R' EL HR HR') as EN.
    assert (ALL : forall A' B, In A' (loc R') -> In B (origin g (leaves M) A') -> In B (loc R)).
    { intros A' B HA' HB. destruct (in_dec oct_eq_dec B (loc R)) as [I|I]; [exact I|]. rewrite EN in HA'.
      destruct (new_origin g WF L1 M OK req m HM R A' HRM HA') as (_ & KO & C). specialize (C B HB I). rewrite C in HB, KO.
      apply (FAM r R R' A' HR HR'); [rewrite EN; exact HA'| |exact HB].
      intros X HX. apply (st_incl g M OK R HRM), (proj2 KO), HX. }
    destruct (pass_ok g M R b V (all_rows d) (loc R') (origin g (leaves M)) WF OK HRM BO) as (rows' & k & E & F & K).
    - intros A' HA'. pose proof HA' as HA2. rewrite EN in HA2. destruct (new_origin g WF L1 M OK req m HM R A' HRM HA2) as (V' & KO & _). split; [exact V'|]. split; [exact KO|].
      intros i B HB HS. specialize (ALL A' B HA' HS). pose proof (storage_NoDup g M R OK HRM) as NDS.
      destruct (In_nth_error _ _ ALL) as (i' & Hi'). assert (i' < length (loc R))%nat by (apply nth_error_Some; congruence).
      assert (i = i').
      { apply (proj1 (NoDup_nth_error _) NDS); [apply nth_error_Some; congruence|]. rewrite HB, nth_error_app1 by assumption. congruence. }
      subst i'. destruct (rows_at b V (loc R) (fst d) i B (ND r R d HR Hd) Hi') as (row & H1 & H2).
      exists row. split; [|exact H2]. unfold all_rows. rewrite nth_error_app1; [exact H1|]. apply nth_error_Some. congruence.
    - exists (rows', k). cbn [fst snd]. split; [exact E|]. split; [exact F|]. apply K. exact ALL. }
  destruct (mapM_exists _ _ _ ST) as (y & EY & F2). cbn [remap_aux]. rewrite EY.
  assert (Z0 : fold_right Z.add 0 (map snd y) = 0).
  { apply zsum_zero. intros z Hz. apply in_map_iff in Hz. destruct Hz as (w & <- & Hw). destruct (Forall2_in_r _ _ _ w F2 Hw) as (x & _ & _ & K). exact K. }
  rewrite Z0. cbn [Z.gtb Z.compare]. eexists. split; [reflexivity|].
  apply Forall2_nth. destruct (proj1 (Forall2_nth _ _ _) F2) as [LF NF]. rewrite !combine_length in LF. rewrite map_length. split; [lia|].
  intros r R' rows HR' HRow. rewrite nth_error_map in HRow. destruct (nth_error y r) as [w|] eqn:EW; [|discriminate]. injection HRow as <-.
  assert (HR : exists R, nth_error M r = Some R).
  { destruct (nth_error M r) eqn:E; [eauto|]. apply nth_error_None in E. assert (r < length M')%nat by (apply nth_error_Some; congruence). lia. }
  destruct HR as (R & HR). assert (Hd : exists d, nth_error D r = Some d).
  { destruct (nth_error D r) eqn:E; [eauto|]. apply nth_error_None in E. assert (r < length M')%nat by (apply nth_error_Some; congruence). lia. }
  destruct Hd as (d & Hd). apply (NF r (R, (R', d)) w); [|exact EW].
  apply nth_error_combine. split; [exact HR|]. apply nth_error_combine. split; assumption.
Qed.

(** With a family split over ranks the procedure never ends, whatever the data and whatever
    the ghost exchange does. *)
Theorem C28_diverges g ord fuel M mk M' b D comm n : wf_geom g -> 1 <= lmin g -> ord_ok ord -> mesh_ok g M -> good_markers g M mk ->
  adapt fuel ord g M mk = Some M' -> block_ok g b -> (forall d d', comm d = Some d' -> length d' = length d) -> length D = length M ->
  ~ families_on_one_rank g M M' -> remap_aux n g b comm M M' D = None.
Proof.
  intros WF L1 HOrd OK GM EA BO HC HD NF.
  destruct (good_markers_fun g M mk (tiles_NoDup g _ (ok_tiles g M OK)) GM) as (req & -> & GR).
  destruct (adapt_inv g ord M req fuel M' WF L1 HOrd OK GR EA) as (m & [HM _] & OK' & EL & _).
  assert (LEN : length M' = length M).
  { assert (X : length (map loc M') = length (new_locs g M m)) by (rewrite EL; reflexivity). unfold new_locs in X. rewrite !map_length in X. exact X. }
  revert D HD. induction n as [|n IH]; intros D HD; [reflexivity|]. cbn [remap_aux].
  destruct (mapM _ _) as [y|] eqn:EY; [|reflexivity].
  destruct (fold_right Z.add 0 (map snd y) >? 0) eqn:EZ.
  - destruct (comm D) as [D'|] eqn:ED; [|reflexivity]. apply IH. rewrite (HC D D' ED). exact HD.
  - exfalso. apply NF. intros r R R' A' HR HR' HA' HALL B HB.
    destruct (in_dec oct_eq_dec B (loc R)) as [I|I]; [exact I|exfalso]. pose proof (nth_error_In _ _ HR) as HRM.
    assert (Hd : exists d, nth_error D r = Some d).
    { destruct (nth_error D r) eqn:E; [eauto|]. apply nth_error_None in E. assert (r < length M)%nat by (apply nth_error_Some; congruence). lia. }
    destruct Hd as (d & Hd).
    assert (NN : forall z, In z (map snd y) -> 0 <= z).
    { intros z Hz. apply in_map_iff in Hz. destruct Hz as ((rows', k) & <- & Hw). destruct (mapM_In _ _ _ _ EY Hw) as ((R0, (R0', d0)) & Hx & E).
      destruct (combine3_nth _ _ _ _ Hx) as (r0 & HR0 & _). cbn [fst snd] in *.
      apply (pass_split g M R0 b (all_rows d0) rows' k (loc R0') A' B WF OK (nth_error_In _ _ HR0) BO E). }
    assert (Hx : In (R, (R', d)) (combine M (combine M' D))).
    { apply nth_error_In with r. apply nth_error_combine. split; [exact HR|]. apply nth_error_combine. split; assumption. }
    destruct (mapM_In_fwd _ _ _ _ EY Hx) as ((rows', k) & Hw & E). cbv beta iota in E.
    pose proof HA' as HA2. rewrite (map_loc_nth M M' g m r R R' EL HR HR') in HA2.
    destruct (new_origin g WF L1 M OK req m HM R A' HRM HA2) as (VA & KO & _).
    assert (EO : origin g (leaves M) A' = children g A').
    { unfold origin. pose proof (ok_tiles g M OK) as T. pose proof (HALL _ (first_child_in g A')) as HF.
      pose proof (proj1 (in_children_parent g A' _) (first_child_in g A')) as PF.
      destruct (in_dec oct_eq_dec A' (leaves M)) as [J|J]; [exfalso; apply (leaf_no_parent g _ _ T HF); rewrite PF; exact J|].
      destruct (in_dec oct_eq_dec (parent g A') (leaves M)) as [J2|J2]; [exfalso; apply (leaf_no_grandparent g _ _ T HF); [|rewrite PF; exact J2]|reflexivity].
      destruct VA as [VA _]. unfold first_child, plus_off. cbn [oct_of lev]. lia. }
    rewrite EO in KO. destruct (pass_split g M R b (all_rows d) rows' k (loc R') A' B WF OK HRM BO E) as (_ & P).
    specialize (P HA' VA (proj2 KO) HB I).
    assert (0 < fold_right Z.add 0 (map snd y)) by (apply zsum_pos with k; [exact NN|apply in_map_iff; exists (rows', k); split; [reflexivity|exact Hw]|exact P]).
    lia.
Qed.

(** * C27 *)
Definition block_cells (b : axis -> Z) (A : oct) : list oct :=
  map (fun n => cell_of b A (snd (decode_cell b 0 n))) (zrange 0 (b AX * b AY * b AZ)).
Lemma in_block_cells b A c : block_pos b ->
  (In c (block_cells b A) <-> lev c = lev A /\ forall a, coord A a * b a <= coord c a < (coord A a + 1) * b a).
Proof.
  intros BP. unfold block_cells. rewrite in_map_iff. split.
  - intros (n & <- & Hn). apply in_zrange in Hn. destruct (decode_spec b n BP Hn) as (D & _). split; [reflexivity|]. intros a.
    unfold cell_of. rewrite coord_oct_of. unfold gpos. specialize (D a). lia.
  - intros (EL & H). pose (p := fun a => coord c a - coord A a * b a). assert (IB : in_block b p) by (intros a; unfold p; specialize (H a); lia).
    exists (flat_cell b p). pose proof (flat_lt b p BP IB) as FL. split; [|apply in_zrange; exact FL].
    destruct (decode_spec b _ BP FL) as (D1 & D2). rewrite (cell_of_ext b A _ p) by (apply (flat_cell_inj b); assumption).
    unfold cell_of. apply oct_ext; [symmetry; exact EL|]. intros a. rewrite coord_oct_of. unfold gpos, p. lia.
Qed.
Lemma block_cells_NoDup b A : block_pos b -> NoDup (block_cells b A).
Proof.
  intros BP. unfold block_cells. apply NoDup_nth_error. intros i j Hi E. rewrite map_length in Hi. unfold zrange in Hi. rewrite map_length, seq_length in Hi.
  set (n := b AX * b AY * b AZ) in *.
  assert (Hj : (j < Z.to_nat (n - 0))%nat).
  { rewrite nth_error_map in E. destruct (nth_error (zrange 0 n) i) eqn:EI; [|apply nth_error_None in EI; unfold zrange in EI; rewrite map_length, seq_length in EI; lia].
    destruct (nth_error (map _ _) j) eqn:EJ in E; [|discriminate]. assert (j < length (map (fun n => cell_of b A (snd (decode_cell b 0 n))) (zrange 0 n)))%nat by (apply nth_error_Some; congruence).
    rewrite map_length in H. unfold zrange in H. rewrite map_length, seq_length in H. exact H. }
  assert (NI : forall k, (k < Z.to_nat (n - 0))%nat -> nth_error (zrange 0 n) k = Some (Z.of_nat k)).
  { intros k Hk. rewrite <- (Nat2Z.id k) at 1. apply zrange_nth. lia. }
  rewrite !nth_error_map, !NI in E by assumption. cbn [option_map] in E. apply (f_equal (fun o => match o with Some x => x | None => A end)) in E. cbv beta iota in E.
  assert (IR : 0 <= Z.of_nat i < cells_per_block b) by (clear E NI; unfold cells_per_block; fold n; lia).
  assert (JR : 0 <= Z.of_nat j < cells_per_block b) by (clear E NI; unfold cells_per_block; fold n; lia).
  destruct (decode_spec b (Z.of_nat i) BP IR) as (D1 & D2). destruct (decode_spec b (Z.of_nat j) BP JR) as (F1 & F2).
  set (p := snd (decode_cell b 0 (Z.of_nat i))) in *. set (q := snd (decode_cell b 0 (Z.of_nat j))) in *. clearbody p q.
  assert (PQ : forall a, p a = q a).
  { intros a. assert (G : gpos b A p a = gpos b A q a).
    { rewrite <- (coord_oct_of (lev A) (gpos b A p)), <- (coord_oct_of (lev A) (gpos b A q)). unfold cell_of in E. rewrite E. reflexivity. }
    unfold gpos in G. clear - G. lia. }
  apply Nat2Z.inj. rewrite <- D2, <- F2. unfold flat_cell. rewrite !PQ. reflexivity.
Qed.
Lemma NoDup_flat_map' {X Y} (f : X -> list Y) l : NoDup l -> (forall x, In x l -> NoDup (f x)) ->
  (forall x x' y, In x l -> In x' l -> In y (f x) -> In y (f x') -> x = x') -> NoDup (flat_map f l).
Proof.
  induction 1 as [|x l NI ND IH]; intros H1 H2; cbn [flat_map]; [constructor|]. apply NoDup_glue.
  - apply H1. left. reflexivity.
  - apply IH; [intros y Hy; apply H1; right; exact Hy|]. intros y y' z Hy Hy'. apply H2; right; assumption.
  - intros y Hy Hy'. apply in_flat_map in Hy'. destruct Hy' as (x' & Hx' & Hy'). apply NI.
    rewrite (H2 x x' y (or_introl eq_refl) (or_intror Hx') Hy Hy'). exact Hx'.
Qed.
(** The cells of the children are the children of the cells. *)
Lemma family_cells g b A : block_ok g b -> Permutation (flat_map (block_cells b) (children g A)) (flat_map (children g) (block_cells b A)).
Proof.
  intros BO. pose proof (block_pos_ok g b BO) as BP. apply NoDup_Permutation.
  - apply NoDup_flat_map'; [apply children_NoDup|intros; apply block_cells_NoDup, BP|].
    intros x y c _ _ Hx Hy. apply in_block_cells in Hx; [|exact BP]. apply in_block_cells in Hy; [|exact BP]. destruct Hx as [E1 H1]. destruct Hy as [E2 H2].
    apply oct_ext; [congruence|]. intros a. specialize (H1 a). specialize (H2 a). pose proof (BP a). nia.
  - apply NoDup_flat_map'; [apply block_cells_NoDup, BP|intros; apply children_NoDup|].
    intros x y c _ _ Hx Hy. apply in_children_parent in Hx. apply in_children_parent in Hy. congruence.
  - intros c. rewrite !in_flat_map. split.
    + intros (C & HC & H). apply in_children_spec in HC. apply in_block_cells in H; [|exact BP]. destruct HC as [L1 H1]. destruct H as [L2 H2].
      exists (parent g c). split; [|apply in_children_parent; reflexivity]. apply in_block_cells; [exact BP|]. unfold parent. cbn [oct_of lev]. split; [lia|].
      intros a. rewrite coord_oct_of. specialize (H1 a). specialize (H2 a). pose proof (BP a). pose proof (proj2 (BO a)) as BF. unfold half in *. rewrite <- H1. destruct (flat g a); [lia|].
      set (x := coord C a) in *. assert (x = 2 * (x / 2) \/ x = 2 * (x / 2) + 1) as D by lia. set (q := x / 2) in *. clearbody q x. clear - H2 H D.
      split; [apply Z.div_le_lower_bound; [lia|]|apply Z.div_lt_upper_bound; [lia|]]; nia.
    + intros (d & Hd & H). apply in_children_spec in H. apply in_block_cells in Hd; [|exact BP]. destruct H as [L1 H1]. destruct Hd as [L2 H2].
      exists (oct_of (lev A + 1) (fun a => coord c a / b a)). split.
      * apply in_children_spec. split; [reflexivity|]. intros a. rewrite coord_oct_of. specialize (H1 a). specialize (H2 a). pose proof (BP a) as B0. pose proof (proj2 (BO a)) as BF. unfold half in *.
        destruct (flat g a).
        -- rewrite (BF eq_refl) in *. rewrite Z.div_1_r. lia.
        -- rewrite Z.div_div by lia. rewrite Z.mul_comm, <- Z.div_div by lia. rewrite H1.
           symmetry. apply Z.div_unique with (coord d a - coord A a * b a); lia.
      * apply in_block_cells; [exact BP|]. cbn [oct_of lev]. split; [lia|]. intros a. rewrite coord_oct_of. pose proof (BP a) as B0.
        pose proof (Z.div_mod (coord c a) (b a) ltac:(lia)). pose proof (Z.mod_pos_bound (coord c a) (b a) ltac:(lia)). nia.
Qed.
Lemma cell_volume_split g b l : wf_geom g -> block_ok g b -> lmin g <= l ->
  (cell_volume g b l == inject_Z (if g3d g then 8 else 4) * cell_volume g b (l + 1))%Q.
Proof.
  intros WF BO HL. pose proof (block_pos_ok g b BO) as BP. unfold cell_volume, ncells.
  assert (S : forall a, ncell g a (l + 1) = if flat g a then 1 else ncell g a l * 2) by (intros a; rewrite (ncell_split g a l 1 HL ltac:(lia)); reflexivity).
  rewrite !S. pose proof (ncell_pos g WF AX l HL). pose proof (ncell_pos g WF AY l HL). pose proof (ncell_pos g WF AZ l HL).
  assert (F : g3d g = false -> ncell g AZ l = 1) by (intros E; unfold ncell; cbn [flat]; rewrite E; reflexivity).
  pose proof (BP AX). pose proof (BP AY). pose proof (BP AZ).
  assert (NZ : forall z, 0 < z -> ~ (inject_Z z == 0)%Q) by (intros z Hz; unfold Qeq; cbn; lia).
  cbn [flat]. destruct (g3d g); cbn [negb]; [|rewrite (F eq_refl)]; rewrite !inject_Z_mult;
    change (inject_Z 8) with (8#1); change (inject_Z 4) with (4#1); change (inject_Z 2) with (2#1); change (inject_Z 1) with (1#1); field; repeat split; apply NZ; lia.
Qed.

Lemma row_cells b (Q : oct -> Q -> Prop) A row : block_pos b -> Z.of_nat (length row) = b AX * b AY * b AZ ->
  (forall p, in_block b p -> exists v, nth_error row (Z.to_nat (p AX + p AY * b AX + p AZ * b AX * b AY)) = Some v /\ Q (cell_of b A p) v) ->
  Forall2 Q (block_cells b A) row.
Proof.
  intros BP HL H. apply Forall2_nth. unfold block_cells. set (n := b AX * b AY * b AZ) in *. assert (N0 : 0 <= n) by lia.
  split; [rewrite map_length; pose proof (InitProofs.zrange_length 0 n N0); lia|].
  intros i c v Hc Hv. assert (Hi : (i < length row)%nat) by (apply nth_error_Some; congruence).
  assert (IR : 0 <= Z.of_nat i < cells_per_block b) by (unfold cells_per_block; fold n; lia).
  rewrite nth_error_map in Hc. pose proof (zrange_nth n (Z.of_nat i) IR) as ZN. rewrite Nat2Z.id in ZN. rewrite ZN in Hc. cbn [option_map] in Hc.
  apply (f_equal (fun o => match o with Some x => x | None => A end)) in Hc. cbv beta iota in Hc. subst c.
  destruct (decode_spec b (Z.of_nat i) BP IR) as (D1 & D2). destruct (H _ D1) as (v' & E & HQ). fold (flat_cell b (snd (decode_cell b 0 (Z.of_nat i)))) in E.
  rewrite D2, Nat2Z.id in E. replace v with v' by congruence. exact HQ.
Qed.

Section Sum.
Variable g : geom.
Hypothesis WF : wf_geom g.
Hypothesis Hl1 : 1 <= lmin g.
Variable M : mesh.
Hypothesis OK : mesh_ok g M.
Variable req m : oct -> Z.
Hypothesis HM : legal g (leaves M) req m.
Variable b : axis -> Z.
Hypothesis BO : block_ok g b.
Variable V : oct -> Q.
Let T := ok_tiles g M OK.
Let L := leaves M.
Let BP := block_pos_ok g b BO.
Let k : Q := inject_Z (if g3d g then 8 else 4).

(** The value given by the specification, as a function. *)
Definition new_value (A' c : oct) : Q :=
  if in_dec oct_eq_dec A' L then V c else if in_dec oct_eq_dec (parent g A') L then V (parent g c) else mean (map V (children g c)).
Lemma remapped_value A' c v : valid g A' -> remapped g L V A' c v -> (v == new_value A' c)%Q.
Proof.
  intros VA H. pose proof (proj1 (in_children_parent g A' _) (first_child_in g A')) as PF. unfold new_value.
  assert (K1 : In A' L -> In (first_child g A') L -> False) by (intros H1 H2; apply (leaf_no_parent g L _ T H2); rewrite PF; exact H1).
  assert (K2 : In (parent g A') L -> In (first_child g A') L -> False).
  { intros H1 H2; apply (leaf_no_grandparent g L _ T H2); [|rewrite PF; exact H1]. destruct VA. unfold first_child, plus_off. cbn [oct_of lev]. lia. }
  assert (K3 : In A' L -> In (parent g A') L -> False) by (intros H1 H2; exact (leaf_no_parent g L _ T H1 H2)).
  destruct H as [[H E]|[[H E]|[H E]]].
  - destruct (in_dec oct_eq_dec A' L); [exact E|contradiction].
  - destruct (in_dec oct_eq_dec A' L) as [I|I]; [exfalso; auto|]. destruct (in_dec oct_eq_dec (parent g A') L); [exact E|contradiction].
  - specialize (H _ (first_child_in g A')). destruct (in_dec oct_eq_dec A' L) as [I|I]; [exfalso; auto|].
    destruct (in_dec oct_eq_dec (parent g A') L) as [I2|I2]; [exfalso; auto|exact E].
Qed.

(** Integrals over one octant, before and after. *)
Definition old_int (A : oct) : Q := (cell_volume g b (lev A) * qsum (map V (block_cells b A)))%Q.
Definition new_int (A' : oct) : Q := (cell_volume g b (lev A') * qsum (map (new_value A') (block_cells b A')))%Q.

Lemma k_len c : inject_Z (Z.of_nat (length (children g c))) = k.
Proof. rewrite children_length. unfold k. destruct (g3d g); reflexivity. Qed.
Lemma k_nz : ~ (k == 0)%Q. Proof. unfold k. destruct (g3d g); discriminate. Qed.

Lemma kept_int A : In A L -> (new_int A == old_int A)%Q.
Proof.
  intros HA. unfold new_int, old_int. rewrite (qsum_ext (new_value A) V); [reflexivity|]. intros c _. unfold new_value.
  destruct (in_dec oct_eq_dec A L); [reflexivity|contradiction].
Qed.
Lemma refined_int A : In A L -> m A = 1 -> (qsum (map new_int (children g A)) == old_int A)%Q.
Proof.
  intros HA E. destruct (refined g M OK m A HA E) as (_ & Q).
  assert (NV : forall A' c, In A' (children g A) -> (new_value A' c == V (parent g c))%Q).
  { intros A' c HA'. destruct (Q A' HA') as (P & _). unfold new_value.
    destruct (in_dec oct_eq_dec A' L) as [I|I]; [exfalso; apply (leaf_no_parent g L A' T I); rewrite P; exact HA|]. rewrite P.
    destruct (in_dec oct_eq_dec A L); [reflexivity|contradiction]. }
  assert (E1 : (qsum (map new_int (children g A)) == cell_volume g b (lev A + 1) * qsum (map (fun A' => qsum (map (fun c => V (parent g c)) (block_cells b A'))) (children g A)))%Q).
  { rewrite <- qsum_scale. apply qsum_ext. intros A' HA'. unfold new_int. rewrite (qsum_ext (new_value A') (fun c => V (parent g c))) by (intros c _; apply NV, HA').
    apply in_children_spec in HA'. destruct HA' as [-> _]. reflexivity. }
  rewrite E1, <- qsum_flat_map, (qsum_perm _ _ _ (family_cells g b A BO)), qsum_flat_map.
  rewrite (qsum_ext _ (fun c => k * V c)%Q).
  - rewrite qsum_scale. unfold old_int. rewrite (cell_volume_split g b (lev A) WF BO); [fold k; ring|]. pose proof (tiles_valid g L A T HA) as [? _]. lia.
  - intros c _. rewrite (qsum_ext _ (fun _ => V c)); [rewrite qsum_const, k_len; ring|]. intros c' Hc'. apply in_children_parent in Hc'. rewrite Hc'. reflexivity.
Qed.
Lemma coarsened_int A : In A L -> m A = -1 -> (new_int (parent g A) == qsum (map old_int (children g (parent g A))))%Q.
Proof.
  intros HA E. destruct (coarsened g WF Hl1 M OK req m HM A HA E) as (P0 & _ & _ & C).
  assert (NV : forall c, new_value (parent g A) c = mean (map V (children g c))).
  { intros c. unfold new_value. destruct (in_dec oct_eq_dec (parent g A) L) as [I|I]; [exfalso; exact (leaf_no_parent g L A T HA I)|].
    destruct (in_dec oct_eq_dec (parent g (parent g A)) L) as [I2|I2]; [exfalso; exact (leaf_no_grandparent g L A T HA P0 I2)|reflexivity]. }
  unfold new_int. rewrite (qsum_ext _ (fun c => (/ k) * qsum (map V (children g c)))%Q).
  - rewrite qsum_scale, <- qsum_flat_map, <- (qsum_perm _ _ _ (family_cells g b (parent g A) BO)), qsum_flat_map.
    rewrite (cell_volume_split g b (lev (parent g A)) WF BO) by (unfold parent; cbn [oct_of lev]; lia). fold k.
    rewrite <- (qsum_ext (fun B => cell_volume g b (lev (parent g A) + 1) * qsum (map V (block_cells b B)))%Q old_int).
    + rewrite qsum_scale. field. apply k_nz.
    + intros B HB. apply in_children_spec in HB. unfold old_int. destruct HB as [-> _]. reflexivity.
  - intros c _. rewrite NV. unfold mean. rewrite map_length, k_len. field. apply k_nz.
Qed.

Lemma qsum_filter {X} (f : X -> Q) (t : X -> bool) l : (qsum (map f l) == qsum (map f (filter t l)) + qsum (map f (filter (fun x => negb (t x)) l)))%Q.
Proof. induction l as [|x l IH]; [reflexivity|]. cbn [map filter]. rewrite qsum_cons, IH. destruct (t x); cbn [negb map]; rewrite qsum_cons; ring. Qed.

Lemma first_sib_family A B : first_sib A = true -> first_sib B = true -> parent g A = parent g B -> lev A = lev B -> A = B.
Proof.
  intros HA HB E EL. apply oct_ext; [exact EL|]. intros a.
  pose proof (proj1 (first_sib_coord g L T A) HA a). pose proof (proj1 (first_sib_coord g L T B) HB a).
  assert (H1 : half g a (coord A a) = half g a (coord B a)).
  { rewrite <- (coord_oct_of (lev A - 1) (fun a => half g a (coord A a))). change (oct_of _ _) with (parent g A). rewrite E. unfold parent. rewrite coord_oct_of. reflexivity. }
  unfold half in H1. destruct (flat g a); lia.
Qed.

Theorem sum_conserved : (qsum (map new_int (newleaves g L m)) == qsum (map old_int L))%Q.
Proof.
  unfold newleaves. rewrite qsum_flat_map.
  set (neg := fun A => m A =? -1).
  assert (LV : forall A, In A L -> valid g A) by (intros A HA; exact (tiles_valid g L A T HA)).
  rewrite (qsum_filter _ neg L), (qsum_filter old_int neg L).
  assert (E2 : (qsum (map (fun A => qsum (map new_int (apply1 g A (m A)))) (filter (fun x => negb (neg x)) L)) ==
                qsum (map old_int (filter (fun x => negb (neg x)) L)))%Q).
  { apply qsum_ext. intros A HA. apply filter_In in HA. destruct HA as [HA HN]. unfold neg in HN.
    destruct (m_cases g L T m req HM A HA) as [(E & _)|[E|(E & _)]]; [| |rewrite E in HN; discriminate].
    - destruct (refined g M OK m A HA E) as (P & _). rewrite (qsum_perm _ _ _ P). apply refined_int; assumption.
    - destruct (kept g M m A HA E) as (P & _). rewrite P. cbn [map]. rewrite qsum_cons. cbn [qsum fold_right]. rewrite (kept_int A HA). ring. }
  rewrite E2. apply Qplus_comp; [|reflexivity].
  set (N := filter neg L). assert (HN : forall A, In A N -> In A L /\ m A = -1) by (intros A HA; apply filter_In in HA; unfold neg in HA; split; [apply HA|lia]).
  set (F1 := filter first_sib N).
  assert (E3 : (qsum (map (fun A => qsum (map new_int (apply1 g A (m A)))) N) == qsum (map (fun A => new_int (parent g A)) F1))%Q).
  { rewrite (qsum_filter _ first_sib N). fold F1.
    rewrite (qsum_ext _ (fun A => new_int (parent g A)) F1).
    - rewrite (qsum_ext _ (fun _ => 0%Q) (filter (fun x => negb (first_sib x)) N)); [rewrite qsum_const; ring|].
      intros A HA. apply filter_In in HA. destruct HA as [HA HF]. destruct (HN A HA) as (H1 & H2). destruct (coarsened g WF Hl1 M OK req m HM A H1 H2) as (_ & P & _).
      rewrite P. destruct (first_sib A); [discriminate|reflexivity].
    - intros A HA. apply filter_In in HA. destruct HA as [HA HF]. destruct (HN A HA) as (H1 & H2). destruct (coarsened g WF Hl1 M OK req m HM A H1 H2) as (_ & P & _).
      rewrite P, HF. cbn [map]. rewrite qsum_cons. cbn [qsum fold_right]. ring. }
  rewrite E3.
  rewrite (qsum_ext _ (fun A => qsum (map old_int (children g (parent g A))))).
  2:{ intros A HA. apply filter_In in HA. destruct (HN A (proj1 HA)) as (H1 & H2). apply coarsened_int; assumption. }
  rewrite <- qsum_flat_map. apply qsum_perm. pose proof (tiles_NoDup g L T) as NDL. apply NoDup_Permutation.
  - apply NoDup_flat_map'; [unfold F1, N; apply NoDup_filter, NoDup_filter, NDL|intros; apply children_NoDup|].
    intros A A2 c HA HA2 H1 H2. apply in_children_spec in H1. apply in_children_spec in H2. destruct H1 as [L1 C1]. destruct H2 as [L2 C2].
    apply filter_In in HA. apply filter_In in HA2. apply first_sib_family; [apply HA|apply HA2| |].
    + apply oct_ext; [lia|]. intros a. rewrite <- C1, <- C2. reflexivity.
    + unfold parent in L1, L2. cbn [oct_of lev] in L1, L2. lia.
  - apply NoDup_filter, NDL.
  - intros B. rewrite in_flat_map. split.
    + intros (A & HA & HB). apply filter_In in HA. destruct (HN A (proj1 HA)) as (H1 & H2).
      destruct (coarsened g WF Hl1 M OK req m HM A H1 H2) as (_ & _ & _ & C). destruct (C B HB) as (H3 & H4). apply filter_In. split; [exact H3|]. unfold neg. lia.
    + intros HB. destruct (HN B HB) as (H1 & H2). destruct (eldest_sibling g L T B (LV B H1)) as (SB & FB).
      destruct (HM B H1) as (_ & _ & _ & _ & H5). destruct (H5 H2 _ SB) as (H6 & H7).
      exists (eldest B). split; [apply filter_In; split; [apply filter_In; split; [exact H6|unfold neg; lia]|exact FB]|].
      apply in_children_parent. symmetry. apply (sibling_parent g L T B (eldest B) SB).
Qed.
End Sum.

(** * C27 *)
(** Any data are the values of some function of the cells. *)
Lemma values_of_rows b (L : list oct) rows : block_pos b -> NoDup L ->
  Forall2 (fun (_ : oct) row => Z.of_nat (length row) = b AX * b AY * b AZ) L rows -> exists V, holds b V L rows.
Proof.
  intros BP ND F.
  set (V := fun c : oct => match find_pos (oct_of (lev c) (fun a => coord c a / b a)) L with
                    | Some i => nth (Z.to_nat (flat_cell b (fun a => coord c a mod b a))) (nth i rows []) 0%Q | None => 0%Q end).
  exists V. apply Forall2_nth. destruct (proj1 (Forall2_nth _ _ _) F) as [FL FN]. split; [exact FL|].
  intros i A row HA HR. specialize (FN i A row HA HR). split; [exact FN|]. intros p HP.
  pose proof (flat_cell_range b p BP HP) as RG. unfold cells_per_block in RG. fold (flat_cell b p).
  assert (LT : (Z.to_nat (flat_cell b p) < length row)%nat) by lia.
  destruct (nth_error row (Z.to_nat (flat_cell b p))) as [v|] eqn:E; [|apply nth_error_None in E; lia]. exists v. split; [reflexivity|].
  assert (D : forall a, (coord A a * b a + p a) / b a = coord A a /\ (coord A a * b a + p a) mod b a = p a).
  { intros a. specialize (HP a). rewrite Z.add_comm, Z.div_add, Z.mod_add by lia. rewrite Z.div_small, Z.mod_small by lia. lia. }
  unfold V. replace (oct_of _ _) with A.
  - destruct (find_pos_in A L (nth_error_In _ _ HA)) as (i' & E1 & E2). rewrite E1.
    assert (i' = i) by (apply (proj1 (NoDup_nth_error L) ND); [apply nth_error_Some; congruence|congruence]). subst i'.
    replace (flat_cell b (fun a => coord (cell_of b A p) a mod b a)) with (flat_cell b p).
    + rewrite (nth_error_nth rows i [] HR), (nth_error_nth row _ 0%Q E). reflexivity.
    + unfold flat_cell, cell_of. rewrite !coord_oct_of. unfold gpos. rewrite (proj2 (D AX)), (proj2 (D AY)), (proj2 (D AZ)). reflexivity.
  - apply oct_ext; [reflexivity|]. intros a. unfold cell_of. rewrite !coord_oct_of. unfold gpos. symmetry. apply D.
Qed.

Lemma Forall2_concat {X Y} (Q : X -> Y -> Prop) (a : list (list X)) (b : list (list Y)) : Forall2 (Forall2 Q) a b -> Forall2 Q (concat a) (concat b).
Proof. induction 1; [constructor|]. cbn [concat]. apply Forall2_app; assumption. Qed.
Lemma Forall2_map_lr {X Y X' Y'} (Q : X' -> Y' -> Prop) (f : X -> X') (h : Y -> Y') a b : Forall2 (fun x y => Q (f x) (h y)) a b -> Forall2 Q (map f a) (map h b).
Proof. induction 1; constructor; assumption. Qed.
Lemma Forall2_unconcat {X Y} (Q : X -> Y -> Prop) (a : list (list X)) (b : list (list Y)) :
  Forall2 (fun x y => length x = length y) a b -> Forall2 Q (concat a) (concat b) -> Forall2 (Forall2 Q) a b.
Proof.
  induction 1 as [|x y a b H _ IH]; intros F; [constructor|]. cbn [concat] in F.
  apply Forall2_app_inv_l in F. destruct F as (y1 & y2 & F1 & F2 & E).
  assert (y = y1 /\ concat b = y2) as [-> <-].
  { pose proof (Forall2_len _ _ _ F1) as L1. assert (L2 : length y = length y1) by congruence. clear -E L2. revert y1 L2 E.
    induction y as [|u y IH]; intros [|v y1] L2 E; try discriminate; [split; [reflexivity|exact E]|]. cbn [app] in E. injection E as <- E.
    destruct (IH y1 (f_equal pred L2) E) as [-> ->]. split; reflexivity. }
  constructor; [exact F1|apply IH, F2].
Qed.
Lemma total_of g b (I : oct -> Q) (L : list oct) rows :
  Forall2 (fun A row => cell_volume g b (lev A) * qsum row == I A)%Q L rows -> (total g b L rows == qsum (map I L))%Q.
Proof.
  unfold total. induction 1 as [|A row L rows H _ IH]; [reflexivity|]. cbn [combine map fst snd]. rewrite !qsum_cons, IH, H. reflexivity.
Qed.

(** Totals do not change, when the procedure ends.
    Missing: it does not end when a coarsened family is split over ranks (C28_diverges). *)
Theorem C27_conserved_partial g ord fuel M mk M' b D D' comm n : wf_geom g -> 1 <= lmin g -> ord_ok ord -> mesh_ok g M -> good_markers g M mk ->
  adapt fuel ord g M mk = Some M' -> block_ok g b -> (forall d d', comm d = Some d' -> length d' = length d) ->
  Forall2 (fun R d => Forall2 (fun (_ : oct) row => Z.of_nat (length row) = b AX * b AY * b AZ) (loc R) (fst d)) M D ->
  remap_aux n g b comm M M' D = Some D' ->
  (total g b (leaves M') (concat D') == total g b (leaves M) (concat (map fst D)))%Q.
Proof.
  intros WF L1 HOrd OK GM EA BO HC HD ER. pose proof (block_pos_ok g b BO) as BP. pose proof (tiles_NoDup g _ (ok_tiles g M OK)) as NDL.
  assert (FAM : families_on_one_rank g M M').
  { intros r R R' A' HR HR' HA' HALL B HB. destruct (in_dec oct_eq_dec B (loc R)) as [I|I]; [exact I|exfalso].
    assert (X : remap_aux n g b comm M M' D = None); [|congruence].
    apply (C28_diverges g ord fuel M mk M' b D comm n); try assumption; [symmetry; apply (Forall2_len _ _ _ HD)|].
    intros F. apply I, (F r R R' A'); assumption. }
  assert (HC2 : Forall2 (Forall2 (fun (_ : oct) row => Z.of_nat (length row) = b AX * b AY * b AZ)) (map loc M) (map fst D)).
  { apply Forall2_map_lr. exact HD. }
  destruct (values_of_rows b (leaves M) (concat (map fst D)) BP NDL) as (V & HV).
  { exact (Forall2_concat _ _ _ HC2). }
  assert (HV2 : Forall2 (fun R d => holds b V (loc R) (fst d)) M D).
  { assert (X : Forall2 (holds b V) (map loc M) (map fst D)).
    { apply Forall2_unconcat.
      - clear -HC2. induction HC2 as [|x y l l' H _ IH]; constructor; [exact (Forall2_len _ _ _ H)|exact IH].
      - exact HV. }
    clear -X. revert D X. induction M as [|R M IH]; intros [|d D] X; inversion X; subst; constructor; [assumption|apply IH; assumption]. }
  destruct n as [|n]; [discriminate|].
  destruct (C28_remap_partial g ord fuel M mk M' b V D comm n WF L1 HOrd OK GM EA BO HV2 FAM) as (D2 & E2 & F2).
  rewrite E2 in ER. injection ER as ->.
  destruct (good_markers_fun g M mk NDL GM) as (req & -> & GR).
  destruct (adapt_inv g ord M req fuel M' WF L1 HOrd OK GR EA) as (m & [HM _] & OK' & EL & _).
  rewrite (total_of g b (old_int g b V) (leaves M)).
  - rewrite <- (sum_conserved g WF L1 M OK req m HM b BO V). rewrite <- (new_locs_concat g M m), <- EL. 
    apply total_of. apply Forall2_concat. rewrite <- (map_id D'). apply Forall2_map_lr.
    apply Forall2_nth. destruct (proj1 (Forall2_nth _ _ _) F2) as [F2L F2N]. split; [exact F2L|]. intros r R' rows HR' Hr. specialize (F2N r R' rows HR' Hr).
    apply Forall2_nth. destruct (proj1 (Forall2_nth _ _ _) F2N) as [F3L F3N]. split; [exact F3L|]. intros i A' row HA' Hrow.
    destruct (F3N i A' row HA' Hrow) as (RL & RV).
    assert (VA : valid g A').
    { apply (tiles_valid g (leaves M')); [apply (ok_tiles g M' OK')|]. unfold leaves. rewrite <- flat_map_concat_map. apply in_flat_map. exists R'. split; [exact (nth_error_In _ _ HR')|exact (nth_error_In _ _ HA')]. }
    unfold new_int. apply Qmult_comp; [reflexivity|].
    assert (X : Forall2 (fun c v => remapped g (leaves M) V A' c v) (block_cells b A') row) by (apply row_cells; assumption).
    assert (Y : Forall2 (fun c v => v == new_value g M V A' c)%Q (block_cells b A') row).
    { clear -X VA OK. induction X; constructor; [|assumption]. apply remapped_value; assumption. }
    clear -Y. induction Y as [|c v l row H _ IH]; [reflexivity|]. cbn [map]. rewrite !qsum_cons, IH, H. reflexivity.
  - apply Forall2_nth. destruct (proj1 (Forall2_nth _ _ _) HV) as [FL FN]. split; [exact FL|]. intros i A row HA Hrow.
    destruct (FN i A row HA Hrow) as (RL & RV). unfold old_int. apply Qmult_comp; [reflexivity|].
    pose proof (row_cells b (fun c v => v == V c)%Q A row BP RL RV) as Y.
    clear -Y. induction Y as [|c v l row H _ IH]; [reflexivity|]. cbn [map]. rewrite !qsum_cons, IH, H. reflexivity.
Qed.

(** * C28 fails: a coarsened family split over two ranks *)
Definition unit_blocks : axis -> Z := fun _ => 1.
Lemma unit_blocks_ok g : block_ok g unit_blocks. Proof. intros a. unfold unit_blocks. split; [lia|reflexivity]. Qed.
Definition rows_of (V : oct -> Q) (b : axis -> Z) (L : list oct) : list (list Q) := map (fun A => map V (block_cells b A)) L.
Lemma rows_of_hold V b L : block_pos b -> holds b V L (rows_of V b L).
Proof.
  intros BP. unfold holds, rows_of. induction L as [|A L IH]; constructor; [|exact IH].
  pose proof (BP AX). pose proof (BP AY). pose proof (BP AZ).
  assert (N0 : 0 <= b AX * b AY * b AZ) by nia.
  split; [unfold block_cells; rewrite !map_length, InitProofs.zrange_length; lia|].
  intros p HP. pose proof (flat_cell_range b p BP HP) as RG. fold (flat_cell b p).
  unfold block_cells. rewrite map_map. eexists. split.
  - rewrite nth_error_map. unfold cells_per_block in RG. rewrite (zrange_nth (b AX * b AY * b AZ) (flat_cell b p) RG). reflexivity.
  - destruct (decode_spec b (flat_cell b p) BP RG) as (D1 & D2).
    rewrite (cell_of_ext b A _ p (flat_cell_inj b _ _ BP D1 HP D2)). reflexivity.
Qed.
Definition blocks_of (V : oct -> Q) (b : axis -> Z) (M : mesh) : list (list (list Q) * list (list Q)) :=
  map (fun R => (rows_of V b (loc R), rows_of V b (gho R))) M.
Lemma blocks_of_hold V b M : block_pos b -> Forall2 (fun R d => holds b V (loc R) (fst d) /\ holds b V (gho R) (snd d)) M (blocks_of V b M).
Proof. intros BP. unfold blocks_of. induction M; constructor; [split; apply rows_of_hold, BP|assumption]. Qed.

(** The full claim: after every AMR cycle of every run, with a perfect ghost exchange, the
    procedure ends and gives the right values. *)
Definition C28_claim : Prop :=
  forall g P M ord fuel mk M' b V D, good_setup g P -> reachable g P M -> ord_ok ord -> good_markers g M mk ->
    adapt fuel ord g M mk = Some M' -> block_ok g b ->
    Forall2 (fun R d => holds b V (loc R) (fst d) /\ holds b V (gho R) (snd d)) M D ->
    exists n D', remap_aux n g b (fun d => Some d) M M' D = Some D' /\
      Forall2 (fun R' rows => holds_remapped g b (leaves M) V (loc R') rows) M' D'.

Theorem C28_refuted : ~ C28_claim.
Proof.
  intros H. pose proof (unit_blocks_ok ex_g) as BO. destruct ex_coarsened as (M3 & E & EL).
  assert (GM : good_markers ex_g ex_M2 (map (map ex_coarsen) (map loc ex_M2))) by (apply good_markers_of, ex_request).
  destruct (H ex_g 2%nat ex_M2 id_order 30%nat _ M3 unit_blocks (fun _ => 0%Q) (blocks_of (fun _ => 0%Q) unit_blocks ex_M2)
    ex_setup ex_reach2 id_order_ok GM E BO (blocks_of_hold _ _ _ (block_pos_ok _ _ BO))) as (n & D' & ER & _).
  assert (X : remap_aux n ex_g unit_blocks (fun d => Some d) ex_M2 M3 (blocks_of (fun _ => 0%Q) unit_blocks ex_M2) = None); [|congruence].
  destruct ex_setup as (WF & L1 & _).
  apply (C28_diverges ex_g id_order 30 ex_M2 _ M3 unit_blocks _ _ n WF L1 id_order_ok ex_ok2 GM E BO).
  - intros d d' Ed. injection Ed as <-. reflexivity.
  - unfold blocks_of. apply map_length.
  - intros F.
    assert (T : match nth_error ex_M2 0, children ex_g (mkOct 1 0 0 0) with
                | Some R, cs => forallb (fun B => existsb (oct_eqb B) (leaves ex_M2)) cs && negb (forallb (fun B => existsb (oct_eqb B) (loc R)) cs)
                | None, _ => false end = true) by (vm_compute; reflexivity).
    destruct (nth_error ex_M2 0) as [R|] eqn:ER0; [|discriminate]. apply andb_prop in T. destruct T as [T1 T2]. apply negb_true_iff in T2.
    destruct (nth_error M3 0) as [R'|] eqn:ER1.
    2:{ apply (f_equal (@length _)) in EL. rewrite map_length in EL. apply nth_error_None in ER1. cbn [length] in EL. lia. }
    assert (HL : loc R' = [mkOct 1 0 0 0]).
    { apply (f_equal (fun l => nth_error l 0)) in EL. rewrite nth_error_map, ER1 in EL. cbn [option_map nth_error] in EL. injection EL as EL. exact EL. }
    assert (IN : forall B l, existsb (oct_eqb B) l = true <-> In B l).
    { intros B l. rewrite existsb_exists. split; [intros (x & Hx & Ex); apply oct_eqb_eq in Ex; subst x; exact Hx|intros HB; exists B; split; [exact HB|apply oct_eqb_eq; reflexivity]]. }
    rewrite forallb_forall in T1.
    assert (A1 : forallb (fun B => existsb (oct_eqb B) (loc R)) (children ex_g (mkOct 1 0 0 0)) = true); [|congruence].
    apply forallb_forall. intros B HB. apply IN.
    apply (F 0%nat R R' (mkOct 1 0 0 0) ER0 ER1); [rewrite HL; left; reflexivity| |exact HB].
    intros B' HB'. pose proof (T1 B' HB') as T3. cbv beta in T3. revert T3. generalize (leaves ex_M2). intros l T3. exact (proj1 (IN B' l) T3).
Qed.

(** * Examples *)
(** Cycles whose families are on one rank: refining the first octant of the initial mesh of
    two ranks, then coarsening on one rank. *)
Example ex_refined_value : remap_aux 3 ex_g unit_blocks (fun d => Some d) ex_M0 ex_M1 (blocks_of (fun c => inject_Z (cx c + 10 * cy c)) unit_blocks ex_M0) =
  Some [[[0]; [0]; [0]; [0]; [0]; [0]; [0]; [0]; [1]]; [[10]; [11]]]%Q.
Proof. vm_compute. reflexivity. Qed.
(** Odd blocks of 3x3 cells in 2D, one rank: coarsening 4 octants, keeping 3. *)
Definition odd_b : axis -> Z := mkoff 3 3 1.
Example odd_block : block_ok dg_g odd_b.
Proof. intros []; cbn [odd_b mkoff]; split; try lia; try reflexivity; discriminate. Qed.
Definition odd_M : mesh := match adapt 30 id_order dg_g dg_M (map (map ex_coarsen) (map loc dg_M)) with Some M => M | None => [] end.
Example odd_adapt : adapt 30 id_order dg_g dg_M (map (map ex_coarsen) (map loc dg_M)) = Some odd_M /\ good_markers dg_g dg_M (map (map ex_coarsen) (map loc dg_M)) /\
  map (fun R => length (loc R)) dg_M = [7]%nat /\ map (fun R => length (loc R)) odd_M = [4]%nat.
Proof. split; [vm_compute; reflexivity|]. split; [apply good_markers_of, good_request_check; vm_compute; reflexivity|]. split; vm_compute; reflexivity. Qed.
Definition odd_V (c : oct) : Q := inject_Z (cx c * cx c + 7 * cy c + 3).
Lemma one_rank_families g R M' : families_on_one_rank g [R] M'.
Proof.
  intros r R0 R' A' HR _ _ HC B HB. specialize (HC B HB). unfold leaves in HC. cbn [map concat] in HC. rewrite app_nil_r in HC.
  destruct r as [|r]; [|destruct r; discriminate]. cbn [nth_error] in HR. injection HR as <-. exact HC.
Qed.
Example odd_families : families_on_one_rank dg_g dg_M odd_M.
Proof.
  assert (E : length dg_M = 1%nat) by (vm_compute; reflexivity). generalize odd_M. revert E. generalize dg_M.
  intros [|R [|? ?]] E M'; try discriminate E. apply one_rank_families.
Qed.
Example odd_remap : option_map (fun D' => map Qred (nth 0 (nth 0 D' []) []))
    (remap_aux 1 dg_g odd_b (fun d => Some d) dg_M odd_M (blocks_of odd_V odd_b dg_M)) =
  Some [7; 13; 27; 21; 27; 41; 35; 41; 55]%Q.
Proof. vm_compute. reflexivity. Qed.

Print Assumptions C27_conserved_partial.
Print Assumptions C28_one_pass.
Print Assumptions C28_remap_partial.
Print Assumptions C28_diverges.
Print Assumptions C28_refuted.
