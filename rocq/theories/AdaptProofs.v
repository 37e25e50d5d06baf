(** adapt: from a consistent mesh to a consistent mesh, with the least legal decision. *)
From Verif Require Import Base MortonModel MortonProofs OctreeSpec OctreeGeom OctreeModel FindNeighbors
  MarkerProofs MarkerLoop ApplyProofs MeshSpec GhostProofs GhostExchange.

Lemma fix_tail_id l last : (forall x, In x l -> x <> 0) -> fix_tail l last = l.
Proof.
  induction l as [|x l IH]; intros H; [reflexivity|]. cbn [fix_tail].
  rewrite IH by (intros y Hy; apply H; right; exact Hy).
  destruct (Z.eqb_spec x 0) as [E|E]; [|reflexivity]. exfalso. apply (H x (or_introl eq_refl)). exact E.
Qed.

Definition head_key (g : geom) (l : list oct) : Z := match l with [] => 0 | o :: _ => zkey g o end.

Section Intervals.
Variable g : geom.
Hypothesis WF : wf_geom g.
Variable locs : list (list oct).
Let L := concat locs.
Hypothesis HT : tiles g L.
Hypothesis HS : zsorted g L.
Hypothesis HNE : forall l, In l locs -> l <> [].

Lemma sorted_ranks r l r' l' A B : nth_error locs r = Some l -> nth_error locs r' = Some l' -> (r < r')%nat ->
  In A l -> In B l' -> zkey g A < zkey g B.
Proof.
  unfold L in HS. clear -HS. revert r r'. induction locs as [|x ls IH]; intros [|r] [|r'] H H' Hr HA HB; cbn in *; try discriminate; try lia.
  - injection H as ->. unfold zsorted in HS. cbn in HS. apply SS_app_inv in HS. destruct HS as (_ & _ & Q). apply Q; [exact HA|].
    apply in_concat. exists l'. split; [eapply nth_error_In, H'|exact HB].
  - apply (IH ltac:(unfold zsorted in *; cbn in HS; apply SS_app_inv in HS; apply HS) r r' H H'); try assumption. lia.
Qed.
Lemma sorted_head r l A : nth_error locs r = Some l -> In A l -> head_key g l <= zkey g A.
Proof.
  unfold L in HS. clear -HS. revert r. induction locs as [|x ls IH]; intros [|r] H HA; cbn in *; try discriminate.
  - injection H as ->. unfold zsorted in HS. cbn in HS. apply SS_app_inv in HS. destruct HS as (Q & _ & _).
    destruct l as [|o l]; [destruct HA|]. cbn [head_key]. inversion Q as [|? ? _ HF]; subst.
    destruct HA as [<-|HA]; [lia|]. rewrite Forall_forall in HF. specialize (HF A HA). cbn in HF. lia.
  - apply (IH ltac:(unfold zsorted in *; cbn in HS; apply SS_app_inv in HS; apply HS) r H HA).
Qed.
Lemma head_in r l : nth_error locs r = Some l -> exists o, In o l /\ head_key g l = zkey g o.
Proof.
  intros H. pose proof (HNE l (nth_error_In _ _ H)). destruct l as [|o l]; [congruence|]. exists o. split; [left|]; reflexivity.
Qed.
Lemma in_Lc r l A : nth_error locs r = Some l -> In A l -> In A L.
Proof. intros H HA. apply in_concat. exists l. split; [eapply nth_error_In, H|exact HA]. Qed.

Lemma heads_fix : fix_intervals (map (head_key g) locs) morton_max64 = map (head_key g) locs ++ [morton_max64].
Proof.
  pose proof sorted_ranks as SR. pose proof in_Lc as IL. pose proof head_in as HI.
  destruct locs as [|l ls] eqn:E; [reflexivity|]. cbn [fix_intervals map].
  rewrite fix_tail_id; [reflexivity|]. intros x Hx. apply in_map_iff in Hx. destruct Hx as (l' & <- & Hl').
  apply In_nth_error in Hl'. destruct Hl' as [r Hr].
  destruct (HI O l eq_refl) as (o & Ho & _). destruct (HI (S r) l' Hr) as (o' & Ho' & Eo').
  pose proof (SR O l (S r) l' o o' eq_refl Hr ltac:(lia) Ho Ho').
  pose proof (zkey_nonneg g WF o (tiles_valid g L o HT (IL O l o eq_refl Ho))). lia.
Qed.

Lemma heads_ok : intervals_ok g locs (map (head_key g) locs ++ [morton_max64]).
Proof.
  split; [rewrite app_length, map_length; cbn; lia|].
  assert (NTH : forall r v, nth_error (map (head_key g) locs ++ [morton_max64]) r = Some v ->
    (exists l, nth_error locs r = Some l /\ v = head_key g l) \/ (r = length locs /\ v = morton_max64)).
  { intros r v H. destruct (Nat.lt_ge_cases r (length locs)) as [Hr|Hr].
    - rewrite nth_error_app1 in H by (rewrite map_length; exact Hr). rewrite nth_error_map in H.
      destruct (nth_error locs r) as [l|] eqn:El; [|discriminate]. left. exists l. split; [reflexivity|]. cbn [option_map] in H. congruence.
    - rewrite nth_error_app2, map_length in H by (rewrite map_length; exact Hr).
      destruct (r - length locs)%nat as [|k] eqn:E; cbn [nth_error] in H.
      + right. split; [lia|congruence].
      + destruct k; discriminate. }
  assert (MAX : forall A, In A L -> zkey g A + 2^(3*(lmax g - lev A)) <= morton_max64).
  { intros A HA. pose proof (zkey_lt g WF A (tiles_valid g L A HT HA)). pose proof (wf_max20 g WF).
    pose proof (Z.pow_le_mono_r 2 (3 * lmax g) 60 ltac:(lia) ltac:(lia)). unfold morton_max64. lia. }
  assert (STEP : forall A, In A L -> zkey g A <= zkey g A + 2^(3*(lmax g - lev A))).
  { intros A HA. pose proof (tiles_valid g L A HT HA) as [? _].
    pose proof (Z.pow_pos_nonneg 2 (3*(lmax g - lev A)) ltac:(lia) ltac:(lia)). lia. }
  split.
  - intros i j a b Hij Ha Hb. apply NTH in Ha. apply NTH in Hb.
    destruct Ha as [(l & El & ->)|[-> ->]]; destruct Hb as [(l' & El' & ->)|[-> ->]].
    + destruct (Nat.eq_dec i j) as [->|Hne].
      * rewrite El in El'. injection El' as <-. lia.
      * destruct (head_in i l El) as (o & Ho & ->). destruct (head_in j l' El') as (o' & Ho' & ->).
        pose proof (sorted_ranks i l j l' o o' El El' ltac:(lia) Ho Ho'). lia.
    + destruct (head_in i l El) as (o & Ho & ->). pose proof (MAX o (in_Lc i l o El Ho)). pose proof (STEP o (in_Lc i l o El Ho)). lia.
    + assert (j < length locs)%nat by (apply nth_error_Some; congruence). lia.
    + lia.
  - intros r l A b e Hl HA Hb He. apply NTH in Hb. apply NTH in He.
    destruct Hb as [(l2 & El2 & ->)|[-> _]].
    2:{ assert (length locs < length locs)%nat by (apply nth_error_Some; congruence). lia. }
    rewrite Hl in El2. injection El2 as <-. split; [eapply sorted_head; eauto|].
    destruct He as [(l' & El' & ->)|[_ ->]].
    + destruct (head_in (S r) l' El') as (o' & Ho' & ->).
      apply (tiles_key_order g WF L A o' HT (in_Lc r l A Hl HA) (in_Lc (S r) l' o' El' Ho')).
      exact (sorted_ranks r l (S r) l' A o' Hl El' (Nat.lt_succ_diag_r r) HA Ho').
    + exact (MAX A (in_Lc r l A Hl HA)).
Qed.
End Intervals.

(** * Tilings are determined by the level at each point *)
Lemma tiles_same_levels g L L' : tiles g L -> tiles g L' -> zsorted g L -> zsorted g L' ->
  (forall p A B, in_dom g p -> In A L -> In B L' -> covers g A p -> covers g B p -> lev A = lev B) -> L = L'.
Proof.
  intros HT HT' HS HS' H.
  assert (INC : forall L L', tiles g L -> tiles g L' ->
     (forall p A B, in_dom g p -> In A L -> In B L' -> covers g A p -> covers g B p -> lev A = lev B) -> incl L L').
  { clear. intros L L' HT HT' H A HA. pose proof (tiles_valid g L A HT HA) as Hv.
    destruct (tiles_leaf g L' (corner g A) HT' (corner_in_dom g A Hv)) as (B & HB & HBc).
    rewrite (covers_same_level g A B (corner g A)); [exact HB|apply corner_covers, Hv|exact HBc|].
    eapply H; eauto; [apply corner_in_dom, Hv|apply corner_covers, Hv]. }
  assert (I1 : incl L L') by (apply INC; assumption).
  assert (I2 : incl L' L).
  { apply INC; [assumption..|]. intros p A B Hp HA HB CA CB. symmetry. eapply H; eauto. }
  clear H INC HT HT'. revert L' HS' I1 I2. induction HS as [|x l HS IH HF]; intros L' HS' I1 I2.
  - destruct L' as [|y l']; [reflexivity|]. destruct (I2 y (or_introl eq_refl)).
  - destruct L' as [|y l']; [destruct (I1 x (or_introl eq_refl))|].
    inversion HS' as [|? ? HS2 HF2]; subst. rewrite Forall_forall in HF, HF2.
    assert (x = y).
    { destruct (I1 x (or_introl eq_refl)) as [E|E]; [congruence|]. destruct (I2 y (or_introl eq_refl)) as [E'|E']; [congruence|].
      specialize (HF y E'). specialize (HF2 x E). lia. }
    subst y. f_equal. apply IH; [exact HS2| |].
    + intros z Hz. destruct (I1 z (or_intror Hz)) as [<-|E]; [|exact E]. specialize (HF x Hz). lia.
    + intros z Hz. destruct (I2 z (or_intror Hz)) as [<-|E]; [|exact E]. specialize (HF2 x Hz). lia.
Qed.

Section Adapt.
Variable g : geom.
Hypothesis WF : wf_geom g.
Hypothesis Hl1 : 1 <= lmin g.
Variable ord : order.
Hypothesis Hord : ord_ok ord.
Variable M : mesh.
Hypothesis HM : mesh_ok g M.
Variable req : oct -> Z.
Hypothesis HR : good_request g (leaves M) req.
Variable fuel : nat.
Hypothesis Hfuel : 2 * Z.of_nat (length (leaves M)) < Z.of_nat fuel.

Let mk := map (map req) (map loc M).

Lemma markers_done : exists m, marker_loop fuel fuel g M mk = Some (map (map m) (map loc M)) /\
  least_legal g (leaves M) req m.
Proof.
  destruct HM as [HT HB HS HN HG HSn HX HU].
  apply (marker_loop_spec g WF Hl1 M HT HB HX).
  - intros R HRM. destruct (HG R HRM) as [G1 G2]. split; [|split].
    + intros B HB'. apply G2 in HB'. apply HB'.
    + pose proof (tiles_NoDup g _ HT) as HND.
      assert (ND : NoDup (loc R)).
      { apply In_nth_error in HRM. destruct HRM as [r Hr]. eapply (locs_NoDup g (map loc M) HT r). rewrite nth_error_map, Hr. reflexivity. }
      clear -ND G1 G2. induction ND as [|x l Hx ND IH] in G2, G1 |- *; cbn; [exact G1|].
      assert (D : forall y, In y (x :: l) -> ~ In y (gho R)) by (intros y Hy Hg; apply G2 in Hg; tauto).
      clear G2. constructor.
      * rewrite in_app_iff. intros [H|H]; [contradiction|]. exact (D x (or_introl eq_refl) H).
      * clear IH Hx. assert (D' : forall y, In y l -> ~ In y (gho R)) by (intros y Hy; apply D; right; exact Hy). clear D.
        induction ND as [|z l Hz ND IH]; cbn; [exact G1|]. constructor.
        -- rewrite in_app_iff. intros [H|H]; [contradiction|]. exact (D' z (or_introl eq_refl) H).
        -- apply IH. intros y Hy. apply D'. right. exact Hy.
    + intros A B HA HBL T. apply in_app_iff. destruct (in_dec oct_eq_dec B (loc R)); [left; assumption|right].
      apply G2. split; [exact HBL|]. split; [assumption|]. eauto.
  - exact HR.
  - exact Hfuel.
  - intros o Ho. split; [lia|]. intros m' Hm'. apply (Hm' o Ho).
  - assert (- Z.of_nat (length (leaves M)) <= zsum (map req (leaves M))).
    { apply zsum_bound. intros x Hx. apply (HR x Hx). }
    unfold leaves in *. lia.
Qed.

(** New local octants of every rank. *)
Definition new_locs (m : oct -> Z) : list (list oct) :=
  map (fun R => flat_map (fun A => apply1 g A (m A)) (loc R)) M.
Lemma new_locs_concat m : concat (new_locs m) = newleaves g (leaves M) m.
Proof.
  unfold new_locs, newleaves, leaves. clear. induction M as [|R M' IH]; [reflexivity|]. cbn. rewrite IH, flat_map_app. reflexivity.
Qed.

Definition no_rank_emptied (m : oct -> Z) : Prop := forall R, In R M -> flat_map (fun A => apply1 g A (m A)) (loc R) <> [].

Lemma adapt_unfold m : marker_loop fuel fuel g M mk = Some (map (map m) (map loc M)) ->
  adapt fuel ord g M mk =
  match mapM (fun R => adapt_begin g (loc R) (flat_map (fun A => apply1 g A (m A)) (loc R))) M with
  | None => None
  | Some begins => with_ghosts ord g (lmax g) (fix_intervals begins morton_max64) (new_locs m)
        (firsts_from 0 (new_locs m)) (total_of (new_locs m))
  end.
Proof.
  intros E. unfold adapt. rewrite E.
  assert (E1 : map (fun x => apply_markers g (loc (fst x)) (snd x)) (combine M (map (map m) (map loc M))) = new_locs m).
  { unfold new_locs. rewrite map_map, combine_map_r, map_map. apply map_ext. intros R. cbn [fst snd]. unfold apply_markers.
    rewrite combine_map_r, flat_map_concat_map, map_map, <- flat_map_concat_map. reflexivity. }
  rewrite E1. cbv zeta.
  assert (E2 : mapM (fun x => adapt_begin g (loc (fst x)) (snd x)) (combine M (new_locs m)) =
    mapM (fun R => adapt_begin g (loc R) (flat_map (fun A => apply1 g A (m A)) (loc R))) M).
  { unfold new_locs. rewrite combine_map_r, mapM_map. reflexivity. }
  rewrite E2. reflexivity.
Qed.

Theorem adapt_ok m : least_legal g (leaves M) req m -> marker_loop fuel fuel g M mk = Some (map (map m) (map loc M)) ->
  no_rank_emptied m ->
  exists M', adapt fuel ord g M mk = Some M' /\ mesh_ok g M' /\ map loc M' = new_locs m.
Proof.
  intros HL E HE. rewrite (adapt_unfold m E). destruct HM as [HT HB HS HN HG HSn HX HU]. destruct HL as [HL _].
  assert (ET : tiles g (concat (new_locs m))) by (rewrite new_locs_concat; eapply newleaves_tiles; eauto).
  assert (EB : balanced g (concat (new_locs m))) by (rewrite new_locs_concat; eapply newleaves_balanced; eauto).
  assert (ES : zsorted g (concat (new_locs m))) by (rewrite new_locs_concat; eapply newleaves_sorted; eauto).
  assert (EN : forall l, In l (new_locs m) -> l <> []).
  { intros l Hl. unfold new_locs in Hl. apply in_map_iff in Hl. destruct Hl as (R & <- & HRM). apply HE, HRM. }
  assert (EBG : mapM (fun R => adapt_begin g (loc R) (flat_map (fun A => apply1 g A (m A)) (loc R))) M = Some (map (head_key g) (new_locs m))).
  { unfold new_locs. rewrite map_map.
    assert (VAL : forall R o, In R M -> In o (flat_map (fun A => apply1 g A (m A)) (loc R)) -> valid g o).
    { intros R o HRM Ho. apply (tiles_valid g _ o ET). apply in_concat. eexists. split; [|exact Ho].
      unfold new_locs. apply in_map_iff. exists R. auto. }
    clear -WF HN HE VAL. assert (HN' : forall R, In R M -> loc R <> [] /\ flat_map (fun A => apply1 g A (m A)) (loc R) <> []
      /\ forall o, In o (flat_map (fun A => apply1 g A (m A)) (loc R)) -> valid g o).
    { intros R HRM. split; [apply HN, HRM|]. split; [apply HE, HRM|]. intros o Ho. exact (VAL R o HRM Ho). }
    clear HN HE VAL. induction M as [|R M' IH]; [reflexivity|].
    cbn [mapM map]. destruct (HN' R (or_introl eq_refl)) as (N1 & N2 & N3).
    rewrite IH by (intros R' HR'; apply HN'; right; exact HR'). unfold adapt_begin.
    destruct (loc R) as [|o0 l0]; [congruence|].
    destruct (flat_map (fun A => apply1 g A (m A)) (o0 :: l0)) as [|o l] eqn:Eo; [congruence|].
    rewrite compute_morton_zkey; [reflexivity|exact WF|]. apply N3. left. reflexivity. }
  rewrite EBG. rewrite (heads_fix g WF (new_locs m) ET ES EN).
  destruct (with_ghosts_spec g WF (new_locs m) _ (heads_ok g WF (new_locs m) ET ES EN) ET EB ord Hord
    (firsts_from 0 (new_locs m)) (total_of (new_locs m)) (firsts_from_length _ _)) as (M' & EM & E1 & E2 & E3 & Esn & E4 & E5).
  exists M'. split; [exact EM|]. split; [|exact E1].
  assert (EL : leaves M' = concat (new_locs m)) by (unfold leaves; rewrite E1; reflexivity).
  constructor; rewrite ?EL; try assumption.
  - intros R HRM. apply EN. rewrite <- E1. apply in_map, HRM.
  - apply numbered_intro; rewrite E1; assumption.
Qed.

(** When a rank would lose all its octants, the code reads the first octant of an empty
    storage. *)
Theorem adapt_emptied m R : marker_loop fuel fuel g M mk = Some (map (map m) (map loc M)) ->
  In R M -> flat_map (fun A => apply1 g A (m A)) (loc R) = [] -> adapt fuel ord g M mk = None.
Proof.
  intros E HRM HE. rewrite (adapt_unfold m E).
  destruct (mapM _ M) as [bs|] eqn:Em; [|reflexivity]. exfalso.
  destruct (mapM_In_fwd _ _ _ _ Em HRM) as (b & _ & Eb). rewrite HE in Eb. unfold adapt_begin in Eb.
  pose proof (ok_nonempty g M HM R HRM). destruct (loc R); [congruence|discriminate].
Qed.

Lemma apply1_nonempty A m : legal g (leaves M) req m -> In A (leaves M) -> (0 <= req A \/ forall a, coord A a mod 2 = 0) ->
  apply1 g A (m A) <> [].
Proof.
  intros HL HA H. pose proof (HL A HA) as (H1 & H2 & _). unfold apply1.
  destruct (Z.eqb_spec (m A) 1) as [E1|E1]; [destruct (g3d g); discriminate|].
  destruct (Z.eqb_spec (m A) 0) as [E0|E0]; [discriminate|].
  destruct H as [H|H]; [lia|].
  pose proof (H AX) as HX. pose proof (H AY) as HY. pose proof (H AZ) as HZ. cbn [coord] in *.
  rewrite HX, HY, HZ. destruct (Z.eqb_spec (m A) (-1)); [discriminate|lia].
Qed.
End Adapt.
