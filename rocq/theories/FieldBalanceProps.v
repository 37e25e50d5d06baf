(** C30: fields and load balancing. *)
From Verif Require Import Base OctreeSpec OctreeGeom OctreeModel FindNeighbors MarkerProofs MarkerLoop MeshSpec GhostExchange BalanceProofs BalanceMain
  HistorySpec HistoryProofs RefineModel RefineProps OctreeProps CommSpec CommModel CommProofs CommProps FieldModel FieldSpec FieldProofs FieldProps.

(** * Lists *)
Lemma chunks_concat {A} k (rows : list (list A)) : (forall r, In r rows -> length r = k) -> chunks k (length rows) (concat rows) = rows.
Proof.
  induction rows as [|r rows IH]; intros H; [reflexivity|]. cbn [length concat chunks]. pose proof (H r (or_introl eq_refl)) as L.
  rewrite <- L, firstn_app, Nat.sub_diag, firstn_all, skipn_app, skipn_all, Nat.sub_diag. cbn [firstn skipn app]. rewrite app_nil_r, L, IH; [reflexivity|].
  intros; apply H; right; assumption.
Qed.
Lemma concat_inj {A} : forall l m : list (list A), map (@length A) l = map (@length A) m -> concat l = concat m -> l = m.
Proof.
  induction l as [|a l IH]; intros [|b m] HL HC; try discriminate; [reflexivity|]. cbn [map concat] in *. injection HL as L0 HL.
  assert (E : a = b).
  { pose proof (f_equal (firstn (length a)) HC) as K. rewrite (firstn_app (length a) a), firstn_all, Nat.sub_diag in K. rewrite L0 in K. rewrite (firstn_app (length b) b), firstn_all, Nat.sub_diag in K.
    cbn [firstn] in K. rewrite !app_nil_r in K. exact K. }
  subst b. f_equal. apply IH; [exact HL|]. exact (app_inv_head _ _ _ HC).
Qed.
Lemma sends_range {A} sends (D : list (list A)) D' : exchange sends D = Some D' -> length D = length sends ->
  forall s L Ds r idx o, nth_error sends s = Some L -> nth_error D s = Some Ds -> (r < length sends)%nat -> nth_error L r = Some idx -> In o idx -> (o < length Ds)%nat.
Proof.
  intros E HL s L Ds r idx o H1 H2 Hr H3 Ho. unfold exchange in E. apply mapM_Some, Forall2_nth in E. destruct E as [EL E]. rewrite seq_length in EL.
  destruct (nth_error D' r) as [x|] eqn:Ex; [|apply nth_error_None in Ex; lia].
  assert (Er : recv sends D r = Some x). { apply (E r r x); [|exact Ex]. rewrite seq_nth' by exact Hr. f_equal. }
  unfold recv in Er. destruct (mapM _ (combine sends D)) as [ls|] eqn:Em; [|discriminate]. apply mapM_Some, Forall2_nth in Em. destruct Em as [ML Em].
  assert (Hc : nth_error (combine sends D) s = Some (L, Ds)) by (apply nth_error_combine; auto).
  destruct (nth_error ls s) as [p|] eqn:Ep; [|apply nth_error_None in Ep; assert (nth_error (combine sends D) s <> None) by congruence; apply nth_error_Some in H; lia].
  specialize (Em s _ _ Hc Ep). cbn [fst snd] in Em. rewrite H3 in Em. unfold pick in Em. apply In_nth_error in Ho. destruct Ho as [k Hk].
  apply mapM_Some, Forall2_nth in Em. destruct Em as [KL Em]. destruct (nth_error p k) as [y|] eqn:Ey.
  - specialize (Em k _ _ Hk Ey). apply nth_error_Some. congruence.
  - apply nth_error_None in Ey. assert (nth_error idx k <> None) by congruence. apply nth_error_Some in H. lia.
Qed.
Lemma cut_length : forall sizes a, length (cut a sizes) = length sizes.
Proof. induction sizes as [|z sizes IH]; intros a; [reflexivity|]. cbn [cut length]. rewrite IH. reflexivity. Qed.
Lemma lb_sends_shape g level M J OI sends : lb_sends g level M = Some (J, OI, sends) -> length sends = length M /\ forall L, In L sends -> length L = length M.
Proof.
  unfold lb_sends. intros E. destruct (_ && _); [discriminate|]. destruct (lb_intervals g level M) as [J'|]; [|discriminate]. destruct (lb_oct_intervals g J' M) as [OI'|]; [|discriminate].
  destruct (mapM (lb_sizes OI' (length M)) M) as [sizes|] eqn:Em; [|discriminate]. injection E as <- <- <-. apply mapM_Some, Forall2_nth in Em. destruct Em as [EL Em].
  split; [rewrite map_length; auto|]. intros L HL. apply in_map_iff in HL. destruct HL as (z & <- & Hz). rewrite cut_length. apply In_nth_error in Hz. destruct Hz as [k Hk].
  destruct (nth_error M k) as [R|] eqn:ER; [|apply nth_error_None in ER; assert (nth_error sizes k <> None) by congruence; apply nth_error_Some in H; lia].
  specialize (Em k _ _ ER Hk). unfold lb_sizes in Em. apply mapM_Some, Forall2_nth in Em. destruct Em as [ZL _]. rewrite seq_length in ZL. auto.
Qed.

(** * Shape of the blocks *)
Section Shape.
Context {X : Type}.
Variable zero : X.
Variables nbc no ng : nat.
Definition shaped (m : dict X) : Prop := forall n a, lookup n m = Some a -> forall b, In b (fst a ++ snd a) -> length b = nbc.
Lemma shaped_remove m n : shaped m -> shaped (remove n m).
Proof. intros H k a E. rewrite lookup_remove in E. destruct (String.eqb k n); [discriminate|]. exact (H k a E). Qed.
Lemma shaped_cons m n a : shaped m -> (forall b, In b (fst a ++ snd a) -> length b = nbc) -> shaped ((n, a) :: m).
Proof. intros H Ha k a' E. cbn [lookup] in E. destruct (String.eqb n k); [injection E as <-; exact Ha|exact (H k a' E)]. Qed.
Lemma shaped_step m o m' : shaped m -> step (zeros zero nbc no ng) 64 m o = Some m' -> shaped m'.
Proof.
  intros H E. destruct o as [names|dest src|n|n g o c x]; cbn [step] in E.
  - destruct (_ && _); [|discriminate]. injection E as <-. clear -H. induction names as [|n names IH]; [exact H|]. cbn [map app]. apply shaped_cons; [exact IH|].
    intros b Hb. unfold zeros in Hb. cbn [fst snd] in Hb. apply in_app_iff in Hb. destruct Hb as [Hb|Hb]; apply repeat_spec in Hb; subst b; apply repeat_length.
  - destruct (lookup src m) as [a|] eqn:El; [|discriminate]. injection E as <-. apply shaped_cons; [apply shaped_remove, shaped_remove, H|exact (H src a El)].
  - injection E as <-. apply shaped_remove, H.
  - destruct (lookup n m) as [a|] eqn:El; [|discriminate]. destruct (value a g o c); [|discriminate]. injection E as <-. apply shaped_cons; [apply shaped_remove, H|].
    intros b Hb. unfold with_value in Hb.
    assert (K : forall l b, (forall b, In b l -> length b = nbc) -> In b (upd_nth o (upd_nth c (fun _ : X => x)) l) -> length b = nbc).
    { intros l b0 Hl Hin. apply upd_In in Hin. destruct Hin as (b1 & H1 & [-> | ->]); [|rewrite upd_nth_length]; apply Hl, H1. }
    pose proof (H n a El) as Ha. destruct g; cbn [fst snd] in Hb; apply in_app_iff in Hb; destruct Hb as [Hb|Hb].
    + apply Ha, in_app_iff. auto.
    + apply (K (snd a)); [|exact Hb]. intros; apply Ha, in_app_iff; auto.
    + apply (K (fst a)); [|exact Hb]. intros; apply Ha, in_app_iff; auto.
    + apply Ha, in_app_iff. auto.
Qed.
Lemma shaped_run : forall ops m m', shaped m -> run (zeros zero nbc no ng) 64 m ops = Some m' -> shaped m'.
Proof.
  induction ops as [|o ops IH]; intros m m' H E; cbn [run] in E; [injection E as <-; exact H|].
  destruct (step (zeros zero nbc no ng) 64 m o) as [m1|] eqn:Es; [|discriminate]. exact (IH m1 m' (shaped_step m o m1 H Es) E).
Qed.

(** What a history of calls leaves, when slots follow the order of names. *)
Lemma history_blocks ops s : (forall o, In o ops -> set_op o /\ ~ renames_self o) -> apply_ops zero nbc no ng no_fields ops = Some s ->
  fields_inv no ng s /\ (map snd (f_index s) = seq 0 (length (f_index s)) ->
    forall r, In r (v_U (f_view s)) -> (length (f_index s) <= length r)%nat /\ forall i b, (i < length (f_index s))%nat -> nth_error r i = Some b -> length b = nbc).
Proof.
  intros H E. pose proof (run_ok zero nbc no ng ops no_fields [] (empty_inv no ng) empty_stands H) as R.
  destruct (run (zeros zero nbc no ng) 64 [] ops) as [m|] eqn:Er; [|congruence]. destruct R as (s1 & E1 & I & S). rewrite E in E1. injection E1 as <-.
  split; [exact I|]. intros SL r Hr. pose proof (index_le no ng s I) as LE. split; [rewrite (i_rows no ng s I r); [exact LE|apply in_app_iff; auto]|]. intros i b Hi Hb.
  assert (SH : shaped m) by (apply (shaped_run ops [] m); [intros ? ? ?; discriminate|exact Er]).
  destruct (nth_error (f_index s) i) as [[n j]|] eqn:En; [|apply nth_error_None in En; lia].
  assert (j = i). { assert (K : nth_error (map snd (f_index s)) i = Some j) by (rewrite nth_error_map, En; reflexivity). rewrite SL, seq_nth' in K by exact Hi. cbn in K. congruence. }
  subst j. pose proof (s_cols s m S n i (nth_error_In _ _ En)) as L. apply (SH n _ L). apply in_app_iff. left. unfold column. cbn [fst]. apply in_map_iff. exists r. split; [|exact Hr].
  apply nth_error_nth, Hb.
Qed.
End Shape.

Lemma renumber_id (m : index) : map snd m = seq 0 (length m) -> renumber m = m.
Proof.
  intros H. unfold renumber. rewrite <- H. clear H. induction m as [|[k i] m IH]; [reflexivity|]. cbn [map combine fst snd]. rewrite IH. reflexivity.
Qed.
Lemma mapM_names m : NoDup (map fst m) -> mapM (fun x : string * nat => find_name (fst x) m) (renumber m) = Some (map snd m).
Proof.
  intros ND. apply mapM_Some, Forall2_nth. unfold renumber. rewrite combine_length, !map_length, seq_length, Nat.min_id. split; [reflexivity|].
  intros i [n j] k H1 H2. apply nth_error_combine in H1. destruct H1 as [H1 _]. cbn [fst]. apply find_name_In; [exact ND|]. rewrite nth_error_map in H1, H2.
  destruct (nth_error m i) as [[n' k']|] eqn:E; [|discriminate]. cbn in H1, H2. injection H1 as ->. injection H2 as ->. exact (nth_error_In _ _ E).
Qed.

(** ** C30 *)
(** The fields of all ranks were built by calls of the API (the same fields on all ranks),
    there are at most 32 and at least one, and the slots follow the alphabetical order of names
    without gap (as after an AMR cycle that creates no field). Then load balancing
    succeeds on every rank and each field has in each cell of each octant the value it had
    before, wherever the octant was.
    Missing: other slot layouts (see C30_refuted), no field at all or more than 32. *)
Theorem C30_survives_partial {X} (zero : X) nbc g ord level M (hist : rank -> list (field_op X)) idx olds :
  wf_geom g -> ord_ok ord -> mesh_ok g M -> M <> [] -> 3 * Z.of_nat level < 64 ->
  (forall R o, In R M -> In o (hist R) -> set_op o /\ ~ renames_self o) ->
  mapM (fun R => apply_ops zero nbc (length (loc R)) (length (gho R)) no_fields (hist R)) M = Some olds ->
  (forall s, In s olds -> f_index s = idx) -> (0 < length idx <= 32)%nat -> map snd idx = seq 0 (length idx) ->
  exists M' J OI sends, loadBalance ord g level M = Some M' /\ lb_sends g level M = Some (J, OI, sends) /\
    forall me R' contiguous sch B0, nth_error M' me = Some R' -> (forall ws, Permutation (sch ws) ws) ->
      (contiguous = false -> length B0 = (length (filter (fun so => negb (Nat.eqb (fst so) me)) (origins sends me)) * (length idx * nbc))%nat) ->
      exists new, exchange_loadbalance zero nbc contiguous sch (map comm_of sends) me (length (loc R')) (length (gho R')) olds B0 = Some new /\
        forall r R s A o o' n c, nth_error M r = Some R -> nth_error olds r = Some s -> nth_error (loc R) o = Some A -> nth_error (loc R') o' = Some A ->
          read_field n false o' c new = read_field n false o c s.
Proof.
  intros WF Ho OK HN HL HH HO HI HB HS. destruct (loadBalance_full g ord level M WF Ho OK HN HL) as (M' & sends & J & OI & E & OK' & L1 & L2 & L3 & L4 & _).
  exists M', J, OI, sends. split; [exact E|]. split; [exact L3|]. intros me R' contiguous sch B0 HR' Hsch HB0.
  destruct (lb_sends_shape g level M J OI sends L3) as [LS1 LS2]. set (nb := length idx) in *. set (e := (nb * nbc)%nat) in *.
  assert (Hme : (me < length M)%nat) by (rewrite <- L1; apply nth_error_Some; congruence).
  apply mapM_Some, Forall2_nth in HO. destruct HO as [OL HO].
  (* states of the ranks *)
  assert (ST : forall r R s, nth_error M r = Some R -> nth_error olds r = Some s -> fields_inv (length (loc R)) (length (gho R)) s /\ f_index s = idx /\ length (v_U (f_view s)) = length (loc R) /\
             forall row, In row (v_U (f_view s)) -> (nb <= length row)%nat /\ forall i b, (i < nb)%nat -> nth_error row i = Some b -> length b = nbc).
  { intros r R s H1 H2. destruct (history_blocks zero nbc _ _ (hist R) s (fun o Hin => HH R o (nth_error_In _ _ H1) Hin) (HO r R s H1 H2)) as [I Q].
    pose proof (HI s (nth_error_In _ _ H2)) as EI. rewrite EI in Q. specialize (Q HS). split; [exact I|]. split; [exact EI|]. split; [|exact Q].
    pose proof (index_le _ _ s I) as LE. rewrite EI in LE. destruct (i_size _ _ s I) as [K _]; [fold nb in LE; lia|exact K]. }
  assert (RAW : forall s row, (exists r R, nth_error M r = Some R /\ nth_error olds r = Some s) -> In row (v_U (f_view s)) -> length (firstn nb row) = nb /\ (forall b, In b (firstn nb row) -> length b = nbc)).
  { intros s row (r & R & H1 & H2) Hrow. destruct (ST r R s H1 H2) as (_ & _ & _ & Q). destruct (Q row Hrow) as [Q1 Q2]. split; [apply firstn_length_le, Q1|].
    intros b Hb. apply In_nth_error in Hb. destruct Hb as [i Hi]. assert (i < nb)%nat by (rewrite <- (firstn_length_le row Q1); apply nth_error_Some; congruence).
    apply (Q2 i b H). rewrite <- (firstn_skipn nb row), nth_error_app1; [exact Hi|]. rewrite (firstn_length_le row Q1). exact H. }
  set (Us := map (fun s => raw_rows nb (f_view s)) olds).
  (* where octants come from *)
  assert (DL : map (@length oct) (map loc M) = map (@length oct) (map loc M)) by reflexivity.
  destruct (L4 oct (map loc M) DL) as (D' & EX & DL' & DC).
  assert (ED : D' = map loc M') by (apply concat_inj; [exact DL'|rewrite DC; symmetry; exact L2]). subst D'.
  assert (REC : recv sends (map loc M) me = Some (loc R')).
  { unfold exchange in EX. apply mapM_Some, Forall2_nth in EX. destruct EX as [_ EX]. apply (EX me me (loc R')); [rewrite seq_nth' by lia; reflexivity|rewrite nth_error_map, HR'; reflexivity]. }
  pose proof (recv_origins me sends (map loc M) _ ltac:(rewrite map_length; lia) REC) as OR. pose proof (Forall2_len _ _ _ OR) as ORL. apply Forall2_nth in OR. destruct OR as [_ OR].
  assert (CO : comm_ok e sends Us).
  { split; [unfold Us; rewrite map_length; lia|]. intros s L U HLs HU. unfold Us in HU. rewrite nth_error_map in HU. destruct (nth_error olds s) as [so|] eqn:Eso; [|discriminate]. injection HU as <-.
    destruct (nth_error M s) as [Sr|] eqn:EM; [|apply nth_error_None in EM; assert (nth_error olds s <> None) by congruence; apply nth_error_Some in H; lia].
    split; [rewrite (LS2 L (nth_error_In _ _ HLs)); lia|]. split.
    - intros row Hrow. unfold raw_rows in Hrow. apply in_map_iff in Hrow. destruct Hrow as (r0 & <- & Hr0). destruct (RAW so r0 (ex_intro _ s (ex_intro _ Sr (conj EM Eso))) Hr0) as [Q1 Q2].
      rewrite (rect_length nbc) by exact Q2. rewrite Q1. reflexivity.
    - intros l o Hl Hin. unfold raw_rows. rewrite map_length. destruct (ST s Sr so EM Eso) as (_ & _ & -> & _). apply In_nth_error in Hl. destruct Hl as [r Hr].
      assert (r < length sends)%nat by (rewrite LS1, <- (LS2 L (nth_error_In _ _ HLs)); apply nth_error_Some; congruence).
      eapply (sends_range sends (map loc M) _ EX ltac:(rewrite map_length; lia) s L (loc Sr) r l o); auto. rewrite nth_error_map, EM. reflexivity. }
  (* the call *)
  destruct (nth_error M me) as [Rme|] eqn:EMe; [|apply nth_error_None in EMe; lia].
  destruct (nth_error olds me) as [sme|] eqn:Eme; [|apply nth_error_None in Eme; lia].
  destruct (ST me Rme sme EMe Eme) as (Ime & EIme & _ & _).
  assert (NDI : NoDup (map fst idx)) by (rewrite <- EIme; apply sorted_NoDup, (i_sorted _ _ _ Ime)).
  assert (ACC : exists a, getAccessor idx sme = Some a).
  { unfold getAccessor. pose proof (mapM_names idx NDI) as MN. rewrite (renumber_id idx HS) in MN. rewrite EIme, MN.
    replace (length idx <=? max_field_count)%nat with true by (symmetry; apply Nat.leb_le; unfold max_field_count; fold nb; lia).
    replace (forallb (fun x : string * nat => (snd x <? max_index_count)%nat) idx) with true.
    2:{ symmetry. apply forallb_forall. intros [k i] Hx. apply Nat.ltb_lt. assert (K : In i (map snd idx)) by (apply in_map_iff; exists (k, i); auto). rewrite HS in K. apply in_seq in K. cbn [snd]. unfold max_index_count. fold nb in K. lia. }
    destruct idx; [cbn in HB; lia|]. eexists. reflexivity. }
  destruct ACC as [acc ACC].
  unfold exchange_loadbalance. rewrite Eme. unfold backup_and_realloc. rewrite EIme, (renumber_id idx HS), ACC. fold nb.
  unfold alloc. replace (nb <=? max_index_count)%nat with true by (symmetry; apply Nat.leb_le; unfold max_index_count; lia).
  cbn [f_view f_index f_max v_U v_G v_n]. fold e Us.
  match goal with |- context [exchange_rank _ _ _ _ _ _ ?x B0] => set (G0 := x) end.
  assert (LG0 : length G0 = (length (origins sends me) * e)%nat).
  { unfold G0, raw_rows. cbn [v_U]. rewrite ORL, (rect_length e).
    - rewrite map_length, repeat_length. reflexivity.
    - intros x Hx. apply in_map_iff in Hx. destruct Hx as (r0 & <- & Hr0). apply repeat_spec in Hr0. subst r0. rewrite firstn_all2 by (rewrite repeat_length; lia).
      rewrite (rect_length nbc), repeat_length; [reflexivity|]. intros b Hb. apply repeat_spec in Hb. subst b. apply repeat_length. }
  destruct (C19_exchange_ghosts e sends Us me contiguous sch G0 B0 CO ltac:(lia) Hsch LG0 HB0) as (G & EG & LG & HG). rewrite EG.
  (* rows of the result *)
  assert (GR : forall row, In row G -> length row = e).
  { intros row Hrow. apply In_nth_error in Hrow. destruct Hrow as [j Hj]. destruct (nth_error (origins sends me) j) as [[s o]|] eqn:Eo; [|apply nth_error_None in Eo; assert (nth_error G j <> None) by congruence; apply nth_error_Some in H; lia].
    destruct (HG j s o Eo) as (U & row' & H1 & H2 & H3). rewrite Hj in H3. injection H3 as <-. destruct CO as [_ CO].
    destruct (nth_error sends s) as [L|] eqn:EL; [|apply nth_error_None in EL; assert (nth_error Us s <> None) by congruence; apply nth_error_Some in H; unfold Us in H; rewrite map_length in H; lia].
    destruct (CO s L U EL H1) as (_ & K & _). exact (K row (nth_error_In _ _ H2)). }
  rewrite <- ORL, <- LG, chunks_concat by exact GR. unfold extend_fields. cbn [f_view f_index f_max v_n v_U v_G].
  pose proof (i_max _ _ _ Ime) as MX. pose proof (index_le _ _ _ Ime) as IL. rewrite EIme in IL. fold nb in IL.
  unfold alloc. replace (f_max sme <=? max_index_count)%nat with true by (symmetry; apply Nat.leb_le; lia).
  replace (nb =? 0)%nat with false by (symmetry; apply Nat.eqb_neq; lia). replace (nb <=? f_max sme)%nat with true by (symmetry; apply Nat.leb_le; lia).
  rewrite map_length, repeat_length, !Nat.eqb_refl. cbn [andb]. eexists. split; [reflexivity|].
  intros r R s A o o' n c HR Hs HA HA'. unfold read_field. rewrite !access_one. cbn [f_index]. destruct (ST r R s HR Hs) as (Is & EIs & LUs & Qs). rewrite EIs.
  destruct (find_name n idx) as [i|] eqn:En; [|reflexivity]. cbn [lookup_id a_ivar find fst snd Nat.eqb].
  assert (Hi : (i < nb)%nat). { apply find_name_In in En; [|exact NDI]. assert (K : In i (map snd idx)) by (apply in_map_iff; exists (n, i); auto). rewrite HS in K. apply in_seq in K. fold nb in K. lia. }
  unfold read_at. cbn [f_view v_U]. rewrite !nth_error_map.
  destruct (nth_error (origins sends me) o') as [[s' q]|] eqn:Eo; [|apply nth_error_None in Eo; assert (nth_error (loc R') o' <> None) by congruence; apply nth_error_Some in H; lia].
  destruct (OR o' _ _ Eo HA') as (Ds & D1 & D2). cbn [fst snd] in D1, D2. rewrite nth_error_map in D1. destruct (nth_error M s') as [Rs'|] eqn:Es'; [|discriminate]. injection D1 as <-.
  destruct (owner_eq g M OK s' Rs' q r R o A Es' D2 HR HA) as [-> ->].
  destruct (HG o' r o Eo) as (U & row & H1 & H2 & H3). rewrite H3. cbn [option_map].
  unfold Us in H1. rewrite nth_error_map, Hs in H1. injection H1 as <-. unfold raw_rows in H2. rewrite nth_error_map in H2.
  destruct (nth_error (v_U (f_view s)) o) as [rw|] eqn:Erw; [|discriminate]. injection H2 as <-.
  destruct (RAW s rw (ex_intro _ r (ex_intro _ R (conj HR Hs))) (nth_error_In _ _ Erw)) as [Q1 Q2].
  assert (CH : chunks nbc nb (concat (firstn nb rw)) = firstn nb rw). { pose proof (chunks_concat nbc (firstn nb rw) Q2) as CC. rewrite Q1 in CC. exact CC. }
  rewrite CH. unfold grow. rewrite nth_error_app1 by lia. rewrite <- (firstn_skipn nb rw) at 2. rewrite nth_error_app1 by lia. reflexivity.
Qed.

Import String.StringSyntax.
Local Open Scope string_scope.
(** Two ranks, 9 and 2 octants before, 5 and 6 after; each rank writes its own data. *)
Definition ex_hist (R : rank) : list (field_op Z) :=
  [New ["u"; "v"]; Write "u" false 1 0 (10 + Z.of_nat (length (loc R))); Write "v" false 0 1 (20 + Z.of_nat (length (loc R)));
   Write "v" false 1 1 (30 + Z.of_nat (length (loc R)))].
Example C30_survives_example :
  wf_geom ex_g /\ mesh_ok ex_g ex_M1 /\ map (fun R => length (loc R)) ex_M1 = [9; 2]%nat /\
  (forall R o, In R ex_M1 -> In o (ex_hist R) -> set_op o /\ ~ renames_self o) /\
  exists olds, mapM (fun R => apply_ops 0 2 (length (loc R)) (length (gho R)) no_fields (ex_hist R)) ex_M1 = Some olds /\
    (forall s, In s olds -> f_index s = [("u", 0%nat); ("v", 1%nat)]) /\
    option_map (map (fun R => length (loc R))) (loadBalance id_order ex_g 0 ex_M1) = Some [5; 6]%nat /\
    match lb_sends ex_g 0 ex_M1 with
    | Some (_, _, sends) =>
      match exchange_loadbalance 0 2 true (fun l => l) (map comm_of sends) 1 6 5 olds [] with
      | Some s => map (fun o => (read_field "u" false o 0 s, read_field "v" false o 1 s)) (seq 0 6) =
                  [(Some 0, Some 0); (Some 0, Some 0); (Some 0, Some 0); (Some 0, Some 0); (Some 0, Some 22); (Some 12, Some 32)]
      | None => False
      end
    | None => False
    end.
Proof.
  split; [apply wf_geom_check; reflexivity|]. split; [exact (reachable_ok ex_g 2 ex_M1 ex_setup ex_reach1)|]. split; [vm_compute; reflexivity|]. split.
  { intros R o _ Hin. repeat (destruct Hin as [<-|Hin]; [split; [cbn; repeat constructor; cbn; intuition discriminate|cbn; intuition discriminate]|]). destruct Hin. }
  eexists. split; [vm_compute; reflexivity|]. split; [intros s [<-|[<-|[]]]; reflexivity|]. split; vm_compute; reflexivity.
Qed.

(** The full property: same fields on all ranks, built by any history. *)
Definition C30_statement : Prop :=
  forall (X : Type) (zero : X) nbc g ord level M (hist : rank -> list (field_op X)) idx olds,
  wf_geom g -> ord_ok ord -> mesh_ok g M -> M <> [] -> 3 * Z.of_nat level < 64 ->
  (forall R o, In R M -> In o (hist R) -> set_op o /\ ~ renames_self o) ->
  mapM (fun R => apply_ops zero nbc (length (loc R)) (length (gho R)) no_fields (hist R)) M = Some olds ->
  (forall s, In s olds -> f_index s = idx) -> (0 < length idx <= 32)%nat ->
  exists M' J OI sends, loadBalance ord g level M = Some M' /\ lb_sends g level M = Some (J, OI, sends) /\
    forall me R' contiguous sch B0, nth_error M' me = Some R' -> (forall ws, Permutation (sch ws) ws) ->
      (contiguous = false -> length B0 = (length (filter (fun so => negb (Nat.eqb (fst so) me)) (origins sends me)) * (length idx * nbc))%nat) ->
      exists new, exchange_loadbalance zero nbc contiguous sch (map comm_of sends) me (length (loc R')) (length (gho R')) olds B0 = Some new /\
        forall r R s A o o' n c, nth_error M r = Some R -> nth_error olds r = Some s -> nth_error (loc R) o = Some A -> nth_error (loc R') o' = Some A ->
          read_field n false o' c new = read_field n false o c s.
(** One step of the time loop on one field: the new state is computed in rho_next, which is
    then renamed rho. Load balancing brings the old state back. *)
Definition bad_hist (R : rank) : list (field_op Z) :=
  [New ["rho"]; Write "rho" false 0 0 1; New ["rho_next"]; Write "rho_next" false 0 0 2; Rename "rho" "rho_next"].
Theorem C30_refuted : ~ C30_statement.
Proof.
  intros H.
  destruct (mapM (fun R => apply_ops 0 1 (length (loc R)) (length (gho R)) no_fields (bad_hist R)) ex_M1) as [olds|] eqn:EO; [|vm_compute in EO; discriminate].
  assert (ID : forall s, In s olds -> f_index s = [("rho", 1%nat)]).
  { vm_compute in EO. injection EO as <-. intros s [<-|[<-|[]]]; reflexivity. }
  destruct (nth_error ex_M1 0) as [R0|] eqn:ER; [|vm_compute in ER; discriminate].
  assert (HA : nth_error (loc R0) 0 = Some (mkOct 2 0 0 0)) by (vm_compute in ER; injection ER as <-; reflexivity).
  destruct (H Z 0 1%nat ex_g id_order 0%nat ex_M1 bad_hist [("rho", 1%nat)] olds) as (M' & J & OI & sends & E1 & E2 & K).
  - apply wf_geom_check; reflexivity.
  - exact id_order_ok.
  - exact (reachable_ok ex_g 2 ex_M1 ex_setup ex_reach1).
  - vm_compute. discriminate.
  - lia.
  - intros R o _ Hin. repeat (destruct Hin as [<-|Hin]; [split; [cbn; repeat constructor; cbn; intuition discriminate|cbn; intuition discriminate]|]). destruct Hin.
  - exact EO.
  - exact ID.
  - cbn. lia.
  - clear H. vm_compute in E1. injection E1 as <-. vm_compute in E2. injection E2 as <- <- <-. vm_compute in EO. injection EO as <-.
    destruct (K 0%nat _ true (fun l => l) [] eq_refl (fun ws => Permutation_refl ws)) as (new & EN & R); [discriminate|].
    vm_compute in EN. injection EN as <-. specialize (R 0%nat R0 _ (mkOct 2 0 0 0) 0%nat 0%nat "rho" 0%nat ER eq_refl HA eq_refl). vm_compute in R. discriminate.
Qed.

Print Assumptions C30_survives_partial.
Print Assumptions C30_refuted.
