(** The distributed marker loop of adapt computes the smallest legal decision. *)
From Verif Require Import Base MortonModel MortonProofs OctreeSpec OctreeGeom OctreeModel FindNeighbors MarkerProofs.

Lemma mapM_map {A B C} (f : B -> option C) (h : A -> B) l : mapM f (map h l) = mapM (fun x => f (h x)) l.
Proof. induction l as [|x l IH]; [reflexivity|]. cbn. rewrite IH. reflexivity. Qed.
Lemma mapM_ext {A B} (f h : A -> option B) l : (forall x, In x l -> f x = h x) -> mapM f l = mapM h l.
Proof.
  induction l as [|x l IH]; intros H; [reflexivity|]. cbn. rewrite (H x (or_introl eq_refl)), IH; [reflexivity|].
  intros; apply H; right; assumption.
Qed.
Lemma mapM_post {A B C} (f : A -> option B) (h : B -> C) l r : mapM f l = Some r ->
  mapM (fun x => option_map h (f x)) l = Some (map h r).
Proof.
  intros H. apply mapM_Some in H. induction H as [|x y l r E H IH]; [reflexivity|].
  cbn. rewrite E. cbn [option_map]. rewrite IH. reflexivity.
Qed.
Lemma combine_map {A B C} (f : A -> B) (h : A -> C) l : combine (map f l) (map h l) = map (fun x => (f x, h x)) l.
Proof. induction l as [|x l IH]; [reflexivity|]. cbn. rewrite IH. reflexivity. Qed.
Lemma combine_map_r {A C} (h : A -> C) l : combine l (map h l) = map (fun x => (x, h x)) l.
Proof. induction l as [|x l IH]; [reflexivity|]. cbn. rewrite IH. reflexivity. Qed.
Lemma combine_map2 {A B C} (h : B -> C) : forall (l : list A) (l' : list B),
  combine l (map h l') = map (fun x => (fst x, h (snd x))) (combine l l').
Proof. induction l as [|x l IH]; intros [|y l']; cbn; try reflexivity. rewrite IH. reflexivity. Qed.

(** Exchanging mapped data is mapping the exchanged data. *)
Lemma pick_map {A B} (f : A -> B) data idx r : pick data idx = Some r -> pick (map f data) idx = Some (map f r).
Proof.
  unfold pick. intros H. rewrite <- (mapM_post _ f _ _ H). apply mapM_ext. intros i _. apply nth_error_map.
Qed.
Lemma recv_map {A B} (f : A -> B) sends data r l :
  recv sends data r = Some l -> recv sends (map (map f) data) r = Some (map f l).
Proof.
  unfold recv. rewrite combine_map2, mapM_map.
  destruct (mapM _ (combine sends data)) as [ls|] eqn:E; [|discriminate]. intros H. injection H as <-.
  assert (E' : mapM (fun x : list (list nat) * list A =>
      match nth_error (fst (fst x, map f (snd x))) r with Some idx => pick (snd (fst x, map f (snd x))) idx | None => None end)
      (combine sends data) = Some (map (map f) ls)).
  { apply mapM_Some in E. apply mapM_Some. induction E as [|x y l r' Ex H IH]; constructor; [|exact IH].
    cbn [fst snd]. destruct (nth_error (fst x) r); [|discriminate]. apply pick_map, Ex. }
  rewrite E'. rewrite concat_map. reflexivity.
Qed.
Lemma exchange_map {A B} (f : A -> B) sends data r :
  exchange sends data = Some r -> exchange sends (map (map f) data) = Some (map (map f) r).
Proof.
  unfold exchange. intros H. apply mapM_Some in H. apply mapM_Some.
  induction H as [|x y l r' E H IH]; constructor; [|exact IH]. apply recv_map, E.
Qed.

Section Loop.
Variable g : geom.
Hypothesis WF : wf_geom g.
Hypothesis Hmin1 : 1 <= lmin g.
Variable M : mesh.
Let L := concat (map loc M).
Hypothesis HT : tiles g L.
Hypothesis HB : balanced g L.
Hypothesis Hex : exchange (map snds M) (map loc M) = Some (map gho M).
Hypothesis Hrk : forall R, In R M -> incl (gho R) L /\ NoDup (loc R ++ gho R) /\
  forall A B, In A (loc R) -> In B L -> touch g A B -> In B (loc R ++ gho R).
Variable req : oct -> Z.
Hypothesis HR : good_request g L req.

Lemma loc_incl R : In R M -> incl (loc R) L.
Proof. intros HR0 o Ho. unfold L. apply in_concat. exists (loc R). split; [apply in_map, HR0|exact Ho]. Qed.
Lemma st_incl R : In R M -> incl (loc R ++ gho R) L.
Proof.
  intros HR0 o Ho. apply in_app_iff in Ho. destruct Ho as [Ho|Ho]; [eapply loc_incl; eauto|].
  destruct (Hrk R HR0) as (H & _). apply H, Ho.
Qed.
Lemma in_L o : In o L -> exists R, In R M /\ In o (loc R).
Proof.
  unfold L. rewrite in_concat. intros (l & Hl & Ho). apply in_map_iff in Hl. destruct Hl as (R & <- & HR0). eauto.
Qed.

Lemma concat_map_map {A B} (f : A -> B) ll : concat (map (map f) ll) = map f (concat ll).
Proof. symmetry. apply concat_map. Qed.

Lemma lfuel_ok f R lfuel : In R M -> (forall o, In o L -> good g L req f o) ->
  2 * Z.of_nat (length L) < Z.of_nat lfuel -> Z.of_nat (length (loc R)) - zsum (map f (loc R)) < Z.of_nat lfuel.
Proof.
  intros HR0 Hg Hf.
  assert (Hb := zsum_bound f (loc R)). assert (forall x, In x (loc R) -> -1 <= f x <= 1).
  { intros x Hx. apply (good_bounds g L HT HB req HR); [eapply loc_incl; eauto|apply Hg; eapply loc_incl; eauto]. }
  specialize (Hb H). assert (length (loc R) <= length L)%nat.
  { unfold L. clear - HR0. induction M as [|R' M' IH]; [destruct HR0|]. cbn. rewrite app_length.
    destruct HR0 as [->|HR0]; [lia|]. specialize (IH HR0). lia. }
  lia.
Qed.

Theorem marker_loop_spec lfuel : 2 * Z.of_nat (length L) < Z.of_nat lfuel ->
  forall fuel f, (forall o, In o L -> good g L req f o) ->
  Z.of_nat (length L) - zsum (map f L) < Z.of_nat fuel ->
  exists m, marker_loop fuel lfuel g M (map (map f) (map loc M)) = Some (map (map m) (map loc M)) /\
    least_legal g L req m.
Proof.
  intros Hlf. induction fuel as [|fuel IH]; intros f Hg Hfu.
  { exfalso. assert (NB := zsum_bound f L). assert (forall x, In x L -> -1 <= f x <= 1).
    { intros x Hx. apply (good_bounds g L HT HB req HR); [exact Hx|apply Hg, Hx]. }
    specialize (NB H). lia. }
  cbn [marker_loop]. rewrite (exchange_map f _ _ _ Hex).
  rewrite !map_map. rewrite (combine_map (fun R => map f (loc R)) (fun R => map f (gho R))).
  rewrite combine_map_r, mapM_map.
  set (step := fun x : rank => local_loop lfuel g (loc x ++ gho x) (length (loc x)) (map f (loc x)) (map f (gho x))).
  (* every rank finishes its local loop *)
  assert (PER : forall R, In R M -> exists f' b, step R = Some (map f' (loc R), b) /\
     (forall o, ~ In o (loc R) -> f' o = f o) /\
     (forall o, In o (loc R ++ gho R) -> f o <= f' o /\ good g L req f' o) /\
     (forall A, In A (loc R) -> stable g L f' A) /\
     (b = false -> map f' (loc R) = map f (loc R)) /\ (b = true -> map f (loc R) <> map f' (loc R))).
  { intros R HR0. destruct (Hrk R HR0) as (H1 & H2 & H3).
    apply (local_loop_spec g WF Hmin1 L HT HB req HR (loc R) (gho R) (st_incl R HR0) H2 H3 lfuel f).
    - intros o Ho. apply Hg. eapply st_incl; eauto.
    - apply lfuel_ok; assumption. }
  destruct (mapM_total step M) as [res Hres].
  { intros R HR0. destruct (PER R HR0) as (f' & b & E & _). eauto. }
  rewrite Hres.
  (* the new markers as one function *)
  assert (ND : NoDup (concat (map loc M))) by (apply (tiles_NoDup g); exact HT).
  destruct (lists_as_fun (map loc M) (map fst res) ND) as [f1 Ef1].
  { assert (PERL : forall R, In R M -> exists v b, step R = Some (v, b) /\ length v = length (loc R)).
    { intros R HR0. destruct (PER R HR0) as (f' & b & E' & _). exists (map f' (loc R)), b. split; [exact E'|]. apply map_length. }
    clear - Hres PERL. rename PERL into PER. clearbody step. apply mapM_Some in Hres. induction Hres as [|R y l r E H IH]; [constructor|]. cbn. constructor.
    - destruct (PER R (or_introl eq_refl)) as (v & b & E' & Hv). assert (y = (v, b)) as -> by congruence. exact Hv.
    - apply IH. intros R' HR'. apply PER. right. exact HR'. }
  assert (REL : forall R y, In (R, y) (combine M res) -> In R M /\ step R = Some y /\ fst y = map f1 (loc R)).
  { assert (G : Forall2 (fun R y => step R = Some y /\ fst y = map f1 (loc R)) M res).
    { apply mapM_Some in Hres. clear - Hres Ef1. revert Ef1. induction Hres as [|R y l r E H IH]; intros Ef1; [constructor|].
      cbn in Ef1. injection Ef1 as E1 E2. constructor; [split; assumption|]. apply IH, E2. }
    clear - G. induction G as [|R y l r Hy G IH]; [intros ? ? []|]. intros R' y' [E|H].
    - injection E as <- <-. split; [left; reflexivity|]. exact Hy.
    - destruct (IH R' y' H) as [? ?]. split; [right; assumption|assumption]. }
  assert (LEN : length res = length M) by (eapply mapM_length; eauto).
  assert (PART : forall R, In R M -> exists y, In (R, y) (combine M res)).
  { clear - LEN. revert res LEN. induction M as [|R' M' IH]; intros [|y res] LEN R HR0; try destruct HR0; try discriminate.
    - subst. exists y. left. reflexivity.
    - destruct (IH res ltac:(cbn in LEN; lia) R H) as [y' Hy']. exists y'. right. exact Hy'. }
  (* facts about f1 *)
  assert (MEQ : forall (f' : oct -> Z) l, map f1 l = map f' l -> forall o, In o l -> f1 o = f' o).
  { intros f' l E o Ho. induction l as [|x l IHl]; [destruct Ho|]. cbn in E. injection E as E1 E2.
    destruct Ho as [<-|Ho]; [exact E1|apply IHl; assumption]. }
  assert (F1 : forall R, In R M -> exists f' b, In (R, (map f' (loc R), b)) (combine M res) /\
     (forall o, In o (loc R) -> f1 o = f' o) /\ (forall o, ~ In o (loc R) -> f' o = f o) /\
     (forall o, In o (loc R ++ gho R) -> f o <= f' o /\ good g L req f' o) /\
     (forall A, In A (loc R) -> stable g L f' A) /\
     (b = false -> map f' (loc R) = map f (loc R)) /\ (b = true -> map f (loc R) <> map f' (loc R))).
  { intros R HR0. destruct (PART R HR0) as [y Hy]. destruct (REL R y Hy) as (_ & Es & Ey).
    destruct (PER R HR0) as (f' & b & E & P1 & P2 & P3 & P4 & P5). assert (y = (map f' (loc R), b)) as -> by congruence.
    exists f', b. split; [exact Hy|]. split; [|auto]. cbn in Ey. symmetry in Ey.
    exact (MEQ f' (loc R) Ey). }
  assert (LE : forall o, In o L -> f o <= f1 o /\ good g L req f1 o).
  { intros o Ho. destruct (in_L o Ho) as (R & HR0 & HoR). destruct (F1 R HR0) as (f' & b & _ & P0 & _ & P2 & _).
    destruct (P2 o ltac:(apply in_app_iff; left; exact HoR)) as [Q1 Q2]. unfold good in *. rewrite (P0 o HoR). auto. }
  destruct (existsb snd res) eqn:EX.
  - (* some rank changed: continue *)
    assert (NE : map f L <> map f1 L).
    { apply existsb_exists in EX. destruct EX as (y & Hy & Hb).
      assert (exists R, In (R, y) (combine M res)) as [R HRy].
      { clear - Hy LEN. revert res LEN Hy. induction M as [|R' M' IH]; intros [|y' res] LEN Hy; try destruct Hy; try discriminate.
        - subst. exists R'. left. reflexivity.
        - destruct (IH res ltac:(cbn in LEN; lia) H) as [R HR0]. exists R. right. exact HR0. }
      destruct (REL R y HRy) as (HR0 & Es & Ey). destruct (PER R HR0) as (f' & b & E & P1 & P2 & P3 & P4 & P5).
      assert (y = (map f' (loc R), b)) as -> by congruence. cbn in Hb, Ey. subst b. specialize (P5 eq_refl).
      intros C. apply P5. rewrite Ey. apply map_ext_in. intros o Ho. pose proof (loc_incl R HR0 o Ho) as HoL.
      clear - C HoL. induction L as [|x l IH]; [destruct HoL|]. cbn in C. injection C as C1 C2.
      destruct HoL as [<-|HoL]; [exact C1|apply IH; assumption]. }
    rewrite Ef1, map_map in *.
    assert (LT : zsum (map f L) < zsum (map f1 L)) by (apply zsum_lt; [intros x Hx; apply LE, Hx|exact NE]).
    specialize (IH f1 ltac:(intros o Ho; apply LE, Ho) ltac:(lia)). rewrite map_map in IH. exact IH.
  - (* fixpoint *)
    rewrite Ef1. rewrite map_map. exists f1. rewrite map_map. split; [reflexivity|].
    assert (EQ : forall o, In o L -> f1 o = f o).
    { intros o Ho. destruct (in_L o Ho) as (R & HR0 & HoR). destruct (F1 R HR0) as (f' & b & Hin & P0 & P1 & _ & _ & P4 & _).
      assert (b = false).
      { destruct b; [|reflexivity]. assert (existsb snd res = true); [|congruence]. apply existsb_exists.
        exists (map f' (loc R), true). split; [|reflexivity]. eapply in_combine_r, Hin. }
      specialize (P4 H). rewrite (P0 o HoR). clear - P4 HoR. induction (loc R) as [|x l IH]; [destruct HoR|].
      cbn in P4. injection P4 as E1 E2. destruct HoR as [<-|HoR]; [exact E1|apply IH; assumption]. }
    split.
    + intros A HA. destruct (LE A HA) as [_ G]. pose proof (good_bounds g L HT HB req HR f1 A HA G) as GB.
      split; [apply G|]. split; [apply GB|]. split; [apply GB|].
      destruct (in_L A HA) as (R & HR0 & HAR). destruct (F1 R HR0) as (f' & b & Hin & P0 & P1 & P2 & P3 & P4 & _).
      assert (b = false) as ->.
      { destruct b; [|reflexivity]. assert (existsb snd res = true); [|congruence]. apply existsb_exists.
        exists (map f' (loc R), true). split; [|reflexivity]. eapply in_combine_r, Hin. }
      specialize (P4 eq_refl).
      assert (FE : forall o, In o L -> f' o = f1 o).
      { intros o Ho. rewrite (EQ o Ho). destruct (in_dec oct_eq_dec o (loc R)) as [HI|HN]; [|apply P1, HN].
        rewrite <- (P0 o HI). apply EQ, Ho. }
      destruct (P3 A HAR) as [S1 S2]. split.
      * intros B HBL T. specialize (S1 B HBL T). rewrite !FE in S1 by assumption. exact S1.
      * intros Em s Hs. rewrite <- (FE A HA) in Em. destruct (S2 Em s Hs) as [S3 S4]. split; [exact S3|].
        rewrite <- FE; assumption.
    + intros m' Hm' A HA. destruct (LE A HA) as [_ G]. apply G, Hm'.
Qed.
End Loop.
