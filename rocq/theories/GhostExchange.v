(** From send lists to ghost lists: [with_ghosts] builds a mesh with exact ghost layers. *)
From Verif Require Import Base MortonModel MortonProofs OctreeSpec OctreeGeom OctreeModel FindNeighbors
  MarkerProofs MarkerLoop ApplyProofs MeshSpec GhostProofs.

(** * Lists *)
Lemma combine_fst {A B} (a : list A) : forall b : list B, (length a <= length b)%nat -> map fst (combine a b) = a.
Proof. induction a as [|x a IH]; intros [|y b] H; cbn in *; try lia; [reflexivity..|]. f_equal. apply IH. lia. Qed.
Lemma combine_snd {A B} (a : list A) : forall b : list B, (length b <= length a)%nat -> map snd (combine a b) = b.
Proof. induction a as [|x a IH]; intros [|y b] H; cbn in *; try lia; [reflexivity..|]. f_equal. apply IH. lia. Qed.

Lemma nth_error_combine {A B} (a : list A) : forall (b : list B) i x y,
  nth_error (combine a b) i = Some (x, y) <-> nth_error a i = Some x /\ nth_error b i = Some y.
Proof.
  induction a as [|u a IH]; intros [|v b] [|i] x y; cbn [combine nth_error]; split; try (intros [H1 H2]); try intros H;
    try discriminate; try congruence.
  - injection H as -> ->. auto.
  - apply IH in H. exact H.
  - apply IH. auto.
Qed.
Lemma nth_error_ext' {A} (a b : list A) : (forall i, nth_error a i = nth_error b i) -> a = b.
Proof.
  revert b. induction a as [|x a IH]; intros [|y b] H.
  - reflexivity.
  - specialize (H O). discriminate.
  - specialize (H O). discriminate.
  - f_equal; [specialize (H O); cbn in H; congruence|]. apply IH. intros i. apply (H (S i)).
Qed.

Lemma NoDup_concat {A} (ls : list (list A)) :
  (forall l, In l ls -> NoDup l) ->
  (forall i j l l' x, nth_error ls i = Some l -> nth_error ls j = Some l' -> In x l -> In x l' -> i = j) ->
  NoDup (concat ls).
Proof.
  induction ls as [|l ls IH]; intros H1 H2; [constructor|]. cbn [concat].
  assert (HN : NoDup (concat ls)).
  { apply IH.
    - intros l' Hl'. apply H1. right. exact Hl'.
    - intros i j l1 l2 x E1 E2 I1 I2. specialize (H2 (S i) (S j) l1 l2 x E1 E2 I1 I2). lia. }
  assert (HD : forall x, In x l -> ~ In x (concat ls)).
  { intros x Hx Hc. apply in_concat in Hc. destruct Hc as (l' & Hl' & Hx'). apply In_nth_error in Hl'. destruct Hl' as [j Hj].
    specialize (H2 O (S j) l l' x eq_refl Hj Hx Hx'). lia. }
  specialize (H1 l (or_introl eq_refl)). clear -HN HD H1.
  induction H1 as [|x l Hx Hl IHl]; [exact HN|]. cbn. constructor.
  - rewrite in_app_iff. intros [H|H]; [contradiction|]. exact (HD x (or_introl eq_refl) H).
  - apply IHl. intros y Hy. apply HD. right. exact Hy.
Qed.

Lemma pick_In {A} (data : list A) idx r : pick data idx = Some r ->
  forall B, In B r <-> exists i, In i idx /\ nth_error data i = Some B.
Proof.
  unfold pick. intros E B. split.
  - intros H. destruct (mapM_In _ _ _ _ E H) as (i & Hi & Ei). eauto.
  - intros (i & Hi & Ei). destruct (mapM_In_fwd _ _ _ _ E Hi) as (y & Hy & Ey). rewrite Ei in Ey. injection Ey as ->. exact Hy.
Qed.
Lemma pick_NoDup {A} (data : list A) idx : forall r, pick data idx = Some r -> NoDup idx -> NoDup data -> NoDup r.
Proof.
  unfold pick. induction idx as [|i idx IH]; intros r E Hn Hd; cbn [mapM] in E.
  - injection E as <-. constructor.
  - destruct (nth_error data i) as [x|] eqn:Ex; [|discriminate]. destruct (mapM (nth_error data) idx) as [r'|] eqn:Er; [|discriminate].
    injection E as <-. inversion Hn as [|? ? Hi Hidx]; subst. constructor.
    + intros Hx. apply (pick_In data idx r' Er) in Hx. destruct Hx as (j & Hj & Ej).
      assert (i = j); [|subst; contradiction].
      apply (proj1 (NoDup_nth_error data) Hd); [apply nth_error_Some; congruence|congruence].
    + apply IH; auto.
Qed.
Lemma pick_total {A} (data : list A) idx : (forall i, In i idx -> (i < length data)%nat) -> exists r, pick data idx = Some r.
Proof.
  intros H. apply mapM_total. intros i Hi. specialize (H i Hi). destruct (nth_error data i) eqn:E; [eauto|].
  apply nth_error_None in E. lia.
Qed.

(** Elements received by rank [r]: those picked by each source. *)
Lemma recv_spec {A} (sends : list (list (list nat))) (data : list (list A)) r :
  length sends = length data ->
  (forall i s l, nth_error sends i = Some s -> nth_error data i = Some l ->
     exists idx, nth_error s r = Some idx /\ forall j, In j idx -> (j < length l)%nat) ->
  exists ls, recv sends data r = Some (concat ls) /\ length ls = length sends /\
    forall i s l, nth_error sends i = Some s -> nth_error data i = Some l ->
      exists idx p, nth_error s r = Some idx /\ nth_error ls i = Some p /\ pick l idx = Some p.
Proof.
  intros HL H. unfold recv.
  destruct (mapM_total (fun sd : list (list nat) * list A =>
     match nth_error (fst sd) r with Some idx => pick (snd sd) idx | None => None end) (combine sends data)) as [ls E].
  { intros [s l] Hsl. apply In_nth_error in Hsl. destruct Hsl as [i Hi]. apply nth_error_combine in Hi. destruct Hi as [Hi1 Hi2].
    destruct (H i s l Hi1 Hi2) as (idx & Ei & Hidx). cbn [fst snd]. rewrite Ei. apply pick_total. exact Hidx. }
  rewrite E. exists ls. split; [reflexivity|]. split.
  { rewrite (mapM_length _ _ _ E), combine_length. lia. }
  intros i s l Hs Hl. destruct (H i s l Hs Hl) as (idx & Ei & Hidx).
  destruct (mapM_nth _ _ _ i (s, l) E) as (p & Hp & Ep); [apply nth_error_combine; auto|].
  cbn [fst snd] in Ep. rewrite Ei in Ep. exists idx, p. auto.
Qed.

(** Hash table iteration may reorder each send list. *)
Definition ord_ok (ord : order) : Prop := forall me d l, Permutation (ord me d l) l.

Section WithGhosts.
Variable g : geom.
Hypothesis WF : wf_geom g.
Variable locs : list (list oct).
Let L := concat locs.
Variable J : list Z.
Hypothesis HJ : intervals_ok g locs J.
Hypothesis HT : tiles g L.
Hypothesis HB : balanced g L.
Variable ord : order.
Hypothesis Hord : ord_ok ord.
Let P := length locs.

Lemma discover_spec me l : nth_error locs me = Some l ->
  exists s, discover ord g (lmax g) J P me l = Some s /\ length s = P /\
    forall d idx, nth_error s d = Some idx ->
      NoDup idx /\ forall i, In i idx <-> d <> me /\ exists A B, nth_error l i = Some A /\ owns locs d B /\ touch g A B.
Proof.
  intros Hl. unfold discover.
  assert (OW : forall A, In A l -> owns locs me A) by (intros A HA; exists l; auto).
  destruct (mapM_total (oct_ranks g (lmax g) J) l) as [rs Ers].
  { intros A HA. destruct (oct_ranks_touch g WF locs J HJ HT HB A me (OW A HA)) as (r & E & _). eauto. }
  rewrite Ers. eexists. split; [reflexivity|]. split; [rewrite map_length, seq_length; reflexivity|].
  intros d idx Hd. rewrite nth_error_map in Hd.
  destruct (nth_error (seq 0 P) d) as [d'|] eqn:Ed; [|discriminate]. cbn [option_map] in Hd.
  assert (d' = d /\ (d < P)%nat) as [-> HdP].
  { assert (d < P)%nat. { rewrite <- (seq_length P 0). apply nth_error_Some. congruence. }
    split; [|assumption]. pose proof (nth_error_nth _ _ O Ed) as E. rewrite seq_nth in E by assumption. lia. }
  destruct (Nat.eqb_spec d me) as [->|Hne].
  { injection Hd as <-. split; [constructor|]. intros i. split; [intros []|]. intros [H _]. congruence. }
  injection Hd as <-. set (F := filter _ _).
  assert (HFN : NoDup F) by (apply NoDup_filter, seq_NoDup).
  split. { eapply Permutation_NoDup; [apply Permutation_sym, Hord|exact HFN]. }
  intros i.
  assert (EQ : In i (ord me d F) <-> In i F).
  { split; apply Permutation_in; [apply Hord|apply Permutation_sym, Hord]. }
  rewrite EQ. unfold F. rewrite filter_In, in_seq. split.
  - intros [Hi Hf]. split; [exact Hne|].
    destruct (nth_error rs i) as [r|] eqn:Er; [|discriminate].
    destruct (nth_error l i) as [A|] eqn:EA.
    2:{ apply nth_error_None in EA. lia. }
    destruct (mapM_nth _ _ _ i A Ers EA) as (r' & Er' & EA'). rewrite Er in Er'. injection Er' as <-.
    destruct (oct_ranks_touch g WF locs J HJ HT HB A me (OW A (nth_error_In _ _ EA))) as (r2 & E2 & H2).
    rewrite EA' in E2. injection E2 as <-.
    apply existsb_exists in Hf. destruct Hf as (z & Hz & Ez). apply Z.eqb_eq in Ez. subst z.
    apply (H2 d Hne) in Hz. destruct Hz as (B & HO & HTo). exists A, B. auto.
  - intros [_ (A & B & EA & HO & HTo)].
    assert (i < length l)%nat by (apply nth_error_Some; congruence).
    split; [lia|].
    destruct (mapM_nth _ _ _ i A Ers EA) as (r & Er & EA'). rewrite Er.
    destruct (oct_ranks_touch g WF locs J HJ HT HB A me (OW A (nth_error_In _ _ EA))) as (r2 & E2 & H2).
    rewrite EA' in E2. injection E2 as <-.
    apply existsb_exists. exists (Z.of_nat d). split; [apply (H2 d Hne); eauto|apply Z.eqb_refl].
Qed.

Lemma locs_NoDup me l : nth_error locs me = Some l -> NoDup l.
Proof.
  intros H. pose proof (tiles_NoDup g L HT) as HN. unfold L in HN. clear -H HN. revert me H.
  induction locs as [|x ls IH]; intros [|me] H; cbn in *; try discriminate.
  - injection H as ->. apply NoDup_app_parts in HN. apply HN.
  - apply (IH ltac:(apply NoDup_app_parts in HN; apply HN) me H).
Qed.

Theorem with_ghosts_spec firsts total : length firsts = P ->
  exists M, with_ghosts ord g (lmax g) J locs firsts total = Some M /\
    map loc M = locs /\ map gfirst M = firsts /\ (forall R, In R M -> gtotal R = total) /\
    (forall R, In R M -> length (snds R) = length M) /\ ghost_map_ok M /\ (forall R, In R M -> ghosts_exact g L (loc R) (gho R)).
Proof.
  intros Hf. unfold with_ghosts. fold P.
  destruct (mapM_total (fun x => discover ord g (lmax g) J P (fst x) (snd x)) (combine (seq 0 P) locs)) as [sends Es].
  { intros [me l] H. apply In_nth_error in H. destruct H as [i Hi]. apply nth_error_combine in Hi. destruct Hi as [H1 H2].
    assert (me = i).
    { pose proof (nth_error_nth _ _ O H1) as E. rewrite seq_nth in E; [lia|]. rewrite <- (seq_length P 0). apply nth_error_Some. congruence. }
    subst me. destruct (discover_spec i l H2) as (s & E & _). cbn [fst snd]. eauto. }
  rewrite Es.
  assert (HsL : length sends = P).
  { rewrite (mapM_length _ _ _ Es), combine_length, seq_length. unfold P. lia. }
  assert (SPEC : forall me s l, nth_error sends me = Some s -> nth_error locs me = Some l ->
    length s = P /\ forall d idx, nth_error s d = Some idx ->
      NoDup idx /\ forall i, In i idx <-> d <> me /\ exists A B, nth_error l i = Some A /\ owns locs d B /\ touch g A B).
  { intros me s l Hs Hl. destruct (discover_spec me l Hl) as (s' & E & H1 & H2).
    destruct (mapM_nth _ _ _ me (me, l) Es) as (s2 & E2 & E3).
    { apply nth_error_combine. split; [|exact Hl].
      assert (me < P)%nat by (apply nth_error_Some; congruence).
      rewrite (nth_error_nth' _ O) by (rewrite seq_length; assumption). rewrite seq_nth by assumption. reflexivity. }
    cbn [fst snd] in E3. rewrite E in E3. injection E3 as <-. rewrite Hs in E2. injection E2 as <-. auto. }
  assert (RECV : forall r, (r < P)%nat -> exists ls, recv sends locs r = Some (concat ls) /\ length ls = P /\
    forall i s l, nth_error sends i = Some s -> nth_error locs i = Some l ->
      exists idx p, nth_error s r = Some idx /\ nth_error ls i = Some p /\ pick l idx = Some p).
  { intros r Hr. destruct (recv_spec sends locs r) as (ls & E & H1 & H2).
    - rewrite HsL. reflexivity.
    - intros i s l Hs Hl. destruct (SPEC i s l Hs Hl) as [Hlen Hs2].
      destruct (nth_error s r) as [idx|] eqn:Eidx.
      + exists idx. split; [reflexivity|]. intros j Hj. apply (Hs2 r idx Eidx) in Hj. destruct Hj as [_ (A & B & EA & _)].
        apply nth_error_Some. congruence.
      + apply nth_error_None in Eidx. lia.
    - exists ls. rewrite HsL in H1. auto. }
  unfold exchange. rewrite HsL.
  destruct (mapM_total (recv sends locs) (seq 0 P)) as [ghosts Eg].
  { intros r Hr. apply in_seq in Hr. destruct (RECV r ltac:(lia)) as (ls & E & _). eauto. }
  rewrite Eg.
  assert (HgL : length ghosts = P) by (rewrite (mapM_length _ _ _ Eg), seq_length; reflexivity).
  set (M := map _ _). exists M. split; [reflexivity|].
  assert (Hl3 : length (combine ghosts (combine sends firsts)) = P) by (rewrite !combine_length; lia).
  assert (E1 : map loc M = locs).
  { unfold M. rewrite map_map. rewrite (map_ext _ fst).
    - apply combine_fst. rewrite Hl3. unfold P. lia.
    - intros (l & gh & s & f). reflexivity. }
  assert (E2 : map gho M = ghosts).
  { unfold M. rewrite map_map. rewrite (map_ext _ (fun x => fst (snd x))).
    - rewrite <- map_map, combine_snd by (rewrite Hl3; unfold P; lia).
      apply combine_fst. rewrite combine_length. lia.
    - intros (l & gh & s & f). reflexivity. }
  assert (E3 : map snds M = sends).
  { unfold M. rewrite map_map. rewrite (map_ext _ (fun x => fst (snd (snd x)))).
    - rewrite <- (map_map snd (fun x => fst (snd x))), combine_snd by (rewrite Hl3; unfold P; lia).
      rewrite <- (map_map snd fst), combine_snd by (rewrite combine_length; lia). apply combine_fst. lia.
    - intros (l & gh & s & f). reflexivity. }
  assert (E4 : map gfirst M = firsts).
  { unfold M. rewrite map_map. rewrite (map_ext _ (fun x => snd (snd (snd x)))).
    - rewrite <- (map_map snd (fun x => snd (snd x))), combine_snd by (rewrite Hl3; unfold P; lia).
      rewrite <- (map_map snd snd), combine_snd by (rewrite combine_length; lia). apply combine_snd. lia.
    - intros (l & gh & s & f). reflexivity. }
  split; [exact E1|]. split; [exact E4|]. split.
  { intros R HR. unfold M in HR. apply in_map_iff in HR. destruct HR as ((l & gh & s & f) & <- & _). reflexivity. }
  split.
  { intros R HR. apply In_nth_error in HR. destruct HR as [r Hr].
    destruct (SPEC r (snds R) (loc R)) as [H _].
    - rewrite <- E3, nth_error_map, Hr. reflexivity.
    - rewrite <- E1, nth_error_map, Hr. reflexivity.
    - rewrite H. unfold P. rewrite <- E1, map_length. reflexivity. }
  split.
  { unfold ghost_map_ok. rewrite E1, E2, E3. unfold exchange. rewrite HsL. exact Eg. }
  intros R HR. apply In_nth_error in HR. destruct HR as [r Hr].
  assert (Hrl : nth_error locs r = Some (loc R)) by (rewrite <- E1, nth_error_map, Hr; reflexivity).
  assert (Hrg : nth_error ghosts r = Some (gho R)) by (rewrite <- E2, nth_error_map, Hr; reflexivity).
  assert (HrP : (r < P)%nat) by (apply nth_error_Some; congruence).
  destruct (RECV r HrP) as (ls & Er & Hls & Hpk).
  assert (Egh : gho R = concat ls).
  { destruct (mapM_nth _ _ _ r r Eg) as (gh & H1 & H2).
    - rewrite (nth_error_nth' _ O) by (rewrite seq_length; assumption). rewrite seq_nth by assumption. reflexivity.
    - rewrite Hrg in H1. injection H1 as <-. congruence. }
  (* contents of the message from rank i *)
  assert (MSG : forall i p, nth_error ls i = Some p -> exists l, nth_error locs i = Some l /\ NoDup p /\
     forall B, In B p <-> r <> i /\ In B l /\ exists C, owns locs r C /\ touch g B C).
  { intros i p Hp. assert (HiP : (i < P)%nat) by (rewrite <- Hls; apply nth_error_Some; congruence).
    destruct (nth_error locs i) as [l|] eqn:El; [|apply nth_error_None in El; unfold P in HiP; lia].
    destruct (nth_error sends i) as [s|] eqn:Esi; [|apply nth_error_None in Esi; lia].
    destruct (Hpk i s l Esi El) as (idx & p' & Eidx & Ep & Epk). rewrite Hp in Ep. injection Ep as <-.
    destruct (SPEC i s l Esi El) as [_ Hs2]. destruct (Hs2 r idx Eidx) as [HN HI].
    exists l. split; [reflexivity|]. split; [eapply pick_NoDup; eauto; eapply locs_NoDup; eauto|].
    intros B. rewrite (pick_In l idx p Epk B). split.
    - intros (j & Hj & EB). apply HI in Hj. destruct Hj as [Hne (A & C & EA & HO & HTo)]. rewrite EB in EA. injection EA as <-.
      split; [exact Hne|]. split; [eapply nth_error_In, EB|eauto].
    - intros (Hne & HBl & C & HO & HTo). apply In_nth_error in HBl. destruct HBl as [j Hj]. exists j. split; [|exact Hj].
      apply HI. split; [exact Hne|]. exists B, C. auto. }
  rewrite Egh. split.
  - apply NoDup_concat.
    + intros p Hp. apply In_nth_error in Hp. destruct Hp as [i Hi]. destruct (MSG i p Hi) as (l & _ & HN & _). exact HN.
    + intros i j p p' x Hi Hj Hx Hx'. destruct (MSG i p Hi) as (l & El & _ & HI). destruct (MSG j p' Hj) as (l' & El' & _ & HI').
      apply HI in Hx. apply HI' in Hx'. destruct Hx as (_ & Hx & _). destruct Hx' as (_ & Hx' & _).
      apply (owner_unique g WF locs J HJ HT x); [exists l|exists l']; auto.
  - intros B. rewrite in_concat. split.
    + intros (p & Hp & HBp). apply In_nth_error in Hp. destruct Hp as [i Hi]. destruct (MSG i p Hi) as (l & El & _ & HI).
      apply HI in HBp. destruct HBp as (Hne & HBl & C & (lr & Elr & HC) & HTo).
      assert (OB : owns locs i B) by (exists l; auto).
      split; [apply (owns_in locs i B OB)|]. split.
      * intros HBr. apply Hne. apply (owner_unique g WF locs J HJ HT B); [exists (loc R); auto|exact OB].
      * exists C. rewrite Hrl in Elr. injection Elr as <-. split; [exact HC|apply touch_sym, HTo].
    + intros (HBL & HnB & C & HC & HTo). apply in_L_owner in HBL. destruct HBL as (i & l & El & HBl).
      assert (HiP : (i < P)%nat) by (apply nth_error_Some; congruence).
      destruct (nth_error ls i) as [p|] eqn:Ep; [|apply nth_error_None in Ep; lia].
      exists p. split; [eapply nth_error_In, Ep|]. destruct (MSG i p Ep) as (l' & El' & _ & HI). rewrite El in El'. injection El' as <-.
      apply HI. split; [|split; [exact HBl|]].
      * intros ->. rewrite Hrl in El. injection El as <-. contradiction.
      * exists C. split; [exists (loc R); auto|apply touch_sym, HTo].
Qed.
End WithGhosts.

(** * Numbering *)
Lemma firsts_from_length ls : forall a, length (firsts_from a ls) = length ls.
Proof. induction ls as [|x ls IH]; intros a; cbn; [reflexivity|]. f_equal. apply IH. Qed.
Lemma firsts_from_nth ls : forall a r l, nth_error ls r = Some l ->
  nth_error (firsts_from a ls) r = Some (a + Z.of_nat (length (concat (firstn r ls)))).
Proof.
  induction ls as [|x ls IH]; intros a [|r] l H; cbn [nth_error firsts_from firstn concat] in *; try discriminate.
  - f_equal. cbn. lia.
  - rewrite (IH _ r l H). f_equal. rewrite app_length. lia.
Qed.
Lemma concat_nth {A} (ls : list (list A)) : forall r l i x, nth_error ls r = Some l -> nth_error l i = Some x ->
  nth_error (concat ls) (length (concat (firstn r ls)) + i) = Some x.
Proof.
  induction ls as [|y ls IH]; intros [|r] l i x Hr Hi; cbn [nth_error firstn concat] in *; try discriminate.
  - injection Hr as ->. cbn. rewrite nth_error_app1; [exact Hi|]. apply nth_error_Some. congruence.
  - rewrite app_length, <- Nat.add_assoc, nth_error_app2 by lia.
    replace (length y + _ - length y)%nat with (length (concat (firstn r ls)) + i)%nat by lia. eapply IH; eauto.
Qed.

Lemma numbered_intro M :
  (forall R, In R M -> gtotal R = total_of (map loc M)) ->
  map gfirst M = firsts_from 0 (map loc M) -> numbered M.
Proof.
  intros Ht Hf r R HR. split.
  - rewrite (Ht R (nth_error_In _ _ HR)). reflexivity.
  - intros i A HA.
    assert (Hl : nth_error (map loc M) r = Some (loc R)) by (rewrite nth_error_map, HR; reflexivity).
    pose proof (firsts_from_nth (map loc M) 0 r (loc R) Hl) as E. rewrite <- Hf, nth_error_map, HR in E. cbn [option_map] in E.
    injection E as ->. split; [lia|]. unfold leaves.
    rewrite <- (concat_nth (map loc M) r (loc R) i A Hl HA). f_equal. lia.
Qed.
