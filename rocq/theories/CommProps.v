(** C19, C20, C21, C47: exchange of data between ranks. *)
From Verif Require Import Base OctreeSpec OctreeGeom OctreeModel FindNeighbors MarkerProofs MarkerLoop MeshSpec GhostExchange BalanceProofs
  HistorySpec HistoryProofs RefineModel RefineProps CommSpec CommModel CommProofs OctreeProps.

(** * Origins *)
Lemma recv_origins_gen {A} r (l : list (list (list nat))) : forall (pre D : list (list A)) x, length D = length l ->
  mapM (fun sd : list (list nat) * list A => match nth_error (fst sd) r with Some idx => pick (snd sd) idx | None => None end) (combine l D) = Some x ->
  Forall2 (fun so v => exists Ds, nth_error (pre ++ D) (fst so) = Some Ds /\ nth_error Ds (snd so) = Some v)
    (concat (map (fun sL : nat * list (list nat) => map (pair (fst sL)) (nth r (snd sL) [])) (combine (seq (length pre) (length l)) l))) (concat x).
Proof.
  induction l as [|L l IH]; intros pre [|Ds D] x HL E; try discriminate; cbn [combine mapM fst snd] in E.
  - injection E as <-. constructor.
  - destruct (nth_error L r) as [idx|] eqn:Ei; [|discriminate]. destruct (pick Ds idx) as [p|] eqn:Ep; [|discriminate].
    destruct (mapM _ (combine l D)) as [x'|] eqn:Em; [|discriminate]. injection E as <-. cbn [length seq combine map concat fst snd].
    apply Forall2_app.
    + rewrite (nth_error_nth L r [] Ei). clear -Ep. revert p Ep. unfold pick. induction idx as [|o idx IH]; intros p Ep; cbn [mapM] in Ep.
      * injection Ep as <-. constructor.
      * destruct (nth_error Ds o) as [v|] eqn:Eo; [|discriminate]. destruct (mapM (nth_error Ds) idx) as [p'|] eqn:Em; [|discriminate].
        injection Ep as <-. cbn [map]. constructor; [|apply IH; reflexivity]. exists Ds. cbn [fst snd]. split; [|exact Eo].
        rewrite nth_error_app2, Nat.sub_diag by lia. reflexivity.
    + specialize (IH (pre ++ [Ds]) D x'). rewrite app_length, Nat.add_1_r, <- app_assoc in IH. apply IH; [cbn in HL; lia|exact Em].
Qed.
Lemma recv_origins {A} r Ls (D : list (list A)) x : length D = length Ls -> recv Ls D r = Some x ->
  Forall2 (fun so v => exists Ds, nth_error D (fst so) = Some Ds /\ nth_error Ds (snd so) = Some v) (origins Ls r) x.
Proof.
  intros HL E. unfold recv in E. destruct (mapM _ (combine Ls D)) as [ls|] eqn:Em; [|discriminate]. injection E as <-.
  exact (recv_origins_gen r Ls [] D ls HL Em).
Qed.
Lemma Forall2_len {A B} (R : A -> B -> Prop) l m : Forall2 R l m -> length l = length m.
Proof. induction 1; cbn; congruence. Qed.

Lemma from_rank r q : forall l a L, nth_error l (r - a) = Some L -> (a <= r)%nat ->
           length (filter (fun so : nat * nat => Nat.eqb (fst so) r) (concat (map (fun sL : nat * list (list nat) => map (pair (fst sL)) (nth q (snd sL) [])) (combine (seq a (length l)) l)))) = length (nth q L []).
Proof.
  assert (Z : forall l a, (r < a)%nat -> filter (fun so : nat * nat => Nat.eqb (fst so) r) (concat (map (fun sL : nat * list (list nat) => map (pair (fst sL)) (nth q (snd sL) [])) (combine (seq a (length l)) l))) = []).
          { induction l as [|L l IH]; intros a Ha; [reflexivity|]. cbn [length seq combine map concat fst snd]. rewrite filter_app, IH by lia. rewrite app_nil_r.
            induction (nth q L []) as [|o m IHm]; [reflexivity|]. cbn [map filter fst]. destruct (Nat.eqb_spec a r); [lia|exact IHm]. }
          induction l as [|L' l IH]; intros a L HL Ha; [destruct (r - a)%nat; discriminate|].
          cbn [length seq combine map concat fst snd]. rewrite filter_app, app_length. destruct (Nat.eq_dec a r) as [->|E].
          - rewrite Nat.sub_diag in HL. injection HL as ->. rewrite Z by lia. cbn [length]. rewrite Nat.add_0_r.
            induction (nth q L []) as [|o m IHm]; [reflexivity|]. cbn [map filter fst]. rewrite Nat.eqb_refl. cbn [length]. rewrite IHm. reflexivity.
          - replace (r - a)%nat with (S (r - S a)) in HL by lia. cbn [nth_error] in HL. rewrite (IH (S a) L HL ltac:(lia)).
            assert (Q : filter (fun so : nat * nat => Nat.eqb (fst so) r) (map (pair a) (nth q L' [])) = []).
            { induction (nth q L' []) as [|o m IHm]; [reflexivity|]. cbn [map filter fst]. destruct (Nat.eqb_spec a r); [lia|exact IHm]. }
            rewrite Q. reflexivity. 
Qed.

(** * C19 *)
(** Whatever the send lists (including lists to the rank itself), the memory layout and the
    order of message deliveries and kernel iterations: after exchange_ghosts slot [j] of
    the ghost array holds the values of the octant it is a copy of. *)
Theorem C19_exchange_ghosts {X} e Ls (Us : list (list (list X))) r contiguous sch G0 B0 :
  comm_ok e Ls Us -> (r < length Ls)%nat -> (forall ws, Permutation (sch ws) ws) ->
  length G0 = (length (origins Ls r) * e)%nat ->
  (contiguous = false -> length B0 = (length (filter (fun so => negb (Nat.eqb (fst so) r)) (origins Ls r)) * e)%nat) ->
  exists G, exchange_rank contiguous sch (map comm_of Ls) r e Us G0 B0 = Some (concat G) /\
    length G = length (origins Ls r) /\
    forall j s o, nth_error (origins Ls r) j = Some (s, o) ->
      exists U row, nth_error Us s = Some U /\ nth_error U o = Some row /\ nth_error G j = Some row.
Proof.
  intros HC Hr Hs HG HB.
  pose proof (recv_parts e Ls Us r HC Hr) as Er. set (parts := map (part r) (combine Ls Us)) in *.
  pose proof (recv_origins r Ls Us _ (proj1 HC) Er) as HF.
  exists (concat parts). split; [|split].
  - apply exchange_rank_eq; auto.
    + rewrite HG, (Forall2_len _ _ _ HF). reflexivity.
    + intros Ec. rewrite (HB Ec). f_equal.
      assert (HLp : length parts = length Ls) by (unfold parts; rewrite map_length, combine_length, (proj1 HC); lia).
      destruct (nth_error parts r) as [pr|] eqn:Ep; [|apply nth_error_None in Ep; lia].
      fold parts. rewrite (proj1 (zero_length r parts pr Ep)).
      assert (Eo : length (filter (fun so : nat * nat => Nat.eqb (fst so) r) (origins Ls r)) = length pr).
      { destruct (parts_inv Ls Us r r pr Ep) as (L & U & HL & HU & ->). rewrite map_length. unfold origins.
        apply (from_rank r r Ls O L); [rewrite Nat.sub_0_r; exact HL|lia]. }
      rewrite <- Eo, <- (Forall2_len _ _ _ HF). clear. induction (origins Ls r) as [|x l IH]; [reflexivity|]. cbn [filter length].
      assert (length (filter (fun so : nat * nat => Nat.eqb (fst so) r) l) <= length l)%nat by (clear; induction l as [|y l IH]; cbn [filter length]; [lia|]; destruct (Nat.eqb (fst y) r); cbn [length]; lia).
      destruct (Nat.eqb (fst x) r); cbn [negb length]; lia.
  - symmetry. eapply Forall2_len, HF.
  - intros j s o Hj. apply Forall2_nth in HF. destruct HF as [HL HF].
    destruct (nth_error (concat parts) j) as [row|] eqn:Ej.
    + destruct (HF j _ _ Hj Ej) as (U & H1 & H2). exists U, row. auto.
    + apply nth_error_None in Ej. assert (nth_error (origins Ls r) j <> None) by congruence. apply nth_error_Some in H. lia.
Qed.

(** One row of [e] values per local octant of every rank. *)
Definition data_ok {X} (e : nat) (M : mesh) (Us : list (list (list X))) : Prop :=
  Forall2 (fun R U => length U = length (loc R) /\ forall row, In row U -> length row = e) M Us.

Section MeshData.
Variables (g : geom) (M : mesh).
Hypothesis OK : mesh_ok g M.
Let Ls := map snds M.

Lemma mesh_recv r R : nth_error M r = Some R -> recv Ls (map loc M) r = Some (gho R).
Proof.
  intros H. pose proof (ok_map g M OK) as E. unfold ghost_map_ok, exchange in E. fold Ls in E.
  assert (Hr : (r < length Ls)%nat) by (unfold Ls; rewrite map_length; apply nth_error_Some; congruence).
  destruct (mapM_nth _ _ _ r r E (seq_nth' _ _ Hr)) as (y & Hy & Ey). rewrite nth_error_map, H in Hy. injection Hy as <-. exact Ey.
Qed.
Lemma mesh_range s S r idx o : nth_error M s = Some S -> nth_error (snds S) r = Some idx -> In o idx -> (o < length (loc S))%nat.
Proof.
  intros HS Hi Ho.
  assert (Hr : (r < length M)%nat) by (rewrite <- (ok_snds g M OK S (nth_error_In _ _ HS)); apply nth_error_Some; congruence).
  destruct (nth_error M r) as [R|] eqn:HR; [|apply nth_error_None in HR; lia].
  pose proof (mesh_recv r R HR) as E. unfold recv in E. destruct (mapM _ (combine Ls (map loc M))) as [ls|] eqn:Em; [|discriminate].
  destruct (mapM_nth _ _ _ s (snds S, loc S) Em) as (p & Hp & Ep).
  { apply nth_error_combine. unfold Ls. rewrite !nth_error_map, HS. auto. }
  cbn [fst snd] in Ep. rewrite Hi in Ep. unfold pick in Ep. destruct (mapM_In_fwd _ _ _ _ Ep Ho) as (y & _ & Ey).
  apply nth_error_Some. congruence.
Qed.
Lemma mesh_comm {X} e (Us : list (list (list X))) : data_ok e M Us -> comm_ok e Ls Us.
Proof.
  intros HD. apply Forall2_nth in HD. destruct HD as [HL HD]. split; [unfold Ls; rewrite map_length; auto|].
  intros s L U HLs HU. unfold Ls in HLs. rewrite nth_error_map in HLs. destruct (nth_error M s) as [S|] eqn:ES; [|discriminate]. injection HLs as <-.
  destruct (HD s S U ES HU) as [H1 H2]. split; [unfold Ls; rewrite map_length; apply (ok_snds g M OK), (nth_error_In _ _ ES)|]. split; [exact H2|].
  intros l o Hl Ho. rewrite H1. apply In_nth_error in Hl. destruct Hl as [r Hr]. exact (mesh_range s S r l o ES Hr Ho).
Qed.
(** The origin of a ghost slot is the octant stored there. *)
Lemma mesh_origins r R : nth_error M r = Some R ->
  Forall2 (fun so B => exists S, nth_error M (fst so) = Some S /\ nth_error (loc S) (snd so) = Some B) (origins Ls r) (gho R).
Proof.
  intros H. pose proof (recv_origins r Ls (map loc M) _ ltac:(unfold Ls; rewrite !map_length; reflexivity) (mesh_recv r R H)) as F.
  apply Forall2_nth. apply Forall2_nth in F. destruct F as [F1 F2]. split; [exact F1|]. intros i so B Hi HB.
  destruct (F2 i so B Hi HB) as (Ds & E1 & E2). rewrite nth_error_map in E1. destruct (nth_error M (fst so)) as [S|]; [|discriminate].
  injection E1 as <-. eauto.
Qed.
(** No rank sends to itself. *)
Lemma mesh_not_self r R s o : nth_error M r = Some R -> In (s, o) (origins Ls r) -> s <> r.
Proof.
  intros HR Hin ->. apply In_nth_error in Hin. destruct Hin as [j Hj]. pose proof (mesh_origins r R HR) as F. apply Forall2_nth in F. destruct F as [F1 F2].
  destruct (nth_error (gho R) j) as [B|] eqn:EB.
  - destruct (F2 j _ _ Hj EB) as (S & E1 & E2). cbn [fst snd] in *. rewrite HR in E1. injection E1 as <-.
    destruct (ok_ghosts g M OK R (nth_error_In _ _ HR)) as [_ Q]. apply nth_error_In in EB, E2. apply Q in EB. destruct EB as (_ & N & _). contradiction.
  - apply nth_error_None in EB. assert (nth_error (origins Ls r) j <> None) by congruence. apply nth_error_Some in H. lia.
Qed.
Lemma mesh_self_nil r R : nth_error M r = Some R -> nth r (snds R) [] = [].
Proof.
  intros HR. destruct (nth r (snds R) []) as [|o l] eqn:E; [reflexivity|]. exfalso.
  apply (mesh_not_self r R r o HR); [|reflexivity]. unfold origins. apply in_concat. exists (map (pair r) (nth r (snds R) [])). split.
  - apply in_map_iff. exists (r, snds R). split; [reflexivity|]. apply nth_error_In with (n := r). apply nth_error_combine. split.
    + apply seq_nth'. unfold Ls. rewrite map_length. apply nth_error_Some. congruence.
    + unfold Ls. rewrite nth_error_map, HR. reflexivity.
  - rewrite E. left. reflexivity.
Qed.
Lemma owner_eq s S o s' S' o' B : nth_error M s = Some S -> nth_error (loc S) o = Some B -> nth_error M s' = Some S' -> nth_error (loc S') o' = Some B ->
  s = s' /\ o = o'.
Proof.
  intros H1 H2 H3 H4. pose proof (tiles_NoDup g _ (ok_tiles g M OK)) as HN. unfold leaves in HN.
  assert (E1 : nth_error (map loc M) s = Some (loc S)) by (rewrite nth_error_map, H1; reflexivity).
  assert (E2 : nth_error (map loc M) s' = Some (loc S')) by (rewrite nth_error_map, H3; reflexivity).
  pose proof (concat_nth _ _ _ _ _ E1 H2) as P1. pose proof (concat_nth _ _ _ _ _ E2 H4) as P2.
  assert (EQ : (length (concat (firstn s (map loc M))) + o = length (concat (firstn s' (map loc M))) + o')%nat).
  { apply (proj1 (NoDup_nth_error _) HN); [apply nth_error_Some; congruence|congruence]. }
  fold (before (map loc M) s) in EQ. fold (before (map loc M) s') in EQ.
  assert (o < length (loc S))%nat by (apply nth_error_Some; congruence). assert (o' < length (loc S'))%nat by (apply nth_error_Some; congruence).
  pose proof (before_S _ _ _ E1). pose proof (before_S _ _ _ E2).
  destruct (Nat.lt_trichotomy s s') as [Hlt|[->|Hlt]].
  - pose proof (before_mono (map loc M) (Datatypes.S s) s' ltac:(lia)). lia.
  - split; [reflexivity|lia].
  - pose proof (before_mono (map loc M) (Datatypes.S s') s ltac:(lia)). lia.
Qed.
End MeshData.

(** On a consistent mesh: every ghost slot receives the values the owner holds for the
    octant stored in that slot. *)
Theorem C19_ghost_values {X} g M e (Us : list (list (list X))) r R contiguous sch G0 B0 :
  mesh_ok g M -> data_ok e M Us -> nth_error M r = Some R -> (forall ws, Permutation (sch ws) ws) ->
  length G0 = (length (gho R) * e)%nat -> length B0 = length G0 ->
  exists G, exchange_rank contiguous sch (map (fun R => comm_of (snds R)) M) r e Us G0 B0 = Some (concat G) /\
    length G = length (gho R) /\
    forall j B, nth_error (gho R) j = Some B ->
      exists s S o U row, nth_error M s = Some S /\ nth_error (loc S) o = Some B /\
        nth_error Us s = Some U /\ nth_error U o = Some row /\ nth_error G j = Some row.
Proof.
  intros OK HD HR Hs HG HB. pose proof (mesh_origins g M OK r R HR) as F.
  pose proof (Forall2_len _ _ _ F) as EL.
  assert (EF : filter (fun so => negb (Nat.eqb (fst so) r)) (origins (map snds M) r) = origins (map snds M) r).
  { pose proof (fun s o => mesh_not_self g M OK r R s o HR) as N. revert N. clear. induction (origins (map snds M) r) as [|[s o] l IH]; intros N; [reflexivity|].
    cbn [filter fst]. destruct (Nat.eqb_spec s r) as [E|E]; [destruct (N s o (or_introl eq_refl) E)|]. cbn [negb]. f_equal. apply IH. intros s' o' H. apply (N s' o'). right. exact H. }
  destruct (C19_exchange_ghosts e (map snds M) Us r contiguous sch G0 B0) as (G & E1 & E2 & E3); auto.
  - eapply mesh_comm; eauto.
  - rewrite map_length. apply nth_error_Some. congruence.
  - rewrite EL. exact HG.
  - intros _. rewrite EF, EL, HB, HG. reflexivity.
  - exists G. split; [rewrite <- E1, map_map; reflexivity|]. split; [congruence|]. intros j B Hj. apply Forall2_nth in F. destruct F as [_ F].
    destruct (nth_error (origins (map snds M) r) j) as [[s o]|] eqn:Eo.
    + destruct (F j _ _ Eo Hj) as (S & H1 & H2). destruct (E3 j s o Eo) as (U & row & H3 & H4 & H5). cbn [fst snd] in *. exists s, S, o, U, row. auto.
    + apply nth_error_None in Eo. assert (nth_error (gho R) j <> None) by congruence. apply nth_error_Some in H. lia.
Qed.

(** * C20 *)
Section C20.
Context {X : Type} (add : X -> X -> X) (zero : X).
Hypothesis addC : forall x y, add x y = add y x.
Hypothesis addA : forall x y z, add x (add y z) = add (add x y) z.
Hypothesis add0 : forall x, add x zero = x.

(** Any send lists without self-sends, any data, any order of the atomic additions: the
    new value of an octant is its old value plus the values of all its ghost copies. *)
Theorem C20_reduce_ghosts e Ls (Gs : list (list (list X))) r d sch U :
  (r < length Ls)%nat ->
  (forall s L, nth_error Ls s = Some L -> length L = length Ls /\ nth s L [] = []) ->
  length Gs = length Ls ->
  (forall q G, nth_error Gs q = Some G -> (forall row, In row G -> length row = e) /\ length G = length (origins Ls q)) ->
  (forall row, In row U -> length row = e) -> (forall ws, Permutation (sch ws) ws) ->
  exists U', reduce_rank add sch (map comm_of Ls) r e (map (@concat X) Gs) U = Some U' /\ length U' = length U /\
    forall o i, get_row U' o i = option_map (fun x => add x (sum add zero (contributions d Ls Gs r o i))) (get_row U o i).
Proof. intros. apply reduce_rank_eq; auto. Qed.

(** Values held for value [i] of octant [B] by the ghost slots of all ranks. *)
Definition ghost_copies (d : X) (M : mesh) (Gs : list (list (list X))) (B : oct) (i : nat) : list X :=
  flat_map (fun RG : rank * list (list X) =>
    flat_map (fun x : oct * list X => if oct_eqb (fst x) B then [nth i (snd x) d] else []) (combine (gho (fst RG)) (snd RG)))
    (combine M Gs).

Theorem C20_mesh g M e (Gs : list (list (list X))) r R d sch U : mesh_ok g M -> nth_error M r = Some R ->
  Forall2 (fun R G => length G = length (gho R) /\ forall row, In row G -> length row = e) M Gs ->
  length U = length (loc R) -> (forall row, In row U -> length row = e) -> (forall ws, Permutation (sch ws) ws) ->
  exists U', reduce_rank add sch (map (fun R => comm_of (snds R)) M) r e (map (@concat X) Gs) U = Some U' /\ length U' = length U /\
    forall o B i, nth_error (loc R) o = Some B ->
      get_row U' o i = option_map (fun x => add x (sum add zero (ghost_copies d M Gs B i))) (get_row U o i).
Proof.
  intros OK HR HG HU1 HU2 Hs. apply Forall2_nth in HG. destruct HG as [HL HG].
  destruct (C20_reduce_ghosts e (map snds M) Gs r d sch U) as (U' & E1 & E2 & E3); auto.
  - rewrite map_length. apply nth_error_Some. congruence.
  - intros s L H. rewrite nth_error_map in H. destruct (nth_error M s) as [S|] eqn:ES; [|discriminate]. injection H as <-. split.
    + rewrite map_length. apply (ok_snds g M OK), (nth_error_In _ _ ES).
    + exact (mesh_self_nil g M OK s S ES).
  - rewrite map_length. auto.
  - intros q G Hq. destruct (nth_error M q) as [Q|] eqn:EQ.
    + destruct (HG q Q G EQ Hq) as [H1 H2]. split; [exact H2|]. rewrite H1. symmetry. exact (Forall2_len _ _ _ (mesh_origins g M OK q Q EQ)).
    + apply nth_error_None in EQ. assert (nth_error Gs q <> None) by congruence. apply nth_error_Some in H. lia.
  - exists U'. split; [rewrite <- E1, map_map; reflexivity|]. split; [exact E2|]. intros o B i HB. rewrite E3.
    assert (EC : contributions d (map snds M) Gs r o i = ghost_copies d M Gs B i).
    { unfold contributions, ghost_copies. rewrite !flat_map_concat_map. f_equal. apply nth_error_ext'. intros q. rewrite !nth_error_map.
      destruct (nth_error M q) as [Q|] eqn:EQ.
      - destruct (nth_error Gs q) as [G|] eqn:EG; [|apply nth_error_None in EG; assert (nth_error M q <> None) by congruence; apply nth_error_Some in H; lia].
        rewrite (proj2 (nth_error_combine M Gs q Q G)) by auto.
        rewrite (proj2 (nth_error_combine (seq 0 (length (map snds M))) Gs q q G)).
        2:{ split; [apply seq_nth'; rewrite map_length; apply nth_error_Some; congruence|exact EG]. }
        cbn [option_map fst snd]. f_equal. pose proof (mesh_origins g M OK q Q EQ) as F.
        assert (OE := fun s S o' B' => owner_eq g M OK s S o' r R o B').
        generalize G as rows. induction F as [|so B' l m (S & H1 & H2) F IH]; intros rows; [reflexivity|]. destruct rows as [|row rows]; [reflexivity|].
        cbn [combine flat_map fst snd]. rewrite IH. f_equal.
        destruct (oct_eqb B' B) eqn:EB.
        + apply oct_eqb_eq in EB. subst B'. destruct (OE (fst so) S (snd so) B H1 H2 HR HB) as [-> ->]. rewrite !Nat.eqb_refl. reflexivity.
        + destruct (Nat.eqb_spec (fst so) r) as [Q1|Q1]; [|reflexivity]. destruct (Nat.eqb_spec (snd so) o) as [Q2|Q2]; [|reflexivity].
          exfalso. rewrite Q1, HR in H1. injection H1 as <-. rewrite Q2, HB in H2. injection H2 as <-.
          rewrite (proj2 (oct_eqb_eq B B) eq_refl) in EB. discriminate.
      - assert (length M <= q)%nat by (apply nth_error_None; exact EQ).
        rewrite !(proj2 (nth_error_None _ q)); [reflexivity|rewrite combine_length; lia|rewrite combine_length, seq_length, map_length; lia]. }
    rewrite EC. reflexivity.
Qed.
End C20.

(** * C21 *)
Definition by_dest (P : nat) (dom : list nat) : list (list nat) :=
  map (fun r => filter (fun i => match nth_error dom i with Some d => Nat.eqb d r | None => false end) (seq 0 (length dom))) (seq 0 P).
Lemma filter_pos_gen r : forall (dom : list nat) a (full : list nat), (forall i, nth_error full (a + i) = nth_error dom i) ->
  length (filter (fun i => match nth_error full i with Some d => Nat.eqb d r | None => false end) (seq a (length dom))) = length (filter (Nat.eqb r) dom).
Proof.
  induction dom as [|d dom IH]; intros a full H; [reflexivity|]. cbn [length seq filter].
  pose proof (H O) as H0. rewrite Nat.add_0_r in H0. cbn [nth_error] in H0. rewrite H0.
  rewrite (Nat.eqb_sym d r). destruct (Nat.eqb r d); cbn [length]; rewrite (IH (S a) full); auto; intros i; specialize (H (S i)); cbn [nth_error] in H;
    replace (S a + i)%nat with (a + S i)%nat by lia; exact H.
Qed.
Lemma domain_comm_eq P dom : (forall d, In d dom -> (d < P)%nat) -> domain_comm P dom = Some (comm_of (by_dest P dom)).
Proof.
  intros H. unfold domain_comm.
  assert (E : forallb (fun d => Nat.ltb d P) dom = true) by (apply forallb_forall; intros d Hd; apply Nat.ltb_lt, H, Hd).
  rewrite E. cbn [negb]. unfold comm_of, by_dest. f_equal. f_equal.
  - rewrite map_map. apply map_ext. intros r. symmetry. apply filter_pos_gen. reflexivity.
  - rewrite flat_map_concat_map. f_equal. apply map_ext_in. intros r Hr. apply in_seq in Hr.
    rewrite (nth_indep _ O (length (filter (Nat.eqb r) dom))) by (rewrite map_length, seq_length; lia).
    pose proof (map_nth (fun r => length (filter (Nat.eqb r) dom)) (seq 0 P) r r) as Q. cbn beta in Q. rewrite Q. rewrite seq_nth by lia. cbn [Nat.add].
    destruct (Nat.ltb_spec 0 (length (filter (Nat.eqb r) dom))) as [L|L]; [reflexivity|].
    pose proof (filter_pos_gen r dom O dom (fun i => eq_refl)) as Q2. destruct (filter _ (seq 0 (length dom))); [reflexivity|cbn in Q2; lia].
Qed.
Lemma select_rows {X} (d : X) r : forall (items : list X) dom a fi fd, length items = length dom ->
  (forall i, nth_error fi (a + i) = nth_error items i) -> (forall i, nth_error fd (a + i) = nth_error dom i) ->
  map (fun o => nth o fi d) (filter (fun i => match nth_error fd i with Some x => Nat.eqb x r | None => false end) (seq a (length dom))) = select r items dom.
Proof.
  unfold select. induction items as [|x items IH]; intros [|y dom] a fi fd HL H1 H2; try discriminate; [reflexivity|].
  cbn [length seq filter combine snd]. pose proof (H2 O) as Q2. rewrite Nat.add_0_r in Q2. cbn [nth_error] in Q2. rewrite Q2.
  pose proof (H1 O) as Q1. rewrite Nat.add_0_r in Q1. cbn [nth_error] in Q1.
  assert (E := IH dom (S a) fi fd ltac:(cbn in HL; lia)
    ltac:(intros i; specialize (H1 (S i)); cbn [nth_error] in H1; replace (S a + i)%nat with (a + S i)%nat by lia; exact H1)
    ltac:(intros i; specialize (H2 (S i)); cbn [nth_error] in H2; replace (S a + i)%nat with (a + S i)%nat by lia; exact H2)).
  destruct (Nat.eqb y r); cbn [map fst]; [f_equal; [apply nth_error_nth, Q1|exact E]|exact E].
Qed.

(** Items [Us] with destinations [doms], one list per rank. *)
Definition dests_ok {A} (P : nat) (items : list (list A)) (doms : list (list nat)) : Prop :=
  length doms = P /\ Forall2 (fun U D => length U = length D /\ forall d, In d D -> (d < P)%nat) items doms.

(** Every rank receives exactly the items destined to it: sources in rank order, and items
    of one source in their original order; whole rows, so all attributes of an item stay
    together. *)
Theorem C21_distribute {X} P e (Us : list (list (list X))) doms r contiguous sch G0 B0 :
  dests_ok P Us doms -> (forall U row, In U Us -> In row U -> length row = e) -> (r < P)%nat ->
  (forall ws, Permutation (sch ws) ws) ->
  length G0 = (length (delivered r Us doms) * e)%nat ->
  (contiguous = false -> forall D U, nth_error doms r = Some D -> nth_error Us r = Some U ->
     length B0 = ((length (delivered r Us doms) - length (select r U D)) * e)%nat) ->
  exists C, mapM (domain_comm P) doms = Some C /\
    exchange_rank contiguous sch C r e Us G0 B0 = Some (concat (delivered r Us doms)).
Proof.
  intros [HP HD] HR Hr Hs HG HB. apply Forall2_nth in HD. destruct HD as [HL HD].
  exists (map comm_of (map (by_dest P) doms)). split.
  { rewrite map_map. apply mapM_Some, Forall2_nth. rewrite map_length. split; [reflexivity|]. intros i D c HDi Hc. rewrite nth_error_map, HDi in Hc. injection Hc as <-.
    apply domain_comm_eq. destruct (nth_error Us i) as [U|] eqn:EU.
    - apply (HD i U D EU HDi).
    - apply nth_error_None in EU. assert (nth_error doms i <> None) by congruence. apply nth_error_Some in H. lia. }
  assert (HC : comm_ok e (map (by_dest P) doms) Us).
  { split; [rewrite map_length; exact HL|]. intros s L U HLs HU. rewrite nth_error_map in HLs. destruct (nth_error doms s) as [D|] eqn:ED; [|discriminate]. injection HLs as <-.
    destruct (HD s U D HU ED) as [H1 H2]. split; [unfold by_dest; rewrite !map_length, seq_length; auto|]. split; [intros row; apply HR, (nth_error_In _ _ HU)|].
    intros l o Hl Ho. unfold by_dest in Hl. apply in_map_iff in Hl. destruct Hl as (q & <- & _). apply filter_In in Ho. destruct Ho as [Ho _]. apply in_seq in Ho. lia. }
  assert (EP : map (part r) (combine (map (by_dest P) doms) Us) = map (fun x => select r (fst x) (snd x)) (combine Us doms)).
  { apply nth_error_ext'. intros s. rewrite !nth_error_map.
    destruct (nth_error Us s) as [U|] eqn:EU.
    - destruct (nth_error doms s) as [D|] eqn:ED; [|apply nth_error_None in ED; assert (nth_error Us s <> None) by congruence; apply nth_error_Some in H; lia].
      rewrite (proj2 (nth_error_combine Us doms s U D)) by auto.
      rewrite (proj2 (nth_error_combine (map (by_dest P) doms) Us s (by_dest P D) U)) by (split; [rewrite nth_error_map, ED; reflexivity|exact EU]).
      cbn [option_map fst snd]. f_equal. unfold part, row_of. cbn [fst snd].
      assert (EN : nth r (by_dest P D) [] = filter (fun i => match nth_error D i with Some d => Nat.eqb d r | None => false end) (seq 0 (length D))).
      { apply nth_error_nth. unfold by_dest. rewrite nth_error_map, seq_nth' by exact Hr. reflexivity. }
      rewrite EN. apply select_rows; [apply (HD s U D EU ED)|reflexivity|reflexivity].
    - assert (length Us <= s)%nat by (apply nth_error_None; exact EU).
      rewrite !(proj2 (nth_error_None _ s)); [reflexivity|rewrite combine_length; lia|rewrite combine_length; lia]. }
  rewrite <- HP in Hr.
  assert (Hr' : (r < length (map (by_dest P) doms))%nat) by (rewrite map_length; exact Hr).
  pose proof (exchange_rank_eq e (map (by_dest P) doms) Us HC r Hr' contiguous sch G0 B0 Hs) as E. rewrite EP in E. apply E; [exact HG|].
  intros Ec.
  destruct (nth_error doms r) as [D|] eqn:ED; [|apply nth_error_None in ED; lia].
  destruct (nth_error Us r) as [U|] eqn:EU; [|apply nth_error_None in EU; lia].
  rewrite (HB Ec D U eq_refl eq_refl). f_equal.
  symmetry. apply (zero_length r (map (fun x => select r (fst x) (snd x)) (combine Us doms)) (select r U D)).
  rewrite nth_error_map. rewrite (proj2 (nth_error_combine Us doms r U D)) by auto. reflexivity.
Qed.

(** Nothing is lost or duplicated. *)
Theorem C21_exactly_once {A} P (items : list (list A)) doms : dests_ok P items doms ->
  Permutation (concat (map (fun r => delivered r items doms) (seq 0 P))) (concat items).
Proof.
  intros [HP HD]. clear HP. unfold delivered.
  induction HD as [|U D items doms [H1 H2] HD IH].
  - cbn. induction (seq 0 P); [constructor|exact IHl].
  - cbn [combine map concat fst snd]. rewrite <- IH.
    assert (S1 : Permutation (concat (map (fun r => select r U D) (seq 0 P))) U).
    { clear -H1 H2. unfold select. revert D H1 H2. induction U as [|x U IHU]; intros [|d D] H1 H2; try discriminate.
      - cbn. induction (seq 0 P); [constructor|exact IHl].
      - specialize (IHU D ltac:(cbn in H1; lia) (fun y Hy => H2 y (or_intror Hy))).
        etransitivity; [|apply perm_skip, IHU]. clear IHU H1. specialize (H2 d (or_introl eq_refl)). cbn [combine filter snd].
        assert (Q : forall n a, (a <= d < a + n)%nat ->
          Permutation (concat (map (fun r => map fst (if Nat.eqb d r then (x, d) :: filter (fun y => Nat.eqb (snd y) r) (combine U D) else filter (fun y => Nat.eqb (snd y) r) (combine U D))) (seq a n)))
                      (x :: concat (map (fun r => map fst (filter (fun y => Nat.eqb (snd y) r) (combine U D))) (seq a n)))).
        { clear. induction n as [|n IH]; intros a Ha; [lia|]. cbn [seq map concat]. destruct (Nat.eqb_spec d a) as [->|E].
          - cbn [map fst app]. constructor. apply Permutation_app_head.
            assert (Z : forall n b, (a < b)%nat -> map (fun r => map fst (if Nat.eqb a r then (x, a) :: filter (fun y => Nat.eqb (snd y) r) (combine U D) else filter (fun y => Nat.eqb (snd y) r) (combine U D))) (seq b n)
               = map (fun r => map fst (filter (fun y => Nat.eqb (snd y) r) (combine U D))) (seq b n)).
            { clear. intros n b Hb. apply map_ext_in. intros r Hr. apply in_seq in Hr. destruct (Nat.eqb_spec a r); [lia|reflexivity]. }
            rewrite Z by lia. reflexivity.
          - rewrite IH by lia. symmetry. apply Permutation_middle. }
        apply Q. lia. }
    etransitivity; [|apply Permutation_app_tail, S1]. clear. induction (seq 0 P) as [|r l IH]; [constructor|]. cbn [map concat].
    rewrite IH. rewrite <- !app_assoc. apply Permutation_app_head. rewrite !app_assoc. apply Permutation_app_tail. apply Permutation_app_comm.
Qed.

(** Positions and attributes are exchanged separately with the same communicator: received
    rows with the same index belong to the same particle. *)
Theorem C21_attributes_together {A B} r (pos : list (list A)) (att : list (list B)) doms :
  Forall2 (fun U D => length U = length D) pos doms -> Forall2 (fun U D => length U = length D) att doms ->
  combine (delivered r pos doms) (delivered r att doms) =
  delivered r (map (fun x => combine (fst x) (snd x)) (combine pos att)) doms.
Proof.
  unfold delivered. intros H. revert att. induction H as [|U D pos doms H1 H IH]; intros att H2; inversion H2 as [|V D' att' doms' H3 H4]; subst; [reflexivity|].
  cbn [combine map concat fst snd].
  assert (L : length (select r U D) = length (select r V D)).
  { unfold select. rewrite !map_length. clear -H1 H3. revert V D H1 H3. induction U as [|u U IH]; intros [|v V] [|d D] H1 H3; try discriminate; [reflexivity|].
    cbn [combine filter snd]. cbn in H1, H3. destruct (Nat.eqb d r); cbn [length]; rewrite (IH V D) by lia; reflexivity. }
  rewrite combine_app' by exact L. rewrite (IH att' H4). f_equal. unfold select.
  clear -H1 H3. revert V D H1 H3. induction U as [|u U IH]; intros [|v V] [|d D] H1 H3; try discriminate; [reflexivity|].
  cbn [combine filter snd]. cbn in H1, H3. destruct (Nat.eqb d r); cbn [map fst combine]; [f_equal|]; apply IH; lia.
Qed.

(** * C47 *)
(** The serial collectives leave the last element of the receive buffer unchanged. *)
Theorem C47_refuted {X} (send recv : list X) (x y : X) count : (1 <= count)%nat -> length send = count -> length recv = count ->
  nth_error send (count - 1) = Some x -> nth_error recv (count - 1) = Some y -> x <> y ->
  exists res, serial_copy send recv count = Some res /\ nth_error res (count - 1) = Some y /\ res <> send.
Proof.
  intros H1 H2 H3 Hx Hy Hne. destruct count as [|c]; [lia|]. cbn [serial_copy]. replace (S c - 1)%nat with c in * by lia.
  eexists. split; [reflexivity|].
  assert (E : nth_error (firstn c send ++ skipn c recv) c = Some y).
  { rewrite nth_error_app2 by (rewrite firstn_length; lia). rewrite BalanceLists.nth_error_skipn, firstn_length.
    replace (c + (c - Nat.min c (length send)))%nat with c by lia. exact Hy. }
  split; [exact E|]. intros Q. rewrite Q in E. congruence.
Qed.
(** The only calls that behave as on one rank are those whose buffers already agree on the
    last element, such as in-place calls. *)
Theorem C47_in_place {X} (buf : list X) count : (1 <= count)%nat -> length buf = count -> serial_copy buf buf count = Some buf.
Proof. intros H1 H2. destruct count as [|c]; [lia|]. cbn. rewrite firstn_skipn. reflexivity. Qed.
Theorem C47_iff {X} (send recv : list X) count : (1 <= count)%nat -> length send = count -> length recv = count ->
  (serial_copy send recv count = Some send <-> nth_error send (count - 1) = nth_error recv (count - 1)).
Proof.
  intros H1 H2 H3. destruct count as [|c]; [lia|]. cbn [serial_copy]. replace (S c - 1)%nat with c by lia.
  assert (E : nth_error (firstn c send ++ skipn c recv) c = nth_error recv c).
  { rewrite nth_error_app2 by (rewrite firstn_length; lia). rewrite BalanceLists.nth_error_skipn, firstn_length. f_equal. lia. }
  split.
  - intros [= Q]. rewrite <- E, Q. reflexivity.
  - intros Q. f_equal. apply nth_error_ext'. intros i. destruct (Nat.lt_trichotomy i c) as [Hi|[->|Hi]].
    + rewrite nth_error_app1 by (rewrite firstn_length; lia). rewrite BalanceLists.nth_error_firstn. destruct (Nat.ltb_spec i c); [reflexivity|lia].
    + rewrite E. auto.
    + rewrite !(proj2 (nth_error_None _ i)); [reflexivity|lia|rewrite app_length, firstn_length, skipn_length; lia].
Qed.
(** Consequence: in the serial build a communicator built from destinations announces zero
    received items, although all items stay on the only rank. *)
Theorem C47_refuted_particles dom c : dom <> [] -> (forall d, In d dom -> d = O) -> domain_comm 1 dom = Some c ->
  serial_recv_sizes c = Some [O] /\ recv_sizes [c] 0 = [length dom].
Proof.
  intros Hne H Hc. split; [reflexivity|]. unfold domain_comm in Hc. destruct (negb _); [discriminate|]. injection Hc as <-.
  cbn [recv_sizes map c_sizes nth seq]. f_equal. clear Hne. induction dom as [|d dom IH]; [reflexivity|]. cbn [filter].
  rewrite (H d (or_introl eq_refl)). cbn [Nat.eqb length]. rewrite IH by (intros; apply H; right; assumption). reflexivity.
Qed.

(** * Examples *)
(** Two ranks with three and two octants of two values each; rank 1 also sends to itself. *)
Definition ex_Ls : list (list (list nat)) := [[[]; [2; 0]%nat]; [[1]%nat; [0]%nat]].
Definition ex_Us : list (list (list Z)) := [[[10; 11]; [20; 21]; [30; 31]]; [[40; 41]; [50; 51]]].
Example C19_example : comm_ok 2 ex_Ls ex_Us /\
  origins ex_Ls 1 = [(0, 2); (0, 0); (1, 0)]%nat /\
  exchange_rank false (@rev _) (map comm_of ex_Ls) 1 2 ex_Us (repeat 0 6) (repeat 0 4) = Some [30; 31; 10; 11; 40; 41] /\
  exchange_rank true (@rev _) (map comm_of ex_Ls) 1 2 ex_Us (repeat 0 6) [] = Some [30; 31; 10; 11; 40; 41].
Proof.
  split; [|split; [|split]]; try (vm_compute; reflexivity).
  split; [reflexivity|]. intros [|[|s]] L U; cbn [nth_error ex_Ls ex_Us]; try (destruct s; discriminate); intros [= <-] [= <-];
    (split; [reflexivity|split; [intros row [<-|[<-|H]]; try reflexivity; cbn in H; intuition (subst; reflexivity)|]]);
    intros l o Hl Ho; cbn in Hl, Ho; intuition (subst; cbn in *; intuition (subst; cbn; lia)).
Qed.
(** Octant 1 of rank 0 has copies on ranks 1 and 2. *)
Definition ex_Rs : list (list (list nat)) := [[[]; [1; 0]%nat; [1]%nat]; [[]; []; [0]%nat]; [[]; []; []]].
Definition ex_Gs : list (list (list Z)) := [[]; [[5]; [6]]; [[7]; [8]]].
Example C20_example :
  contributions 0 ex_Rs ex_Gs 0 1 0 = [5; 7] /\
  reduce_rank Z.add (@rev _) (map comm_of ex_Rs) 0 1 (map (@concat Z) ex_Gs) [[100]; [200]] = Some [[106]; [212]] /\
  (forall s L, nth_error ex_Rs s = Some L -> length L = length ex_Rs /\ nth s L [] = []).
Proof.
  split; [reflexivity|]. split; [vm_compute; reflexivity|].
  intros [|[|[|s]]] L; cbn [nth_error ex_Rs]; try (destruct s; discriminate); intros [= <-]; split; reflexivity.
Qed.
Example C21_example :
  dests_ok 2 [[[1]; [2]; [3]]; [[4]; [5]]] [[1; 0; 1]%nat; [0; 1]%nat] /\
  delivered 1 [[[1]; [2]; [3]]; [[4]; [5]]] [[1; 0; 1]%nat; [0; 1]%nat] = [[1]; [3]; [5]] /\
  mapM (domain_comm 2) [[1; 0; 1]%nat; [0; 1]%nat] = Some [mkComm [1; 2]%nat [1; 0; 2]%nat; mkComm [1; 1]%nat [0; 1]%nat].
Proof.
  split; [|split; vm_compute; reflexivity]. split; [reflexivity|].
  apply Forall2_cons; [|apply Forall2_cons; [|apply Forall2_nil]]; (split; [reflexivity|intros d Hd; cbn in Hd; intuition lia]).
Qed.
Example C47_example : serial_copy [1; 2; 3] [7; 8; 9] 3 = Some [1; 2; 9] /\ serial_copy [5] [7] 1 = Some [7].
Proof. split; reflexivity. Qed.

(** On the two-rank mesh of OctreeProps: one row per octant, holding its coordinates. The
    ghost array of rank 0 then holds the coordinates of its ghosts. *)
Definition ex_row (A : oct) : list Z := [lev A; cx A; cy A; cz A].
Example C19_mesh_example : mesh_ok ex_g ex_M2 /\ data_ok 4 ex_M2 (map (fun R => map ex_row (loc R)) ex_M2) /\
  exists R, nth_error ex_M2 0 = Some R /\ gho R <> [] /\
    exchange_rank false (@rev _) (map (fun R => comm_of (snds R)) ex_M2) 0 4 (map (fun R => map ex_row (loc R)) ex_M2)
      (repeat 0 (length (gho R) * 4)) (repeat 0 (length (gho R) * 4)) = Some (flat_map ex_row (gho R)).
Proof.
  split; [exact ex_ok2|]. split.
  - unfold data_ok. generalize ex_M2 as M. clear. induction M as [|R M IH]; constructor; [|exact IH]. split; [apply map_length|].
    intros row H. apply in_map_iff in H. destruct H as (A & <- & _). reflexivity.
  - vm_compute. eexists. split; [reflexivity|]. split; [discriminate|reflexivity].
Qed.

Print Assumptions C19_exchange_ghosts.
Print Assumptions C19_ghost_values.
Print Assumptions C20_reduce_ghosts.
Print Assumptions C20_mesh.
Print Assumptions C21_distribute.
Print Assumptions C21_exactly_once.
Print Assumptions C21_attributes_together.
Print Assumptions C47_refuted.
Print Assumptions C47_iff.
Print Assumptions C47_refuted_particles.
