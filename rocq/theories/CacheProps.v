(** The cached tree (C44). *)
From Verif Require Import Base OctreeSpec OctreeModel FindNeighbors MeshSpec GhostExchange HistorySpec HistoryProofs OctreeProps CacheModel.

(** The mesh after some modifications, regardless of queries. *)
Fixpoint modified (g : geom) (ms : list modification) (M : mesh) : option mesh :=
  match ms with
  | [] => Some M
  | m :: ms => match modify g m M with Some M' => modified g ms M' | None => None end
  end.
(** Modifications a program may ask for, as in HistorySpec: markers change an octant by one level at
    most, within the level bounds. *)
Definition allowed (g : geom) (m : modification) (M : mesh) : Prop :=
  match m with
  | Adapt _ ord mk => ord_ok ord /\ good_markers g M mk
  | Refine _ ord => ord_ok ord /\ forall o, In o (leaves M) -> lev o < lmax g
  | Balance ord _ => ord_ok ord
  end.
Fixpoint legal (g : geom) (ms : list modification) (M : mesh) : Prop :=
  match ms with
  | [] => True
  | m :: ms => allowed g m M /\ forall M', modify g m M = Some M' -> legal g ms M'
  end.
(** Number of phases in which rank [r] asks for the tree. *)
Definition asks (r : nat) (rss : list (list nat)) : nat := length (filter (existsb (Nat.eqb r)) rss).

(** * One phase *)
Lemma upd_length {X} (l : list X) n x : length (list_upd l n x) = length l.
Proof. revert n. induction l as [|y l IH]; intros [|n]; cbn; congruence. Qed.
Lemma upd_nth {X} (l : list X) n x k : (n < length l)%nat -> nth_error (list_upd l n x) k = if (k =? n)%nat then Some x else nth_error l k.
Proof.
  revert n k. induction l as [|y l IH]; intros [|n] [|k] H; cbn in *; try lia; try reflexivity. rewrite IH by lia. reflexivity.
Qed.
(** The tree of a rank is no newer than its mesh, and is its mesh if it is as new. *)
Definition good (R : rank) (c : cache) : Prop := light_epoch c <= epoch c /\ (light_epoch c = epoch c -> light c = Some R).
Definition goods (M : mesh) (cs : list cache) : Prop := length cs = length M /\
  forall r R c, nth_error M r = Some R -> nth_error cs r = Some c -> good R c.
(** What a query makes of a cache. *)
Definition asked (R : rank) (c : cache) : cache := updateLightOctree R c.
Lemma asked_uptodate R c : uptodate (asked R c) = true.
Proof. unfold asked, updateLightOctree. destruct (uptodate c) eqn:E; [exact E|]. unfold uptodate. cbn. lia. Qed.
Lemma asked_idem R c : asked R (asked R c) = asked R c.
Proof. unfold asked at 1, updateLightOctree. rewrite asked_uptodate. reflexivity. Qed.
Lemma query_ok R c : good R c -> getLightOctree R c = Some (R, asked R c) /\ good R (asked R c).
Proof.
  intros (G1 & G2). unfold getLightOctree, asked, updateLightOctree, good. destruct (uptodate c) eqn:E.
  - unfold uptodate in E. assert (E' : light_epoch c = epoch c) by lia. rewrite (G2 E'), !Nat.eqb_refl. split; [reflexivity|]. split; [lia|intros _; reflexivity].
  - cbn [light epoch light_epoch]. rewrite !Nat.eqb_refl. split; [reflexivity|]. split; [lia|reflexivity].
Qed.
(** All queries of a phase. *)
Lemma queries_ok M : forall rs cs, goods M cs -> (forall r, In r rs -> (r < length M)%nat) ->
  exists Ls cs', queries M cs rs = Some (Ls, cs') /\ goods M cs' /\ Forall2 (fun r L => nth_error M r = Some L) rs Ls /\
    forall r R c, nth_error M r = Some R -> nth_error cs r = Some c -> nth_error cs' r = Some (if existsb (Nat.eqb r) rs then asked R c else c).
Proof.
  induction rs as [|r rs IH]; intros cs G HR.
  - exists [], cs. split; [reflexivity|split; [exact G|split; [constructor|]]]. intros r R c _ H. exact H.
  - cbn [queries]. unfold query. assert (Hr : (r < length M)%nat) by (apply HR; left; reflexivity). destruct G as (GL & G).
    destruct (nth_error M r) as [R|] eqn:EM; [|apply nth_error_None in EM; lia]. destruct (nth_error cs r) as [c|] eqn:EC; [|apply nth_error_None in EC; lia].
    destruct (query_ok R c (G r R c EM EC)) as (EQ & GQ). rewrite EQ.
    assert (G1 : goods M (list_upd cs r (asked R c))).
    { split; [rewrite upd_length; exact GL|]. intros k R' c' HM HC. rewrite upd_nth in HC by lia. destruct (Nat.eqb_spec k r) as [->|NE]; [|apply (G k); assumption].
      assert (R' = R) as -> by congruence. assert (c' = asked R c) as -> by congruence. exact GQ. }
    destruct (IH _ G1 ltac:(intros k Hk; apply HR; right; exact Hk)) as (Ls & cs' & E & G2 & F & K). rewrite E. exists (R :: Ls), cs'.
    split; [reflexivity|]. split; [exact G2|]. split; [constructor; assumption|]. intros k R' c' HM HC. cbn [existsb].
    specialize (K k R' (if (k =? r)%nat then asked R c else c') HM). rewrite upd_nth in K by lia.
    destruct (Nat.eqb_spec k r) as [->|NE]; cbn [orb].
    + assert (R' = R) as -> by congruence. assert (c' = c) as -> by congruence. specialize (K eq_refl). rewrite K. destruct (existsb (Nat.eqb r) rs); [rewrite asked_idem|]; reflexivity.
    + apply K. exact HC.
Qed.
Lemma queries_ranks M : forall rs cs Ls cs', queries M cs rs = Some (Ls, cs') -> forall r, In r rs -> (r < length M)%nat.
Proof.
  induction rs as [|r rs IH]; intros cs Ls cs' E k Hk; [destruct Hk|]; destruct Hk as [<-|Hk]; cbn [queries] in E; destruct (query M cs r) as [(L & cs1)|] eqn:Q; try discriminate.
  - unfold query in Q. destruct (nth_error M r) eqn:EM; [|discriminate]. apply nth_error_Some. congruence.
  - destruct (queries M cs1 rs) as [(Ls1 & cs2)|] eqn:E1; [|discriminate]. exact (IH _ _ _ E1 k Hk).
Qed.
Lemma phase_queries M cs rs X : phase M cs rs = Some X -> queries M cs rs = Some X.
Proof. unfold phase. destruct (filter _ rs); [tauto|]. destruct (forallb _ _); [tauto|discriminate]. Qed.
Lemma phase_full M cs rs : rs = [] \/ (forall r, (r < length M)%nat -> In r rs) -> phase M cs rs = queries M cs rs.
Proof.
  intros [->|H]; [reflexivity|]. unfold phase. destruct (filter _ rs); [reflexivity|]. replace (forallb _ _) with true; [reflexivity|].
  symmetry. apply forallb_forall. intros r Hr. apply in_seq in Hr. apply existsb_exists. exists r. split; [apply H; lia|apply Nat.eqb_refl].
Qed.
(** All trees are out of date, [e] is the epoch of all ranks. *)
Definition stale (e : Z) (cs : list cache) : Prop := forall r c, nth_error cs r = Some c -> epoch c = e /\ light_epoch c < e.
Lemma stale_goods M cs e : length cs = length M -> stale e cs -> goods M cs.
Proof. intros HL S. split; [exact HL|]. intros r R c _ HC. destruct (S r c HC) as (E & L). split; [lia|intros; lia]. Qed.
Definition count (r : nat) (rs : list nat) : nat := if existsb (Nat.eqb r) rs then 1 else 0.
Lemma phase_ok M cs e rs Ls cs' : length cs = length M -> stale e cs -> phase M cs rs = Some (Ls, cs') ->
  Forall2 (fun r L => nth_error M r = Some L) rs Ls /\ length cs' = length cs /\
  (forall r c', nth_error cs' r = Some c' -> epoch c' = e /\ light_epoch c' <= e) /\
  (forall r c c', nth_error cs r = Some c -> nth_error cs' r = Some c' -> builds c' = (builds c + count r rs)%nat).
Proof.
  intros HL S E. apply phase_queries in E. destruct (queries_ok M rs cs (stale_goods M cs e HL S) (queries_ranks _ _ _ _ _ E)) as (Ls1 & cs1 & E1 & (G1 & G2) & F & K).
  rewrite E in E1. injection E1 as <- <-. split; [exact F|]. split; [congruence|].
  assert (V : forall r c c', nth_error cs r = Some c -> nth_error cs' r = Some c' -> exists R, nth_error M r = Some R /\ c' = if existsb (Nat.eqb r) rs then asked R c else c).
  { intros r c c' HC HC'. destruct (nth_error M r) as [R|] eqn:EM; [|apply nth_error_None in EM; assert (r < length cs)%nat by (apply nth_error_Some; congruence); lia].
    exists R. split; [reflexivity|]. specialize (K r R c EM HC). congruence. }
  split.
  - intros r c' HC'. destruct (nth_error cs r) as [c|] eqn:HC; [|apply nth_error_None in HC; assert (r < length cs')%nat by (apply nth_error_Some; congruence); lia].
    destruct (V r c c' HC HC') as (R & _ & ->). destruct (S r c HC) as (E1 & E2). destruct (existsb _ _); [|lia].
    unfold asked, updateLightOctree. destruct (uptodate c); [lia|]. cbn. lia.
  - intros r c c' HC HC'. destruct (V r c c' HC HC') as (R & _ & ->). destruct (S r c HC) as (E1 & E2). unfold count. destruct (existsb _ _); [|lia].
    unfold asked, updateLightOctree, uptodate. replace (epoch c =? light_epoch c) with false by lia. cbn. lia.
Qed.
Lemma bump_ok cs cs1 e : (forall r c', nth_error cs r = Some c' -> epoch c' = e /\ light_epoch c' <= e) -> mapM bump cs = Some cs1 ->
  length cs1 = length cs /\ stale (e + 1) cs1 /\ (forall r c c1, nth_error cs r = Some c -> nth_error cs1 r = Some c1 -> builds c1 = builds c).
Proof.
  intros H E. pose proof (mapM_length _ _ _ E) as HL. split; [exact HL|].
  assert (V : forall r c1, nth_error cs1 r = Some c1 -> exists c, nth_error cs r = Some c /\ bump c = Some c1).
  { intros r c1 H1. destruct (nth_error cs r) as [c|] eqn:HC; [|apply nth_error_None in HC; assert (r < length cs1)%nat by (apply nth_error_Some; congruence); lia].
    destruct (mapM_nth _ _ _ r c E HC) as (y & Hy & By). exists c. split; [reflexivity|congruence]. }
  split.
  - intros r c1 H1. destruct (V r c1 H1) as (c & HC & B). destruct (H r c HC). unfold bump in B. destruct (_ <? _); [|discriminate]. injection B as <-. cbn. lia.
  - intros r c c1 HC H1. destruct (V r c1 H1) as (c2 & HC2 & B). assert (c2 = c) as -> by congruence. unfold bump in B. destruct (_ <? _); [|discriminate]. injection B as <-. reflexivity.
Qed.

(** * Whole programs *)
Lemma asks_cons r rs rss : asks r (rs :: rss) = (count r rs + asks r rss)%nat.
Proof. unfold asks, count. cbn [filter]. destruct (existsb _ rs); reflexivity. Qed.
Lemma modify_reachable g P m M M' : reachable g P M -> allowed g m M -> modify g m M = Some M' -> reachable g P M'.
Proof.
  intros RC AL E. destruct m as [fuel ord mk|fuel ord|ord level]; cbn in AL, E.
  - apply (reach_adapt g P ord fuel M mk); tauto.
  - apply (reach_refine g P ord fuel M); tauto.
  - apply (reach_balance g P ord level M); assumption.
Qed.
Section Programs.
Variables (g : geom) (P : nat).
Hypothesis GS : good_setup g P.
Lemma phases_ok : forall h M cs e A M' cs', reachable g P M -> legal g (map fst h) M -> length cs = P ->
  (forall r c', nth_error cs r = Some c' -> epoch c' = e /\ light_epoch c' <= e) -> run_phases g h M cs = Some (A, M', cs') ->
  modified g (map fst h) M = Some M' /\ length A = length h /\
  (forall k m rs Ls, nth_error h k = Some (m, rs) -> nth_error A k = Some Ls ->
     exists Mk, modified g (map fst (firstn (S k) h)) M = Some Mk /\ Forall2 (fun r L => nth_error Mk r = Some L) rs Ls) /\
  length cs' = P /\ (forall r c c', nth_error cs r = Some c -> nth_error cs' r = Some c' -> builds c' = (builds c + asks r (map snd h))%nat).
Proof.
  induction h as [|(m & rs) h IH]; intros M cs e A M' cs' RC LG HL HE E; cbn [run_phases] in E.
  - injection E as <- <- <-. split; [reflexivity|split; [reflexivity|split; [intros [|k] ? ? ? H; discriminate H|split; [exact HL|]]]]. intros r c c' H1 H2. unfold asks. cbn. replace c' with c by congruence. lia.
  - destruct (modify g m M) as [M1|] eqn:EM; [|discriminate]. destruct (mapM bump cs) as [cs1|] eqn:EB; [|discriminate].
    destruct (phase M1 cs1 rs) as [(Ls & cs2)|] eqn:EP; [|discriminate]. destruct (run_phases g h M1 cs2) as [((A1 & M2) & cs3)|] eqn:ER; [|discriminate]. injection E as <- <- <-.
    destruct (bump_ok cs cs1 e HE EB) as (B1 & B2 & B3). destruct LG as (AL & LG). specialize (LG M1 EM).
    pose proof (modify_reachable g P m M M1 RC AL EM) as RC1. pose proof (reachable_ranks g P M1 GS RC1) as L1.
    destruct (phase_ok M1 cs1 (e + 1) rs Ls cs2 ltac:(congruence) B2 EP) as (F & L2 & E2 & K2).
    destruct (IH M1 cs2 (e + 1) A1 M2 cs3 RC1 LG ltac:(congruence) E2 ER) as (I1 & I2 & I3 & I4 & I5).
    split; [cbn [map fst modified]; rewrite EM; exact I1|]. split; [cbn; congruence|]. split; [|split; [exact I4|]].
    + intros [|k] m' rs' Ls' Hh HA.
      * cbn in Hh, HA. injection Hh as <- <-. injection HA as <-. exists M1. cbn. rewrite EM. split; [reflexivity|exact F].
      * cbn [nth_error] in Hh, HA. destruct (I3 k m' rs' Ls' Hh HA) as (Mk & H1 & H2). exists Mk. split; [|exact H2]. change (firstn (S (S k)) ((m, rs) :: h)) with ((m, rs) :: firstn (S k) h). cbn [map fst modified]. rewrite EM. exact H1.
    + intros r c c' HC HC'. cbn [map snd]. rewrite asks_cons.
      assert (V : (r < P)%nat) by (rewrite <- HL; apply nth_error_Some; congruence).
      destruct (nth_error cs1 r) as [c1|] eqn:C1; [|apply nth_error_None in C1; lia]. destruct (nth_error cs2 r) as [c2|] eqn:C2; [|apply nth_error_None in C2; lia].
      rewrite (I5 r c2 c' C2 HC'), (K2 r c1 c2 C1 C2), (B3 r c c1 HC C1). lia.
Qed.
Lemma first_nth (M : mesh) r c : nth_error (map (fun _ => cache0) M) r = Some c -> c = cache0.
Proof. rewrite nth_error_map. destruct (nth_error M r); cbn; congruence. Qed.
Lemma first_stale (M : mesh) : stale 1 (map (fun _ => cache0) M).
Proof. intros r c H. apply first_nth in H. subst c. cbn. lia. Qed.

(** C44, first part: whatever the program, each answer is the rank as it is at that time, i.e.
    after the modifications made so far. *)
Theorem C44_fresh M0 rs0 h A M cs : reachable g P M0 -> legal g (map fst h) M0 -> run_program g rs0 h M0 = Some (A, M, cs) ->
  modified g (map fst h) M0 = Some M /\ length A = S (length h) /\
  forall k rs Ls, nth_error (rs0 :: map snd h) k = Some rs -> nth_error A k = Some Ls ->
    exists Mk, modified g (map fst (firstn k h)) M0 = Some Mk /\ Forall2 (fun r L => nth_error Mk r = Some L) rs Ls.
Proof.
  intros RC LG E. unfold run_program in E. destruct (phase M0 _ rs0) as [(Ls0 & cs0)|] eqn:EP; [|discriminate].
  destruct (run_phases g h M0 cs0) as [((A1 & M1) & cs1)|] eqn:ER; [|discriminate]. injection E as <- <- <-. pose proof (reachable_ranks g P M0 GS RC) as L0.
  destruct (phase_ok M0 _ 1 rs0 Ls0 cs0 ltac:(apply map_length) (first_stale M0) EP) as (F & L2 & E2 & _). rewrite map_length in L2.
  destruct (phases_ok h M0 cs0 1 A1 M1 cs1 RC LG ltac:(congruence) E2 ER) as (I1 & I2 & I3 & _).
  split; [exact I1|]. split; [cbn; congruence|]. intros [|k] rs Ls Hr HA; cbn [nth_error] in Hr, HA.
  - injection Hr as <-. injection HA as <-. exists M0. split; [reflexivity|exact F].
  - rewrite nth_error_map in Hr. destruct (nth_error h k) as [(m & rs')|] eqn:Hk; [|discriminate]. cbn in Hr. injection Hr as <-. exact (I3 k m rs' Ls Hk HA).
Qed.
(** Second part: a rank builds one tree in each phase where it asks for it, however often. *)
Theorem C44_builds M0 rs0 h A M cs : reachable g P M0 -> legal g (map fst h) M0 -> run_program g rs0 h M0 = Some (A, M, cs) ->
  forall r c, nth_error cs r = Some c -> builds c = asks r (rs0 :: map snd h).
Proof.
  intros RC LG E r c HC. unfold run_program in E. destruct (phase M0 _ rs0) as [(Ls0 & cs0)|] eqn:EP; [|discriminate].
  destruct (run_phases g h M0 cs0) as [((A1 & M1) & cs1)|] eqn:ER; [|discriminate]. injection E as <- <- <-. pose proof (reachable_ranks g P M0 GS RC) as L0.
  destruct (phase_ok M0 _ 1 rs0 Ls0 cs0 ltac:(apply map_length) (first_stale M0) EP) as (F & L2 & E2 & K2). rewrite map_length in L2.
  destruct (phases_ok h M0 cs0 1 A1 M1 cs1 RC LG ltac:(congruence) E2 ER) as (_ & _ & _ & I4 & I5).
  assert (V : (r < P)%nat) by (rewrite <- I4; apply nth_error_Some; congruence).
  destruct (nth_error cs0 r) as [c0|] eqn:C0; [|apply nth_error_None in C0; lia]. destruct (nth_error (map (fun _ => cache0) M0) r) as [c1|] eqn:C1; [|apply nth_error_None in C1; rewrite map_length in C1; lia].
  rewrite (I5 r c0 c C0 HC), (K2 r c1 c0 C1 C0), asks_cons. apply first_nth in C1. subst c1. cbn. lia.
Qed.
(** Third part: a program whose modifications succeed runs to its end, if in each phase either no
    rank asks for the tree or all do. Missing: phases where only some ranks ask. *)
Definition all_or_none (rs : list nat) : Prop := (forall r, In r rs -> (r < P)%nat) /\ (rs = [] \/ forall r, (r < P)%nat -> In r rs).
Lemma phases_total : forall h M cs e M', reachable g P M -> legal g (map fst h) M -> length cs = P ->
  (forall r c', nth_error cs r = Some c' -> epoch c' = e /\ light_epoch c' <= e) -> e + Z.of_nat (length h) < 2^31 ->
  modified g (map fst h) M = Some M' -> Forall all_or_none (map snd h) -> exists A cs', run_phases g h M cs = Some (A, M', cs').
Proof.
  induction h as [|(m & rs) h IH]; intros M cs e M' RC LG HL HE HB EM HA; cbn [run_phases map fst snd modified] in *.
  - injection EM as ->. exists [], cs. reflexivity.
  - destruct (modify g m M) as [M1|] eqn:E1; [|discriminate]. destruct LG as (AL & LG). specialize (LG M1 E1). inversion HA as [|? ? (A1 & A2) A3]; subst.
    pose proof (modify_reachable g P m M M1 RC AL E1) as RC1. pose proof (reachable_ranks g _ M1 GS RC1) as L1.
    destruct (mapM bump cs) as [cs1|] eqn:EB.
    2:{ exfalso. destruct (mapM_total bump cs) as (y & Y); [|congruence]. intros c HC. apply In_nth_error in HC. destruct HC as (r & HC). destruct (HE r c HC) as (EC & _).
        unfold bump. rewrite EC. cbn [length] in HB. replace (e + 1 <? 2^31) with true by lia. eexists. reflexivity. }
    destruct (bump_ok cs cs1 e HE EB) as (B1 & B2 & B3). rewrite phase_full by (rewrite L1; exact A2).
    destruct (queries_ok M1 rs cs1 (stale_goods M1 cs1 (e + 1) ltac:(congruence) B2)) as (Ls & cs2 & EQ & _); [intros r Hr; rewrite L1; apply A1; exact Hr|]. rewrite EQ.
    destruct (phase_ok M1 cs1 (e + 1) rs Ls cs2 ltac:(congruence) B2) as (_ & L2 & E2 & _); [rewrite phase_full by (rewrite L1; exact A2); exact EQ|].
    cbn [length] in HB. destruct (IH M1 cs2 (e + 1) M' RC1 LG ltac:(congruence) E2 ltac:(lia) EM A3) as (A & cs' & ER). rewrite ER. eexists _, _. reflexivity.
Qed.
Theorem C44_runs_partial M0 rs0 h M : reachable g P M0 -> legal g (map fst h) M0 -> modified g (map fst h) M0 = Some M ->
  Z.of_nat (length h) < 2^31 - 1 -> Forall all_or_none (rs0 :: map snd h) -> exists A cs, run_program g rs0 h M0 = Some (A, M, cs).
Proof.
  intros RC LG EM HB HA. inversion HA as [|? ? (A1 & A2) A3]; subst. pose proof (reachable_ranks g P M0 GS RC) as L0. unfold run_program.
  destruct (queries_ok M0 rs0 (map (fun _ => cache0) M0) (stale_goods M0 _ 1 ltac:(apply map_length) (first_stale M0))) as (Ls & cs2 & EQ & _); [intros r Hr; rewrite L0; apply A1; exact Hr|].
  assert (EP : phase M0 (map (fun _ => cache0) M0) rs0 = Some (Ls, cs2)) by (rewrite phase_full by (rewrite L0; exact A2); exact EQ). rewrite EP.
  destruct (phase_ok M0 _ 1 rs0 Ls cs2 ltac:(apply map_length) (first_stale M0) EP) as (_ & L2 & E2 & _). rewrite map_length in L2.
  destruct (phases_total h M0 cs2 1 M RC LG ltac:(congruence) E2 ltac:(lia) EM A3) as (A & cs' & ER). rewrite ER. eexists _, _. reflexivity.
Qed.
End Programs.

(** When a single rank asks for the tree after a modification it waits for the others forever. *)
Theorem C44_refuted_alone : ~ (forall g P M0 rs0, good_setup g P -> reachable g P M0 -> (forall r, In r rs0 -> (r < P)%nat) ->
  exists A M cs, run_program g rs0 [] M0 = Some (A, M, cs)).
Proof.
  intros H. destruct (H ex_g 2%nat ex_M2 [0%nat] ex_setup ex_reach2) as (A & M & cs & E); [intros r [<-|[]]; lia|].
  assert (K : match run_program ex_g [0%nat] [] ex_M2 with Some _ => false | None => true end = true) by (vm_compute; reflexivity). rewrite E in K. discriminate K.
Qed.

(** Two ranks: the tree is read twice, the mesh is refined, nobody asks, it is balanced and read. *)
Definition ex_prog : list (modification * list nat) :=
  [(Adapt 20 id_order (map (map ex_refine) (map loc ex_M0)), []); (Balance id_order 0, [1; 0; 1]%nat)].
Example C44_example : legal ex_g (map fst ex_prog) ex_M0 /\ Forall (all_or_none 2) ([0; 1; 0; 0]%nat :: map snd ex_prog) /\
  match run_program ex_g [0; 1; 0; 0]%nat ex_prog ex_M0 with
  | Some (A, M, cs) => map (map (fun R => length (loc R))) A = [[2; 2; 2; 2]; []; [6; 5; 6]]%nat /\ map builds cs = [2; 2]%nat
  | None => False end.
Proof.
  split; [|split; [|vm_compute; split; reflexivity]].
  - cbn [ex_prog map fst legal allowed]. split; [split; [exact id_order_ok|]|intros M' E; split; [exact id_order_ok|intros; exact I]].
    apply good_markers_of, good_request_check. vm_compute. reflexivity.
  - assert (G : forall rs, rs = [] \/ ((forall r, In r rs -> (r < 2)%nat) /\ In 0%nat rs /\ In 1%nat rs) -> all_or_none 2 rs).
    { intros rs [->|(H & H0 & H1)]; [split; [intros r []|left; reflexivity]|]. split; [exact H|right]. intros [|[|r]] Hr; [exact H0|exact H1|lia]. }
    cbn [ex_prog map snd]. apply Forall_cons; [apply G; right; split; [intros r Hr; cbn in Hr; lia|cbn; tauto]|].
    apply Forall_cons; [apply G; left; reflexivity|]. apply Forall_cons; [apply G; right; split; [intros r Hr; cbn in Hr; lia|cbn; tauto]|apply Forall_nil].
Qed.
Print Assumptions C44_fresh. Print Assumptions C44_builds. Print Assumptions C44_runs_partial. Print Assumptions C44_refuted_alone.
