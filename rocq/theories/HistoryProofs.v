(** Supporting lemmas for OctreeProps: enough fuel changes nothing, every completed adapt
    applies the least legal markers, histories keep the mesh consistent. *)
From Verif Require Import Base OctreeSpec OctreeGeom OctreeModel FindNeighbors MarkerProofs MarkerLoop
  ApplyProofs MeshSpec GhostProofs GhostExchange AdaptProofs BalanceMain InitProofs HistorySpec.

Lemma mapM_mono {A B} (f f' : A -> option B) l : (forall x y, f x = Some y -> f' x = Some y) ->
  forall r, mapM f l = Some r -> mapM f' l = Some r.
Proof.
  intros H. induction l as [|x l IH]; intros r; cbn; [auto|].
  destruct (f x) as [y|] eqn:E; [|discriminate]. destruct (mapM f l) as [r'|]; [|discriminate].
  intros [= <-]. rewrite (H _ _ E), (IH _ eq_refl). reflexivity.
Qed.
Lemma local_loop_mono g st n mg f : forall f' ml r, (f <= f')%nat ->
  local_loop f g st n ml mg = Some r -> local_loop f' g st n ml mg = Some r.
Proof.
  induction f as [|f IH]; intros f' ml r Hf; [discriminate|]. destruct f' as [|f']; [lia|]. cbn [local_loop].
  destruct (sweep g st n ml mg) as [m'|]; [|discriminate]. destruct (lz_eqb ml m'); [auto|].
  destruct (local_loop f g st n m' mg) as [[m'' b]|] eqn:E; [|discriminate].
  rewrite (IH f' m' _ ltac:(lia) E). auto.
Qed.
Lemma marker_loop_mono g M l l' f : (l <= l')%nat -> forall f' mk r, (f <= f')%nat ->
  marker_loop f l g M mk = Some r -> marker_loop f' l' g M mk = Some r.
Proof.
  intros Hl. induction f as [|f IH]; intros f' mk r Hf; [discriminate|]. destruct f' as [|f']; [lia|]. cbn [marker_loop].
  destruct (exchange _ mk) as [mg|]; [|discriminate].
  destruct (mapM _ (combine M (combine mk mg))) as [res|] eqn:E; [|discriminate].
  apply (mapM_mono _ (fun x : rank * (list Z * list Z) => let '(R, (ml, mgr)) := x in
    local_loop l' g (loc R ++ gho R) (length (loc R)) ml mgr)) in E;
    [|intros [R [ml mr]] y Hy; exact (local_loop_mono _ _ _ _ _ _ _ _ Hl Hy)].
  rewrite E.
  cbv zeta. destruct (existsb snd res); [|auto]. apply IH. lia.
Qed.
Lemma adapt_mono f f' ord g M mk M' : (f <= f')%nat -> adapt f ord g M mk = Some M' -> adapt f' ord g M mk = Some M'.
Proof.
  intros H. unfold adapt. destruct (marker_loop f f g M mk) as [r|] eqn:E; [|discriminate].
  rewrite (marker_loop_mono g M f f' f H f' mk r H E). auto.
Qed.

Lemma good_markers_fun g M mk : NoDup (leaves M) -> good_markers g M mk ->
  exists req, mk = map (map req) (map loc M) /\ good_request g (leaves M) req.
Proof.
  intros ND H. unfold good_markers in H.
  destruct (lists_as_fun (map loc M) mk ND) as [f Ef].
  { revert H. generalize (map loc M) as ls. clear. intros ls H. induction H as [|l v ls vs H1 H IH]; constructor; [|exact IH].
    induction H1; cbn; congruence. }
  exists f. split; [exact Ef|]. subst mk. intros A HA. unfold leaves in HA. apply in_concat in HA. destruct HA as (l & Hl & HA).
  revert H Hl. generalize (map loc M) as ls. clear -HA. intros ls. induction ls as [|l0 ls IH]; intros H Hl; [destruct Hl|].
  cbn in H. inversion H as [|? ? ? ? H1 H2]; subst. destruct Hl as [->|Hl]; [|exact (IH H2 Hl)].
  clear -HA H1. induction l as [|x l IH]; [destruct HA|]. cbn in H1. inversion H1; subst. destruct HA as [->|HA]; [assumption|]. apply IH; assumption.
Qed.

(** Whatever the fuel, a completed adapt applied the least legal markers. *)
Lemma adapt_inv g ord M req fuel M' : wf_geom g -> 1 <= lmin g -> ord_ok ord -> mesh_ok g M ->
  good_request g (leaves M) req -> adapt fuel ord g M (map (map req) (map loc M)) = Some M' ->
  exists m, least_legal g (leaves M) req m /\ mesh_ok g M' /\ map loc M' = new_locs g M m /\
    leaves M' = newleaves g (leaves M) m.
Proof.
  intros WF Hl Ho HM HR E.
  set (N := length (leaves M)). set (F := (fuel + S (2 * N))%nat).
  assert (EF : adapt F ord g M (map (map req) (map loc M)) = Some M') by (apply (adapt_mono fuel); [unfold F; lia|exact E]).
  destruct (markers_done g WF Hl M HM req HR F) as (m & Em & Hm); [unfold F, N; lia|].
  exists m. split; [exact Hm|].
  assert (D : no_rank_emptied g M m).
  { intros R HRM Q. rewrite (adapt_emptied g ord M HM req F m R Em HRM Q) in EF. discriminate. }
  destruct (adapt_ok g WF Hl ord Ho M HM req F m Hm Em D) as (M2 & E2 & OK2 & L2).
  assert (M2 = M') as -> by congruence. split; [exact OK2|]. split; [exact L2|].
  unfold leaves. rewrite L2. apply new_locs_concat.
Qed.

Lemma adapt_total g ord M req fuel : wf_geom g -> 1 <= lmin g -> ord_ok ord -> mesh_ok g M ->
  good_request g (leaves M) req -> (forall R, In R M -> keeps_one req R) ->
  2 * Z.of_nat (length (leaves M)) < Z.of_nat fuel ->
  exists M', adapt fuel ord g M (map (map req) (map loc M)) = Some M'.
Proof.
  intros WF Hl Ho HM HR HK HF.
  destruct (markers_done g WF Hl M HM req HR fuel HF) as (m & Em & Hm).
  destruct (adapt_ok g WF Hl ord Ho M HM req fuel m Hm Em) as (M' & E & _); [|eauto].
  intros R HRM Q. destruct (HK R HRM) as (A & HA & HA').
  assert (HAL : In A (leaves M)) by (unfold leaves; apply in_concat; exists (loc R); split; [apply in_map, HRM|exact HA]).
  apply (apply1_nonempty g M req O A m (proj1 Hm) HAL HA').
  destruct (apply1 g A (m A)) as [|o l] eqn:E; [reflexivity|]. exfalso.
  assert (In o (flat_map (fun A => apply1 g A (m A)) (loc R))) by (apply in_flat_map; exists A; split; [exact HA|rewrite E; left; reflexivity]).
  rewrite Q in H. destruct H.
Qed.

Lemma refine_markers (M : mesh) : map (fun R => map (fun _ : oct => 1) (loc R)) M = map (map (fun _ => 1)) (map loc M).
Proof. rewrite map_map. reflexivity. Qed.

Lemma loadBalance_level ord g level R : loadBalance ord g level [R] = loadBalance ord g 0 [R].
Proof.
  unfold loadBalance, lb_sends, lb_intervals. cbn [length Nat.ltb Nat.leb andb map].
  destruct (agv 0 [lb_buffer g 1 R]) as [|k [|k' ks]]; reflexivity.
Qed.

Lemma loadBalance_inv g ord level M M' : wf_geom g -> ord_ok ord -> mesh_ok g M -> loadBalance ord g level M = Some M' ->
  mesh_ok g M' /\ length M' = length M /\ leaves M' = leaves M.
Proof.
  intros WF Ho HM E.
  assert (HN : M <> []).
  { intros ->. pose proof (ok_tiles g [] HM) as [_ T]. destruct (T (mkPt 0 0 0)) as (i & o & H & _).
    - intros a. assert (1 <= ncell g a (lmax g)).
      { unfold ncell. destruct (flat g a); [lia|]. destruct WF as (W1 & W2 & W3 & W4 & _). specialize (W4 a).
        assert (0 < 2^(lmax g - lmin g)) by (apply Z.pow_pos_nonneg; lia). nia. }
      destruct a; cbn [pc ptx pty ptz]; lia.
    - destruct i; discriminate. }
  assert (G : forall lv, 3 * Z.of_nat lv < 64 -> loadBalance ord g lv M = Some M' -> mesh_ok g M' /\ length M' = length M /\ leaves M' = leaves M).
  { intros lv H E'. destruct (loadBalance_full g ord lv M WF Ho HM HN H) as (M2 & s & J & OI & E2 & A1 & A2 & A3 & _).
    assert (M2 = M') as -> by congruence. auto. }
  destruct (Z.lt_ge_cases (3 * Z.of_nat level) 64) as [H|H]; [exact (G level H E)|].
  destruct M as [|R [|R2 M2]]; [congruence| |].
  - rewrite loadBalance_level in E. apply (G O); [lia|exact E].
  - unfold loadBalance, lb_sends in E. cbn [length] in E.
    replace ((1 <? S (S (length M2)))%nat && (64 <=? 3 * Z.of_nat level)) with true in E by (symmetry; apply andb_true_iff; split; lia).
    discriminate.
Qed.

Theorem reachable_ok g P M : good_setup g P -> reachable g P M -> mesh_ok g M.
Proof.
  intros (WF & Hl & HP & HC) H. induction H as [ord M Ho E|ord fuel M mk M' _ IH Ho G E|ord fuel M M' _ IH Ho G E|ord level M M' _ IH Ho E].
  - destruct (private_init_ok g WF P HP ltac:(lia) ltac:(lia) ord Ho) as (M2 & E2 & OK & _).
    assert (M2 = M) as -> by congruence. exact OK.
  - destruct (good_markers_fun g M mk (tiles_NoDup g _ (ok_tiles g M IH)) G) as (req & -> & HR).
    destruct (adapt_inv g ord M req fuel M' WF Hl Ho IH HR E) as (m & _ & OK & _). exact OK.
  - unfold adaptGlobalRefine in E. rewrite refine_markers in E.
    destruct (adapt_inv g ord M (fun _ => 1) fuel M' WF Hl Ho IH) as (m & _ & OK & _); [|exact E|exact OK].
    intros A HA. pose proof (G A HA). pose proof (tiles_valid g _ A (ok_tiles g M IH) HA) as [V _]. lia.
  - apply (loadBalance_inv g ord level M M' WF Ho IH E).
Qed.
Theorem reachable_ranks g P M : good_setup g P -> reachable g P M -> length M = P.
Proof.
  intros GS H. pose proof GS as (WF & Hl & HP & HC).
  induction H as [ord M Ho E|ord fuel M mk M' H IH Ho G E|ord fuel M M' H IH Ho G E|ord level M M' H IH Ho E].
  - destruct (private_init_ok g WF P HP ltac:(lia) ltac:(lia) ord Ho) as (M2 & E2 & _ & OK & _).
    assert (M2 = M) as -> by congruence. exact OK.
  - pose proof (reachable_ok g P M GS H) as HM.
    destruct (good_markers_fun g M mk (tiles_NoDup g _ (ok_tiles g M HM)) G) as (req & -> & HR).
    destruct (adapt_inv g ord M req fuel M' WF Hl Ho HM HR E) as (m & _ & _ & OK & _).
    rewrite <- (map_length loc), OK. unfold new_locs. rewrite map_length. exact IH.
  - pose proof (reachable_ok g P M GS H) as HM. unfold adaptGlobalRefine in E. rewrite refine_markers in E.
    destruct (adapt_inv g ord M (fun _ => 1) fuel M' WF Hl Ho HM) as (m & _ & _ & OK & _); [|exact E|].
    { intros A HA. pose proof (G A HA). pose proof (tiles_valid g _ A (ok_tiles g M HM) HA) as [V _]. lia. }
    rewrite <- (map_length loc), OK. unfold new_locs. rewrite map_length. exact IH.
  - pose proof (reachable_ok g P M GS H) as HM.
    destruct (loadBalance_inv g ord level M M' WF Ho HM E) as (_ & L & _). congruence.
Qed.

(** Payloads as aligned concatenations. *)
Lemma payload_concat {X} (ls : list (list oct)) : forall (D : list (list X)), map (@length X) D = map (@length oct) ls ->
  forall A x,
  (exists r l d i, nth_error ls r = Some l /\ nth_error D r = Some d /\ nth_error l i = Some A /\ nth_error d i = Some x) <->
  (exists n, nth_error (concat ls) n = Some A /\ nth_error (concat D) n = Some x).
Proof.
  induction ls as [|l0 ls IH]; intros [|d0 D]; try discriminate.
  - intros _ A x. split; [intros ([|r] & l & d & i & H & _); discriminate|intros ([|n] & H & _); discriminate].
  - cbn [map]. intros [= E0 E] A x. cbn [concat]. split.
    + intros (r & l & d & i & H1 & H2 & H3 & H4). destruct r as [|r]; cbn in H1, H2.
      * injection H1 as <-. injection H2 as <-. exists i. rewrite !nth_error_app1; [auto|apply nth_error_Some; congruence..].
      * destruct (proj1 (IH D E A x)) as (n & N1 & N2); [exists r, l, d, i; auto|].
        exists (length l0 + n)%nat. rewrite !nth_error_app2 by lia. rewrite E0. replace (length l0 + n - length l0)%nat with n by lia. auto.
    + intros (n & N1 & N2). destruct (Nat.lt_ge_cases n (length l0)) as [Hn|Hn].
      * rewrite nth_error_app1 in N1, N2 by lia. exists O, l0, d0, n. auto.
      * rewrite nth_error_app2 in N1, N2 by lia. rewrite E0 in N2.
        destruct (proj2 (IH D E A x)) as (r & l & d & i & H1 & H2 & H3 & H4); [eauto|]. exists (S r), l, d, i. auto.
Qed.
Lemma payload_at_concat {X} M (D : list (list X)) A x : map (@length X) D = map (@length oct) (map loc M) ->
  payload_at M D A x <-> exists n, nth_error (leaves M) n = Some A /\ nth_error (concat D) n = Some x.
Proof.
  intros E. unfold leaves. rewrite <- (payload_concat (map loc M) D E A x). unfold payload_at. split.
  - intros (r & R & l & i & H1 & H2 & H3 & H4). exists r, (loc R), l, i. rewrite nth_error_map, H1. auto.
  - intros (r & lo & d & i & H1 & H2 & H3 & H4). rewrite nth_error_map in H1. destruct (nth_error M r) as [R|] eqn:ER; [|discriminate].
    injection H1 as <-. exists r, R, d, i. auto.
Qed.
