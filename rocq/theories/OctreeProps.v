(** Theorems C03-C16 and C45: the distributed AMR mesh.

    The specification vocabulary is in OctreeSpec (tilings, touching, balance, legal
    refinement decisions, adjacency), MeshSpec (consistent distributed mesh) and HistorySpec
    (reachable meshes); the model of the code is OctreeModel. *)
From Verif Require Import Base MortonModel OctreeSpec OctreeGeom OctreeModel FindNeighbors MarkerProofs MarkerLoop
  ApplyProofs MeshSpec GhostProofs GhostExchange AdaptProofs BalanceMain InitProofs HistorySpec HistoryProofs
  RefineModel RefineProps.

(** ** C03: construction *)
Theorem C03_initial_mesh g P ord : wf_geom g -> (1 <= P)%nat -> Z.of_nat P <= gsx g * gsy g * gsz g < 2^32 -> ord_ok ord ->
  exists M, private_init ord g P = Some M /\ length M = P /\
    (* the leaves are exactly the coarse cells, each once, in Morton order *)
    (forall o, In o (leaves M) <-> lev o = lmin g /\ forall a, 0 <= coord o a < gsize g a) /\
    NoDup (leaves M) /\ zsorted g (leaves M) /\ tiles g (leaves M) /\
    (* rank sizes differ by at most one *)
    (forall R R', In R M -> In R' M -> Z.of_nat (length (loc R)) <= Z.of_nat (length (loc R')) + 1) /\
    (* global indices are positions in this enumeration *)
    numbered M.
Proof.
  intros WF HP HC Ho. destruct (private_init_ok g WF P HP ltac:(lia) ltac:(lia) ord Ho) as (M & E & OK & HL & HI & HS).
  exists M. split; [exact E|]. split; [exact HL|]. split; [exact HI|].
  split; [exact (tiles_NoDup g _ (ok_tiles g M OK))|]. split; [apply OK|]. split; [apply OK|].
  split; [|apply OK]. intros R R' H H'. pose proof (HS R H). pose proof (HS R' H'). lia.
Qed.

(** ** C04: every reachable mesh tiles the domain, in Morton order *)
Theorem C04_tiles g P M : good_setup g P -> reachable g P M ->
  tiles g (leaves M) /\ zsorted g (leaves M).
Proof. intros GS H. pose proof (reachable_ok g P M GS H) as OK. split; apply OK. Qed.

(** No operation gets stuck: construction and load balancing always succeed; adapt succeeds
    when every rank has an octant that survives (see [C04_refuted_emptied_rank]). *)
Theorem C04_progress g P : good_setup g P ->
  (forall ord, ord_ok ord -> exists M, private_init ord g P = Some M) /\
  (forall ord level M, ord_ok ord -> reachable g P M -> 3 * Z.of_nat level < 64 ->
     exists M', loadBalance ord g level M = Some M') /\
  (forall ord M req, ord_ok ord -> reachable g P M -> good_request g (leaves M) req ->
     (forall R, In R M -> keeps_one req R) ->
     exists fuel M', adapt fuel ord g M (map (map req) (map loc M)) = Some M') /\
  (forall ord M, ord_ok ord -> reachable g P M -> (forall o, In o (leaves M) -> lev o < lmax g) ->
     exists fuel M', adaptGlobalRefine fuel ord g M = Some M').
Proof.
  intros GS. pose proof GS as (WF & Hl & HP & HC). repeat split.
  - intros ord Ho. destruct (private_init_ok g WF P HP ltac:(lia) ltac:(lia) ord Ho) as (M & E & _). eauto.
  - intros ord level M Ho H Hlev. pose proof (reachable_ok g P M GS H) as OK. pose proof (reachable_ranks g P M GS H) as HL.
    destruct (loadBalance_full g ord level M WF Ho OK) as (M' & s & J & OI & E & _); [intros ->; cbn in HL; lia|exact Hlev|]. eauto.
  - intros ord M req Ho H HR HK. exists (S (2 * length (leaves M))).
    apply adapt_total; auto; [apply (reachable_ok g P M GS H)|lia].
  - intros ord M Ho H HM. pose proof (reachable_ok g P M GS H) as OK. exists (S (2 * length (leaves M))). unfold adaptGlobalRefine. rewrite refine_markers.
    apply adapt_total; auto; [| |lia].
    + intros A HA. pose proof (HM A HA). pose proof (tiles_valid g _ A (ok_tiles g M OK) HA) as [V _]. lia.
    + intros R HRM. pose proof (ok_nonempty g M OK R HRM) as NE. destruct (loc R) as [|A l] eqn:E; [congruence|].
      exists A. rewrite E. split; [left; reflexivity|left; lia].
Qed.

(** ** C05: 2:1 balance *)
Theorem C05_balanced g P M : good_setup g P -> reachable g P M -> balanced g (leaves M).
Proof. intros GS H. apply (reachable_ok g P M GS H). Qed.

(** The same for one call of adapt on any consistent mesh. *)
Theorem C05_adapt g ord M req fuel M' : wf_geom g -> 1 <= lmin g -> ord_ok ord -> mesh_ok g M ->
  good_request g (leaves M) req -> adapt fuel ord g M (map (map req) (map loc M)) = Some M' ->
  tiles g (leaves M') /\ balanced g (leaves M') /\ zsorted g (leaves M').
Proof.
  intros WF Hl Ho OK HR E. destruct (adapt_inv g ord M req fuel M' WF Hl Ho OK HR E) as (m & _ & OK' & _).
  split; [|split]; apply OK'.
Qed.

(** ** C06: the least legal change is applied
    [leaf_change g L L' m]: wherever a point lies in leaf [A] of [L], the leaf of [L'] there
    is [m A] levels finer. *)
Definition leaf_change (g : geom) (L L' : list oct) (m : oct -> Z) : Prop :=
  forall p A B, in_dom g p -> In A L -> In B L' -> covers g A p -> covers g B p -> lev B = lev A + m A.

Theorem C06_least_change g ord M req fuel M' : wf_geom g -> 1 <= lmin g -> ord_ok ord -> mesh_ok g M ->
  good_request g (leaves M) req -> adapt fuel ord g M (map (map req) (map loc M)) = Some M' ->
  exists m, least_legal g (leaves M) req m /\ leaf_change g (leaves M) (leaves M') m.
Proof.
  intros WF Hl Ho OK HR E. destruct (adapt_inv g ord M req fuel M' WF Hl Ho OK HR E) as (m & HM & OK' & _ & EL).
  exists m. split; [exact HM|]. intros p A B Hp HA HB CA CB. rewrite EL in HB.
  exact (newleaves_level g WF (leaves M) (ok_tiles g M OK) m Hl req (proj1 HM) A B p HA HB Hp CA CB).
Qed.
(** In particular refinement requests are honoured, and leaves asked to keep their level
    never become coarser. *)
Theorem C06_requests_honoured g ord M req fuel M' p A B : wf_geom g -> 1 <= lmin g -> ord_ok ord -> mesh_ok g M ->
  good_request g (leaves M) req -> adapt fuel ord g M (map (map req) (map loc M)) = Some M' ->
  in_dom g p -> In A (leaves M) -> In B (leaves M') -> covers g A p -> covers g B p ->
  lev A + req A <= lev B <= lev A + 1.
Proof.
  intros WF Hl Ho OK HR E Hp HA HB CA CB.
  destruct (C06_least_change g ord M req fuel M' WF Hl Ho OK HR E) as (m & (HL & _) & HC).
  pose proof (HC p A B Hp HA HB CA CB). pose proof (HL A HA) as (H1 & H2 & _). lia.
Qed.

(** Global refinement splits every leaf exactly once. *)
Theorem C06_global_refine g ord M fuel M' p A B : wf_geom g -> 1 <= lmin g -> ord_ok ord -> mesh_ok g M ->
  (forall o, In o (leaves M) -> lev o < lmax g) -> adaptGlobalRefine fuel ord g M = Some M' ->
  in_dom g p -> In A (leaves M) -> In B (leaves M') -> covers g A p -> covers g B p -> lev B = lev A + 1.
Proof.
  intros WF Hl Ho OK HL E Hp HA HB CA CB.
  assert (HR : good_request g (leaves M) (fun _ => 1)).
  { intros o H. pose proof (HL o H). destruct (tiles_valid g _ o (ok_tiles g M OK) H) as (V & _). lia. }
  assert (E' : adapt fuel ord g M (map (map (fun _ => 1)) (map loc M)) = Some M') by (rewrite map_map; exact E).
  pose proof (C06_requests_honoured g ord M (fun _ => 1) fuel M' p A B WF Hl Ho OK HR E' Hp HA HB CA CB). cbv beta in *. lia.
Qed.

(** ** C07: independence of the decomposition
    Two meshes with the same leaves but any rank counts, partitions, ghost orders and hash
    orders adapt to the same leaves. *)
Lemma least_legal_unique g L req m m' : least_legal g L req m -> least_legal g L req m' -> forall A, In A L -> m A = m' A.
Proof. intros [H1 H2] [H3 H4] A HA. pose proof (H2 m' H3 A HA). pose proof (H4 m H1 A HA). lia. Qed.

Theorem C07_independent_of_partition g ord1 ord2 M1 M2 req fuel1 fuel2 M1' M2' :
  wf_geom g -> 1 <= lmin g -> ord_ok ord1 -> ord_ok ord2 -> mesh_ok g M1 -> mesh_ok g M2 ->
  leaves M1 = leaves M2 -> good_request g (leaves M1) req ->
  adapt fuel1 ord1 g M1 (map (map req) (map loc M1)) = Some M1' ->
  adapt fuel2 ord2 g M2 (map (map req) (map loc M2)) = Some M2' ->
  leaves M1' = leaves M2'.
Proof.
  intros WF Hl O1 O2 OK1 OK2 EL HR E1 E2.
  destruct (C06_least_change g ord1 M1 req fuel1 M1' WF Hl O1 OK1 HR E1) as (m1 & L1 & C1).
  pose proof HR as HR2. rewrite EL in HR2.
  destruct (C06_least_change g ord2 M2 req fuel2 M2' WF Hl O2 OK2 HR2 E2) as (m2 & L2 & C2).
  destruct (C05_adapt g ord1 M1 req fuel1 M1' WF Hl O1 OK1 HR E1) as (T1 & _ & S1).
  destruct (C05_adapt g ord2 M2 req fuel2 M2' WF Hl O2 OK2 HR2 E2) as (T2 & _ & S2).
  apply (tiles_same_levels g _ _ T1 T2 S1 S2). intros p A B Hp HA HB CA CB.
  destruct (tiles_leaf g (leaves M1) p (ok_tiles g M1 OK1) Hp) as (X & HX & CX).
  rewrite (C1 p X A Hp HX HA CX CA). rewrite EL in HX. rewrite (C2 p X B Hp HX HB CX CB).
  rewrite <- EL in L2. rewrite <- EL in HX. rewrite (least_legal_unique g _ req m1 m2 L1 L2 X HX). reflexivity.
Qed.

(** ** C08: termination
    The marker loops stop after a number of rounds bounded by twice the number of octants
    (both the outer loop and each inner loop), and the result is the same for any larger
    bound: it is the fixpoint, not a truncated iteration. *)
Theorem C08_terminates g M req : wf_geom g -> 1 <= lmin g -> mesh_ok g M -> good_request g (leaves M) req ->
  exists mk, forall fuel, 2 * Z.of_nat (length (leaves M)) < Z.of_nat fuel ->
    marker_loop fuel fuel g M (map (map req) (map loc M)) = Some mk.
Proof.
  intros WF Hl OK HR. set (F := S (2 * length (leaves M))).
  destruct (markers_done g WF Hl M OK req HR F ltac:(unfold F; lia)) as (m & E & _). exists (map (map m) (map loc M)).
  intros fuel Hf. apply (marker_loop_mono g M F fuel F); [unfold F; lia|unfold F; lia|exact E].
Qed.

(** ** C09: coarsening of complete families *)
Theorem C09_complete_families g ord M req fuel M' : wf_geom g -> 1 <= lmin g -> ord_ok ord -> mesh_ok g M ->
  good_request g (leaves M) req -> adapt fuel ord g M (map (map req) (map loc M)) = Some M' ->
  forall r R R' A, nth_error M r = Some R -> nth_error M' r = Some R' ->
    In A (leaves M) -> In (parent g A) (loc R') ->
    (* all siblings were leaves and none is a leaf any more *)
    (forall s, sibling g A s -> In s (leaves M) /\ ~ In s (leaves M')) /\
    (* the rank that owns the parent owned the first sibling *)
    (exists E, sibling g A E /\ (forall a, coord E a mod 2 = 0) /\ In E (loc R)) /\
    (* the parent appears once *)
    (exists! n, nth_error (leaves M') n = Some (parent g A)).
Proof.
  intros WF Hl Ho OK HR EA r R R' A HRr HR' HA HP.
  destruct (adapt_inv g ord M req fuel M' WF Hl Ho OK HR EA) as (m & HM & OK' & EL & ELL).
  pose proof (ok_tiles g M OK) as T. pose proof (ok_tiles g M' OK') as T'.
  pose proof (proj1 HM) as LG.
  assert (HB : In (parent g A) (leaves M')).
  { unfold leaves. apply in_concat. exists (loc R'). split; [|exact HP]. apply in_map. eapply nth_error_In, HR'. }
  pose proof (tiles_valid g _ A T HA) as VA.
  set (p := corner g A). assert (Hp : in_dom g p) by (apply corner_in_dom, VA).
  assert (CA : covers g A p) by (apply corner_covers, VA).
  assert (VB : valid g (parent g A)) by (apply (tiles_valid g _ _ T' HB)).
  assert (CPA : forall q, in_dom g q -> covers g A q -> covers g (parent g A) q).
  { intros q Hq Cq. rewrite (parent_cell g _ T A q VA Hq Cq). destruct VB as [[V1 V2] _]. cbn [lev parent oct_of] in V1, V2.
    apply cell_at_covers; auto; lia. }
  assert (MA : m A = -1).
  { rewrite ELL in HB. pose proof (newleaves_level g WF _ T m Hl req LG A (parent g A) p HA HB Hp CA (CPA p Hp CA)) as Q.
    unfold parent in Q. cbn [lev oct_of] in Q. lia. }
  pose proof (LG A HA) as (_ & _ & _ & _ & FAM). specialize (FAM MA).
  assert (SIBP : forall s, sibling g A s -> parent g s = parent g A) by (intros s Hs; apply (sibling_parent g _ T A s Hs)).
  split; [|split].
  - intros s Hs. destruct (FAM s Hs) as [HsL Ms]. split; [exact HsL|]. intros Hs'.
    pose proof (tiles_valid g _ s T HsL) as Vs.
    assert (Hq : in_dom g (corner g s)) by (apply corner_in_dom, Vs).
    assert (Cs : covers g s (corner g s)) by (apply corner_covers, Vs).
    assert (CB : covers g (parent g A) (corner g s)).
    { rewrite <- (SIBP s Hs), (parent_cell g _ T s _ Vs Hq Cs). destruct VB as [[V1 V2] _]. cbn [lev parent oct_of] in V1, V2.
      destruct Hs as [Hs _]. apply cell_at_covers; auto; lia. }
    pose proof (tiles_unique g _ _ s (parent g A) T' Hq Hs' HB Cs CB) as Q. apply (f_equal lev) in Q.
    unfold parent in Q. cbn [lev oct_of] in Q. destruct Hs. lia.
  - assert (HRM : In R M) by (eapply nth_error_In, HRr).
    assert (EQ : loc R' = flat_map (fun X => apply1 g X (m X)) (loc R)).
    { assert (Q : nth_error (map loc M') r = Some (loc R')) by (rewrite nth_error_map, HR'; reflexivity).
      rewrite EL in Q. unfold new_locs in Q. rewrite nth_error_map, HRr in Q. cbn in Q. congruence. }
    rewrite EQ in HP. apply in_flat_map in HP. destruct HP as (X & HX & HXB).
    assert (HXL : In X (leaves M)) by (unfold leaves; apply in_concat; exists (loc R); split; [apply in_map, HRM|exact HX]).
    pose proof (tiles_valid g _ X T HXL) as VX.
    destruct (m_cases g _ T m req LG X HXL) as [[M1 ML]|[M0|[M1 ML]]].
    + exfalso. rewrite M1 in HXB. pose proof (proj1 (in_children g (leaves M) T X (parent g A)) HXB) as CH.
      assert (C2 : covers g X p).
      { eapply (child_covers g (leaves M)); try eassumption; [apply CPA; assumption|]. destruct CH as [CH _]. lia. }
      pose proof (tiles_unique g _ p X A T Hp HXL HA C2 CA) as Q. subst X. destruct CH as [CH _]. unfold parent in CH. cbn [lev oct_of] in CH. lia.
    + exfalso. rewrite M0 in HXB. cbn in HXB. destruct HXB as [HXB|[]]. 
      assert (C2 : covers g X p) by (rewrite HXB; apply CPA; assumption).
      pose proof (tiles_unique g _ p X A T Hp HXL HA C2 CA) as Q. rewrite HXB in Q. apply (f_equal lev) in Q. unfold parent in Q. cbn [lev oct_of] in Q. lia.
    + rewrite M1 in HXB. apply (in_coarsened g WF (leaves M) T Hl X _ VX ML) in HXB. destruct HXB as [F Q].
      exists X. split; [|split; [apply (first_sib_coord g (leaves M) T), F|exact HX]].
      unfold parent, oct_of in Q. injection Q as Q0 Qx Qy Qz. split; [lia|]. intros []; symmetry; assumption.
  - apply In_nth_error in HB. destruct HB as [n Hn]. exists n. split; [exact Hn|]. intros n' Hn'.
    apply (proj1 (NoDup_nth_error (leaves M')) (tiles_NoDup g _ T')); [apply nth_error_Some; congruence|congruence].
Qed.

(** ** C10: level bounds
    [marked]: histories in which all markers come from the refine-condition helper, with
    arbitrary cell markers in {-1,0,1}. *)
Inductive marked (g : geom) (P : nat) : mesh -> Prop :=
| marked_init ord M : ord_ok ord -> private_init ord g P = Some M -> marked g P M
| marked_adapt ord fuel M cells M' : marked g P M -> ord_ok ord -> length cells = length M ->
    (forall cs c, In cs cells -> In c cs -> -1 <= snd c <= 1) ->
    adapt fuel ord g M (map (fun x => mark_cells g (loc (fst x)) (snd x)) (combine M cells)) = Some M' -> marked g P M'
| marked_balance ord level M M' : marked g P M -> ord_ok ord -> loadBalance ord g level M = Some M' -> marked g P M'.

Theorem C10_levels g P M : good_setup g P -> marked g P M -> forall A, In A (leaves M) -> lmin g <= lev A <= lmax g.
Proof.
  intros GS H. assert (R : reachable g P M).
  { induction H as [ord M Ho E|ord fuel M cells M' _ IH Ho HL HC E|ord level M M' _ IH Ho E].
    - eapply reach_init; eassumption.
    - eapply reach_adapt; [exact IH|exact Ho| |exact E]. apply mark_cells_good; [|exact HL|exact HC].
      intros A HA. apply (tiles_valid g _ A (ok_tiles g M (reachable_ok g P M GS IH)) HA).
    - eapply reach_balance; eassumption. }
  intros A HA. apply (tiles_valid g _ A (ok_tiles g M (reachable_ok g P M GS R)) HA).
Qed.

(** ** C11: load balancing *)
Theorem C11_load_balance g ord level M : wf_geom g -> ord_ok ord -> mesh_ok g M -> M <> [] -> 3 * Z.of_nat level < 64 ->
  exists M', loadBalance ord g level M = Some M' /\ length M' = length M /\ leaves M' = leaves M /\
    (forall R, In R M' -> loc R <> []) /\ mesh_ok g M' /\
    (level = O -> forall R R', In R M' -> In R' M' -> Z.of_nat (length (loc R)) <= Z.of_nat (length (loc R')) + 1).
Proof.
  intros WF Ho OK HN HL. destruct (loadBalance_full g ord level M WF Ho OK HN HL) as (M' & s & J & OI & E & OK' & L1 & L2 & _ & _ & L3).
  exists M'. split; [exact E|]. split; [exact L1|]. split; [exact L2|]. split; [apply OK'|]. split; [exact OK'|].
  intros E0 R R' H H'. pose proof (L3 E0 R H). pose proof (L3 E0 R' H'). lia.
Qed.

(** ** C12: user data travels with its octant
    The send lists returned by loadBalance, used to exchange any distributed array, give
    every octant of the new mesh the payload it had in the old one. *)
Theorem C12_payload_follows g ord level M : wf_geom g -> ord_ok ord -> mesh_ok g M -> M <> [] -> 3 * Z.of_nat level < 64 ->
  exists M' J OI sends, loadBalance ord g level M = Some M' /\ lb_sends g level M = Some (J, OI, sends) /\
    forall X (D : list (list X)), map (@length X) D = map (@length oct) (map loc M) ->
    exists D', exchange sends D = Some D' /\ map (@length X) D' = map (@length oct) (map loc M') /\
      forall A x, payload_at M D A x <-> payload_at M' D' A x.
Proof.
  intros WF Ho OK HN HL. destruct (loadBalance_full g ord level M WF Ho OK HN HL) as (M' & s & J & OI & E & OK' & L1 & L2 & L3 & L4 & _).
  exists M', J, OI, s. split; [exact E|]. split; [exact L3|]. intros X D HD.
  destruct (L4 X D HD) as (D' & E1 & E2 & E3). exists D'. split; [exact E1|]. split; [exact E2|].
  intros A x. rewrite (payload_at_concat M D A x HD), (payload_at_concat M' D' A x E2), L2, E3. reflexivity.
Qed.
(** Every octant of the mesh has exactly one payload. *)
Lemma payload_unique {X} g M (D : list (list X)) A : mesh_ok g M -> map (@length X) D = map (@length oct) (map loc M) ->
  In A (leaves M) -> exists! x, payload_at M D A x.
Proof.
  intros OK HD HA. apply In_nth_error in HA. destruct HA as [n Hn].
  assert (HLen : length (concat D) = length (leaves M)).
  { unfold leaves. revert HD. generalize (map loc M) as ls. clear. revert D. induction D as [|d D IH]; intros [|l ls]; try discriminate; [reflexivity|].
    cbn [map concat]. intros [= E0 E]. rewrite !app_length, (IH ls E). lia. }
  destruct (nth_error (concat D) n) as [x|] eqn:Ex; [|apply nth_error_None in Ex; assert (n < length (leaves M))%nat by (apply nth_error_Some; congruence); lia].
  exists x. split; [apply payload_at_concat; eauto|]. intros y Hy. apply payload_at_concat in Hy; [|exact HD]. destruct Hy as (n' & H1 & H2).
  assert (n = n'); [|subst; congruence].
  apply (proj1 (NoDup_nth_error (leaves M)) (tiles_NoDup g _ (ok_tiles g M OK))); [apply nth_error_Some; congruence|congruence].
Qed.

(** ** C13: ghost layer *)
Theorem C13_ghosts g P M : good_setup g P -> reachable g P M ->
  (forall R, In R M -> ghosts_exact g (leaves M) (loc R) (gho R)) /\ ghost_map_ok M.
Proof. intros GS H. pose proof (reachable_ok g P M GS H) as OK. split; apply OK. Qed.

(** ** C14: rank lookup *)
Theorem C14_find_rank J key : Sorted Z.le J -> (2 <= length J)%nat ->
  nth 0 J 0 <= key < nth (length J - 1) J 0 ->
  exists r, find_rank J key = Some (Z.of_nat r) /\ (S r < length J)%nat /\
    nth r J 0 <= key < nth (S r) J 0 /\
    forall r', (S r' < length J)%nat -> nth r' J 0 <= key < nth (S r') J 0 -> r' = r.
Proof.
  intros HS HL HK. assert (ND : forall i j, (i <= j)%nat -> (j < length J)%nat -> nth i J 0 <= nth j J 0).
  { apply Sorted_StronglySorted in HS; [|intros x y z; lia]. clear -HS. induction HS as [|x l S1 IH F]; intros i j Hij Hj; [cbn in Hj; lia|].
    destruct j as [|j]; [replace i with O by lia; cbn; lia|]. destruct i as [|i]; cbn [nth].
    - rewrite Forall_forall in F. apply F, nth_In. cbn in Hj. lia.
    - apply IH; cbn in Hj; lia. }
  assert (EX : forall n, (S n < length J)%nat -> key < nth (S n) J 0 -> exists r, (r <= n)%nat /\ nth r J 0 <= key < nth (S r) J 0).
  { induction n as [|n IH]; intros Hn Hk; [exists O; split; [lia|]; lia|].
    destruct (Z.le_gt_cases (nth (S n) J 0) key) as [H|H]; [exists (S n); split; [lia|]; lia|].
    destruct (IH ltac:(lia) H) as (r & Hr & Hr'). exists r. split; [lia|exact Hr']. }
  destruct (EX (length J - 2)%nat) as (r & Hr & Hk); [lia|replace (S (length J - 2)) with (length J - 1)%nat by lia; lia|].
  exists r. assert (HrL : (S r < length J)%nat) by lia. split; [|split; [exact HrL|split; [exact Hk|]]].
  - apply (find_rank_spec J key r (nth r J 0) (nth (S r) J 0)); [|apply nth_error_nth'; lia|apply nth_error_nth'; lia|exact Hk].
    intros i j a b Hij Ha Hb. assert (Hj : (j < length J)%nat) by (apply nth_error_Some; congruence).
    pose proof (ND i j Hij Hj) as Q. rewrite (nth_error_nth _ _ _ Ha), (nth_error_nth _ _ _ Hb) in Q. exact Q.
  - intros r' Hr' Hk'. destruct (Nat.lt_trichotomy r r') as [H|[H|H]]; [|lia|].
    + pose proof (ND (S r) r' H ltac:(lia)). lia.
    + pose proof (ND (S r') r H ltac:(lia)). lia.
Qed.

(** ** C15: neighbour query *)
Theorem C15_neighbours g M R i A d : wf_geom g -> mesh_ok g M -> In R M -> nth_error (loc R) i = Some A -> direction g d ->
  exists ns Bs, findNeighbors g (loc R ++ gho R) i d = Some ns /\
    Forall2 (fun k B => nth_error (loc R ++ gho R) k = Some B) ns Bs /\ NoDup Bs /\
    forall B, In B Bs <-> In B (leaves M) /\ adjacent g A d B.
Proof.
  intros WF OK HRM HA Hd. destruct (ok_ghosts g M OK R HRM) as [G1 G2].
  assert (HRL : incl (loc R) (leaves M)) by (intros X HX; unfold leaves; apply in_concat; exists (loc R); split; [apply in_map, HRM|exact HX]).
  assert (Hsub : incl (loc R ++ gho R) (leaves M)).
  { intros X HX. apply in_app_iff in HX. destruct HX as [HX|HX]; [apply HRL, HX|apply G2, HX]. }
  assert (HA' : nth_error (loc R ++ gho R) i = Some A) by (rewrite nth_error_app1; [exact HA|apply nth_error_Some; congruence]).
  apply (findNeighbors_correct g WF (leaves M) (loc R ++ gho R) i A (ok_tiles g M OK) (ok_balanced g M OK) Hsub HA'); [|exact Hd].
  intros B HB T. apply in_app_iff. destruct (in_dec oct_eq_dec B (loc R)) as [Hi|Hi]; [left; exact Hi|right].
  apply G2. split; [exact HB|]. split; [exact Hi|]. exists A. split; [eapply nth_error_In, HA|exact T].
Qed.
Theorem C15_zero_offset g st i A : nth_error st i = Some A -> findNeighbors g st i (fun _ => 0) = Some [i].
Proof. intros H. unfold findNeighbors. rewrite H. reflexivity. Qed.
(** Nothing is returned exactly when the direction leaves a non-periodic domain. *)
Theorem C15_boundary g M R i A d : wf_geom g -> mesh_ok g M -> In R M -> nth_error (loc R) i = Some A -> direction g d ->
  (findNeighbors g (loc R ++ gho R) i d = Some [] <->
   exists a, per g a = false /\ ~ 0 <= coord A a + d a < ncell g a (lev A)).
Proof.
  intros WF OK HRM HA Hd. destruct (C15_neighbours g M R i A d WF OK HRM HA Hd) as (ns & Bs & E & F & _ & HB).
  assert (HAL : In A (leaves M)) by (unfold leaves; apply in_concat; exists (loc R); split; [apply in_map, HRM|eapply nth_error_In, HA]).
  pose proof (tiles_valid g _ A (ok_tiles g M OK) HAL) as VA. rewrite E. split.
  - intros [= ->]. inversion F; subst.
    assert (DEC : (exists a, per g a = false /\ ~ 0 <= coord A a + d a < ncell g a (lev A)) \/ inside g A d).
    { assert (D : forall a, (per g a = false /\ ~ 0 <= coord A a + d a < ncell g a (lev A)) \/ (per g a = true \/ 0 <= coord A a + d a < ncell g a (lev A))).
      { intros a. destruct (per g a); [auto|]. destruct (Z_le_dec 0 (coord A a + d a)), (Z_lt_dec (coord A a + d a) (ncell g a (lev A))); [right; right; lia|left; split; [reflexivity|lia]..]. }
      destruct (D AX) as [D1|D1]; [left; exists AX; exact D1|]. destruct (D AY) as [D2|D2]; [left; exists AY; exact D2|].
      destruct (D AZ) as [D3|D3]; [left; exists AZ; exact D3|]. right. intros []; assumption. }
    destruct DEC as [DEC|IN]; [exact DEC|exfalso].
    destruct (facing_exists g WF A d VA Hd IN) as [q Hq].
    destruct (tiles_leaf g (leaves M) q (ok_tiles g M OK)) as (B & HBL & CB); [apply Hq|].
    apply (proj2 (HB B)). split; [exact HBL|]. apply adjacent_facing; [exact WF|exact VA|exact Hd|]. exists q. auto.
  - intros (a & P1 & P2). f_equal. destruct ns as [|n ns]; [reflexivity|exfalso]. inversion F as [|? B ? ? HnB F' E1 E2]; subst.
    destruct (proj1 (HB B) (or_introl eq_refl)) as [_ AD]. apply adjacent_facing in AD; [|assumption..].
    destruct AD as (q & (IN & _) & _). destruct (IN a) as [Q|Q]; [congruence|contradiction].
Qed.
(** The answer is one leaf, not finer than the octant, or all the half-size leaves of the
    side: 2 to the number of directions along which the side extends. *)
Definition side_dims (g : geom) (d : axis -> Z) : Z :=
  let e a := if flat g a then 0 else if d a =? 0 then 1 else 0 in e AX + e AY + e AZ.
Theorem C15_shape g M R i A d ns : wf_geom g -> mesh_ok g M -> In R M -> nth_error (loc R) i = Some A -> direction g d ->
  findNeighbors g (loc R ++ gho R) i d = Some ns ->
  ns = [] \/
  (exists k B, ns = [k] /\ nth_error (loc R ++ gho R) k = Some B /\ lev A - 1 <= lev B <= lev A) \/
  (Z.of_nat (length ns) = 2^side_dims g d /\
   forall k, In k ns -> exists B, nth_error (loc R ++ gho R) k = Some B /\ lev B = lev A + 1).
Proof.
  intros WF OK HRM HA Hd E. set (st := loc R ++ gho R) in *.
  assert (HA' : nth_error st i = Some A) by (unfold st; rewrite nth_error_app1; [exact HA|apply nth_error_Some; congruence]).
  unfold findNeighbors in E. rewrite HA' in E.
  assert (E0 : (d AX =? 0) && (d AY =? 0) && (d AZ =? 0) = false) by (apply all0_false, Hd). rewrite E0 in E.
  destruct (isBoundary g A d); [injection E as <-; left; reflexivity|]. right. cbv zeta in E.
  destruct (find_pos (shifted g A d) st) as [k|] eqn:E1.
  { injection E as <-. left. exists k, (shifted g A d). split; [reflexivity|]. split; [apply find_pos_some, E1|]. cbn [shifted oct_of lev]. lia. }
  destruct (find_pos (oct_of _ _) st) as [k|] eqn:E2.
  { injection E as <-. left. eexists k, _. split; [reflexivity|]. split; [apply find_pos_some, E2|]. cbn [shifted oct_of lev]. lia. }
  right. apply mapM_Some in E. split.
  - assert (HLen : length (suboctants g (shifted g A d) d) = length ns) by (clear -E; induction E; cbn; congruence).
    rewrite <- HLen. unfold suboctants, side_dims. destruct (flat g AX), (flat g AY), (flat g AZ), (d AX =? 0), (d AY =? 0), (d AZ =? 0); reflexivity.
  - intros k Hk. assert (G : exists s, In s (suboctants g (shifted g A d) d) /\ find_pos s st = Some k).
    { clear -E Hk. induction E as [|s k' l ks H E IH]; [destruct Hk|]. destruct Hk as [->|Hk]; [exists s; split; [left; reflexivity|exact H]|].
      destruct (IH Hk) as (s' & H1 & H2). exists s'. split; [right; exact H1|exact H2]. }
    destruct G as (s & Hs & Hf). exists s. split; [apply find_pos_some, Hf|]. apply in_suboctants in Hs. destruct Hs as [Hs _]. rewrite Hs. reflexivity.
Qed.

(** ** C16: symmetry
    If leaf [B] is found from leaf [A] on the rank owning [A], then [A] is found from [B] on
    the rank owning [B]. *)
Definition found (g : geom) (R : rank) (A B : oct) : Prop :=
  exists i d ns k, nth_error (loc R) i = Some A /\ direction g d /\
    findNeighbors g (loc R ++ gho R) i d = Some ns /\ In k ns /\ nth_error (loc R ++ gho R) k = Some B.
Theorem C16_symmetric g M RA RB A B : wf_geom g -> mesh_ok g M -> In RA M -> In RB M -> In B (loc RB) ->
  A <> B -> found g RA A B -> found g RB B A.
Proof.
  intros WF OK HRA HRB HB NE (i & d & ns & k & Hi & Hd & E & Hk & HkB).
  destruct (C15_neighbours g M RA i A d WF OK HRA Hi Hd) as (ns' & Bs & E' & F & _ & HBs).
  assert (ns' = ns) as -> by congruence.
  assert (HBB : In B Bs).
  { clear -F Hk HkB. induction F as [|k' B' ns Bs H F IH]; [destruct Hk|]. destruct Hk as [->|Hk]; [left; congruence|right; apply IH, Hk]. }
  apply HBs in HBB. destruct HBB as [HBL AD].
  assert (HAL : In A (leaves M)) by (unfold leaves; apply in_concat; exists (loc RA); split; [apply in_map, HRA|eapply nth_error_In, Hi]).
  pose proof (tiles_valid g _ A (ok_tiles g M OK) HAL) as VA. pose proof (tiles_valid g _ B (ok_tiles g M OK) HBL) as VB.
  assert (TT : touch g B A) by (apply touch_sym; eapply adjacent_touch; eassumption).
  destruct (touch_adjacent g B A VB VA TT) as (d' & Hd' & AD').
  { intros p Hp C1 C2. apply NE. exact (tiles_unique g _ p A B (ok_tiles g M OK) Hp HAL HBL C2 C1). }
  apply In_nth_error in HB. destruct HB as [j Hj]. pose proof (directions_spec g d' Hd') as DD.
  destruct (C15_neighbours g M RB j B d' WF OK HRB Hj DD) as (ns2 & Bs2 & E2 & F2 & _ & HBs2).
  assert (HIn : In A Bs2) by (apply HBs2; auto).
  assert (G : exists k2, In k2 ns2 /\ nth_error (loc RB ++ gho RB) k2 = Some A).
  { clear -F2 HIn. induction F2 as [|k' B' ns Bs H F IH]; [destruct HIn|]. destruct HIn as [->|HIn]; [exists k'; split; [left; reflexivity|exact H]|].
    destruct (IH HIn) as (k2 & H1 & H2). exists k2. split; [right; exact H1|exact H2]. }
  destruct G as (k2 & G1 & G2). exists j, d', ns2, k2. auto.
Qed.

(** ** C45: global numbering *)
Theorem C45_numbered g P M : good_setup g P -> reachable g P M -> numbered M /\ zsorted g (leaves M).
Proof. intros GS H. pose proof (reachable_ok g P M GS H) as OK. split; apply OK. Qed.
(** Spelled out: the global indices of all octants are 0..N-1, and N is the reported count. *)
Definition global_indices (M : mesh) : list Z := flat_map (fun R => map (fun i => gfirst R + Z.of_nat i) (seq 0 (length (loc R)))) M.
Lemma seq_shift_Z pre n : forall k, map (fun i => Z.of_nat pre + Z.of_nat i) (seq k n) = map Z.of_nat (seq (pre + k) n).
Proof. induction n as [|n IH]; intros k; [reflexivity|]. cbn [seq map]. f_equal; [lia|]. rewrite IH. do 2 f_equal. lia. Qed.
Lemma numbered_shift M pre : (forall r R, nth_error M r = Some R -> forall i A, nth_error (loc R) i = Some A ->
     0 <= gfirst R /\ gfirst R = Z.of_nat (pre + length (concat (map loc (firstn r M))))) ->
  global_indices M = map Z.of_nat (seq pre (length (leaves M))).
Proof.
  revert pre. induction M as [|R M IH]; intros pre H; [reflexivity|]. unfold global_indices, leaves. cbn [flat_map map concat].
  rewrite app_length, seq_app, map_app. f_equal.
  - destruct (loc R) as [|A l] eqn:EL; [reflexivity|]. destruct (H O R eq_refl O A) as [_ Q]; [rewrite EL; reflexivity|]. cbn in Q.
    rewrite Q, Nat.add_0_r. rewrite seq_shift_Z, Nat.add_0_r. reflexivity.
  - fold (global_indices M). rewrite (IH (pre + length (loc R))%nat); [reflexivity|].
    intros r R' HR' i A HA. destruct (H (S r) R' HR' i A HA) as [H1 H2]. split; [exact H1|]. rewrite H2. cbn [firstn map concat]. rewrite app_length. lia.
Qed.
Theorem C45_indices g P M : good_setup g P -> reachable g P M ->
  global_indices M = map Z.of_nat (seq 0 (length (leaves M))) /\ forall R, In R M -> gtotal R = Z.of_nat (length (leaves M)).
Proof.
  intros GS H. pose proof (reachable_ok g P M GS H) as OK. pose proof (ok_numbered g M OK) as HN. split.
  - apply numbered_shift. intros r R HR i A HA. destruct (HN r R HR) as [_ H1].
    assert (ND := tiles_NoDup g _ (ok_tiles g M OK)).
    destruct (H1 i A HA) as [H2 H3]. split; [exact H2|].
    assert (Q : nth_error (leaves M) (length (concat (map loc (firstn r M))) + i) = Some A).
    { unfold leaves. rewrite <- (firstn_skipn r M) at 1. rewrite map_app, concat_app, nth_error_app2 by lia.
      replace (length (concat (map loc (firstn r M))) + i - length (concat (map loc (firstn r M))))%nat with i by lia.
      assert (SK : skipn r M = R :: skipn (S r) M) by (clear -HR; revert M HR; induction r as [|r IH]; intros [|R0 M] HR; try discriminate HR; [injection HR as ->; reflexivity|apply IH, HR]).
      rewrite SK. cbn [map concat]. rewrite nth_error_app1; [exact HA|apply nth_error_Some; congruence]. }
    assert (E : (length (concat (map loc (firstn r M))) + i)%nat = Z.to_nat (gfirst R + Z.of_nat i)).
    { apply (proj1 (NoDup_nth_error (leaves M)) ND); [apply nth_error_Some; congruence|congruence]. }
    lia.
  - intros R HR. apply In_nth_error in HR. destruct HR as [r HR]. apply (HN r R HR).
Qed.

(** * Concrete cases
    A 3D mesh of 2x2x1 coarse cells (not a cube), periodic along x, on two ranks: build,
    refine the first cell, balance, coarsen it again. All hypotheses above are met. *)
Definition id_order : order := fun _ _ l => l.
Lemma id_order_ok : ord_ok id_order. Proof. intros me d l. apply Permutation_refl. Qed.
Definition ex_g : geom := mkGeom true 1 3 2 2 1 true false false.
Definition ex_M0 : mesh := match private_init id_order ex_g 2 with Some M => M | None => [] end.
Definition ex_refine (o : oct) : Z := if (cx o =? 0) && (cy o =? 0) then 1 else 0.
Definition ex_M1 : mesh := match adapt 20 id_order ex_g ex_M0 (map (map ex_refine) (map loc ex_M0)) with Some M => M | None => [] end.
Definition ex_M2 : mesh := match loadBalance id_order ex_g 0 ex_M1 with Some M => M | None => [] end.
Definition ex_coarsen (o : oct) : Z := if lev o =? 2 then -1 else 0.

Lemma wf_geom_check g : (0 <=? lmin g) && (lmin g <=? lmax g) && (lmax g <=? 20) &&
  forallb (fun a => (1 <=? gsize g a) && (gsize g a <=? 2^lmin g)) [AX; AY; AZ] && (g3d g || (gsz g =? 1)) = true -> wf_geom g.
Proof.
  cbn [forallb]. rewrite !andb_true_iff, orb_true_iff, !Z.leb_le, Z.eqb_eq. unfold wf_geom.
  intros H. assert (H7 := proj2 H). repeat split; try tauto; try (destruct a; tauto).
  intros E. rewrite E in H7. destruct H7; [discriminate|assumption].
Qed.
Example ex_setup : good_setup ex_g 2.
Proof.
  split; [apply wf_geom_check; reflexivity|]. cbn [ex_g lmin gsx gsy gsz]. lia.
Qed.
Lemma good_request_check g L req :
  forallb (fun A => (-1 <=? req A) && (req A <=? 1) && (lmin g <=? lev A + req A) && (lev A + req A <=? lmax g)) L = true -> good_request g L req.
Proof. intros H A HA. rewrite forallb_forall in H. specialize (H A HA). lia. Qed.
Lemma good_markers_of g M req : good_request g (leaves M) req -> good_markers g M (map (map req) (map loc M)).
Proof.
  unfold good_markers, leaves, good_request. generalize (map loc M) as ls. induction ls as [|l ls IH]; intros H; cbn; constructor.
  - assert (H1 : forall A, In A l -> -1 <= req A <= 1 /\ lmin g <= lev A + req A <= lmax g) by (intros A HA; apply H; cbn; apply in_app_iff; left; exact HA).
    clear -H1. induction l as [|A l IH]; cbn; constructor; [apply H1; left; reflexivity|apply IH; intros B HB; apply H1; right; exact HB].
  - apply IH. intros A HA. apply H. cbn. apply in_app_iff. right. exact HA.
Qed.
Example ex_reach0 : reachable ex_g 2 ex_M0.
Proof. apply (reach_init ex_g 2 id_order); [exact id_order_ok|vm_compute; reflexivity]. Qed.
Example ex_reach1 : reachable ex_g 2 ex_M1.
Proof.
  apply (reach_adapt ex_g 2 id_order 20 ex_M0 (map (map ex_refine) (map loc ex_M0))); [exact ex_reach0|exact id_order_ok| |vm_compute; reflexivity].
  apply good_markers_of, good_request_check. vm_compute. reflexivity.
Qed.
Example ex_reach2 : reachable ex_g 2 ex_M2.
Proof. apply (reach_balance ex_g 2 id_order 0 ex_M1); [exact ex_reach1|exact id_order_ok|vm_compute; reflexivity]. Qed.
Example ex_ok2 : mesh_ok ex_g ex_M2. Proof. exact (reachable_ok ex_g 2 ex_M2 ex_setup ex_reach2). Qed.
(** 8 children of the first cell and 3 other cells; the family is split over both ranks. *)
Example ex_sizes : map (fun R => length (loc R)) ex_M2 = [5; 6]%nat /\ length (leaves ex_M2) = 11%nat /\
  map (fun R => length (gho R)) ex_M2 = [6; 5]%nat.
Proof. vm_compute. repeat split. Qed.
Example ex_request : good_request ex_g (leaves ex_M2) ex_coarsen /\ forall R, In R ex_M2 -> keeps_one ex_coarsen R.
Proof.
  split; [apply good_request_check; vm_compute; reflexivity|].
  assert (H : forallb (fun R => existsb (fun A => (0 <=? ex_coarsen A) || ((cx A mod 2 =? 0) && (cy A mod 2 =? 0) && (cz A mod 2 =? 0))) (loc R)) ex_M2 = true) by (vm_compute; reflexivity).
  rewrite forallb_forall in H. intros R HR. specialize (H R HR). apply existsb_exists in H. destruct H as (A & HA & H).
  exists A. split; [exact HA|]. apply orb_true_iff in H. destruct H as [H|H]; [left; clear -H; lia|right]. clear -H. intros []; cbn [coord]; lia.
Qed.
(** Coarsening the split family gives back the coarse mesh, the parent being on rank 0. *)
Example ex_coarsened : exists M3, adapt 30 id_order ex_g ex_M2 (map (map ex_coarsen) (map loc ex_M2)) = Some M3 /\
  map loc M3 = [[mkOct 1 0 0 0]; [mkOct 1 1 0 0; mkOct 1 0 1 0; mkOct 1 1 1 0]].
Proof. eexists. split; vm_compute; reflexivity. Qed.
(** A request that forces a neighbour: refining one child twice. *)
Definition ex_deep (o : oct) : Z := if (lev o =? 2) && (cx o =? 0) && (cy o =? 0) && (cz o =? 0) then 1 else -1.
Example ex_forced : marker_loop 30 30 ex_g ex_M2 (map (map (fun o => if lev o =? 1 then 0 else ex_deep o)) (map loc ex_M2)) =
  Some [[1; 0; 0; 0; 0]; [0; 0; 0; 1; 0; 0]].
Proof. vm_compute. reflexivity. Qed.
Example ex_refine_all : exists fuel M', adaptGlobalRefine fuel id_order ex_g ex_M2 = Some M'.
Proof.
  apply (proj2 (proj2 (proj2 (C04_progress ex_g 2 ex_setup)))); [exact id_order_ok|exact ex_reach2|].
  intros o Ho. assert (H : forallb (fun o => lev o <? lmax ex_g) (leaves ex_M2) = true) by (vm_compute; reflexivity).
  rewrite forallb_forall in H. specialize (H o Ho). lia.
Qed.

(** Rank lookup with an empty interval. *)
Example ex_find_rank : find_rank [0; 8; 8; 24; 64] 8 = Some 2.
Proof. reflexivity. Qed.

(** * Limits of the claims, shown on the model of the code *)

Lemma adapt_none_any F ord g M mk r : marker_loop F F g M mk = Some r -> adapt F ord g M mk = None ->
  forall fuel, adapt fuel ord g M mk = None.
Proof.
  intros E1 E2 fuel. destruct (adapt fuel ord g M mk) as [M'|] eqn:E; [|reflexivity]. exfalso.
  assert (Q : adapt (fuel + F) ord g M mk = Some M') by (apply (adapt_mono fuel); [lia|exact E]).
  unfold adapt in E2, Q. rewrite E1 in E2. rewrite (marker_loop_mono g M F (fuel + F) F ltac:(lia) (fuel + F) mk r ltac:(lia) E1) in Q. congruence.
Qed.

(** A rank that loses all its octants in adapt makes the code read the first octant of an
    empty storage, although markers, mesh and setup are all valid: four ranks, seven
    octants, one family coarsened. *)
Definition bad_g : geom := mkGeom false 1 2 2 2 1 false false false.
Definition bad_M0 : mesh := match private_init id_order bad_g 4 with Some M => M | None => [] end.
Definition bad_M1 : mesh := match adapt 20 id_order bad_g bad_M0 [[1];[0];[0];[0]] with Some M => M | None => [] end.
Definition bad_M2 : mesh := match loadBalance id_order bad_g 0 bad_M1 with Some M => M | None => [] end.
Theorem C04_refuted_emptied_rank : exists g P M req, good_setup g P /\ reachable g P M /\ good_request g (leaves M) req /\
  forall fuel, adapt fuel id_order g M (map (map req) (map loc M)) = None.
Proof.
  exists bad_g, 4%nat, bad_M2, ex_coarsen. split; [|split; [|split]].
  - split; [apply wf_geom_check; reflexivity|]. cbn [bad_g lmin gsx gsy gsz]. lia.
  - apply (reach_balance bad_g 4 id_order 0 bad_M1); [|exact id_order_ok|vm_compute; reflexivity].
    apply (reach_adapt bad_g 4 id_order 20 bad_M0 [[1];[0];[0];[0]]); [|exact id_order_ok| |vm_compute; reflexivity].
    + apply (reach_init bad_g 4 id_order); [exact id_order_ok|vm_compute; reflexivity].
    + unfold good_markers. vm_compute. repeat constructor; discriminate.
  - apply good_request_check. vm_compute. reflexivity.
  - apply (adapt_none_any 20 id_order bad_g bad_M2 _ [[-1]; [-1; -1]; [-1; 0]; [0; 0]]); vm_compute; reflexivity.
Qed.

(** With level_min = 0 the 32-bit unsigned level comparisons wrap: on a periodic mesh of
    one octant, asking for no change yields the marker -1. *)
Theorem C06_refuted_level_min_0 : exists g M req mk, wf_geom g /\ lmin g = 0 /\ mesh_ok g M /\ good_request g (leaves M) req /\
  (forall A, In A (leaves M) -> req A = 0) /\
  marker_loop 10 10 g M (map (map req) (map loc M)) = Some mk /\ mk = [[-1]].
Proof.
  set (g := mkGeom false 0 2 1 1 1 true true false).
  assert (WF : wf_geom g) by (apply wf_geom_check; reflexivity).
  destruct (private_init_ok g WF 1 ltac:(lia) ltac:(cbn; lia) ltac:(cbn; lia) id_order id_order_ok) as (M & E & OK & _ & HI & _).
  exists g, M, (fun _ => 0), [[-1]]. split; [exact WF|]. split; [reflexivity|]. split; [exact OK|]. split; [|split; [reflexivity|]].
  - intros A HA. apply HI in HA. destruct HA as [-> _]. cbn. lia.
  - assert (EM : M = [mkRank [mkOct 0 0 0 0] [] [[]] 0 1]).
    { apply (f_equal (fun o => match o with Some x => x | None => [] end)) in E. rewrite <- E. vm_compute. reflexivity. }
    rewrite EM. split; [vm_compute; reflexivity|reflexivity].
Qed.
(** Without the periodic boundary: coarsening the four level-1 leaves yields markers -2,
    for which no octant at all is written: the whole mesh vanishes. *)
Theorem C04_refuted_level_min_0 : exists g M mk, wf_geom g /\ lmin g = 0 /\ reachable g 1 M /\
  good_markers g M [[-1; -1; -1; -1]] /\
  marker_loop 30 30 g M [[-1; -1; -1; -1]] = Some mk /\
  flat_map (fun x => apply_markers g (loc (fst x)) (snd x)) (combine M mk) = [].
Proof.
  set (g := mkGeom false 0 2 1 1 1 false false false).
  set (M0 := match private_init id_order g 1 with Some M => M | None => [] end).
  set (M1 := match adapt 10 id_order g M0 [[1]] with Some M => M | None => [] end).
  exists g, M1, [[-2; -2; -2; -2]]. split; [|split; [reflexivity|split; [|split; [|split]]]].
  - apply wf_geom_check; reflexivity.
  - apply (reach_adapt g 1 id_order 10 M0 [[1]]); [|exact id_order_ok| |vm_compute; reflexivity].
    + apply (reach_init g 1 id_order); [exact id_order_ok|vm_compute; reflexivity].
    + unfold good_markers. vm_compute. repeat constructor; discriminate.
  - unfold good_markers. vm_compute. repeat constructor; discriminate.
  - vm_compute. reflexivity.
  - vm_compute. reflexivity.
Qed.

(** With more ranks than coarse cells rank 0 starts empty, and after one adapt that changes
    nothing the owner of the first octant has no ghosts, although it touches leaves of
    other ranks. *)
Theorem C13_refuted_more_ranks_than_cells : exists g P M R, wf_geom g /\ 1 <= lmin g /\ reachable g P M /\ In R M /\
  ~ ghosts_exact g (leaves M) (loc R) (gho R).
Proof.
  set (M0 := match private_init id_order bad_g 5 with Some M => M | None => [] end).
  set (M1 := match adapt 20 id_order bad_g M0 [[];[0];[0];[0];[0]] with Some M => M | None => [] end).
  exists bad_g, 5%nat, M1, (mkRank [mkOct 1 0 0 0] [] [[]; []; [0%nat]; [0%nat]; [0%nat]] 0 4).
  split; [|split; [cbn; lia|split; [|split]]].
  - apply wf_geom_check; reflexivity.
  - apply (reach_adapt bad_g 5 id_order 20 M0 [[];[0];[0];[0];[0]]); [|exact id_order_ok| |vm_compute; reflexivity].
    + apply (reach_init bad_g 5 id_order); [exact id_order_ok|vm_compute; reflexivity].
    + unfold good_markers. vm_compute. repeat constructor; discriminate.
  - vm_compute. right. left. reflexivity.
  - intros [_ H]. cbn [gho loc] in H. apply (proj2 (H (mkOct 1 1 0 0))). split; [|split].
    + vm_compute. tauto.
    + intros [Q|[]]. discriminate.
    + exists (mkOct 1 0 0 0). split; [left; reflexivity|].
      exists (mkPt 1 0 0), (mkPt 2 0 0). repeat split; try (destruct a; vm_compute; intuition congruence); try (intros []; vm_compute; intuition congruence).
Qed.

Print Assumptions C03_initial_mesh.
Print Assumptions C04_tiles.
Print Assumptions C04_progress.
Print Assumptions C05_balanced.
Print Assumptions C05_adapt.
Print Assumptions C06_least_change.
Print Assumptions C06_requests_honoured.
Print Assumptions C06_global_refine.
Print Assumptions C07_independent_of_partition.
Print Assumptions C08_terminates.
Print Assumptions C09_complete_families.
Print Assumptions C10_levels.
Print Assumptions C11_load_balance.
Print Assumptions C12_payload_follows.
Print Assumptions C13_ghosts.
Print Assumptions C14_find_rank.
Print Assumptions C15_neighbours.
Print Assumptions C15_zero_offset.
Print Assumptions C15_boundary.
Print Assumptions C15_shape.
Print Assumptions C16_symmetric.
Print Assumptions C45_numbered.
Print Assumptions C45_indices.
Print Assumptions C04_refuted_emptied_rank.
Print Assumptions C06_refuted_level_min_0.
Print Assumptions C04_refuted_level_min_0.
Print Assumptions C13_refuted_more_ranks_than_cells.
