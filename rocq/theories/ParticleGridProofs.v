(** Proofs about the distribution of particles and the grid of particles. *)
From Coq Require Import QArith Qround Qcanon Permutation Lqa.
From Verif Require Import Base MortonModel OctreeSpec OctreeGeom OctreeModel FindNeighbors MeshSpec HistorySpec HistoryProofs
  LookupSpec LookupModel LookupProps CommModel CommSpec CommProps FieldModel FieldBalanceProps CellModel HydroModel HydroSpec HydroProps RemapProofs ParticleModel ParticleProofs CloudProofs
  GravityModel GravityLoop RKProofs ParticleGridModel ParticleGridSpec.
Open Scope Z_scope.

(** * The owner of a position *)
Section Owner.
Context (g : geom) (M : mesh) (WF : wf_geom g) (CU : cubic g) (OK : mesh_ok g M).

(** Centre of the finest cell at a position. *)
Definition mid (p : position) : position := fun a =>
  if flat g a then 0%Q else ((inject_Z (Qfloor (p a * inject_Z (ncell g a (lmax g)))) + (1 # 2)) / inject_Z (ncell g a (lmax g)))%Q.
Lemma mid_floor p a : flat g a = false -> Qfloor (mid p a * inject_Z (ncell g a (lmax g))) = Qfloor (p a * inject_Z (ncell g a (lmax g))).
Proof.
  intros F. unfold mid. rewrite F. pose proof (ncell_pos g WF a (lmax g) (wf_minmax g WF)) as NP. pose proof (inject_pos _ NP) as NQ. set (N := inject_Z (ncell g a (lmax g))) in *. set (f := Qfloor (p a * N)).
  apply Qfloor_iff. assert (E : ((inject_Z f + (1 # 2)) / N * N == inject_Z f + (1 # 2))%Q) by (field; lra).
  split; rewrite E; [lra|]. rewrite inject_Z_plus. change (inject_Z 1) with 1%Q. lra.
Qed.
Lemma floor_below p a l : flat g a = false -> lmin g <= l <= lmax g -> Qfloor (p a * inject_Z (ncell g a l)) = Qfloor (p a * inject_Z (ncell g a (lmax g))) / 2^(lmax g - l).
Proof.
  intros F HL. pose proof (ncell_split g a l (lmax g - l) ltac:(lia) ltac:(lia)) as E. rewrite F in E. replace (l + (lmax g - l)) with (lmax g) in E by lia. rewrite E.
  assert (EQ : (p a * inject_Z (ncell g a l * 2 ^ (lmax g - l)) == p a * inject_Z (ncell g a l) * inject_Z (2 ^ (lmax g - l)))%Q) by (rewrite inject_Z_mult; ring).
  rewrite (Qfloor_comp _ _ EQ). symmetry. apply Qfloor_mul_div, pow2_pos. lia.
Qed.
Lemma mid_inside p : (forall a, flat g a = false -> (0 <= p a)%Q /\ (p a < 1)%Q) -> inside_domain g (mid p).
Proof.
  intros H. split; intros a F; [|unfold mid; rewrite F; reflexivity]. destruct (H a F) as (H1 & H2).
  unfold mid. rewrite F. pose proof (ncell_pos g WF a (lmax g) (wf_minmax g WF)) as NP. pose proof (inject_pos _ NP) as NQ.
  destruct (proj1 (Qfloor_iff (p a * inject_Z (ncell g a (lmax g))) _) eq_refl) as (A & B). set (f := Qfloor _) in *.
  assert (F0 : 0 <= f). { assert (0 < f + 1); [|lia]. rewrite Zlt_Qlt. change (inject_Z 0) with 0%Q. apply (Qle_lt_trans _ (p a * inject_Z (ncell g a (lmax g)))); [|exact B]. apply Qmult_le_0_compat; lra. }
  assert (F1 : f + 1 <= ncell g a (lmax g)). { assert (f < ncell g a (lmax g)); [|lia]. rewrite Zlt_Qlt. apply (Qle_lt_trans _ _ _ A). rewrite <- (Qmult_1_l (inject_Z (ncell g a (lmax g)))) at 2. apply Qmult_lt_r; lra. }
  assert (G0 : (0 <= inject_Z f)%Q) by (change 0%Q with (inject_Z 0); rewrite <- Zle_Qle; exact F0).
  assert (G1 : (inject_Z f + 1 <= inject_Z (ncell g a (lmax g)))%Q) by (change 1%Q with (inject_Z 1); rewrite <- inject_Z_plus, <- Zle_Qle; exact F1).
  split; [apply Qlt_shift_div_l|apply Qlt_shift_div_r]; lra.
Qed.
Lemma mid_finest p : finest_cell g (mid p) = finest_cell g p.
Proof.
  assert (C : forall a, flat g a = false -> floor_div (mid p a) (cell_count g a (lmax g)) = floor_div (p a) (cell_count g a (lmax g))).
  { intros a F. unfold floor_div. rewrite (cell_count_eq g WF) by (pose proof (wf_minmax g WF); pose proof (wf_lmin0 g WF); lia || assumption). apply mid_floor, F. }
  unfold finest_cell. rewrite (C AX eq_refl), (C AY eq_refl). destruct (g3d g) eqn:G3; [|reflexivity]. rewrite C by (cbn [flat]; rewrite G3; reflexivity). reflexivity.
Qed.
(** The rank found for a position owns the octant that contains it. *)
Lemma owner_found p : (forall a, (0 <= p a)%Q /\ (p a < 1)%Q) ->
  exists J r R A, morton_intervals g (map loc M) = Some J /\ getDomainFromPos g J p = Some (Z.of_nat r) /\ nth_error M r = Some R /\ In A (loc R) /\ contains g A p.
Proof.
  intros H. destruct (C18_owner_partial g M (mid p) WF CU OK (mid_inside p (fun a _ => H a))) as (J & r & R & A & EJ & ED & HR & HA & CA).
  exists J, r, R, A. split; [exact EJ|]. split; [unfold getDomainFromPos in *; rewrite mid_finest in ED; exact ED|]. split; [exact HR|]. split; [exact HA|].
  assert (VA : valid g A). { apply (tiles_valid g _ A (ok_tiles g M OK)). unfold leaves. apply in_concat. exists (loc R). split; [apply in_map; eapply nth_error_In; exact HR|exact HA]. }
  destruct VA as (VL & VC). intros a. specialize (CA a). cbv zeta in CA |- *. destruct (flat g a) eqn:F.
  - pose proof (VC a) as C. unfold ncell in *. rewrite F in *. assert (E : coord A a = 0) by lia. rewrite E. change (inject_Z 0) with 0%Q. change (inject_Z (0 + 1)) with 1%Q. change (inject_Z 1) with 1%Q.
    destruct (H a). assert (E1 : (0 / 1 == 0)%Q) by reflexivity. assert (E2 : (1 / 1 == 1)%Q) by reflexivity. split; lra.
  - apply slice_floor; [apply (ncell_pos g WF); lia|]. apply slice_floor in CA; [|apply (ncell_pos g WF); lia].
    rewrite floor_below in CA |- * by (assumption || lia). rewrite mid_floor in CA by exact F. exact CA.
Qed.
End Owner.

(** * distribute *)
Lemma select_length {A} r (U : list A) D : length U = length D -> length (select r U D) = length (filter (Nat.eqb r) D).
Proof.
  unfold select. rewrite map_length. revert D. induction U as [|u U IH]; intros [|d D] L; try discriminate; [reflexivity|]. cbn [combine filter snd]. rewrite (Nat.eqb_sym d r).
  destruct (Nat.eqb r d); cbn [length]; rewrite (IH D) by (cbn in L; lia); reflexivity.
Qed.
Lemma domain_comm_sizes P D c r : domain_comm P D = Some c -> (r < P)%nat -> nth r (c_sizes c) 0%nat = length (filter (Nat.eqb r) D).
Proof.
  unfold domain_comm. destruct (negb _); [discriminate|]. intros [= <-] HR. cbn [c_sizes]. erewrite (nth_indep _ _ (length (filter (Nat.eqb r) D))) by (rewrite map_length, seq_length; exact HR).
  apply nth_error_nth. rewrite nth_error_map. rewrite (nth_error_nth' _ 0%nat) by (rewrite seq_length; exact HR). rewrite seq_nth by exact HR. reflexivity.
Qed.
Lemma received_count {A} P (items : list (list A)) doms C r : dests_ok P items doms -> mapM (domain_comm P) doms = Some C -> (r < P)%nat ->
  nsum (recv_sizes C r) = length (delivered r items doms).
Proof.
  intros (_ & HD) EC HR. apply mapM_Some in EC. revert items HD. induction EC as [|D c doms C Ec EC IH]; intros items HD.
  - inversion HD. reflexivity.
  - inversion HD as [|U D' items' doms' (L & _) HD']. subst. unfold delivered, recv_sizes in *. cbn [combine map concat nsum fst snd]. rewrite app_length, (select_length r U D L), (domain_comm_sizes P D c r Ec HR). f_equal. apply IH, HD'.
Qed.
Lemma delivered_in {A} r (items : list (list A)) doms x : In x (delivered r items doms) -> exists U, In U items /\ In x U.
Proof.
  unfold delivered. intros H. apply in_concat in H. destruct H as (l & HL & HX). apply in_map_iff in HL. destruct HL as ((U & D) & <- & HL). exists U. split; [apply (in_combine_l _ _ _ _ HL)|].
  unfold select in HX. apply in_map_iff in HX. destruct HX as ((y & d) & <- & HX). apply filter_In in HX. destruct HX as (HX & _). apply (in_combine_l _ _ _ _ HX).
Qed.
Lemma delivered_dest {A} r (items : list (list A)) doms (Q : A -> nat -> Prop) x : Forall2 (fun U D => Forall2 Q U D) items doms -> In x (delivered r items doms) -> Q x r.
Proof.
  intros F H. unfold delivered in H. induction F as [|U D items doms F1 F IH]; [destruct H|]. cbn [combine map concat fst snd] in H. apply in_app_iff in H. destruct H as [H|H]; [|exact (IH H)].
  unfold select in H. clear - F1 H. induction F1 as [|u d U D Q1 F1 IH]; [destruct H|]. cbn [combine filter snd] in H. destruct (Nat.eqb_spec d r) as [->|NE]; [|exact (IH H)].
  cbn [map fst] in H. destruct H as [<-|H]; [exact Q1|exact (IH H)].
Qed.

(** Positions with their destinations, exchanged. *)
Section Distribute.
Context (checked contiguous : bool) (sch : list (nat * Qc) -> list (nat * Qc)) (SCH : forall ws, Permutation (sch ws) ws)
  (g : geom) (M : mesh) (WF : wf_geom g) (CU : cubic g) (OK : mesh_ok g M) (NE : M <> []) (lo hi : point) (LH : forall a, (lo a < hi a)%Qc).

Lemma rel_bounds p a : (lo a <= coordinate p a /\ coordinate p a < hi a)%Qc -> (0 <= (coordinate p a - lo a) / (hi a - lo a) /\ (coordinate p a - lo a) / (hi a - lo a) < 1)%Qc.
Proof.
  intros (H1 & H2). pose proof (ext_pos lo hi LH a) as EP. set (L := (hi a - lo a)%Qc) in *. set (y := ((coordinate p a - lo a) / L)%Qc).
  assert (E : (coordinate p a - lo a = y * L)%Qc) by (unfold y; field; apply Qc_pos_nz, EP).
  split.
  - destruct (Qclt_le_dec y 0) as [K|K]; [|exact K]. exfalso. assert (KL : (y * L < 0 * L)%Qc) by (apply Qcmult_lt_compat_r; [exact EP|exact K]). rewrite <- E in KL. qlin.
  - destruct (Qclt_le_dec y 1) as [K|K]; [exact K|]. exfalso. assert (KL : (1 * L <= y * L)%Qc) by (apply Qcmult_le_compat_r; [exact K|apply Qclt_le_weak; exact EP]). rewrite <- E in KL. unfold L in KL. qlin.
Qed.
Lemma rel_strict p a : (lo a < coordinate p a)%Qc -> (0 < (coordinate p a - lo a) / (hi a - lo a))%Qc.
Proof. intros H. apply Qcdiv_lt_0; [apply -> Qclt_sub; exact H|apply (ext_pos lo hi LH)]. Qed.

Lemma domain_ok p : in_bounds lo hi p -> (checked = true -> strictly_in g lo hi p) ->
  exists J r R A, morton_intervals g (map loc M) = Some J /\ particle_domain checked g J lo hi p = Some r /\ nth_error M r = Some R /\ In A (loc R) /\ lies_in g lo hi A p.
Proof.
  intros IB ST. destruct (owner_found g M WF CU OK (fun a => this ((coordinate p a - lo a) / (hi a - lo a))%Qc)) as (J & r & R & A & EJ & ED & HR & HA & CA).
  { intros a. destruct (rel_bounds p a (IB a)) as (H1 & H2). split; [exact H1|exact H2]. }
  exists J, r, R, A. split; [exact EJ|]. split; [|split; [exact HR|split; [exact HA|exact CA]]].
  unfold particle_domain. cbv zeta.
  assert (B1 : forall a, leb 0 ((at_axis p a - lo a) / extent lo hi a)%Qc && ltb ((at_axis p a - lo a) / extent lo hi a)%Qc 1 = true).
  { intros a. destruct (rel_bounds p a (IB a)) as (H1 & H2). apply Bool.andb_true_iff. split; [apply HydroProps.leb_spec; exact H1|apply HydroProps.ltb_spec; exact H2]. }
  assert (B2 : all3 (fun a => leb 0 ((at_axis p a - lo a) / extent lo hi a)%Qc && ltb ((at_axis p a - lo a) / extent lo hi a)%Qc 1) = true) by (unfold all3; rewrite !B1; reflexivity).
  rewrite B2. cbn [negb]. rewrite Bool.andb_false_r.
  assert (B3 : checked = true -> all3 (fun a => if flat g a then leb 0 ((at_axis p a - lo a) / extent lo hi a)%Qc && leb ((at_axis p a - lo a) / extent lo hi a)%Qc 0 else ltb 0 ((at_axis p a - lo a) / extent lo hi a)%Qc && ltb ((at_axis p a - lo a) / extent lo hi a)%Qc 1) = true).
  { intros CH. specialize (ST CH). assert (B : forall a, (if flat g a then leb 0 ((at_axis p a - lo a) / extent lo hi a)%Qc && leb ((at_axis p a - lo a) / extent lo hi a)%Qc 0 else ltb 0 ((at_axis p a - lo a) / extent lo hi a)%Qc && ltb ((at_axis p a - lo a) / extent lo hi a)%Qc 1) = true).
    { intros a. specialize (ST a). destruct (flat g a).
      - change (at_axis p a) with (coordinate p a). rewrite ST. replace ((lo a - lo a) / extent lo hi a)%Qc with 0%Qc by (unfold Qcdiv; ring). reflexivity.
      - destruct (rel_bounds p a (IB a)) as (_ & H2). apply Bool.andb_true_iff. split; [apply HydroProps.ltb_spec, (rel_strict p a), ST|apply HydroProps.ltb_spec; exact H2]. }
    unfold all3. rewrite !B. reflexivity. }
  assert (B4 : checked && negb (all3 (fun a => if flat g a then leb 0 ((at_axis p a - lo a) / extent lo hi a)%Qc && leb ((at_axis p a - lo a) / extent lo hi a)%Qc 0 else ltb 0 ((at_axis p a - lo a) / extent lo hi a)%Qc && ltb ((at_axis p a - lo a) / extent lo hi a)%Qc 1)) = false).
  { destruct checked; [rewrite B3 by reflexivity|]; reflexivity. }
  rewrite B4. assert (B5 : all3 (fun a => flat g a || leb 0 ((at_axis p a - lo a) / extent lo hi a)%Qc) = true).
  { assert (B : forall a, leb 0 ((at_axis p a - lo a) / extent lo hi a)%Qc = true) by (intros a; specialize (B1 a); apply Bool.andb_true_iff in B1; apply B1). unfold all3. rewrite !B, !Bool.orb_true_r. reflexivity. }
  rewrite B5. cbn [negb]. change (fun a => this ((at_axis p a - lo a) / extent lo hi a)%Qc) with (fun a => this ((coordinate p a - lo a) / (hi a - lo a))%Qc). rewrite ED.
  destruct (Z.ltb_spec (Z.of_nat r) 0); [lia|]. rewrite Nat2Z.id. reflexivity.
Qed.

Lemma distribute_ok e (arrays : list (list prow * list prow)) : length arrays = length M -> (forall x, In x arrays -> fits_array e x) ->
  (forall x p, In x arrays -> In p (fst x) -> in_bounds lo hi p /\ (checked = true -> strictly_in g lo hi p)) ->
  exists parts, distribute checked contiguous sch g M lo hi e (map fst arrays) (map snd arrays) = Some parts /\ length parts = length M /\
    (forall x, In x parts -> fits_array e x) /\ Permutation (all_particles parts) (all_particles arrays) /\
    forall r R x p, nth_error M r = Some R -> nth_error parts r = Some x -> In p (fst x) -> exists A, In A (loc R) /\ lies_in g lo hi A p.
Proof.
  intros LA FA BA.
  assert (EJ : exists J, morton_intervals g (map loc M) = Some J).
  { destruct (owner_found g M WF CU OK (fun _ => 0%Q)) as (J & _ & _ & _ & EJ & _); [intros a; split; reflexivity || discriminate|]. exists J. exact EJ. }
  destruct EJ as (J & EJ).
  assert (DP : forall p, in_bounds lo hi p -> (checked = true -> strictly_in g lo hi p) -> exists r, particle_domain checked g J lo hi p = Some r /\ (r < length M)%nat /\ exists R A, nth_error M r = Some R /\ In A (loc R) /\ lies_in g lo hi A p).
  { intros p B1 B2. destruct (domain_ok p B1 B2) as (J' & r & R & A & EJ' & ED & HR & HA & CA). assert (J' = J) as -> by congruence. exists r. split; [exact ED|]. split; [apply nth_error_Some; congruence|]. exists R, A. auto. }
  set (Q := fun (p : prow) (r : nat) => (r < length M)%nat /\ exists R A, nth_error M r = Some R /\ In A (loc R) /\ lies_in g lo hi A p).
  destruct (mapM_rel (mapM (particle_domain checked g J lo hi)) (fun U D => Forall2 Q U D) (map fst arrays)) as (doms & ED & FD).
  { intros U HU. apply in_map_iff in HU. destruct HU as (x & <- & HX). destruct (mapM_rel (particle_domain checked g J lo hi) Q (fst x)) as (D & E & F); [|exists D; auto].
    intros p HP. destruct (BA x p HX HP) as (B1 & B2). destruct (DP p B1 B2) as (r & E & H1 & H2). exists r. split; [exact E|]. split; assumption. }
  assert (LD : length doms = length M) by (rewrite (mapM_length _ _ _ ED), map_length; exact LA).
  assert (LQ : forall U D, Forall2 Q U D -> length U = length D /\ forall d, In d D -> (d < length M)%nat).
  { intros U D F. induction F as [|p r U D (Q1 & _) F (IH1 & IH2)]; [split; [reflexivity|intros ? []]|]. split; [cbn; congruence|]. intros d [<-|H]; [exact Q1|exact (IH2 d H)]. }
  assert (DO1 : dests_ok (length M) (map fst arrays) doms).
  { split; [exact LD|]. clear - FD LQ. induction FD as [|U D Us Ds F FD IH]; constructor; auto. }
  assert (DO2 : dests_ok (length M) (map snd arrays) doms).
  { split; [exact LD|]. destruct DO1 as (_ & DO1). clear - DO1 FA. revert doms DO1. induction arrays as [|x arrays IH]; intros doms DO1; inversion DO1 as [|U D Us Ds (L & B) DO1']; subst; [constructor|].
    cbn [map]. constructor; [|apply IH; [intros y HY; apply FA; right; exact HY|assumption]]. split; [rewrite <- L; symmetry; apply (FA x (or_introl eq_refl))|exact B]. }
  assert (DO3 : dests_ok (length M) (map held arrays) doms).
  { split; [exact LD|]. destruct DO1 as (_ & DO1). clear - DO1 FA. revert doms DO1. induction arrays as [|x arrays IH]; intros doms DO1; inversion DO1 as [|U D Us Ds (L & B) DO1']; subst; [constructor|].
    cbn [map]. constructor; [|apply IH; [intros y HY; apply FA; right; exact HY|assumption]]. split; [|exact B]. unfold held. etransitivity; [apply combine_length|]. rewrite <- (proj1 (FA x (or_introl eq_refl))), Nat.min_id. exact L. }
  assert (EC : exists C, mapM (domain_comm (length M)) doms = Some C).
  { destruct (C21_distribute (length M) 3 (map fst arrays) doms 0 true (fun ws => ws) (repeat 0%Qc (length (delivered 0 (map fst arrays) doms) * 3)) []) as (C & EC & _);
      [exact DO1| | |reflexivity|apply repeat_length|discriminate|exists C; exact EC].
    - intros U row HU HR. apply in_map_iff in HU. destruct HU as (x & <- & HX). apply (FA x HX), HR.
    - destruct M; [congruence|cbn; lia]. }
  destruct EC as (C & EC). unfold distribute. rewrite EJ, ED, EC.
  exists (map (fun r => (delivered r (map fst arrays) doms, delivered r (map snd arrays) doms)) (seq 0 (length M))).
  assert (ROW1 : forall U row, In U (map fst arrays) -> In row U -> length row = 3%nat).
  { intros U row HU HR. apply in_map_iff in HU. destruct HU as (x & <- & HX). apply (FA x HX), HR. }
  assert (ROW2 : forall U row, In U (map snd arrays) -> In row U -> length row = e).
  { intros U row HU HR. apply in_map_iff in HU. destruct HU as (x & <- & HX). apply (FA x HX), HR. }
  split; [|split; [rewrite map_length, seq_length; reflexivity|split; [|split]]].
  - rewrite <- (map_id (seq 0 (length M))) at 1. rewrite mapM_map. apply mapM_Some, Forall2_nth. rewrite map_length. split; [reflexivity|].
    intros i r y HI HY. rewrite nth_error_map, HI in HY. injection HY as <-. apply nth_error_In, in_seq in HI. destruct HI as (_ & HI). cbn [Nat.add] in HI.
    assert (X : forall k (view : list (list prow)), dests_ok (length M) view doms -> (forall U row, In U view -> In row U -> length row = k) -> length (delivered r view doms) = length (delivered r (map fst arrays) doms) ->
      (do c <- nth_error C r ; do flat <- exchange_rank contiguous sch C r k view (repeat 0%Qc (nsum (recv_sizes C r) * k)) (repeat 0%Qc ((nsum (recv_sizes C r) - n_self c r) * k)) ; Some (chunks k (nsum (recv_sizes C r)) flat)) = Some (delivered r view doms)).
    { intros k view DO ROW LL. assert (LC : length C = length M) by (rewrite (mapM_length _ _ _ EC); exact LD). destruct (nth_error C r) as [c|] eqn:HC; [|apply nth_error_None in HC; lia].
      pose proof (received_count (length M) view doms C r DO EC HI) as RC.
      destruct (C21_distribute (length M) k view doms r contiguous sch (repeat 0%Qc (nsum (recv_sizes C r) * k)) (repeat 0%Qc ((nsum (recv_sizes C r) - n_self c r) * k)) DO ROW HI SCH) as (C' & EC' & EX).
      - rewrite repeat_length, RC. reflexivity.
      - intros _ D U HD HU. rewrite repeat_length, RC. f_equal. f_equal. unfold n_self.
        assert (HD' : domain_comm (length M) D = Some c). { destruct (mapM_nth _ _ _ r D EC HD) as (c' & Hc' & Ec'). congruence. }
        rewrite (domain_comm_sizes _ D c r HD' HI). symmetry. apply select_length. destruct DO as (_ & DO). apply Forall2_nth in DO. destruct DO as (_ & DO). apply (DO r U D HU HD).
      - assert (C' = C) as -> by congruence. rewrite EX. f_equal. rewrite RC. apply chunks_concat. intros row HR. destruct (delivered_in _ _ _ _ HR) as (U & HU & HRU). exact (ROW U row HU HRU). }
    cbv zeta. rewrite (X 3%nat (map fst arrays) DO1 ROW1 eq_refl).
    rewrite (X e (map snd arrays) DO2 ROW2); [reflexivity|]. etransitivity; [symmetry; exact (received_count _ _ _ C r DO2 EC HI)|exact (received_count _ _ _ C r DO1 EC HI)].
  - intros x HX. apply in_map_iff in HX. destruct HX as (r & <- & HR). apply in_seq in HR. destruct HR as (_ & HR). split; [|split]; cbn [fst snd].
    + etransitivity; [symmetry; exact (received_count _ _ _ C r DO1 EC HR)|exact (received_count _ _ _ C r DO2 EC HR)].
    + intros p HP. destruct (delivered_in _ _ _ _ HP) as (U & HU & HPU). exact (ROW1 U p HU HPU).
    + intros p HP. destruct (delivered_in _ _ _ _ HP) as (U & HU & HPU). exact (ROW2 U p HU HPU).
  - unfold all_particles. rewrite map_map. unfold held at 1. cbn [fst snd].
    erewrite map_ext; [apply (C21_exactly_once (length M) (map held arrays) doms DO3)|]. intros r. cbn beta.
    rewrite C21_attributes_together.
    + rewrite combine_maps, map_map. reflexivity.
    + destruct DO1 as (_ & DO1). clear - DO1. induction DO1 as [|U D Us Ds (L & _) _ IH]; constructor; auto.
    + destruct DO2 as (_ & DO2). clear - DO2. induction DO2 as [|U D Us Ds (L & _) _ IH]; constructor; auto.
  - intros r R x p HR HX HP. rewrite nth_error_map in HX. destruct (nth_error (seq 0 (length M)) r) as [r'|] eqn:HS; [|discriminate]. injection HX as <-. cbn [fst] in HP.
    assert (r' = r). { assert (r < length (seq 0 (length M)))%nat by (apply nth_error_Some; congruence). rewrite (nth_error_nth' _ 0%nat) in HS by exact H. rewrite seq_length in H. rewrite seq_nth in HS by exact H. injection HS as <-. reflexivity. }
    subst r'. destruct (delivered_dest r (map fst arrays) doms Q p FD HP) as (_ & R' & A & HR' & HA & LI). assert (R' = R) as -> by congruence. exists A. auto.
Qed.
End Distribute.
