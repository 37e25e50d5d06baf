(** The refinement criteria (C92, C93). *)
From Coq Require Import QArith Qcanon Lqa.
From Verif Require Import Base OctreeSpec OctreeGeom OctreeModel FindNeighbors MeshSpec GhostExchange HistorySpec HistoryProofs
  LookupModel CellModel CellSpec CellProofs CellProps RemapModel RemapSpec RemapProofs RemapProps RefineModel HydroModel HydroSpec HydroProps ConserveSpec SchemeSpec BlockGhost ConserveFaces ConserveProofs OctreeProps
  ConserveProps SchemeProps ParticleModel ParticleProofs CloudProofs GravitySpec GravityModel GravityLoop RKProofs ParabolicProofs ParabolicProps CriterionModel CriterionSpec CriterionProofs CriterionSecond.
Open Scope Z_scope.

Definition criterion_run (g : geom) (n : nat) (M : mesh) (b : axis -> Z) (R : rank) (order : list cidx) : Prop :=
  good_setup g n /\ reachable g n M /\ block_ok g b /\ In R M /\ Permutation order (owned_cells b R).

(** Every rank marks its octants from the masses of their cells, whatever the order of the visits and
    whatever the ghosts hold. *)
Theorem C92_mass g n M b R order ext low high rho ghosts : criterion_run g n M b R order -> (forall a, 0 < ext a)%Qc ->
  mark g R order (mass_marker g b ext R low high (map rho (all_cells b (loc R)) ++ ghosts)) =
  Some (map (marker_of g b (cell_mass g b ext rho) low high) (loc R)).
Proof.
  intros (GS & RC & BO & HR & RO) EXT. pose proof (reachable_ok g n M GS RC) as OK. destruct GS as (WF & _).
  apply mark_value; [exact RO|]. intros i A p HA IP. apply (mass_value g WF M OK b BO R HR); [exact EXT|exists ghosts; reflexivity|exact HA|exact IP].
Qed.
(** The same with the velocity downwards, where no density is 0. *)
Theorem C92_downflow g n M b R order sign low high rho mom gr gy gz : criterion_run g n M b R order ->
  (forall x, In x (all_cells b (loc R)) -> rho x <> 0%Qc) ->
  mark g R order (downflow_marker g sign low high (map rho (all_cells b (loc R)) ++ gr) (map (mom AY) (all_cells b (loc R)) ++ gy) (map (mom AZ) (all_cells b (loc R)) ++ gz)) =
  Some (map (marker_of g b (downflow g sign rho mom) low high) (loc R)).
Proof.
  intros (GS & RC & BO & HR & RO) NZ.
  apply mark_value; [exact RO|]. intros i A p HA IP.
  assert (HX : In (cell_of b A p) (all_cells b (loc R))).
  { pose proof (block_cells b A p IP) as H. unfold all_cells in *. cbn [flat_map] in H. rewrite app_nil_r in H. apply in_flat_map. exists A. split; [eapply nth_error_In, HA|exact H]. }
  rewrite (downflow_value g b BO R sign low high rho (mom AY) (mom AZ) _ _ _ i A p); [|exists gr; reflexivity|exists gy; reflexivity|exists gz; reflexivity|exact HA|exact IP|apply NZ, HX].
  unfold downflow. destruct (g3d g); reflexivity.
Qed.
(** The same with the contrast of the density between a cell and those that touch it. The ghosts
    hold the density of their cells. *)
Theorem C92_gradient g n M b R order low high rho : criterion_run g n M b R order ->
  mark g R order (gradient_marker g R low high (map rho (all_cells b (loc R ++ gho R)))) =
  Some (map (marker_of g b (steepness g b (all_cells b (leaves M)) rho) low high) (loc R)).
Proof.
  intros (GS & RC & BO & HR & RO). pose proof (reachable_ok g n M GS RC) as OK. destruct GS as (WF & _).
  apply mark_value; [exact RO|]. intros i A p HA IP. apply (gradient_value g WF M OK b BO R HR rho i A HA p IP).
Qed.
(** The contrast does not depend on how the octants are distributed, so an octant gets the same
    marker from the rank that owns it in every partition. *)
Theorem C92_partition g b M M' rho low high A : (forall B, In B (leaves M) <-> In B (leaves M')) ->
  marker_of g b (steepness g b (all_cells b (leaves M)) rho) low high A = marker_of g b (steepness g b (all_cells b (leaves M')) rho) low high A.
Proof.
  intros SL. assert (E : forall x, steepness g b (all_cells b (leaves M)) rho x = steepness g b (all_cells b (leaves M')) rho x).
  { intros x. unfold steepness. eapply is_largest_unique; [|apply largest_spec|apply largest_spec]. intros v. cbv beta.
    assert (C : forall y, In y (all_cells b (leaves M)) <-> In y (all_cells b (leaves M'))).
    { intros y. unfold all_cells. rewrite !in_flat_map. split; intros (B & HB & H); exists B; (split; [apply SL, HB|exact H]). }
    assert (F : forall cells cells' : list oct, (forall y, In y cells <-> In y cells') ->
      In v (flat_map (fun e => flat_map (fun up => map (fun y => contrast (rho x) (rho y)) (filter (touches g b e up x) cells)) [true; false]) (axes_of g)) ->
      In v (flat_map (fun e => flat_map (fun up => map (fun y => contrast (rho x) (rho y)) (filter (touches g b e up x) cells')) [true; false]) (axes_of g))).
    { intros l l' CC H. apply in_flat_map in H. destruct H as (e & HE & H). apply in_flat_map in H. destruct H as (up & HU & H). apply in_map_iff in H. destruct H as (y & EY & HY).
      apply in_flat_map. exists e. split; [exact HE|]. apply in_flat_map. exists up. split; [exact HU|]. apply in_map_iff. exists y. split; [exact EY|].
      apply filter_In in HY. apply filter_In. split; [apply CC, HY|apply HY]. }
    split; apply F; [exact C|intros y; symmetry; apply C]. }
  assert (X : forall lim l, existsb (fun x => above lim (steepness g b (all_cells b (leaves M)) rho x)) l = existsb (fun x => above lim (steepness g b (all_cells b (leaves M')) rho x)) l).
  { intros lim l. induction l as [|x l IH]; [reflexivity|]. cbn [existsb]. rewrite E, IH. reflexivity. }
  unfold marker_of. cbv zeta. rewrite !X. reflexivity.
Qed.

(** The criterion on second derivatives, on the meshes named by [ok]: every rank marks its octants
    from the bending of the density and of the pressure. *)
Definition second_marks_right (ok : list Z -> Prop) : Prop :=
  forall g n M b S smallp eps low high D U r R order,
    criterion_run g n M b R order -> periodic g -> even_blocks g b -> (0 < s_smallr S)%Qc -> (0 <= eps)%Qc -> holds_field b M D U -> nth_error M r = Some R ->
    ok (map (marker_of g b (bending g b (all_cells b (leaves M)) D (s_gamma S) (s_smallr S) smallp eps) low high) (loc R)) ->
    mark_second (ctx g b S R) smallp R (U r) eps low high order =
    Some (map (marker_of g b (bending g b (all_cells b (leaves M)) D (s_gamma S) (s_smallr S) smallp eps) low high) (loc R)).
(** What the code computes: the octants to be refined are those that should be, none is coarsened. *)
Theorem C93_refines_partial g n M b S smallp eps low high D U r R order :
  criterion_run g n M b R order -> periodic g -> even_blocks g b -> (0 < s_smallr S)%Qc -> (0 <= eps)%Qc -> holds_field b M D U -> nth_error M r = Some R ->
  mark_second (ctx g b S R) smallp R (U r) eps low high order =
  Some (map (fun A => Z.max 0 (marker_of g b (bending g b (all_cells b (leaves M)) D (s_gamma S) (s_smallr S) smallp eps) low high A)) (loc R)).
Proof.
  intros (GS & RC & BO & HR & RO) PER EV HS HE HF HM. pose proof (reachable_ok g n M GS RC) as OK. destruct GS as (WF & _).
  apply second_marks; [exact RO|]. intros i A p HA IP. apply (second_value g WF M OK b BO PER EV D S U HF smallp eps HE HS r R HM i A HA p IP).
Qed.
Theorem C93_marks_partial : second_marks_right (fun markers => ~ In (-1) markers).
Proof.
  intros g n M b S smallp eps low high D U r R order CR PER EV HS HE HF HM OKM. rewrite (C93_refines_partial g n M b S smallp eps low high D U r R order CR PER EV HS HE HF HM).
  f_equal. apply map_ext_in. intros A HA. pose proof (marker_least g b (bending g b (all_cells b (leaves M)) D (s_gamma S) (s_smallr S) smallp eps) low high A) as L.
  set (m := marker_of _ _ _ _ _ A) in *. assert (m <> -1) by (intros E; apply OKM; apply in_map_iff; exists A; split; [exact E|exact HA]). lia.
Qed.
(** No octant is ever marked for coarsening, whatever the mesh, the fields and the thresholds. *)
Theorem C93_refuted_never_coarsens h smallp R U eps low high order markers : mark_second h smallp R U eps low high order = Some markers -> ~ In (-1) markers.
Proof. intros E H. apply never_negative in E. rewrite Forall_forall in E. apply E in H. lia. Qed.

Lemma bend_flat eps q : bend eps q q q = 0%Qc.
Proof.
  unfold bend. replace (q + q - Q2Qc 2 * q)%Qc with 0%Qc by (replace (Q2Qc 2) with (1 + 1)%Qc by (apply Qc_is_canon; reflexivity); ring).
  replace (absolute 0) with 0%Qc by reflexivity. unfold Qcdiv. ring.
Qed.
Lemma bending_flat g M b u gamma sr sp eps x : bending g b (all_cells b (leaves M)) (fun _ => u) gamma sr sp eps x = 0%Qc.
Proof.
  unfold bending. cbv zeta. assert (E : forall y, resample g (all_cells b (leaves M)) (fun _ => u) y = u) by (intros y; apply (resample_uniform g M b (fun _ => u) no_gi eq_refl u (fun _ => eq_refl))).
  rewrite !E. cbn [flat_map]. rewrite app_nil_r.
  assert (Z : forall v : cons -> Qc, map (fun e => bend eps (v (seen g (resample g (all_cells b (leaves M)) (fun _ => u) (beside g b x e false)))) (v (seen g u)) (v (seen g (resample g (all_cells b (leaves M)) (fun _ => u) (beside g b x e true))))) (axes_of g) = map (fun _ => 0%Qc) (axes_of g)).
  { intros v. apply map_ext. intros e. rewrite !E. apply bend_flat. }
  rewrite !Z. unfold axes_of. destruct (g3d g); reflexivity.
Qed.
(** In a uniform gas every octant above the first level should be coarsened. *)
Lemma flat_marks g M b u gamma sr sp eps low high A : (0 <= low)%Qc -> (0 <= high)%Qc -> lmin g < lev A ->
  marker_of g b (bending g b (all_cells b (leaves M)) (fun _ => u) gamma sr sp eps) low high A = -1.
Proof.
  intros L H LV. assert (N : forall lim l, (0 <= lim)%Qc -> existsb (fun x => above lim (bending g b (all_cells b (leaves M)) (fun _ => u) gamma sr sp eps x)) l = false).
  { intros lim l HL. induction l as [|x l IH]; [reflexivity|]. cbn [existsb]. rewrite IH, bending_flat. unfold above. destruct (Qclt_le_dec lim 0) as [K|_]; [exfalso; apply (Qclt_not_le _ _ K HL)|reflexivity]. }
  unfold marker_of. cbv zeta. rewrite !N by assumption. apply Z.ltb_lt in LV. rewrite LV. reflexivity.
Qed.

(** * Examples *)
Definition cr_R : rank := hd (mkRank [] [] [] 0 0) cs_M.
Example cr_run : criterion_run cs_g 2 cs_M cs_b cr_R (owned_cells cs_b cr_R).
Proof.
  split; [exact cs_setup|]. split; [exact cs_reach|]. split; [exact cs_block|]. split; [|apply Permutation_refl].
  assert (E : nth_error cs_M 0 = Some cr_R) by (vm_compute; reflexivity). apply (nth_error_In _ _ E).
Qed.
Example cr_reverse : criterion_run cs_g 2 cs_M cs_b cr_R (rev (owned_cells cs_b cr_R)).
Proof. destruct cr_run as (A & B & C & D & _). split; [exact A|]. split; [exact B|]. split; [exact C|]. split; [exact D|apply Permutation_sym, Permutation_rev]. Qed.

Lemma in_map_eq {X Y} (f : X -> Y) l x y : In x l -> f x = y -> In y (map f l).
Proof. intros H <-. apply in_map, H. Qed.
Theorem C93_refuted_uniform : ~ second_marks_right (fun _ => True).
Proof.
  intros H. assert (E0 : nth_error cs_M 0 = Some cr_R) by (vm_compute; reflexivity).
  specialize (H cs_g 2%nat cs_M cs_b (cs_S cs_no_gravity) (Q2Qc 1) (Q2Qc 1) (Q2Qc 1) (Q2Qc 2) (fun _ => cons0) (arrays cs_b cs_M (fun _ => cons0)) 0%nat cr_R _ cr_run cs_periodic cs_even
    eq_refl ltac:(discriminate) (arrays_hold _ _ _) E0 I).
  apply C93_refuted_never_coarsens in H.
  assert (E : existsb (fun A => 1 <? lev A) (loc cr_R) = true) by (vm_compute; reflexivity). apply existsb_exists in E. destruct E as (A & HA & LV). apply Z.ltb_lt in LV.
  assert (P1 : (0 <= Q2Qc 1)%Qc) by discriminate. assert (P2 : (0 <= Q2Qc 2)%Qc) by discriminate.
  pose proof (flat_marks cs_g cs_M cs_b cons0 (s_gamma (cs_S cs_no_gravity)) (s_smallr (cs_S cs_no_gravity)) (Q2Qc 1) (Q2Qc 1) (Q2Qc 1) (Q2Qc 2) A P1 P2 LV) as F.
  exact (H (in_map_eq _ _ A (-1) HA F)).
Qed.

(** A denser cell in a corner of the domain. *)
Definition cr_rho (x : oct) : Qc := if (lev x =? 2) && (cx x =? 0) && (cy x =? 0) then Q2Qc 4 else Q2Qc 1.
Lemma cr_rho_nz x : In x (all_cells cs_b (loc cr_R)) -> cr_rho x <> 0%Qc.
Proof. intros _. unfold cr_rho. destruct (_ && _); discriminate. Qed.
Example C92_mass_example := C92_mass cs_g 2 cs_M cs_b cr_R _ cs_ext (frac 1 100) (frac 1 10) cr_rho [] cr_run (fun _ => eq_refl).
Example C92_downflow_example := C92_downflow cs_g 2 cs_M cs_b cr_R _ (- (1))%Qc (frac 1 10) (frac 1 2) cr_rho (fun _ => cr_rho) [] [] [] cr_reverse cr_rho_nz.
Example C92_gradient_example := C92_gradient cs_g 2 cs_M cs_b cr_R _ (frac 1 10) (frac 1 2) cr_rho cr_run.
(** All three markers occur. *)
Definition cr_markers : list Z := map (marker_of cs_g cs_b (steepness cs_g cs_b (all_cells cs_b (leaves cs_M)) cr_rho) (frac 1 10) (frac 1 2)) (loc cr_R).
Example C92_gradient_markers : cr_markers = [0; -1; -1; -1; 1].
Proof. vm_compute. reflexivity. Qed.
Example C92_partition_example A := C92_partition cs_g cs_b cs_M one_M cr_rho (frac 1 10) (frac 1 2) A (proj1 C68_example).
(** The criterion on second derivatives: the same density at rest, and a mesh of one level where no
    octant can be coarsened. *)
Definition cr_D (x : oct) : cons := mkCons (cr_rho x) (Q2Qc 1) 0 0 0.
Example cr_rank : nth_error cs_M 0 = Some cr_R. Proof. vm_compute. reflexivity. Qed.
Example C93_refines_example := C93_refines_partial cs_g 2 cs_M cs_b (cs_S cs_no_gravity) (frac 1 1000) (frac 1 1000000) (frac 1 10) (frac 1 2) cr_D _ 0 cr_R _ cr_run cs_periodic cs_even
  eq_refl (Qclt_le_weak 0 (frac 1 1000000) eq_refl) (arrays_hold _ _ _) cr_rank.
Definition cr_R0 : rank := hd (mkRank [] [] [] 0 0) cs_M0.
Example cr_rank0 : nth_error cs_M0 0 = Some cr_R0. Proof. vm_compute. reflexivity. Qed.
Example cr_run0 : criterion_run cs_g 2 cs_M0 cs_b cr_R0 (owned_cells cs_b cr_R0).
Proof. split; [exact cs_setup|]. split; [exact coarse_reach|]. split; [exact cs_block|]. split; [apply (nth_error_In _ _ cr_rank0)|apply Permutation_refl]. Qed.
Lemma not_in_map {X Y} (f : X -> Y) l y : (forall x, In x l -> f x <> y) -> ~ In y (map f l).
Proof. intros N H. apply in_map_iff in H. destruct H as (x & E & H). exact (N x H E). Qed.
Lemma first_level q low high : ~ In (-1) (map (marker_of cs_g cs_b q low high) (loc cr_R0)).
Proof.
  assert (E : forallb (fun A => lev A =? 1) (loc cr_R0) = true) by (vm_compute; reflexivity). rewrite forallb_forall in E.
  apply not_in_map. intros A HA. apply E, Z.eqb_eq in HA. unfold marker_of. cbv zeta. rewrite HA. cbn [cs_g lmin lmax].
  destruct (existsb _ _); [discriminate|]. destruct (existsb _ _); discriminate.
Qed.
Example C93_marks_example := C93_marks_partial cs_g 2%nat cs_M0 cs_b (cs_S cs_no_gravity) (frac 1 1000) (frac 1 1000000) (frac 1 10) (frac 1 2) cr_D _ 0%nat cr_R0 _ cr_run0 cs_periodic cs_even
  eq_refl (Qclt_le_weak 0 (frac 1 1000000) eq_refl) (arrays_hold _ _ _) cr_rank0 (first_level _ _ _).

Print Assumptions C92_mass.
Print Assumptions C92_downflow.
Print Assumptions C92_gradient.
Print Assumptions C92_partition.
Print Assumptions C93_refines_partial.
Print Assumptions C93_marks_partial.
Print Assumptions C93_refuted_never_coarsens.
Print Assumptions C93_refuted_uniform.
