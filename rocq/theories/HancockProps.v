(** The MUSCL-Hancock update (C90). *)
From Coq Require Import QArith Qcanon Permutation.
From Verif Require Import Base OctreeSpec OctreeGeom OctreeModel FindNeighbors MeshSpec HistorySpec
  LookupModel CellModel CellSpec CellProofs CellProps RemapModel RemapSpec RemapProofs RemapProps HydroModel HydroSpec HydroProps
  ConserveSpec BlockGhost ConserveFaces ConserveProofs OctreeProps HistoryProofs LookupProps SchemeSpec ConserveProps SchemeProps
  ParticleModel ParticleProofs GravitySpec GravityModel GravityProofs GravityLoop RKModel RKSpec RKProofs RKProps ParabolicModel ParabolicSpec ParabolicProofs ParabolicRun ParabolicProps
  HancockModel HancockSpec HancockProofs.
Open Scope Z_scope.

(** Periodic meshes, blocks and extents as in C39. *)
Definition common (g : geom) (n : nat) (M : mesh) (b : axis -> Z) (ext : axis -> Qc) : Prop :=
  good_setup g n /\ reachable g n M /\ block_ok g b /\ periodic g /\ even_blocks g b /\ (forall a, 0 < ext a)%Qc.
Definition hancock_of (g : geom) (b : axis -> Z) (S : scheme) (ext : axis -> Qc) (dt smallp : Qc) (M : mesh) (acc : option (oct -> axis -> Qc)) (D : oct -> cons) :=
  hancock g b ext (all_cells b (leaves M)) D (flux_of S) (s_gamma S) (s_smallr S) smallp dt acc.
Definition hancock_raw_of (g : geom) (b : axis -> Z) (S : scheme) (ext : axis -> Qc) (dt : Qc) (M : mesh) (acc : option (oct -> axis -> Qc)) (D : oct -> cons) :=
  hancock_raw g b ext (all_cells b (leaves M)) D (flux_of S) (s_gamma S) (s_smallr S) dt acc.

(** The update completes, and every cell gets the value of the Hancock step, neighbours on other
    ranks included. *)
Theorem C90_scheme_partial g n M b S ext dt smallp gf acc old D :
  common g n M b ext -> holds_acceleration b M acc gf ->
  exists D', hancock_update (ctx g b S) ext dt smallp b M gf old (field_arrays b M D) = Some (owned_values b M D') /\
    forall x, In x (all_cells b (leaves M)) -> seen g (D' x) = hancock_of g b S ext dt smallp M acc D x.
Proof.
  intros (GS & RC & BO & PER & EV & EXT) GF. pose proof (reachable_ok g n M GS RC) as OK. destruct GS as (WF & _).
  set (P := fun x o => seen g o = hancock_of g b S ext dt smallp M acc D x).
  destruct (mapM_rel (fun rRU : nat * (rank * list cons) =>
    let r := fst rRU in let R := fst (snd rRU) in let U := snd (snd rRU) in
    do out <- kernel b R (fun c =>
      let k := flat_cell b (c_pos c) in
      hancock_cell (ctx g b S R) ext dt (field_of b U) (gf r (c_oct c) k) (old r (c_oct c) k) c) ;
    Some (map (clean_negative (g3d (h_g (ctx g b S R))) (h_gamma (ctx g b S R)) (h_smallr (ctx g b S R)) smallp) out))
    (fun rRU V => Forall2 P (all_cells b (loc (fst (snd rRU)))) V) (numbered (combine M (field_arrays b M D)))) as (Vs & E & F).
  - intros (r, (R, U)) HI. apply indexed_in in HI. cbn [fst snd].
    assert (HRU : nth_error M r = Some R /\ U = nth r (field_arrays b M D) []).
    { unfold field_arrays in *. rewrite combine_self, nth_error_map in HI. destruct (nth_error M r) as [R'|] eqn:HR; [|discriminate HI]. cbn [option_map] in HI. injection HI as -> <-.
      split; [reflexivity|]. symmetry. apply nth_error_nth. rewrite nth_error_map, HR. reflexivity. }
    destruct HRU as (HR & ->).
    destruct (kernel_rel b R (fun c => let k := flat_cell b (c_pos c) in
      hancock_cell (ctx g b S R) ext dt (field_of b (nth r (field_arrays b M D) [])) (gf r (c_oct c) k) (old r (c_oct c) k) c)
      (fun x o => seen g o = hancock_raw_of g b S ext dt M acc D x)) as (V & EV' & FV).
    + intros i A q HA Hq. cbn [c_pos c_oct].
      destruct (hancock_value g WF M OK b BO PER EV D S ext EXT dt (fun r => field_of b (nth r (field_arrays b M D) [])) (field_of_holds g b M D BO) r R HR i A HA q Hq (gf r i (flat_cell b q)) (old r i (flat_cell b q))) as (o & EO & SO).
      exists o. split; [exact EO|]. rewrite SO. unfold hancock_raw_of, hancock_raw. f_equal. exact (GF r R i A q HR HA Hq).
    + cbv zeta in EV'. cbv zeta. rewrite EV'. eexists. split; [reflexivity|]. cbn [ctx h_g h_gamma h_smallr].
      clear - FV. induction FV as [|x o L V H FV IH]; cbn [map]; constructor; [|exact IH]. unfold P, hancock_of, hancock. rewrite seen_clean, H. reflexivity.
  - assert (F' : Forall2 (fun R V => Forall2 P (all_cells b (loc R)) V) M Vs).
    { assert (MM : map (fun z : nat * (rank * list cons) => fst (snd z)) (numbered (combine M (field_arrays b M D))) = M).
      { unfold numbered. rewrite <- (map_map snd fst), map_snd_combine. unfold field_arrays. rewrite combine_self, map_map. apply map_id. }
      rewrite <- MM at 1. clear - F. induction F; cbn [map]; constructor; assumption. }
    destruct (spread P D b M Vs (cells_NoDup g M OK b BO) F') as (W & -> & H1 & _).
    exists W. split; [exact E|exact H1].
Qed.

(** * Conservation *)
Definition total_of (g : geom) (b : axis -> Z) (ext : axis -> Qc) (M : mesh) (v : cvar) (Us : list (list cons)) : Qc :=
  total_held g b ext M v (fun r => field_of b (nth r Us [])).
(** Totals are unchanged if no cell needs a repair: mass always, the other variables without
    gravity. [meshes]: on which meshes. *)
Definition hancock_conserves (meshes : list oct -> Prop) : Prop := forall g n M b S ext dt smallp gf acc old D outs v,
  common g n M b ext -> holds_acceleration b M acc gf -> meshes (all_cells b (leaves M)) ->
  (forall x, In x (all_cells b (leaves M)) -> sound (s_gamma S) (hancock_raw_of g b S ext dt M acc D x)) ->
  hancock_update (ctx g b S) ext dt smallp b M gf old (field_arrays b M D) = Some outs ->
  has_var g v -> v = Mass \/ acc = None ->
  total_of g b ext M v outs = total_of g b ext M v (field_arrays b M D).

Lemma raw_cv g b S ext dt M acc D x v : has_var g v -> v = Mass \/ acc = None ->
  cv v (hancock_raw_of g b S ext dt M acc D x) = advanced g b ext (all_cells b (leaves M)) D (flux_of S) (s_gamma S) (s_smallr S) dt x v.
Proof.
  intros HV CV. unfold hancock_raw_of, hancock_raw.
  assert (AD : cv v (advanced_state g b ext (all_cells b (leaves M)) D (flux_of S) (s_gamma S) (s_smallr S) dt x) = advanced g b ext (all_cells b (leaves M)) D (flux_of S) (s_gamma S) (s_smallr S) dt x v).
  { destruct v as [| |[]]; try reflexivity. unfold advanced_state. cbn [cv mom u_z]. destruct (g3d g) eqn:E3; [reflexivity|]. exfalso. apply (HV E3). reflexivity. }
  rewrite <- AD. destruct acc as [G|]; cbn [option_map kicked]; [|reflexivity]. destruct CV as [->|CV]; [reflexivity|discriminate CV].
Qed.

Section Sum.
Context (g : geom) (WF : wf_geom g) (M : mesh) (OK : mesh_ok g M) (b : axis -> Z) (BO : block_ok g b) (ext : axis -> Qc) (EXT : forall a, (0 < ext a)%Qc).
Local Notation cells := (all_cells b (leaves M)).
(** What leaves a cell enters the next one. *)
Lemma exchanged_total (f : oct -> axis -> Qc) dt : periodic g -> even_blocks g b -> one_size cells ->
  csum (map (fun x => (volume g b ext x * csum (map (fun e => dt / cell_side g b ext (lev x) e * (f (beside g b x e false) e - f x e)) (axes_of g)))%Qc) cells) = 0%Qc.
Proof.
  intros PER EV OS.
  assert (EX : cells = [] \/ exists x0, In x0 cells) by (destruct cells as [|x0 l]; [left; reflexivity|right; exists x0; left; reflexivity]).
  destruct EX as [EC|(x0 & HX0)]; [rewrite EC at 1; reflexivity|].
  transitivity (csum (map (fun x => (csum (map (fun e => volume g b ext x0 * (dt / cell_side g b ext (lev x0) e) * (f (beside g b x e false) e + - (1) * f x e)) (axes_of g)))%Qc) cells)).
  - apply csum_ext. intros x HX. rewrite <- csum_scale. apply csum_ext. intros e _. unfold volume. rewrite (OS x x0 HX HX0). ring.
  - rewrite csum_swap, <- (csum_zero (axes_of g)). apply csum_ext. intros e HE. apply axes_flat' in HE. rewrite csum_scale, csum_plus, csum_scale.
    pose proof (csum_perm _ _ (Permutation_map (fun y => f y e) (beside_perm g WF M OK b BO ext EXT (fun _ => cons0) e false PER EV OS HE))) as CP. rewrite map_map in CP.
    rewrite CP. ring.
Qed.
End Sum.

Theorem C90_conservation_one_size_partial : hancock_conserves one_size.
Proof.
  intros g n M b S ext dt smallp gf acc old D outs v CM GF OS SND RUN HV CV.
  destruct (C90_scheme_partial g n M b S ext dt smallp gf acc old D CM GF) as (D' & E & V).
  rewrite E in RUN. injection RUN as <-. destruct CM as (GS & RC & BO & PER & EV & EXT). pose proof (reachable_ok g n M GS RC) as OK.
  unfold total_of. rewrite total_owned, total_field by exact BO.
  rewrite (domain_ext g M b ext _ (fun x => advanced g b ext (all_cells b (leaves M)) D (flux_of S) (s_gamma S) (s_smallr S) dt x v)).
  - unfold domain_sum, advanced.
    rewrite <- (Qcplus_0_r (csum (map (fun x => (volume g b ext x * cv v (D x))%Qc) (all_cells b (leaves M))))).
    rewrite <- (exchanged_total g (proj1 GS) M OK b BO ext EXT (fun y e => cv v (face_flux g b ext (all_cells b (leaves M)) D (flux_of S) (s_gamma S) (s_smallr S) dt y e)) dt PER EV OS) at 1.
    rewrite <- csum_plus. apply csum_ext. intros x _. ring.
  - intros x HX. rewrite <- (raw_cv g b S ext dt M acc D x v HV CV). apply (cv_seen g _ _ v HV). rewrite (V x HX).
    unfold hancock_of, hancock. fold (hancock_raw_of g b S ext dt M acc D x). rewrite (repaired_sound _ _ _ _ (SND x HX)). symmetry.
    unfold hancock_raw_of, hancock_raw. apply seen_kicked. rewrite seen_get. unfold getCons, advanced_state. cbn [u_rho u_e u_x u_y u_z]. destruct (g3d g); reflexivity.
Qed.

(** * Uniform flow *)
Lemma raw_uniform g n M b S ext dt u x : common g n M b ext -> In x (all_cells b (leaves M)) -> hancock_raw_of g b S ext dt M None (fun _ => u) x = seen g u.
Proof.
  intros (GS & RC & BO & PER & EV & EXT) HX. pose proof (reachable_ok g n M GS RC) as OK. pose proof (proj1 GS) as WF.
  assert (GU : forall y, gas_at g (all_cells b (leaves M)) (fun _ => u) (s_gamma S) y = gas (s_gamma S) (seen g u)).
  { intros y. unfold gas_at. rewrite (resample_uniform g M b (fun _ => u) no_gi eq_refl u (fun _ => eq_refl)). reflexivity. }
  assert (SU : forall y e v, spread_at g b (all_cells b (leaves M)) (fun _ => u) (s_gamma S) y e v = 0%Qc).
  { intros y e v. unfold spread_at. rewrite !GU, Qc_sub_same. reflexivity. }
  assert (HU : forall y v, half_step g b ext (all_cells b (leaves M)) (fun _ => u) (s_gamma S) dt y v = pv v (gas (s_gamma S) (seen g u))).
  { intros y v. unfold half_step. rewrite GU.
    assert (Z : csum (map (euler_rate g b ext (all_cells b (leaves M)) (fun _ => u) (s_gamma S) y v) (axes_of g)) = 0%Qc); [|rewrite Z; ring].
    rewrite <- (csum_zero (axes_of g)). apply csum_ext. intros e _. unfold euler_rate, gradient. rewrite !SU.
    destruct v; try (unfold Qcdiv; ring); destruct (axis_eq_dec e _); unfold Qcdiv; ring. }
  assert (FU : forall y y' e, face_flux g b ext (all_cells b (leaves M)) (fun _ => u) (flux_of S) (s_gamma S) (s_smallr S) dt y e = face_flux g b ext (all_cells b (leaves M)) (fun _ => u) (flux_of S) (s_gamma S) (s_smallr S) dt y' e).
  { intros y y' e. unfold face_flux, face_gas. cbv zeta. rewrite !HU, !SU. reflexivity. }
  unfold hancock_raw_of, hancock_raw. cbn [option_map kicked].
  assert (AU : forall v, advanced g b ext (all_cells b (leaves M)) (fun _ => u) (flux_of S) (s_gamma S) (s_smallr S) dt x v = cv v u).
  { intros v. unfold advanced.
    assert (Z : csum (map (fun e => (dt / cell_side g b ext (lev x) e * (cv v (face_flux g b ext (all_cells b (leaves M)) (fun _ => u) (flux_of S) (s_gamma S) (s_smallr S) dt (beside g b x e false) e) - cv v (face_flux g b ext (all_cells b (leaves M)) (fun _ => u) (flux_of S) (s_gamma S) (s_smallr S) dt x e)))%Qc) (axes_of g)) = 0%Qc); [|rewrite Z; ring].
    rewrite <- (csum_zero (axes_of g)). apply csum_ext. intros e _. rewrite (FU (beside g b x e false) x e). ring. }
  unfold advanced_state. cbv zeta. rewrite !AU. rewrite seen_get. unfold getCons. reflexivity.
Qed.
(** A uniform flow stays as it is, across levels and ranks, for any Riemann solver. *)
Theorem C90_uniform_partial g n M b S ext dt smallp gf old u :
  common g n M b ext -> holds_acceleration b M None gf -> sound (s_gamma S) (seen g u) ->
  exists D', hancock_update (ctx g b S) ext dt smallp b M gf old (field_arrays b M (fun _ => u)) = Some (owned_values b M D') /\
    forall x, In x (all_cells b (leaves M)) -> seen g (D' x) = seen g u.
Proof.
  intros CM GF SU. destruct (C90_scheme_partial g n M b S ext dt smallp gf None old (fun _ => u) CM GF) as (D' & E & V).
  exists D'. split; [exact E|]. intros x HX. rewrite (V x HX). unfold hancock_of, hancock. fold (hancock_raw_of g b S ext dt M None (fun _ => u) x).
  rewrite (raw_uniform g n M b S ext dt u x CM HX). apply repaired_sound, SU.
Qed.

(** * The partition does not matter *)
Lemma raw_perm g b ext cells cells' riem gamma floor dt acc D x : Permutation cells cells' ->
  hancock_raw g b ext cells D riem gamma floor dt acc x = hancock_raw g b ext cells' D riem gamma floor dt acc x.
Proof.
  intros PM.
  assert (G : forall y, gas_at g cells D gamma y = gas_at g cells' D gamma y) by (intros; apply gas_at_perm, PM).
  assert (SP : forall y e v, spread_at g b cells D gamma y e v = spread_at g b cells' D gamma y e v) by (intros; unfold spread_at; rewrite !G; reflexivity).
  assert (HS : forall y v, half_step g b ext cells D gamma dt y v = half_step g b ext cells' D gamma dt y v).
  { intros. unfold half_step. rewrite G. erewrite map_ext; [reflexivity|]. intros e. unfold euler_rate, gradient. rewrite !SP, G. reflexivity. }
  assert (FF : forall y e, face_flux g b ext cells D riem gamma floor dt y e = face_flux g b ext cells' D riem gamma floor dt y e).
  { intros. unfold face_flux, face_gas. cbv zeta. rewrite !HS, !SP. reflexivity. }
  assert (AD : forall v, advanced g b ext cells D riem gamma floor dt x v = advanced g b ext cells' D riem gamma floor dt x v).
  { intros v. unfold advanced. erewrite map_ext; [reflexivity|]. intros e. rewrite !FF. reflexivity. }
  unfold hancock_raw, advanced_state. cbv zeta. rewrite !AD. reflexivity.
Qed.
(** The same leaves on other numbers of ranks, shared out otherwise, with other leftovers in the
    output arrays: the same values. *)
Theorem C90_partition_partial g n n' M M' b S S' ext dt smallp gf gf' acc old old' D :
  common g n M b ext -> common g n' M' b ext -> same_scheme S S' -> (forall B, In B (leaves M) <-> In B (leaves M')) ->
  holds_acceleration b M acc gf -> holds_acceleration b M' acc gf' ->
  exists D1 D2,
    hancock_update (ctx g b S) ext dt smallp b M gf old (field_arrays b M D) = Some (owned_values b M D1) /\
    hancock_update (ctx g b S') ext dt smallp b M' gf' old' (field_arrays b M' D) = Some (owned_values b M' D2) /\
    forall x, In x (all_cells b (leaves M)) -> seen g (D1 x) = seen g (D2 x).
Proof.
  intros CM CM' (Q1 & Q2 & Q3 & Q4) SAME GF GF'.
  destruct (C90_scheme_partial g n M b S ext dt smallp gf acc old D CM GF) as (D1 & E1 & V1).
  destruct (C90_scheme_partial g n' M' b S' ext dt smallp gf' acc old' D CM' GF') as (D2 & E2 & V2).
  exists D1, D2. split; [exact E1|]. split; [exact E2|]. intros x HX.
  assert (SC : forall y, In y (all_cells b (leaves M)) <-> In y (all_cells b (leaves M'))).
  { intros y. rewrite !cells_in. split; intros (A & q & HA & Hq & E); exists A, q; (split; [apply SAME; exact HA|split; assumption]). }
  rewrite (V1 x HX), (V2 x (proj1 (SC x) HX)). unfold hancock_of, hancock, flux_of. rewrite Q1, Q2, Q3.
  destruct CM as (GS & RC & BO & _). destruct CM' as (GS' & RC' & _).
  f_equal. apply raw_perm. apply NoDup_Permutation; [apply (cells_NoDup g M (reachable_ok g n M GS RC) b BO)|apply (cells_NoDup g M' (reachable_ok g n' M' GS' RC') b BO)|exact SC].
Qed.

(** * Density and pressure *)
(** The new densities are positive and the pressures not negative, unless a cell is emptied
    exactly. *)
Theorem C90_positive_partial g n M b S ext dt smallp gf acc old D outs :
  common g n M b ext -> holds_acceleration b M acc gf -> (1 < s_gamma S)%Qc -> (0 < s_smallr S)%Qc -> (0 <= smallp)%Qc ->
  (forall x, In x (all_cells b (leaves M)) -> u_rho (hancock_of g b S ext dt smallp M acc D x) <> 0)%Qc ->
  hancock_update (ctx g b S) ext dt smallp b M gf old (field_arrays b M D) = Some outs ->
  forall out u, In out outs -> In u out -> (0 < u_rho u /\ 0 <= internal (seen g u))%Qc.
Proof.
  intros CM GF G1 SR SP NE RUN out u HO HU.
  destruct (C90_scheme_partial g n M b S ext dt smallp gf acc old D CM GF) as (D' & E & V).
  rewrite E in RUN. injection RUN as <-.
  assert (X : exists x, In x (all_cells b (leaves M)) /\ u = D' x).
  { unfold owned_values in HO. apply in_map_iff in HO. destruct HO as (R & <- & HR). apply in_map_iff in HU. destruct HU as (x & <- & HX). exists x. split; [|reflexivity].
    rewrite all_cells_leaves. apply in_concat. eexists. split; [apply in_map_iff; exists R; split; [reflexivity|exact HR]|exact HX]. }
  destruct X as (x & HX & ->). specialize (NE x HX). specialize (V x HX).
  destruct (repaired_ok (s_gamma S) (s_smallr S) smallp (hancock_raw_of g b S ext dt M acc D x) G1 SR SP NE) as (W1 & W2).
  change (repaired (s_gamma S) (s_smallr S) smallp (hancock_raw_of g b S ext dt M acc D x)) with (hancock_of g b S ext dt smallp M acc D x) in *.
  rewrite <- V in W1, W2. split; [|exact W2]. unfold seen in W1. destruct (g3d g); exact W1.
Qed.

Lemma no_field b M : holds_acceleration b M None (fun _ _ _ => None).
Proof. intros r R i A q _ _ _. reflexivity. Qed.

(** * The fluxes of a face between two levels differ *)

(** A periodic 2x1 mesh with one octant refined, blocks of 4x4 cells. *)
Definition hk_b : axis -> Z := cs_b.
Definition hk_S : scheme := cs_S cs_no_gravity.
Definition hk_g : geom := mkGeom false 1 2 2 1 1 true true false.
Definition hk_M0 : mesh := match private_init id_order hk_g 1 with Some M => M | None => [] end.
Definition hk_M : mesh := match adapt 20 id_order hk_g hk_M0 (map (map ex_refine) (map loc hk_M0)) with Some M => M | None => [] end.
Example hk_setup : good_setup hk_g 1.
Proof. split; [apply wf_geom_check; reflexivity|cbn [hk_g lmin gsx gsy gsz]; lia]. Qed.
Example hk_reach : reachable hk_g 1 hk_M.
Proof.
  apply (reach_adapt hk_g 1 id_order 20 hk_M0 (map (map ex_refine) (map loc hk_M0))); [|exact id_order_ok| |vm_compute; reflexivity].
  - apply (reach_init hk_g 1 id_order); [exact id_order_ok|vm_compute; reflexivity].
  - apply good_markers_of, good_request_check. vm_compute. reflexivity.
Qed.
Example hk_common_jump : common hk_g 1 hk_M hk_b cs_ext.
Proof.
  split; [exact hk_setup|]. split; [exact hk_reach|]. split; [exact cs_block|]. split; [exact cs_periodic|]. split; [exact cs_even|]. intros a; reflexivity.
Qed.
Definition hk_D (x : oct) : cons := (mkCons 1 (frac 4 1) (if Z.eqb (lev x) 1 then 0 else if Z.even (cy x) then 1 else 0) 0 0)%Qc.
Definition sound_b (ga : Qc) (u : cons) : bool := negb (ltb (u_rho u) 0) && negb (ltb ((ga - 1) * internal u)%Qc 0).
Lemma sound_list ga f (l : list oct) : forallb (fun x => sound_b ga (f x)) l = true -> forall x, In x l -> sound ga (f x).
Proof.
  intros K x HX. rewrite forallb_forall in K. specialize (K x HX). unfold sound_b in K. apply andb_true_iff in K. destruct K as (K1 & K2).
  apply negb_true_iff in K1, K2. split; apply ltb_false; assumption.
Qed.
(** The states of all cells, computed once: are they sound, and does the total mass differ? *)
Definition sound_and_gain (ga : Qc) (f D : oct -> cons) (vol : oct -> Qc) (l : list oct) : bool :=
  let fs := map f l in
  forallb (sound_b ga) fs && negb (Qeq_bool (csum (map (fun xu : oct * cons => vol (fst xu) * u_rho (snd xu)) (combine l fs)))%Qc (csum (map (fun x => vol x * u_rho (D x)) l))%Qc).
Lemma combine_map_r {A B} (f : A -> B) l : combine l (map f l) = map (fun x => (x, f x)) l.
Proof. induction l as [|x l IH]; [reflexivity|]. cbn [map combine]. rewrite IH. reflexivity. Qed.
Lemma sound_and_gain_spec ga f D vol l : sound_and_gain ga f D vol l = true ->
  (forall x, In x l -> sound ga (f x)) /\ csum (map (fun x => vol x * u_rho (f x))%Qc l) <> csum (map (fun x => vol x * u_rho (D x))%Qc l).
Proof.
  intros H. unfold sound_and_gain in H. cbv zeta in H. apply andb_true_iff in H. destruct H as (H1 & H2). split.
  - apply sound_list. rewrite forallb_forall in H1. apply forallb_forall. intros x HX. apply H1, in_map, HX.
  - refine (differ _ _ _). apply negb_true_iff in H2. rewrite combine_map_r, map_map in H2. exact H2.
Qed.
Definition hk_check (l : list oct) : bool :=
  sound_and_gain (frac 5 3) (hancock_raw hk_g hk_b cs_ext l hk_D (flux_of hk_S) (s_gamma hk_S) (s_smallr hk_S) (frac 1 100) None) hk_D (volume hk_g hk_b cs_ext) l.
Lemma hk_checked : hk_check (all_cells hk_b (leaves hk_M)) = true. Proof. exact_no_check (@eq_refl bool true). Qed.
Lemma hk_link l : l = all_cells hk_b (leaves hk_M) -> hk_check l = true ->
  (forall x, In x (all_cells hk_b (leaves hk_M)) -> sound (frac 5 3) (hancock_raw_of hk_g hk_b hk_S cs_ext (frac 1 100) hk_M None hk_D x)) /\
  csum (map (fun x => volume hk_g hk_b cs_ext x * u_rho (hancock_raw_of hk_g hk_b hk_S cs_ext (frac 1 100) hk_M None hk_D x))%Qc (all_cells hk_b (leaves hk_M))) <>
  csum (map (fun x => volume hk_g hk_b cs_ext x * u_rho (hk_D x))%Qc (all_cells hk_b (leaves hk_M))).
Proof. intros EL H. apply sound_and_gain_spec in H. unfold hancock_raw_of. rewrite <- EL. exact H. Qed.
Lemma hk_spec : (forall x, In x (all_cells hk_b (leaves hk_M)) -> sound (frac 5 3) (hancock_raw_of hk_g hk_b hk_S cs_ext (frac 1 100) hk_M None hk_D x)) /\
  csum (map (fun x => volume hk_g hk_b cs_ext x * u_rho (hancock_raw_of hk_g hk_b hk_S cs_ext (frac 1 100) hk_M None hk_D x))%Qc (all_cells hk_b (leaves hk_M))) <>
  csum (map (fun x => volume hk_g hk_b cs_ext x * u_rho (hk_D x))%Qc (all_cells hk_b (leaves hk_M))).
Proof. exact (hk_link _ eq_refl hk_checked). Qed.

(** Across a face between two levels each cell uses its own flux (the note of
    HydroUpdate_hancock.cpp:177): even the total mass changes. *)
Theorem C90_refuted_levels : ~ hancock_conserves (fun _ => True).
Proof.
  intros H.
  destruct (C90_scheme_partial hk_g 1 hk_M hk_b hk_S cs_ext (frac 1 100) 1%Qc (fun _ _ _ => None) None (fun _ _ _ => cons0) hk_D hk_common_jump (no_field hk_b hk_M)) as (D' & E & V).
  assert (HM : has_var hk_g Mass) by (intros _; discriminate).
  destruct hk_spec as (HS & ND).
  specialize (H hk_g 1%nat hk_M hk_b hk_S cs_ext (frac 1 100) 1%Qc (fun _ _ _ => None) None (fun _ _ _ => cons0) hk_D _ Mass hk_common_jump (no_field hk_b hk_M) I HS E HM (or_introl eq_refl)).
  clear E. destruct hk_common_jump as (_ & _ & BO & _). unfold total_of in H. rewrite total_owned, total_field in H by exact BO.
  apply ND. unfold domain_sum in H. refine (eq_trans _ H). apply csum_ext. intros x HX.
  specialize (V x HX). specialize (HS x HX).
  assert (W : seen hk_g (D' x) = hancock_raw_of hk_g hk_b hk_S cs_ext (frac 1 100) hk_M None hk_D x) by (rewrite V; exact (repaired_sound _ _ _ _ HS)).
  rewrite <- W. reflexivity.
Qed.

(** * Examples *)
(** The mesh of C39_example (two ranks, two levels). *)
Example hk_common : common cs_g 2 cs_M hk_b cs_ext.
Proof.
  split; [exact cs_setup|]. split; [exact cs_reach|]. split; [exact cs_block|]. split; [exact cs_periodic|]. split; [exact cs_even|]. intros a; reflexivity.
Qed.
Example C90_scheme_example dt smallp old := C90_scheme_partial cs_g 2 cs_M hk_b hk_S cs_ext dt smallp (fun _ _ _ => None) None old hk_D hk_common (no_field hk_b cs_M).
(** The step is not the identity there. *)
Example C90_scheme_moves : In (mkOct 2 0 0 0) (all_cells hk_b (leaves cs_M)) /\
  negb (Qc_eq_bool (u_rho (hancock_of cs_g hk_b hk_S cs_ext (frac 1 100) 1 cs_M None hk_D (mkOct 2 0 0 0))) (u_rho (hk_D (mkOct 2 0 0 0)))) = true.
Proof.
  split; [|lazy; reflexivity].
  assert (K : existsb (oct_eqb (mkOct 2 0 0 0)) (all_cells hk_b (leaves cs_M)) = true) by (vm_compute; reflexivity). apply existsb_exists in K. destruct K as (y & HY & EQ). apply oct_eqb_eq in EQ. subst y. exact HY.
Qed.
Example hk_common_one : common cs_g 1 one_M hk_b cs_ext.
Proof. split; [exact one_setup|]. split; [exact one_reach|]. exact (proj2 (proj2 hk_common)). Qed.
Example C90_partition_example dt smallp old old' := C90_partition_partial cs_g 2 1 cs_M one_M hk_b hk_S hk_S cs_ext dt smallp (fun _ _ _ => None) (fun _ _ _ => None) None old old' hk_D
  hk_common hk_common_one (conj eq_refl (conj eq_refl (conj eq_refl eq_refl))) (proj1 C68_example) (no_field hk_b cs_M) (no_field hk_b one_M).
Example C90_uniform_example dt smallp old := C90_uniform_partial cs_g 2 cs_M hk_b hk_S cs_ext dt smallp (fun _ _ _ => None) old rk_u hk_common (no_field hk_b cs_M) rk_u_sound.
(** A flow on a mesh of one size. *)
Definition hk_D0 (x : oct) : cons := (mkCons 1 (frac 4 1) (if Z.even (cx x) then 1 else 0) 0 0)%Qc.
Definition hk_g0 : geom := mkGeom false 1 2 1 1 1 true true false.
Definition hk_M00 : mesh := match private_init id_order hk_g0 1 with Some M => M | None => [] end.
Example hk_common_coarse : common hk_g0 1 hk_M00 hk_b cs_ext.
Proof.
  split; [split; [apply wf_geom_check; reflexivity|cbn [hk_g0 lmin gsx gsy gsz]; lia]|]. split; [apply (reach_init hk_g0 1 id_order); [exact id_order_ok|vm_compute; reflexivity]|].
  split; [exact cs_block|]. split; [exact cs_periodic|]. split; [exact cs_even|]. intros a; reflexivity.
Qed.
Definition hk_check0 (l : list oct) : bool :=
  forallb (fun x => sound_b (frac 5 3) (hancock_raw hk_g0 hk_b cs_ext l hk_D0 (flux_of hk_S) (s_gamma hk_S) (s_smallr hk_S) (frac 1 100) None x)) l.
Lemma hk_checked0 : hk_check0 (all_cells hk_b (leaves hk_M00)) = true. Proof. exact_no_check (@eq_refl bool true). Qed.
Lemma hk_link0 l : l = all_cells hk_b (leaves hk_M00) -> hk_check0 l = true ->
  forall x, In x (all_cells hk_b (leaves hk_M00)) -> sound (frac 5 3) (hancock_raw_of hk_g0 hk_b hk_S cs_ext (frac 1 100) hk_M00 None hk_D0 x).
Proof. intros EL H. unfold hancock_raw_of. rewrite <- EL. exact (sound_list _ _ l H). Qed.
Lemma hk_sound0 x : In x (all_cells hk_b (leaves hk_M00)) -> sound (frac 5 3) (hancock_raw_of hk_g0 hk_b hk_S cs_ext (frac 1 100) hk_M00 None hk_D0 x).
Proof. exact (hk_link0 _ eq_refl hk_checked0 x). Qed.
Example C90_conservation_example smallp old v : has_var hk_g0 v -> exists outs,
  hancock_update (ctx hk_g0 hk_b hk_S) cs_ext (frac 1 100) smallp hk_b hk_M00 (fun _ _ _ => None) old (field_arrays hk_b hk_M00 hk_D0) = Some outs /\
  total_of hk_g0 hk_b cs_ext hk_M00 v outs = total_of hk_g0 hk_b cs_ext hk_M00 v (field_arrays hk_b hk_M00 hk_D0).
Proof.
  intros HV. destruct (C90_scheme_partial hk_g0 1 hk_M00 hk_b hk_S cs_ext (frac 1 100) smallp (fun _ _ _ => None) None old hk_D0 hk_common_coarse (no_field hk_b hk_M00)) as (D' & E & _).
  eexists. split; [exact E|].
  apply (C90_conservation_one_size_partial hk_g0 1%nat hk_M00 hk_b hk_S cs_ext (frac 1 100) smallp (fun _ _ _ => None) None old hk_D0 _ v hk_common_coarse (no_field hk_b hk_M00)); [|exact hk_sound0|exact E|exact HV|right; reflexivity].
  assert (K : forallb (fun x => lev x =? 1) (all_cells hk_b (leaves hk_M00)) = true) by (vm_compute; reflexivity). rewrite forallb_forall in K.
  intros x y HX HY. pose proof (K x HX). pose proof (K y HY). lia.
Qed.
Example C90_positive_example smallp x : In x (all_cells hk_b (leaves cs_M)) -> u_rho (hancock_of cs_g hk_b hk_S cs_ext (frac 1 100) smallp cs_M None (fun _ => rk_u) x) = 1%Qc.
Proof.
  intros HX. unfold hancock_of, hancock. fold (hancock_raw_of cs_g hk_b hk_S cs_ext (frac 1 100) cs_M None (fun _ => rk_u) x).
  rewrite (raw_uniform cs_g 2 cs_M hk_b hk_S cs_ext (frac 1 100) rk_u x hk_common HX). change (s_gamma hk_S) with (frac 5 3). rewrite (repaired_sound _ _ _ _ rk_u_sound). reflexivity.
Qed.

Print Assumptions C90_scheme_partial.
Print Assumptions C90_conservation_one_size_partial.
Print Assumptions C90_uniform_partial.
Print Assumptions C90_partition_partial.
Print Assumptions C90_positive_partial.
Print Assumptions C90_refuted_levels.
