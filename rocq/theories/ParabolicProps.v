(** The explicit update of the parabolic terms: thermal conduction (C86) and viscosity (C87). *)
From Coq Require Import QArith Qcanon Qround Permutation Lqa.
From Verif Require Import Base OctreeSpec OctreeGeom OctreeModel FindNeighbors MeshSpec HistorySpec
  LookupModel CellModel CellSpec CellProofs CellProps RemapModel RemapSpec RemapProofs RemapProps HydroModel HydroSpec HydroProps
  ConserveSpec BlockGhost ConserveFaces ConserveProofs OctreeProps HistoryProofs LookupProps SchemeSpec ConserveProps SchemeProps ParticleModel ParticleProofs
  GravitySpec GravityModel GravityProofs GravityLoop CloudProofs RKModel RKSpec RKProofs RKProps ParabolicModel ParabolicSpec ParabolicProofs ParabolicRun.
Open Scope Z_scope.

(** Periodic meshes, as in C39 and C85. *)
Definition periodic_run (g : geom) (n : nat) (M : mesh) (b : axis -> Z) (lo hi : point) : Prop :=
  good_setup g n /\ reachable g n M /\ block_ok g b /\ periodic g /\ even_blocks g b /\ (forall a, lo a < hi a)%Qc.
(** What does not depend on the rank: blocks, box, adiabatic index, and the treatment of the
    boundaries, that may be anything. *)
Record setting := mkSetting { t_b : axis -> Z; t_lo : point; t_hi : point; t_gamma : Qc; t_bval : cidx -> option cons;
  t_user : axis -> bool -> bool; t_heat : Qc -> prim -> Qc -> Qc -> axis -> bool -> Qc }.
Definition context (g : geom) (s : setting) (R : rank) : pctx :=
  mkP g (loc R ++ gho R) (t_b s) (t_lo s) (t_hi s) (t_gamma s) (t_bval s) (t_user s) (t_heat s).
Definition sizes (s : setting) : axis -> Qc := fun a => (t_hi s a - t_lo s a)%Qc.
Definition conduct (g : geom) (s : setting) (kappa : point -> Qc) (dt : Qc) (M : mesh) := parabolic_update (fun R => thermal_rhs kappa (context g s R)) (g3d g) dt (t_b s) M.
Definition rub (g : geom) (s : setting) (mu dt : Qc) (M : mesh) := parabolic_update (fun R => viscous_rhs mu (context g s R)) (g3d g) dt (t_b s) M.

(** * Thermal conduction *)

(** The update completes. The density and the momentum stay, and the energy of every cell
    changes by what enters through its faces; each cell takes the conductivity [taken]. *)
Theorem C86_scheme_partial g n M s kappa dt D Next :
  periodic_run g n M (t_b s) (t_lo s) (t_hi s) -> of_position kappa ->
  exists D', conduct g s kappa dt M (field_arrays (t_b s) M D) (owned_values (t_b s) M Next) = Some (owned_values (t_b s) M D') /\
    forall x v, In x (all_cells (t_b s) (leaves M)) -> has_var g v ->
      cv v (D' x) = (cv v (Next x) + dt * match v with
        | Energy => heating g (t_b s) (sizes s) (all_cells (t_b s) (leaves M)) D (t_gamma s) (taken g (t_b s) (t_lo s) (sizes s) kappa) x
        | _ => 0 end)%Qc.
Proof.
  intros (GS & RC & BO & PER & EV & EXT) KX. pose proof (reachable_ok g n M GS RC) as OK. destruct GS as (WF & GS).
  apply (parabolic_run g M (t_b s) _ (fun x v => match v with Energy => heating g (t_b s) (sizes s) (all_cells (t_b s) (leaves M)) D (t_gamma s) (taken g (t_b s) (t_lo s) (sizes s) kappa) x | _ => 0%Qc end)); try assumption.
  intros U HF r R i A c HR HA IB.
  destruct (thermal_value g WF M OK (t_b s) BO PER EV D (t_gamma s) (t_lo s) (t_hi s) EXT (t_bval s) (t_user s) (t_heat s) U HF r R HR i A HA c IB kappa KX) as (u & EU & VU).
  exists u. split; [exact EU|]. intros v _. apply VU.
Qed.

(** Total energy. The conductivity is the same everywhere: any periodic mesh. *)
Lemma conduct_total g n M s kappa dt D Next outs v :
  periodic_run g n M (t_b s) (t_lo s) (t_hi s) -> of_position kappa ->
  (forall x z e up, In x (all_cells (t_b s) (leaves M)) -> In z (all_cells (t_b s) (leaves M)) -> flat g e = false -> neighbour g (t_b s) x e up z = true ->
     taken g (t_b s) (t_lo s) (sizes s) kappa x e up z = taken g (t_b s) (t_lo s) (sizes s) kappa z e (negb up) x) ->
  conduct g s kappa dt M (field_arrays (t_b s) M D) (owned_values (t_b s) M Next) = Some outs -> has_var g v ->
  total_held g (t_b s) (sizes s) M v (fun r => field_of (t_b s) (nth r outs [])) = total_held g (t_b s) (sizes s) M v (fun r => field_of (t_b s) (nth r (owned_values (t_b s) M Next) [])).
Proof.
  intros PR KX SYM RUN HV. destruct (C86_scheme_partial g n M s kappa dt D Next PR KX) as (D' & E & V). rewrite E in RUN. injection RUN as <-.
  destruct PR as (GS & RC & BO & PER & EV & EXT). pose proof (reachable_ok g n M GS RC) as OK. destruct GS as (WF & GS).
  rewrite !total_owned by exact BO. unfold domain_sum.
  set (h := heating g (t_b s) (sizes s) (all_cells (t_b s) (leaves M)) D (t_gamma s) (taken g (t_b s) (t_lo s) (sizes s) kappa)) in *.
  rewrite (csum_ext _ (fun x => volume g (t_b s) (sizes s) x * cv v (Next x) + dt * match v with Energy => volume g (t_b s) (sizes s) x * h x | _ => 0 end)%Qc)
    by (intros x HX; rewrite (V x v HX HV); destruct v; ring).
  rewrite csum_plus, csum_scale. assert (Z0 : csum (map (fun x => match v with Energy => (volume g (t_b s) (sizes s) x * h x)%Qc | _ => 0%Qc end) (all_cells (t_b s) (leaves M))) = 0%Qc); [|rewrite Z0; ring].
  destruct v; try apply csum_zero. apply (heat_total g WF M OK (t_b s) BO (sizes s) (ext_pos (t_lo s) (t_hi s) EXT) D (t_gamma s)). exact SYM.
Qed.
Theorem C86_conservation_partial g n M s k dt D Next outs v :
  periodic_run g n M (t_b s) (t_lo s) (t_hi s) ->
  conduct g s (fun _ => k) dt M (field_arrays (t_b s) M D) (owned_values (t_b s) M Next) = Some outs -> has_var g v ->
  total_held g (t_b s) (sizes s) M v (fun r => field_of (t_b s) (nth r outs [])) = total_held g (t_b s) (sizes s) M v (fun r => field_of (t_b s) (nth r (owned_values (t_b s) M Next) [])).
Proof. intros PR RUN HV. apply (conduct_total g n M s (fun _ => k) dt D Next outs v PR); [intros p p' _; reflexivity|intros; reflexivity|exact RUN|exact HV]. Qed.

(** Any conductivity that repeats with the domain: meshes whose cells all have one size. *)
Lemma beyond_repeats g n M b lo hi kappa x e up : periodic_run g n M b lo hi -> of_position kappa -> repeats (extent lo hi) kappa ->
  In x (all_cells b (leaves M)) -> flat g e = false -> kappa (beyond g b lo (extent lo hi) x e up) = kappa (middle g b lo (extent lo hi) (beside g b x e up)).
Proof.
  intros (GS & RC & BO & PER & EV & EXT) KX REP HX FE. pose proof (reachable_ok g n M GS RC) as OK. destruct GS as (WF & GS).
  pose proof (cell_lev g M OK b x HX) as LX. destruct (proj2 (cells_inside g M OK b BO x HX) e) as (C1 & C2).
  set (y := beside g b x e up).
  assert (LY : lev y = lev x) by reflexivity.
  assert (CY : forall a, coord y a = (coord x a + (if axis_eq_dec a e then if up then 1 else -1 else 0)) mod ncells g b (lev x) a) by (intros a; unfold y, beside, displaced; apply coord_oct_of).
  assert (OTHER : forall a, a <> e -> coord y a = coord x a).
  { intros a NE. rewrite CY. destruct (axis_eq_dec a e); [contradiction|]. rewrite Z.add_0_r. apply Z.mod_small, (cells_inside g M OK b BO x HX). }
  pose proof (N_pos g WF b BO (lev x) e ltac:(lia)) as NP.
  set (N := ncells g b (lev x) e) in *. set (h := cell_side g b (extent lo hi) (lev x) e).
  assert (NH : (zq N * h = extent lo hi e)%Qc) by (assert (NN : zq N <> 0%Qc) by (apply Qc_pos_nz, zq_pos; lia); change h with (extent lo hi e / zq N)%Qc; field; exact NN).
  assert (ME : forall z, lev z = lev x -> middle g b lo (extent lo hi) z e = (lo e + (zq (coord z e) + 1 / two) * h)%Qc) by (intros z LZ; unfold middle; rewrite FE, LZ; reflexivity).
  assert (MO : forall a, a <> e -> middle g b lo (extent lo hi) y a = middle g b lo (extent lo hi) x a) by (intros a NE; unfold middle; rewrite LY, (OTHER a NE); reflexivity).
  specialize (CY e). destruct (axis_eq_dec e e) as [_|K]; [|congruence].
  assert (BE : beyond g b lo (extent lo hi) x e up e = (lo e + (zq (coord x e + (if up then 1 else -1)) + 1 / two) * h)%Qc).
  { unfold beyond. destruct (axis_eq_dec e e) as [_|K]; [|congruence]. fold h. rewrite (ME x eq_refl), zq_plus. destruct up; [change (zq 1) with 1%Qc|change (zq (-1)) with (- (1))%Qc]; ring. }
  assert (BO' : forall a, a <> e -> beyond g b lo (extent lo hi) x e up a = middle g b lo (extent lo hi) x a) by (intros a NE; unfold beyond; destruct (axis_eq_dec a e); [contradiction|reflexivity]).
  destruct up.
  - destruct (Z.eq_dec (coord x e + 1) N) as [EN|NN].
    + rewrite EN, Z.mod_same in CY by lia. rewrite EN in BE. rewrite <- (REP (middle g b lo (extent lo hi) y) e). apply KX. intros a.
      destruct (axis_eq_dec a e) as [->|NE]; [|rewrite (BO' a NE), (MO a NE); reflexivity].
      rewrite BE, (ME y LY), CY, <- NH. change (zq 0) with 0%Qc. ring.
    + rewrite Z.mod_small in CY by lia. apply KX. intros a. destruct (axis_eq_dec a e) as [->|NE]; [|rewrite (BO' a NE), (MO a NE); reflexivity]. rewrite BE, (ME y LY), CY. reflexivity.
  - destruct (Z.eq_dec (coord x e) 0) as [EN|NN].
    + rewrite EN in CY, BE. assert (CY' : coord y e = N - 1) by (rewrite CY; symmetry; apply (Z.mod_unique _ _ (-1)); lia).
      rewrite <- (REP (beyond g b lo (extent lo hi) x e false) e). apply KX. intros a.
      destruct (axis_eq_dec a e) as [->|NE]; [|rewrite (BO' a NE), (MO a NE); reflexivity].
      rewrite BE, (ME y LY), CY', <- NH. replace (N - 1) with (N + (0 + -1)) by lia. rewrite (zq_plus N). ring.
    + rewrite Z.mod_small in CY by lia. apply KX. intros a. destruct (axis_eq_dec a e) as [->|NE]; [|rewrite (BO' a NE), (MO a NE); reflexivity]. rewrite BE, (ME y LY), CY. reflexivity.
Qed.
Lemma one_size_neighbour g M b x e up z : one_size (all_cells b (leaves M)) -> In x (all_cells b (leaves M)) -> In z (all_cells b (leaves M)) -> neighbour g b x e up z = true -> z = beside g b x e up.
Proof.
  intros OS HX HZ NB. unfold neighbour in NB. apply Bool.orb_true_iff in NB. destruct NB as [NB|NB]; [apply Bool.orb_true_iff in NB; destruct NB as [NB|NB]|]; apply oct_eqb_eq in NB.
  - exact NB.
  - pose proof (OS z x HZ HX) as L. rewrite NB, parent_lev in L. cbn [beside displaced oct_of lev] in L. lia.
  - pose proof (OS x z HX HZ) as L. rewrite NB, parent_lev in L. cbn [beside displaced oct_of lev] in L. lia.
Qed.
Theorem C86_conservation_one_size_partial g n M s kappa dt D Next outs v :
  periodic_run g n M (t_b s) (t_lo s) (t_hi s) -> of_position kappa -> repeats (sizes s) kappa -> one_size (all_cells (t_b s) (leaves M)) ->
  conduct g s kappa dt M (field_arrays (t_b s) M D) (owned_values (t_b s) M Next) = Some outs -> has_var g v ->
  total_held g (t_b s) (sizes s) M v (fun r => field_of (t_b s) (nth r outs [])) = total_held g (t_b s) (sizes s) M v (fun r => field_of (t_b s) (nth r (owned_values (t_b s) M Next) [])).
Proof.
  intros PR KX REP OS RUN HV. apply (conduct_total g n M s kappa dt D Next outs v PR KX); [|exact RUN|exact HV].
  intros x z e up HX HZ FE NB. pose proof (one_size_neighbour g M (t_b s) x e up z OS HX HZ NB) as EZ.
  pose proof PR as (GS & RC & BO & PER & EV & EXT). pose proof (reachable_ok g n M GS RC) as OK. pose proof (proj1 GS) as WF.
  unfold taken. rewrite (OS z x HZ HX), Z.ltb_irrefl. unfold sizes.
  change (fun a => (t_hi s a - t_lo s a)%Qc) with (extent (t_lo s) (t_hi s)).
  rewrite (beyond_repeats g n M _ _ _ kappa x e up PR KX REP HX FE), (beyond_repeats g n M _ _ _ kappa z e (negb up) PR KX REP HZ FE).
  rewrite EZ at 2. rewrite (beside_back g WF M OK (t_b s) BO x e up HX), <- EZ, Qcplus_comm. reflexivity.
Qed.

(** Each face then has the mean of the conductivities at the centres of its two cells. *)
Theorem C86_scheme_one_size_partial g n M s kappa dt D Next :
  periodic_run g n M (t_b s) (t_lo s) (t_hi s) -> of_position kappa -> repeats (sizes s) kappa -> one_size (all_cells (t_b s) (leaves M)) ->
  exists D', conduct g s kappa dt M (field_arrays (t_b s) M D) (owned_values (t_b s) M Next) = Some (owned_values (t_b s) M D') /\
    forall x v, In x (all_cells (t_b s) (leaves M)) -> has_var g v ->
      cv v (D' x) = (cv v (Next x) + dt * match v with
        | Energy => heating g (t_b s) (sizes s) (all_cells (t_b s) (leaves M)) D (t_gamma s) (fun y _ _ z => conductivity g (t_b s) (t_lo s) (sizes s) kappa y z) x
        | _ => 0 end)%Qc.
Proof.
  intros PR KX REP OS. destruct (C86_scheme_partial g n M s kappa dt D Next PR KX) as (D' & E & V). exists D'. split; [exact E|]. intros x v HX HV. rewrite (V x v HX HV).
  destruct v; try reflexivity. f_equal. f_equal. unfold heating. f_equal. apply csum_ext. intros e IE. apply axes_flat' in IE. apply csum_ext. intros up _. apply csum_ext. intros z HZ. apply filter_In in HZ. destruct HZ as (HZ & NB).
  pose proof (one_size_neighbour g M (t_b s) x e up z OS HX HZ NB) as EZ.
  assert (TK : taken g (t_b s) (t_lo s) (sizes s) kappa x e up z = conductivity g (t_b s) (t_lo s) (sizes s) kappa x z); [|rewrite TK; reflexivity].
  unfold taken, conductivity. rewrite (OS z x HZ HX), Z.ltb_irrefl. change (sizes s) with (extent (t_lo s) (t_hi s)).
  rewrite (beyond_repeats g n M _ _ _ kappa x e up PR KX REP HX IE), <- EZ. reflexivity.
Qed.

(** The same temperature everywhere: no heat moves. *)
Theorem C86_uniform_partial g n M s kappa dt D Next T :
  periodic_run g n M (t_b s) (t_lo s) (t_hi s) -> of_position kappa ->
  (forall x, In x (all_cells (t_b s) (leaves M)) -> temperature g (all_cells (t_b s) (leaves M)) D (t_gamma s) x = T) ->
  exists D', conduct g s kappa dt M (field_arrays (t_b s) M D) (owned_values (t_b s) M Next) = Some (owned_values (t_b s) M D') /\
    forall x v, In x (all_cells (t_b s) (leaves M)) -> has_var g v -> cv v (D' x) = cv v (Next x).
Proof.
  intros PR KX HT. destruct (C86_scheme_partial g n M s kappa dt D Next PR KX) as (D' & E & V). exists D'. split; [exact E|]. intros x v HX HV. rewrite (V x v HX HV).
  assert (H0 : heating g (t_b s) (sizes s) (all_cells (t_b s) (leaves M)) D (t_gamma s) (taken g (t_b s) (t_lo s) (sizes s) kappa) x = 0%Qc).
  { unfold heating. rewrite (csum_ext _ (fun _ => 0%Qc)); [rewrite csum_zero; unfold Qcdiv; ring|]. intros e _. rewrite (csum_ext _ (fun _ => 0%Qc)); [apply csum_zero|]. intros up _.
    rewrite (csum_ext _ (fun _ => 0%Qc)); [apply csum_zero|]. intros z HZ. apply filter_In in HZ. rewrite (HT x HX), (HT z (proj1 HZ)). unfold Qcdiv. ring. }
  destruct v; rewrite ?H0; ring.
Qed.

(** A cell that no neighbour is hotter than is not heated; one that no neighbour is colder than
    is not cooled. *)
Lemma csum_nonpos {X} (f : X -> Qc) l : (forall x, In x l -> f x <= 0)%Qc -> (csum (map f l) <= 0)%Qc.
Proof.
  induction l as [|x l IH]; intros H; cbn [map csum fold_right]; [apply Qcle_refl|]. fold (csum (map f l)).
  replace 0%Qc with (0 + 0)%Qc by ring. apply Qcplus_le_compat; [apply H; left; reflexivity|apply IH; intros y HY; apply H; right; exact HY].
Qed.
Lemma mul_nonpos (x y : Qc) : (0 <= x -> y <= 0 -> x * y <= 0)%Qc.
Proof. intros H1 H2. replace 0%Qc with (0 * x)%Qc by ring. rewrite (Qcmult_comm x). apply Qcmult_le_compat_r; assumption. Qed.
Lemma inv_nonneg (x : Qc) : (0 < x -> 0 <= / x)%Qc.
Proof. intros H. apply Qclt_le_weak. replace (/ x)%Qc with (1 / x)%Qc by (unfold Qcdiv; ring). apply Qcdiv_lt_0; [reflexivity|exact H]. Qed.
Lemma heating_sign g n M s kappa D x (c : Qc) : periodic_run g n M (t_b s) (t_lo s) (t_hi s) -> (forall p, 0 <= kappa p)%Qc -> In x (all_cells (t_b s) (leaves M)) ->
  (forall z e up, In z (all_cells (t_b s) (leaves M)) -> neighbour g (t_b s) x e up z = true ->
     c * (temperature g (all_cells (t_b s) (leaves M)) D (t_gamma s) z - temperature g (all_cells (t_b s) (leaves M)) D (t_gamma s) x) <= 0)%Qc ->
  (c * heating g (t_b s) (sizes s) (all_cells (t_b s) (leaves M)) D (t_gamma s) (taken g (t_b s) (t_lo s) (sizes s) kappa) x <= 0)%Qc.
Proof.
  intros (GS & RC & BO & PER & EV & EXT) KP HX HT. pose proof (reachable_ok g n M GS RC) as OK. pose proof (proj1 GS) as WF.
  set (cells := all_cells (t_b s) (leaves M)) in *. pose proof (ext_pos (t_lo s) (t_hi s) EXT) as EP.
  assert (SP : forall y a, In y cells -> (0 < cell_side g (t_b s) (sizes s) (lev y) a)%Qc) by (intros y a HY; apply (side_pos g WF (t_b s) BO (sizes s) EP), (cell_lev g M OK _ y HY)).
  assert (VP : (0 < volume g (t_b s) (sizes s) x)%Qc) by (unfold volume; repeat (apply Qcmult_lt_0; [|exact (SP x _ HX)]); exact (SP x _ HX)).
  unfold heating, Qcdiv. rewrite Qcmult_assoc, Qcmult_comm. apply mul_nonpos; [apply inv_nonneg, VP|].
  rewrite <- csum_scale. apply csum_nonpos. intros e _. rewrite <- csum_scale. apply csum_nonpos. intros up _. rewrite <- csum_scale. apply csum_nonpos. intros z HZ. apply filter_In in HZ. destruct HZ as (HZ & NB).
  set (K := taken g (t_b s) (t_lo s) (sizes s) kappa x e up z). set (dT := (temperature g cells D (t_gamma s) z - temperature g cells D (t_gamma s) x)%Qc).
  assert (KN : (0 <= K)%Qc).
  { unfold K, taken, Qcdiv. replace 0%Qc with (0 * / two)%Qc by ring. apply Qcmult_le_compat_r; [|apply inv_nonneg; reflexivity]. replace 0%Qc with (0 + 0)%Qc by ring. apply Qcplus_le_compat; apply KP. }
  assert (AN : (0 <= face_area g (t_b s) (sizes s) (Z.max (lev x) (lev z)) e)%Qc).
  { assert (MX : exists y, In y cells /\ Z.max (lev x) (lev z) = lev y) by (destruct (Z.max_spec (lev x) (lev z)) as [(_ & ->)|(_ & ->)]; eauto). destruct MX as (y & HY & ->).
    apply Qclt_le_weak. unfold face_area. destruct e; apply Qcmult_lt_0; apply SP; exact HY. }
  set (d := ((cell_side g (t_b s) (sizes s) (lev x) e + cell_side g (t_b s) (sizes s) (lev z) e) * / two)%Qc).
  assert (DN : (0 <= / d)%Qc).
  { apply inv_nonneg. unfold d. apply (Qcdiv_lt_0 _ two); [|reflexivity]. pose proof (SP x e HX) as S1. pose proof (SP z e HZ) as S2. qlin. }
  replace (c * (face_area g (t_b s) (sizes s) (Z.max (lev x) (lev z)) e * (K * dT * / d)))%Qc with (face_area g (t_b s) (sizes s) (Z.max (lev x) (lev z)) e * (K * (/ d * (c * dT))))%Qc by ring.
  apply mul_nonpos; [exact AN|]. apply mul_nonpos; [exact KN|]. apply mul_nonpos; [exact DN|]. apply (HT z e up HZ NB).
Qed.
Theorem C86_extremes_partial g n M s kappa dt D Next :
  periodic_run g n M (t_b s) (t_lo s) (t_hi s) -> of_position kappa -> (forall p, 0 <= kappa p)%Qc -> (0 <= dt)%Qc ->
  exists D', conduct g s kappa dt M (field_arrays (t_b s) M D) (owned_values (t_b s) M Next) = Some (owned_values (t_b s) M D') /\
    forall x, In x (all_cells (t_b s) (leaves M)) ->
      let T := temperature g (all_cells (t_b s) (leaves M)) D (t_gamma s) in
      ((forall z e up, In z (all_cells (t_b s) (leaves M)) -> neighbour g (t_b s) x e up z = true -> T z <= T x) -> cv Energy (D' x) <= cv Energy (Next x))%Qc /\
      ((forall z e up, In z (all_cells (t_b s) (leaves M)) -> neighbour g (t_b s) x e up z = true -> T x <= T z) -> cv Energy (Next x) <= cv Energy (D' x))%Qc.
Proof.
  intros PR KX KP DT. destruct (C86_scheme_partial g n M s kappa dt D Next PR KX) as (D' & E & V). exists D'. split; [exact E|]. intros x HX. cbv zeta.
  assert (HE : has_var g Energy) by (intros _; discriminate). rewrite (V x Energy HX HE).
  set (H := heating _ _ _ _ _ _ _ _). split; intros HT.
  - assert (S : (1 * H <= 0)%Qc).
    { apply (heating_sign g n M s kappa D x 1%Qc PR KP HX). intros z e up HZ NB. specialize (HT z e up HZ NB). qlin. }
    pose proof (mul_nonpos dt (1 * H)%Qc DT S) as K. replace (dt * (1 * H))%Qc with (dt * H)%Qc in K by ring. qlin.
  - assert (S : (- (1) * H <= 0)%Qc).
    { apply (heating_sign g n M s kappa D x (- (1))%Qc PR KP HX). intros z e up HZ NB. specialize (HT z e up HZ NB). qlin. }
    pose proof (mul_nonpos dt (- (1) * H)%Qc DT S) as K. replace (dt * (- (1) * H))%Qc with (- (dt * H))%Qc in K by ring. qlin.
Qed.

(** The same leaves on other numbers of ranks, shared out otherwise: the same values. *)
Lemma same_cells g n n' M M' b lo hi : periodic_run g n M b lo hi -> periodic_run g n' M' b lo hi -> (forall B, In B (leaves M) <-> In B (leaves M')) ->
  Permutation (all_cells b (leaves M)) (all_cells b (leaves M')).
Proof.
  intros (GS & RC & BO & _) (GS' & RC' & _) SAME. apply NoDup_Permutation; [apply (cells_NoDup g M (reachable_ok g n M GS RC) b BO)|apply (cells_NoDup g M' (reachable_ok g n' M' GS' RC') b BO)|].
  intros y. rewrite !cells_in. split; intros (A & q & HA & Hq & E); exists A, q; (split; [apply SAME; exact HA|split; assumption]).
Qed.
Lemma heating_perm g b ext cells cells' D gamma k x : Permutation cells cells' -> heating g b ext cells D gamma k x = heating g b ext cells' D gamma k x.
Proof.
  intros PM. unfold heating. f_equal. apply csum_ext. intros e _. apply csum_ext. intros up _.
  rewrite (csum_perm _ _ (Permutation_map _ (filter_permuted (neighbour g b x e up) _ _ PM))). apply csum_ext. intros z _. unfold temperature. rewrite !(gas_at_perm g cells cells' PM gamma D). reflexivity.
Qed.
Theorem C86_partition_partial g n n' M M' s s' kappa dt D Next :
  periodic_run g n M (t_b s) (t_lo s) (t_hi s) -> periodic_run g n' M' (t_b s) (t_lo s) (t_hi s) -> (forall B, In B (leaves M) <-> In B (leaves M')) ->
  t_b s' = t_b s -> t_lo s' = t_lo s -> t_hi s' = t_hi s -> t_gamma s' = t_gamma s -> of_position kappa ->
  exists D1 D2,
    conduct g s kappa dt M (field_arrays (t_b s) M D) (owned_values (t_b s) M Next) = Some (owned_values (t_b s) M D1) /\
    conduct g s' kappa dt M' (field_arrays (t_b s) M' D) (owned_values (t_b s) M' Next) = Some (owned_values (t_b s) M' D2) /\
    forall x v, In x (all_cells (t_b s) (leaves M)) -> has_var g v -> cv v (D1 x) = cv v (D2 x).
Proof.
  intros PR PR' SAME Q1 Q2 Q3 Q4 KX. pose proof (same_cells g n n' M M' _ _ _ PR PR' SAME) as PM.
  destruct (C86_scheme_partial g n M s kappa dt D Next PR KX) as (D1 & E1 & V1).
  rewrite <- Q1, <- Q2, <- Q3 in PR'. destruct (C86_scheme_partial g n' M' s' kappa dt D Next PR' KX) as (D2 & E2 & V2). unfold sizes in V2. rewrite Q1, Q2, Q3, Q4 in *.
  exists D1, D2. split; [exact E1|]. split; [exact E2|]. intros x v HX HV. rewrite (V1 x v HX HV), (V2 x v (Permutation_in x PM HX) HV). fold (sizes s).
  destruct v; try reflexivity. rewrite (heating_perm _ _ _ _ _ _ _ _ _ PM). reflexivity.
Qed.

(** * Viscosity *)

(** The update completes. The density stays; momentum and energy change by the divergence of the
    stress and of its power, multiplied by [depth], which is 1 in three dimensions. *)
Theorem C87_scheme_partial g n M s mu dt D Next :
  periodic_run g n M (t_b s) (t_lo s) (t_hi s) ->
  exists D', rub g s mu dt M (field_arrays (t_b s) M D) (owned_values (t_b s) M Next) = Some (owned_values (t_b s) M D') /\
    forall x v, In x (all_cells (t_b s) (leaves M)) -> has_var g v ->
      cv v (D' x) = (cv v (Next x) + dt * (depth g (sizes s) x * viscous g (t_b s) (sizes s) (all_cells (t_b s) (leaves M)) D (t_gamma s) mu v x))%Qc.
Proof.
  intros (GS & RC & BO & PER & EV & EXT). pose proof (reachable_ok g n M GS RC) as OK. destruct GS as (WF & GS).
  apply (parabolic_run g M (t_b s) _ (fun x v => depth g (sizes s) x * viscous g (t_b s) (sizes s) (all_cells (t_b s) (leaves M)) D (t_gamma s) mu v x)%Qc); try assumption.
  intros U HF r R i A c HR HA IB.
  exact (viscous_value g WF M OK (t_b s) BO PER EV D (t_gamma s) (t_lo s) (t_hi s) EXT (t_bval s) (t_user s) (t_heat s) U HF r R HR i A HA c IB mu).
Qed.
(** In three dimensions. *)
Theorem C87_scheme_3d_partial g n M s mu dt D Next :
  g3d g = true -> periodic_run g n M (t_b s) (t_lo s) (t_hi s) ->
  exists D', rub g s mu dt M (field_arrays (t_b s) M D) (owned_values (t_b s) M Next) = Some (owned_values (t_b s) M D') /\
    forall x v, In x (all_cells (t_b s) (leaves M)) ->
      cv v (D' x) = (cv v (Next x) + dt * viscous g (t_b s) (sizes s) (all_cells (t_b s) (leaves M)) D (t_gamma s) mu v x)%Qc.
Proof.
  intros E3 PR. destruct (C87_scheme_partial g n M s mu dt D Next PR) as (D' & E & V). exists D'. split; [exact E|]. intros x v HX.
  rewrite (V x v HX) by (intros K; congruence). unfold depth. rewrite E3. ring.
Qed.

(** Totals: meshes whose cells all have one size. *)
Theorem C87_conservation_one_size_partial g n M s mu dt D Next outs v :
  periodic_run g n M (t_b s) (t_lo s) (t_hi s) -> one_size (all_cells (t_b s) (leaves M)) ->
  rub g s mu dt M (field_arrays (t_b s) M D) (owned_values (t_b s) M Next) = Some outs -> has_var g v ->
  total_held g (t_b s) (sizes s) M v (fun r => field_of (t_b s) (nth r outs [])) = total_held g (t_b s) (sizes s) M v (fun r => field_of (t_b s) (nth r (owned_values (t_b s) M Next) [])).
Proof.
  intros PR OS RUN HV. destruct (C87_scheme_partial g n M s mu dt D Next PR) as (D' & E & V). rewrite E in RUN. injection RUN as <-.
  destruct PR as (GS & RC & BO & PER & EV & EXT). pose proof (reachable_ok g n M GS RC) as OK. destruct GS as (WF & GS).
  rewrite !total_owned by exact BO. unfold domain_sum. set (cells := all_cells (t_b s) (leaves M)) in *.
  assert (EX : cells = [] \/ exists x0, In x0 cells) by (destruct cells as [|x0 l]; [left; reflexivity|right; exists x0; left; reflexivity]).
  destruct EX as [EC|(x0 & HX0)]; [rewrite EC; reflexivity|].
  rewrite (csum_ext _ (fun x => volume g (t_b s) (sizes s) x * cv v (Next x) + dt * depth g (sizes s) x0 * (volume g (t_b s) (sizes s) x * viscous g (t_b s) (sizes s) cells D (t_gamma s) mu v x))%Qc).
  - rewrite csum_plus, csum_scale.
    pose proof (viscous_total g WF M OK (t_b s) BO (sizes s) (ext_pos (t_lo s) (t_hi s) EXT) D (t_gamma s) mu v PER EV OS) as VT. fold cells in VT. rewrite VT. ring.
  - intros x HX. rewrite (V x v HX HV). unfold depth. rewrite (OS x x0 HX HX0). ring.
Qed.
(** Mass: any mesh. *)
Theorem C87_mass_partial g n M s mu dt D Next :
  periodic_run g n M (t_b s) (t_lo s) (t_hi s) ->
  exists D', rub g s mu dt M (field_arrays (t_b s) M D) (owned_values (t_b s) M Next) = Some (owned_values (t_b s) M D') /\
    forall x, In x (all_cells (t_b s) (leaves M)) -> u_rho (D' x) = u_rho (Next x).
Proof.
  intros PR. destruct (C87_scheme_partial g n M s mu dt D Next PR) as (D' & E & V). exists D'. split; [exact E|]. intros x HX.
  pose proof (V x Mass HX ltac:(intros _; discriminate)) as VM. cbn [cv] in VM. rewrite VM. unfold viscous. cbv zeta.
  rewrite (csum_ext _ (fun _ => 0%Qc)) by (intros e _; unfold Qcdiv; ring). rewrite csum_zero. ring.
Qed.

(** A gas that moves as a whole: no change. *)
Lemma velocity_uniform g cells D gamma (V : axis -> Qc) y f :
  (forall x, 0 < u_rho (D x))%Qc -> (forall x a, flat g a = false -> mom (D x) a = u_rho (D x) * V a)%Qc -> flat g f = false ->
  velocity g cells D gamma y f = V f.
Proof.
  intros POS HM FF. unfold velocity, gas_at.
  set (u := resample g cells D y). assert (U : (0 < u_rho u)%Qc /\ mom u f = (u_rho u * V f)%Qc).
  { unfold u, resample. destruct (existsb _ cells); [split; [apply POS|apply HM, FF]|]. destruct (existsb _ cells); [split; [apply POS|apply HM, FF]|].
    set (l := map D (children g y)). cbv zeta. cbn [u_rho].
    assert (LN : (0 < Z.of_nat (length l))) by (unfold l; rewrite map_length, children_length; destruct (g3d g); reflexivity).
    assert (CP : forall l', (forall w, In w l' -> (0 < u_rho w)%Qc) -> (0 <= csum (map u_rho l'))%Qc /\ (l' <> [] -> (0 < csum (map u_rho l'))%Qc)).
    { clear. induction l' as [|w l' IH]; intros H; [split; [apply Qcle_refl|congruence]|]. destruct (IH (fun w' I => H w' (or_intror I))) as (I1 & _). pose proof (H w (or_introl eq_refl)) as P. cbn [map csum fold_right]. fold (csum (map u_rho l')).
      split; [|intros _]; qlin. }
    assert (CM : forall l', (forall w, In w l' -> mom w f = (u_rho w * V f)%Qc) -> csum (map (fun w => mom w f) l') = (csum (map u_rho l') * V f)%Qc).
    { clear. induction l' as [|w l' IH]; intros H; cbn [map csum fold_right]; [ring|]. fold (csum (map u_rho l')) (csum (map (fun w => mom w f) l')). rewrite (H w (or_introl eq_refl)), (IH (fun w' I => H w' (or_intror I))). ring. }
    assert (IL : forall w, In w l -> exists x, w = D x) by (intros w IW; apply in_map_iff in IW; destruct IW as (x & <- & _); eauto).
    split.
    - unfold cmean. apply Qcdiv_lt_0; [|apply zq_pos, LN]. apply CP; [intros w IW; destruct (IL w IW) as (x & ->); apply POS|]. intros K. rewrite K in LN. discriminate LN.
    - assert (EM : mom (mkCons (cmean u_rho l) (cmean u_e l) (cmean u_x l) (cmean u_y l) (cmean u_z l)) f = cmean (fun w => mom w f) l) by (destruct f; reflexivity).
      rewrite EM. unfold cmean. rewrite CM by (intros w IW; destruct (IL w IW) as (x & ->); apply HM, FF). unfold Qcdiv. ring. }
  destruct U as (UP & UM). pose proof (Qc_pos_nz _ UP) as UN. clearbody u.
  assert (VE : vel (gas gamma (seen g u)) f = (mom u f / u_rho u)%Qc).
  { unfold seen. destruct (g3d g) eqn:E3; [destruct f; reflexivity|]. destruct f; [reflexivity|reflexivity|]. cbn [flat] in FF. rewrite E3 in FF. discriminate FF. }
  rewrite VE, UM. field. exact UN.
Qed.
Lemma viscous_uniform g b ext cells D gamma mu v x (V : axis -> Qc) : has_var g v ->
  (forall y f, flat g f = false -> velocity g cells D gamma y f = V f) -> viscous g b ext cells D gamma mu v x = 0%Qc.
Proof.
  intros HV HU.
  assert (DZ : forall y e a f, flat g f = false -> derivative g b ext cells D gamma y e a f = 0%Qc).
  { intros y e a f FF. unfold derivative. cbv zeta. rewrite !HU by exact FF. destruct (axis_eq_dec a e); unfold Qcdiv; ring. }
  assert (SZ : forall y e f, flat g e = false -> flat g f = false -> stress g b ext cells D gamma y e f = 0%Qc).
  { intros y e f FE FF. unfold stress, divergence. rewrite !DZ by assumption. rewrite (csum_ext _ (fun _ => 0%Qc)) by (intros a IA; apply DZ, axes_flat', IA). rewrite csum_zero. destruct (axis_eq_dec e f); ring. }
  unfold viscous. cbv zeta. rewrite (csum_ext _ (fun _ => 0%Qc)); [rewrite csum_zero; ring|]. intros e IE. apply axes_flat' in IE.
  assert (PZ : forall y, power g b ext cells D gamma y e = 0%Qc).
  { intros y. unfold power. rewrite (csum_ext _ (fun _ => 0%Qc)); [apply csum_zero|]. intros f IF. rewrite SZ; [ring|exact IE|apply axes_flat', IF]. }
  destruct v as [| |f]; [unfold Qcdiv; ring|rewrite !PZ; unfold Qcdiv; ring|].
  assert (FF : flat g f = false) by (destruct f; try reflexivity; cbn [flat]; destruct (g3d g) eqn:E3; [reflexivity|exfalso; exact (HV E3 eq_refl)]).
  rewrite !SZ by assumption. unfold Qcdiv. ring.
Qed.
Lemma field_arrays_same {X} g M b (D D' : oct -> X) : mesh_ok g M -> (forall x, In x (all_cells b (leaves M)) -> D x = D' x) -> field_arrays b M D = field_arrays b M D'.
Proof.
  intros OK H. unfold field_arrays. apply map_ext_in. intros R HR. apply map_ext_in. intros x HX. apply H.
  unfold all_cells in *. apply in_flat_map in HX. destruct HX as (A & HA & HX). apply in_flat_map. exists A. split; [|exact HX].
  apply in_app_iff in HA. destruct HA as [HA|HA]; [exact (loc_leaf M R A HR HA)|]. apply (ok_ghosts g M OK R HR) in HA. apply HA.
Qed.
Theorem C87_uniform_partial g n M s mu dt D Next (V : axis -> Qc) :
  periodic_run g n M (t_b s) (t_lo s) (t_hi s) ->
  (forall x, In x (all_cells (t_b s) (leaves M)) -> 0 < u_rho (D x) /\ forall a, mom (D x) a = u_rho (D x) * V a)%Qc ->
  exists D', rub g s mu dt M (field_arrays (t_b s) M D) (owned_values (t_b s) M Next) = Some (owned_values (t_b s) M D') /\
    forall x v, In x (all_cells (t_b s) (leaves M)) -> has_var g v -> cv v (D' x) = cv v (Next x).
Proof.
  intros PR HD. pose proof PR as (GS & RC & BO & _). pose proof (reachable_ok g n M GS RC) as OK.
  set (E0 := fun x => if existsb (oct_eqb x) (all_cells (t_b s) (leaves M)) then D x else mkCons 1 0 (V AX) (V AY) (V AZ)).
  assert (IN : forall x, In x (all_cells (t_b s) (leaves M)) -> D x = E0 x).
  { intros x HX. unfold E0. assert (existsb (oct_eqb x) (all_cells (t_b s) (leaves M)) = true) as ->; [|reflexivity]. apply existsb_exists. exists x. split; [exact HX|apply oct_eqb_eq; reflexivity]. }
  rewrite (field_arrays_same g M (t_b s) D E0 OK IN).
  assert (EV : forall x, (0 < u_rho (E0 x))%Qc /\ forall a, mom (E0 x) a = (u_rho (E0 x) * V a)%Qc).
  { intros x. destruct (existsb (oct_eqb x) (all_cells (t_b s) (leaves M))) eqn:EX.
    - assert (HX : In x (all_cells (t_b s) (leaves M))) by (apply existsb_exists in EX; destruct EX as (y & HY & EQ); apply oct_eqb_eq in EQ; subst y; exact HY). rewrite <- (IN x HX). apply HD, HX.
    - unfold E0. rewrite EX. split; [reflexivity|]. intros []; cbn [mom u_rho u_x u_y u_z]; ring. }
  destruct (C87_scheme_partial g n M s mu dt E0 Next PR) as (D' & E & VV). exists D'. split; [exact E|]. intros x v HX HV. rewrite (VV x v HX HV).
  rewrite (viscous_uniform g (t_b s) (sizes s) _ E0 (t_gamma s) mu v x V HV); [ring|]. intros y f FF. apply velocity_uniform; [apply EV|intros z a _; apply EV|exact FF].
Qed.

Lemma viscous_perm g b ext cells cells' D gamma mu v x : Permutation cells cells' -> viscous g b ext cells D gamma mu v x = viscous g b ext cells' D gamma mu v x.
Proof.
  intros PM. assert (VE : forall y f, velocity g cells D gamma y f = velocity g cells' D gamma y f) by (intros; unfold velocity; rewrite (gas_at_perm g cells cells' PM gamma D); reflexivity).
  assert (DE : forall y e a f, derivative g b ext cells D gamma y e a f = derivative g b ext cells' D gamma y e a f) by (intros; unfold derivative; cbv zeta; rewrite !VE; reflexivity).
  assert (SE : forall y e f, stress g b ext cells D gamma y e f = stress g b ext cells' D gamma y e f) by (intros; unfold stress, divergence; rewrite !DE; erewrite (csum_ext (fun a => derivative g b ext cells D gamma y e a a)); [reflexivity|intros; apply DE]).
  assert (PE : forall y e, power g b ext cells D gamma y e = power g b ext cells' D gamma y e) by (intros; unfold power; apply csum_ext; intros; rewrite SE, !VE; reflexivity).
  unfold viscous. cbv zeta. rewrite (csum_ext _ (fun e => ((match v with Mass => 0 | Mom f => stress g b ext cells' D gamma x e f | Energy => power g b ext cells' D gamma x e end) - (match v with Mass => 0 | Mom f => stress g b ext cells' D gamma (beside g b x e false) e f | Energy => power g b ext cells' D gamma (beside g b x e false) e end)) / cell_side g b ext (lev x) e)%Qc); [reflexivity|].
  intros e _. destruct v; rewrite ?SE, ?PE; reflexivity.
Qed.
Theorem C87_partition_partial g n n' M M' s s' mu dt D Next :
  periodic_run g n M (t_b s) (t_lo s) (t_hi s) -> periodic_run g n' M' (t_b s) (t_lo s) (t_hi s) -> (forall B, In B (leaves M) <-> In B (leaves M')) ->
  t_b s' = t_b s -> t_lo s' = t_lo s -> t_hi s' = t_hi s -> t_gamma s' = t_gamma s ->
  exists D1 D2,
    rub g s mu dt M (field_arrays (t_b s) M D) (owned_values (t_b s) M Next) = Some (owned_values (t_b s) M D1) /\
    rub g s' mu dt M' (field_arrays (t_b s) M' D) (owned_values (t_b s) M' Next) = Some (owned_values (t_b s) M' D2) /\
    forall x v, In x (all_cells (t_b s) (leaves M)) -> has_var g v -> cv v (D1 x) = cv v (D2 x).
Proof.
  intros PR PR' SAME Q1 Q2 Q3 Q4. pose proof (same_cells g n n' M M' _ _ _ PR PR' SAME) as PM.
  destruct (C87_scheme_partial g n M s mu dt D Next PR) as (D1 & E1 & V1).
  rewrite <- Q1, <- Q2, <- Q3 in PR'. destruct (C87_scheme_partial g n' M' s' mu dt D Next PR') as (D2 & E2 & V2). unfold sizes in V2. rewrite Q1, Q2, Q3, Q4 in *.
  exists D1, D2. split; [exact E1|]. split; [exact E2|]. intros x v HX HV. rewrite (V1 x v HX HV), (V2 x v (Permutation_in x PM HX) HV). fold (sizes s).
  rewrite (viscous_perm _ _ _ _ _ _ _ _ _ _ PM). reflexivity.
Qed.

(** * Cases *)
Definition unit_box : setting := mkSetting cs_b (fun _ => 0%Qc) (fun _ => 1%Qc) two (fun _ => None) (fun _ _ => false) (fun f _ _ _ _ _ => f).
(** The mesh of C39_example: two ranks, two levels. *)
Example pb_usual : periodic_run cs_g 2 cs_M (t_b unit_box) (t_lo unit_box) (t_hi unit_box).
Proof. repeat split; try exact cs_reach; try exact cs_block; try exact cs_periodic; try exact cs_even; try (intros a; reflexivity); try apply cs_setup; try (apply cs_block); try apply cs_even; assumption. Qed.
Example pb_usual_one : periodic_run cs_g 1 one_M (t_b unit_box) (t_lo unit_box) (t_hi unit_box).
Proof. repeat split; try exact one_reach; try exact cs_block; try exact cs_periodic; try exact cs_even; try (intros a; reflexivity); try apply one_setup; try (apply cs_block); try apply cs_even; assumption. Qed.
(** The coarse mesh. *)
Example coarse_reach : reachable cs_g 2 cs_M0.
Proof. apply (reach_init cs_g 2 id_order); [exact id_order_ok|vm_compute; reflexivity]. Qed.
Example pb_usual_coarse : periodic_run cs_g 2 cs_M0 (t_b unit_box) (t_lo unit_box) (t_hi unit_box).
Proof. repeat split; try exact coarse_reach; try exact cs_block; try exact cs_periodic; try exact cs_even; try (intros a; reflexivity); try apply cs_setup; try (apply cs_block); try apply cs_even; assumption. Qed.
Example coarse_one_size : one_size (all_cells cs_b (leaves cs_M0)).
Proof.
  assert (H : forallb (fun x => lev x =? 1) (all_cells cs_b (leaves cs_M0)) = true) by (vm_compute; reflexivity).
  rewrite forallb_forall in H. intros x y HX HY. apply H in HX. apply H in HY. apply Z.eqb_eq in HX. apply Z.eqb_eq in HY. congruence.
Qed.
(** A conductivity that grows along the first axis and repeats with the box. *)
Definition saw (p : axis -> Qc) : Qc := Q2Qc (p AX - inject_Z (Qfloor (p AX)))%Q.
Example saw_position : of_position saw. Proof. intros p p' H. unfold saw. rewrite (H AX). reflexivity. Qed.
Example saw_repeats : repeats (sizes unit_box) saw.
Proof.
  intros p e. unfold saw. destruct (axis_eq_dec AX e) as [<-|NE]; [|reflexivity]. change (sizes unit_box AX) with (1 - 0)%Qc.
  set (q := this (p AX + (1 - 0))%Qc). set (q0 := this (p AX)).
  assert (E : Qeq q (q0 + 1)%Q) by (unfold q, q0, Qcplus; cbn [Q2Qc this]; rewrite Qred_correct; apply Qplus_comp; [reflexivity|reflexivity]).
  assert (F : Qfloor q = Qfloor q0 + 1).
  { rewrite (Qfloor_comp _ _ E). clearbody q0. clear. unfold Qfloor. destruct q0 as (nn, dd). cbn [Qplus Qnum Qden]. rewrite Z.mul_1_r, Pos.mul_1_r. rewrite Z.div_add; lia. }
  apply Qc_is_canon. cbn [Q2Qc this]. rewrite !Qred_correct, F, inject_Z_plus.
  apply (Qeq_trans _ ((q0 + 1) - (inject_Z (Qfloor q0) + inject_Z 1))%Q); [apply Qplus_comp; [exact E|reflexivity]|]. change (inject_Z 1) with 1%Q. ring.
Qed.
(** One hot cell, one moving cell: the corner cell of the refined octants. *)
Definition hot (x : oct) : cons := mkCons 1 (if oct_eqb x (mkOct 2 7 3 0) then two else 1) 0 0 0.
Definition moving (x : oct) : cons := mkCons 1 1 (if oct_eqb x (mkOct 2 7 3 0) then 1 else 0) 0 0.
Definition gained : Qc := csum (map (fun x => volume cs_g cs_b (sizes unit_box) x * heating cs_g cs_b (sizes unit_box) (all_cells cs_b (leaves cs_M)) hot two (taken cs_g cs_b (t_lo unit_box) (sizes unit_box) saw) x)%Qc (all_cells cs_b (leaves cs_M))).
Lemma gained_value : Qeq_bool gained (1 # 96) = true.
Proof. vm_compute. reflexivity. Qed.
(** Where cells of two sizes meet, the two sides of a face take different conductivities: energy
    appears. *)
Theorem C86_conservation_refuted : ~ (forall g n M s kappa dt D Next outs v,
  periodic_run g n M (t_b s) (t_lo s) (t_hi s) -> of_position kappa -> repeats (sizes s) kappa ->
  conduct g s kappa dt M (field_arrays (t_b s) M D) (owned_values (t_b s) M Next) = Some outs -> has_var g v ->
  total_held g (t_b s) (sizes s) M v (fun r => field_of (t_b s) (nth r outs [])) = total_held g (t_b s) (sizes s) M v (fun r => field_of (t_b s) (nth r (owned_values (t_b s) M Next) []))).
Proof.
  intros H. destruct (C86_scheme_partial cs_g 2 cs_M unit_box saw 1 hot hot pb_usual saw_position) as (D' & E & V).
  assert (HE : has_var cs_g Energy) by (intros _; discriminate).
  specialize (H cs_g 2%nat cs_M unit_box saw 1%Qc hot hot _ Energy pb_usual saw_position saw_repeats E HE).
  rewrite !total_owned in H by exact cs_block. unfold domain_sum in H. change (t_b unit_box) with cs_b in *.
  rewrite (csum_ext _ (fun x => volume cs_g cs_b (sizes unit_box) x * cv Energy (hot x) + volume cs_g cs_b (sizes unit_box) x * heating cs_g cs_b (sizes unit_box) (all_cells cs_b (leaves cs_M)) hot two (taken cs_g cs_b (t_lo unit_box) (sizes unit_box) saw) x)%Qc) in H
    by (intros x HX; rewrite (V x Energy HX HE); change (t_gamma unit_box) with two; ring).
  rewrite csum_plus in H. fold gained in H.
  assert (Z0 : gained = 0%Qc).
  { set (a := csum (map (fun x => (volume cs_g cs_b (sizes unit_box) x * cv Energy (hot x))%Qc) (all_cells cs_b (leaves cs_M)))) in *. clearbody a.
    replace gained with (a + gained - a)%Qc by ring. rewrite H. ring. }
  pose proof gained_value as GV. rewrite Z0 in GV. discriminate GV.
Qed.

(** Viscosity: the same, and in two dimensions the depth. *)
Lemma owned_determined {X} M b (D1 D2 : oct -> X) : owned_values b M D1 = owned_values b M D2 -> forall x, In x (all_cells b (leaves M)) -> D1 x = D2 x.
Proof.
  intros E x HX. unfold all_cells, leaves in HX. apply in_flat_map in HX. destruct HX as (A & HA & HX). apply in_concat in HA. destruct HA as (L & HL & HA). apply in_map_iff in HL. destruct HL as (R & <- & HR).
  unfold owned_values in E. assert (ER : map D1 (all_cells b (loc R)) = map D2 (all_cells b (loc R))).
  { clear - E HR. induction M as [|R' M IH]; [destruct HR|]. cbn [map] in E. injection E as E1 E2. destruct HR as [->|HR]; [exact E1|exact (IH E2 HR)]. }
  assert (IX : In x (all_cells b (loc R))) by (apply in_flat_map; exists A; split; assumption).
  clear - ER IX. induction (all_cells b (loc R)) as [|y l IH]; [destruct IX|]. cbn [map] in ER. injection ER as E1 E2. destruct IX as [->|IX]; [exact E1|exact (IH E2 IX)].
Qed.
Lemma some_same {X} (a b : X) : Some a = Some b -> a = b.
Proof. intros E. injection E as E. exact E. Qed.
Definition pushed : Qc := csum (map (fun x => volume cs_g cs_b (sizes unit_box) x * (depth cs_g (sizes unit_box) x * viscous cs_g cs_b (sizes unit_box) (all_cells cs_b (leaves cs_M)) moving two 1%Qc (Mom AX) x))%Qc (all_cells cs_b (leaves cs_M))).
Lemma pushed_value : Qeq_bool pushed (-1 # 3) = true.
Proof. vm_compute. reflexivity. Qed.
(** The factor [depth] is not what causes it. *)
Example C87_pushed_without_depth : this (csum (map (fun x => volume cs_g cs_b (sizes unit_box) x * viscous cs_g cs_b (sizes unit_box) (all_cells cs_b (leaves cs_M)) moving two 1 (Mom AX) x)%Qc (all_cells cs_b (leaves cs_M)))) = (-1)%Q.
Proof. vm_compute. reflexivity. Qed.
Theorem C87_conservation_refuted : ~ (forall g n M s mu dt D Next outs v,
  periodic_run g n M (t_b s) (t_lo s) (t_hi s) ->
  rub g s mu dt M (field_arrays (t_b s) M D) (owned_values (t_b s) M Next) = Some outs -> has_var g v ->
  total_held g (t_b s) (sizes s) M v (fun r => field_of (t_b s) (nth r outs [])) = total_held g (t_b s) (sizes s) M v (fun r => field_of (t_b s) (nth r (owned_values (t_b s) M Next) []))).
Proof.
  intros H. destruct (C87_scheme_partial cs_g 2 cs_M unit_box 1 1 moving moving pb_usual) as (D' & E & V).
  assert (HE : has_var cs_g (Mom AX)) by (intros _; discriminate).
  specialize (H cs_g 2%nat cs_M unit_box 1%Qc 1%Qc moving moving _ (Mom AX) pb_usual E HE).
  rewrite !total_owned in H by exact cs_block. unfold domain_sum in H. change (t_b unit_box) with cs_b in *.
  rewrite (csum_ext _ (fun x => volume cs_g cs_b (sizes unit_box) x * cv (Mom AX) (moving x) + volume cs_g cs_b (sizes unit_box) x * (depth cs_g (sizes unit_box) x * viscous cs_g cs_b (sizes unit_box) (all_cells cs_b (leaves cs_M)) moving two 1 (Mom AX) x))%Qc) in H
    by (intros x HX; rewrite (V x (Mom AX) HX HE); change (t_gamma unit_box) with two; ring).
  rewrite csum_plus in H. fold pushed in H.
  assert (Z0 : pushed = 0%Qc).
  { set (a := csum (map (fun x => (volume cs_g cs_b (sizes unit_box) x * cv (Mom AX) (moving x))%Qc) (all_cells cs_b (leaves cs_M)))) in *. clearbody a.
    replace pushed with (a + pushed - a)%Qc by ring. rewrite H. ring. }
  pose proof pushed_value as GV. rewrite Z0 in GV. discriminate GV.
Qed.
(** Two dimensions: a cell one level above the coarsest gets half of the force. *)
Theorem C87_scheme_refuted : ~ (forall g n M s mu dt D Next, periodic_run g n M (t_b s) (t_lo s) (t_hi s) ->
  exists D', rub g s mu dt M (field_arrays (t_b s) M D) (owned_values (t_b s) M Next) = Some (owned_values (t_b s) M D') /\
    forall x v, In x (all_cells (t_b s) (leaves M)) -> has_var g v ->
      cv v (D' x) = (cv v (Next x) + dt * viscous g (t_b s) (sizes s) (all_cells (t_b s) (leaves M)) D (t_gamma s) mu v x)%Qc).
Proof.
  intros H. destruct (C87_scheme_partial cs_g 2 cs_M unit_box 1 1 moving moving pb_usual) as (D1 & E1 & V1).
  destruct (H cs_g 2%nat cs_M unit_box 1%Qc 1%Qc moving moving pb_usual) as (D2 & E2 & V2). pose proof (some_same _ _ (eq_trans (eq_sym E1) E2)) as E3. clear E1 E2.
  assert (HE : has_var cs_g (Mom AX)) by (intros _; discriminate).
  assert (HX : In (mkOct 2 7 3 0) (all_cells (t_b unit_box) (leaves cs_M))).
  { assert (K : existsb (oct_eqb (mkOct 2 7 3 0)) (all_cells cs_b (leaves cs_M)) = true) by (vm_compute; reflexivity). apply existsb_exists in K. destruct K as (y & HY & EQ). apply oct_eqb_eq in EQ. subst y. exact HY. }
  pose proof (V1 _ _ HX HE) as K1. pose proof (V2 _ _ HX HE) as K2. rewrite (owned_determined _ _ _ _ E3 _ HX) in K1. rewrite K1 in K2. clear K1 H V1 V2 E3.
  apply (f_equal (fun q => Qeq_bool (this q) (this (cv (Mom AX) (moving (mkOct 2 7 3 0)) + 1 * viscous cs_g (t_b unit_box) (sizes unit_box) (all_cells (t_b unit_box) (leaves cs_M)) moving (t_gamma unit_box) 1 (Mom AX) (mkOct 2 7 3 0))%Qc))) in K2.
  vm_compute in K2. discriminate K2.
Qed.

(** Conduction over two levels and two ranks, with a conductivity that is not constant; the hot
    cell loses heat. *)
Example C86_scheme_example dt Next := C86_scheme_partial cs_g 2 cs_M unit_box saw dt hot Next pb_usual saw_position.
Example C86_hot_cell : this (heating cs_g cs_b (sizes unit_box) (all_cells cs_b (leaves cs_M)) hot two (taken cs_g cs_b (t_lo unit_box) (sizes unit_box) saw) (mkOct 2 7 3 0)) = (-1312 # 3)%Q.
Proof. vm_compute. reflexivity. Qed.
Example C86_partition_example dt Next := C86_partition_partial cs_g 2 1 cs_M one_M unit_box unit_box saw dt hot Next pb_usual pb_usual_one (proj1 C68_example) eq_refl eq_refl eq_refl eq_refl saw_position.
(** A constant conductivity over two levels; one that is not on the coarse mesh. *)
Example C86_conservation_example dt outs :
  conduct cs_g unit_box (fun _ => two) dt cs_M (field_arrays cs_b cs_M hot) (owned_values cs_b cs_M hot) = Some outs ->
  total_held cs_g cs_b (sizes unit_box) cs_M Energy (fun r => field_of cs_b (nth r outs [])) = total_held cs_g cs_b (sizes unit_box) cs_M Energy (fun r => field_of cs_b (nth r (owned_values cs_b cs_M hot) [])).
Proof. intros RUN. apply (C86_conservation_partial cs_g 2 cs_M unit_box two dt hot hot outs Energy pb_usual RUN). intros _. discriminate. Qed.
Example C86_one_size_example dt outs :
  conduct cs_g unit_box saw dt cs_M0 (field_arrays cs_b cs_M0 cs_D) (owned_values cs_b cs_M0 cs_D) = Some outs ->
  total_held cs_g cs_b (sizes unit_box) cs_M0 Energy (fun r => field_of cs_b (nth r outs [])) = total_held cs_g cs_b (sizes unit_box) cs_M0 Energy (fun r => field_of cs_b (nth r (owned_values cs_b cs_M0 cs_D) [])).
Proof. intros RUN. apply (C86_conservation_one_size_partial cs_g 2 cs_M0 unit_box saw dt cs_D cs_D outs Energy pb_usual_coarse saw_position saw_repeats coarse_one_size RUN). intros _. discriminate. Qed.
Example C86_one_size_runs dt : exists outs, conduct cs_g unit_box saw dt cs_M0 (field_arrays cs_b cs_M0 cs_D) (owned_values cs_b cs_M0 cs_D) = Some outs.
Proof. destruct (C86_scheme_one_size_partial cs_g 2 cs_M0 unit_box saw dt cs_D cs_D pb_usual_coarse saw_position saw_repeats coarse_one_size) as (D' & E & _). eexists. exact E. Qed.
(** A gas at one temperature, of various densities. *)
Definition even_T (x : oct) : cons := mkCons (frac (1 + cx x) 1) (frac (1 + cx x) 1) 0 0 0.
Example C86_uniform_example dt Next : exists D', conduct cs_g unit_box saw dt cs_M (field_arrays cs_b cs_M even_T) (owned_values cs_b cs_M Next) = Some (owned_values cs_b cs_M D') /\
    forall x v, In x (all_cells cs_b (leaves cs_M)) -> has_var cs_g v -> cv v (D' x) = cv v (Next x).
Proof.
  apply (C86_uniform_partial cs_g 2 cs_M unit_box saw dt even_T Next 1%Qc pb_usual saw_position).
  assert (K : forallb (fun x => Qc_eq_bool (temperature cs_g (all_cells cs_b (leaves cs_M)) even_T two x) 1) (all_cells cs_b (leaves cs_M)) = true) by (vm_compute; reflexivity).
  rewrite forallb_forall in K. intros x HX. apply Qc_eq_bool_correct, K, HX.
Qed.
(** The hot cell. *)
Example C86_extremes_example dt : (0 <= dt)%Qc -> exists D', conduct cs_g unit_box saw dt cs_M (field_arrays cs_b cs_M hot) (owned_values cs_b cs_M hot) = Some (owned_values cs_b cs_M D') /\
  (u_e (D' (mkOct 2 7 3 0)) <= two)%Qc.
Proof.
  intros DT. assert (SP : forall p, (0 <= saw p)%Qc).
  { intros p. unfold saw, Qcle. cbn [Q2Qc this]. change (Qred 0) with 0%Q. pose proof (Qfloor_le (p AX)) as FL. apply Qle_minus_iff in FL. apply (Qle_trans _ _ _ FL). apply Qle_lteq. right. apply Qeq_sym, Qred_correct. }
  destruct (C86_extremes_partial cs_g 2 cs_M unit_box saw dt hot hot pb_usual saw_position SP DT) as (D' & E & V). exists D'. split; [exact E|].
  assert (HX : In (mkOct 2 7 3 0) (all_cells (t_b unit_box) (leaves cs_M))).
  { assert (K : existsb (oct_eqb (mkOct 2 7 3 0)) (all_cells cs_b (leaves cs_M)) = true) by (vm_compute; reflexivity). apply existsb_exists in K. destruct K as (y & HY & EQ). apply oct_eqb_eq in EQ. subst y. exact HY. }
  apply (V _ HX). intros z e up HZ _.
  assert (K : forallb (fun z => Qle_bool (temperature cs_g (all_cells cs_b (leaves cs_M)) hot two z) (temperature cs_g (all_cells cs_b (leaves cs_M)) hot two (mkOct 2 7 3 0))) (all_cells cs_b (leaves cs_M)) = true) by (vm_compute; reflexivity).
  rewrite forallb_forall in K. apply Qle_bool_iff, K, HZ.
Qed.
(** Viscosity over two levels and two ranks; the coarse mesh; a gas that moves as a whole. *)
Example C87_scheme_example mu dt Next := C87_scheme_partial cs_g 2 cs_M unit_box mu dt moving Next pb_usual.
Example C87_moving_cell : this (viscous cs_g cs_b (sizes unit_box) (all_cells cs_b (leaves cs_M)) moving two 1 (Mom AX) (mkOct 2 7 3 0)) = (-3584 # 3)%Q.
Proof. vm_compute. reflexivity. Qed.
Example C87_partition_example mu dt Next := C87_partition_partial cs_g 2 1 cs_M one_M unit_box unit_box mu dt moving Next pb_usual pb_usual_one (proj1 C68_example) eq_refl eq_refl eq_refl eq_refl.
Example C87_one_size_example mu dt : exists outs, rub cs_g unit_box mu dt cs_M0 (field_arrays cs_b cs_M0 cs_D) (owned_values cs_b cs_M0 cs_D) = Some outs /\
  total_held cs_g cs_b (sizes unit_box) cs_M0 (Mom AX) (fun r => field_of cs_b (nth r outs [])) = total_held cs_g cs_b (sizes unit_box) cs_M0 (Mom AX) (fun r => field_of cs_b (nth r (owned_values cs_b cs_M0 cs_D) [])).
Proof.
  destruct (C87_scheme_partial cs_g 2 cs_M0 unit_box mu dt cs_D cs_D pb_usual_coarse) as (D' & E & _). eexists. split; [exact E|].
  apply (C87_conservation_one_size_partial cs_g 2 cs_M0 unit_box mu dt cs_D cs_D _ (Mom AX) pb_usual_coarse coarse_one_size E). intros _. discriminate.
Qed.
Definition drift (x : oct) : cons := mkCons (frac (1 + cx x) 1) 1 (frac (1 + cx x) 3) (frac (1 + cx x) 1) 0.
Example C87_uniform_example mu dt Next : exists D', rub cs_g unit_box mu dt cs_M (field_arrays cs_b cs_M drift) (owned_values cs_b cs_M Next) = Some (owned_values cs_b cs_M D') /\
    forall x v, In x (all_cells cs_b (leaves cs_M)) -> has_var cs_g v -> cv v (D' x) = cv v (Next x).
Proof.
  apply (C87_uniform_partial cs_g 2 cs_M unit_box mu dt drift Next (fun a => match a with AX => frac 1 3 | AY => 1%Qc | AZ => 0%Qc end) pb_usual).
  assert (K : forallb (fun x => (negb (Qle_bool (u_rho (drift x)) 0)) && Qc_eq_bool (u_x (drift x)) (u_rho (drift x) * frac 1 3) && Qc_eq_bool (u_y (drift x)) (u_rho (drift x))) (all_cells cs_b (leaves cs_M)) = true) by (vm_compute; reflexivity).
  rewrite forallb_forall in K. intros x HX. specialize (K x HX). apply Bool.andb_true_iff in K. destruct K as (K & K3). apply Bool.andb_true_iff in K. destruct K as (K1 & K2). split.
  - apply Qclt_alt. destruct (Qcompare_spec 0 (u_rho (drift x))) as [C|C|C]; [| |]; unfold Qccompare; change (this 0%Qc) with 0%Q.
    + exfalso. apply Bool.negb_true_iff in K1. assert (T : Qle_bool (u_rho (drift x)) 0 = true) by (apply Qle_bool_iff; rewrite C; apply Qle_refl). congruence.
    + apply Qlt_alt, C.
    + exfalso. apply Bool.negb_true_iff in K1. assert (T : Qle_bool (u_rho (drift x)) 0 = true) by (apply Qle_bool_iff, Qlt_le_weak, C). congruence.
  - apply Qc_eq_bool_correct in K2. apply Qc_eq_bool_correct in K3. intros []; cbn [mom]; [exact K2|rewrite K3; ring|cbn [drift u_z]; ring].
Qed.
Print Assumptions C86_scheme_partial.
Print Assumptions C86_conservation_partial.
Print Assumptions C86_conservation_one_size_partial.
Print Assumptions C86_scheme_one_size_partial.
Print Assumptions C86_uniform_partial.
Print Assumptions C86_extremes_partial.
Print Assumptions C86_partition_partial.
Print Assumptions C86_conservation_refuted.
Print Assumptions C87_scheme_partial.
Print Assumptions C87_scheme_3d_partial.
Print Assumptions C87_conservation_one_size_partial.
Print Assumptions C87_mass_partial.
Print Assumptions C87_uniform_partial.
Print Assumptions C87_partition_partial.
Print Assumptions C87_conservation_refuted.
Print Assumptions C87_scheme_refuted.
