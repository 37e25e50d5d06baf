(** The time step of the parabolic terms and the bounds of the temperature (C94). *)
From Coq Require Import QArith Qcanon Qround Permutation Lqa.
From Verif Require Import Base OctreeSpec OctreeGeom OctreeModel FindNeighbors MeshSpec HistorySpec
  LookupModel CellModel CellSpec CellProofs CellProps RemapModel RemapSpec RemapProofs RemapProps HydroModel HydroSpec HydroProps
  ConserveSpec BlockGhost ConserveFaces ConserveProofs OctreeProps HistoryProofs LookupProps SchemeSpec ConserveProps SchemeProps ParticleModel ParticleProofs
  GravitySpec GravityModel GravityProofs GravityLoop CGTheory CloudProofs RKModel RKSpec RKProofs RKProps ParabolicModel ParabolicSpec ParabolicProofs ParabolicRun ParabolicProps.
From Verif Require TimeModel TimeStepProps.
From Verif Require Import LimiterModel LimiterSpec LimiterProofs.
Open Scope Z_scope.

(** The limiter answers with the largest step whose product with every coefficient, at the centre
    of every cell, is at most the Courant number times the square of every side of the cell. *)
Definition step_ok (g : geom) (b : axis -> Z) (lo ext : axis -> Qc) (cells : list oct) (cfl : Qc) (terms : list (option (point -> Qc))) (d : Qc) : Prop :=
  forall x f e, In x cells -> In (Some f) terms -> flat g e = false ->
    (d * f (middle g b lo ext x) <= cfl * (cell_side g b ext (lev x) e * cell_side g b ext (lev x) e))%Qc.
Definition at_most (d : Q) (t : TimeModel.ext) : Prop := match t with TimeModel.Fin q => (d <= q)%Q | TimeModel.Infinite => True end.

Lemma kernel_spec lowest k e : (lowest <= 0)%Q -> (0 < fst k)%Q -> TimeModel.kernel_dt lowest k = Some e ->
  TimeStepProps.ext_pos e /\ forall d, (0 < d)%Q -> (at_most d e <-> TimeStepProps.allowed d k).
Proof.
  intros L CF. unfold TimeModel.kernel_dt. destruct (mapM (TimeModel.local_dt lowest (fst k)) (snd k)) as [l|] eqn:EL; [|discriminate]. intros E. injection E as <-.
  assert (P : forall y, In y l -> exists rates, In rates (snd k) /\ TimeModel.local_dt lowest (fst k) rates = Some y) by (intros y; apply (mapM_In _ _ _ _ EL)).
  split.
  - apply TimeStepProps.fold_min_pos; [exact I|]. intros y Hy. destruct (P y Hy) as (rates & _ & E). apply (TimeStepProps.local_spec _ _ _ _ L CF E).
  - intros d D. change (at_most d ?t) with (TimeStepProps.ext_le (TimeModel.Fin d) t). rewrite TimeStepProps.fold_min_glb. split.
    + intros (_ & H) rates r HR Hr. destruct (mapM_In_fwd _ _ _ _ EL HR) as (y & Hy & Ey). apply (proj1 (proj2 (TimeStepProps.local_spec _ _ _ _ L CF Ey) d D) (H y Hy)), Hr.
    + intros H. split; [exact I|]. intros y Hy. destruct (P y Hy) as (rates & HR & Ey). apply (proj2 (TimeStepProps.local_spec _ _ _ _ L CF Ey) d D). intros r Hr. apply (H rates r HR Hr).
Qed.
Lemma Forall2_left {X Y} (P : X -> Y -> Prop) l m : Forall2 P l m -> forall x, In x l -> exists y, In y m /\ P x y.
Proof. induction 1 as [|a c l m H F IH]; intros x J; [destruct J|]. destruct J as [<-|J]; [exists c; split; [left; reflexivity|exact H]|]. destruct (IH x J) as (y & H1 & H2). exists y. split; [right; exact H1|exact H2]. Qed.
Lemma Forall2_right {X Y} (P : X -> Y -> Prop) l m : Forall2 P l m -> forall y, In y m -> exists x, In x l /\ P x y.
Proof. induction 1 as [|a c l m H F IH]; intros y J; [destruct J|]. destruct J as [<-|J]; [exists a; split; [left; reflexivity|exact H]|]. destruct (IH y J) as (x & H1 & H2). exists x. split; [right; exact H1|exact H2]. Qed.
Lemma this_le_mult (d r c : Qc) : (this d * this r <= this c)%Q <-> (d * r <= c)%Qc.
Proof. unfold Qcle. rewrite this_mult. reflexivity. Qed.

Theorem C94_limit lowest g n M b lo hi cfl kappa mu t :
  good_setup g n -> reachable g n M -> block_ok g b -> (forall a, lo a < hi a)%Qc -> (lowest <= 0)%Q -> (0 < cfl)%Qc ->
  (forall f, In (Some f) [kappa; mu] -> of_position f) ->
  parabolic_dt lowest g b lo hi cfl kappa mu M = Some t ->
  (forall q, t = TimeModel.Fin q -> (0 < q)%Q) /\
  forall d, (0 < d)%Qc -> at_most (this d) t <-> step_ok g b lo (extent lo hi) (all_cells b (leaves M)) cfl [kappa; mu] d.
Proof.
  intros GS RC BO EXT L CF PX. pose proof (reachable_ok g n M GS RC) as OK. destruct GS as (WF & _).
  set (P := fun (x : oct) (o : Qc) => forall d, (0 < d)%Qc -> (d * o <= cfl)%Qc <-> step_ok g b lo (extent lo hi) [x] cfl [kappa; mu] d).
  destruct (mapM_rel (fun R => do l <- mapM (parabolic_rate g (loc R ++ gho R) lo hi kappa mu) (owned_cells b R) ; Some (map this l))
    (fun R l => exists V, l = map this V /\ Forall2 P (all_cells b (loc R)) V) M) as (rates & EM & FR).
  { intros R HR. destruct (In_nth_error _ _ HR) as (r & HN).
    destruct (kernel_rel b R (parabolic_rate g (loc R ++ gho R) lo hi kappa mu) P) as (V & EV & FV).
    - intros i A q HA IQ. destruct (rate_value g WF M OK b BO lo hi EXT R r i A q kappa mu HN HA IQ) as (o & EO & HO).
      { intros f K. apply PX. destruct K as [-> | ->]; [left; reflexivity|right; left; reflexivity]. }
      exists o. split; [exact EO|]. intros d HD. rewrite (HO d cfl HD CF). unfold step_ok, term_ok. split.
      + intros (H1 & H2) y f e [<-|[]] K FE. destruct K as [K|[K|[]]]; [apply (H1 f e K FE)|apply (H2 f e K FE)].
      + intros H. split; intros f e K FE; apply (H _ f e (or_introl eq_refl)); try exact FE; rewrite K; [left; reflexivity|right; left; reflexivity].
    - exists (map this V). unfold kernel in EV. rewrite EV. split; [reflexivity|]. exists V. split; [reflexivity|exact FV]. }
  unfold parabolic_dt. rewrite EM. intros E. apply (kernel_spec lowest (this cfl, rates) t L CF) in E. destruct E as (POS & SPEC). split.
  { intros q ->. exact POS. }
  intros d HD. rewrite (SPEC (this d) HD). unfold TimeStepProps.allowed. cbn [fst snd]. split.
  - intros H x f e HX K FE. unfold all_cells, leaves in HX. apply in_flat_map in HX. destruct HX as (A & HA & HX). apply in_concat in HA. destruct HA as (LL & HL & HA). apply in_map_iff in HL. destruct HL as (R & <- & HR).
    destruct (Forall2_left _ _ _ FR R HR) as (l & Hl & V & -> & FV).
    assert (HX' : In x (all_cells b (loc R))) by (apply in_flat_map; exists A; split; assumption).
    destruct (Forall2_left _ _ _ FV x HX') as (o & HO & PO). apply (proj1 (PO d HD)) with (x := x); [|left; reflexivity|exact K|exact FE].
    apply this_le_mult. apply (H _ _ Hl). apply in_map, HO.
  - intros H l r Hl Hr. destruct (Forall2_right _ _ _ FR l Hl) as (R & HR & V & -> & FV). apply in_map_iff in Hr. destruct Hr as (o & <- & HO).
    destruct (Forall2_right _ _ _ FV o HO) as (x & HX & PO). apply this_le_mult. apply (PO d HD). intros y f e [<-|[]] K FE. apply (H x f e); try assumption.
    unfold all_cells, leaves. unfold all_cells in HX. apply in_flat_map in HX. destruct HX as (A & HA & HX). apply in_flat_map. exists A. split; [|exact HX]. apply in_concat. exists (loc R). split; [apply in_map, HR|exact HA].
Qed.

(** * The temperature *)
Lemma still_temperature g M b D gamma x : mesh_ok g M -> block_ok g b -> In x (all_cells b (leaves M)) -> still (D x) ->
  temperature g (all_cells b (leaves M)) D gamma x = heat_of gamma (D x).
Proof.
  intros OK BO HX (RP & X & Y & Z0). unfold temperature, gas_at. rewrite resample_same by assumption. unfold gas, seen, heat_of.
  assert (I : forall u, u_x u = 0%Qc -> u_y u = 0%Qc -> u_z u = 0%Qc -> internal u = u_e u).
  { intros u A B C. unfold internal, sqnorm, mom. rewrite A, B, C. unfold Qcdiv. ring. }
  destruct (g3d g); cbn [q_p q_rho u_rho]; rewrite I; try assumption; reflexivity.
Qed.

Section Bounds.
Context (g : geom) (n : nat) (M : mesh) (s : setting) (PR : periodic_run g n M (t_b s) (t_lo s) (t_hi s)) (kappa : point -> Qc) (KP : forall p, (0 <= kappa p)%Qc).
Local Notation cells := (all_cells (t_b s) (leaves M)).
Local Notation k := (taken g (t_b s) (t_lo s) (sizes s) kappa).

Lemma cell_positive y a : In y cells -> (0 < cell_side g (t_b s) (sizes s) (lev y) a)%Qc.
Proof.
  destruct PR as (GS & RC & BO & PER & EV & EXT). pose proof (reachable_ok g n M GS RC) as OK. destruct GS as (WF & _).
  intros HY. apply (side_pos g WF (t_b s) BO (sizes s) (ext_pos (t_lo s) (t_hi s) EXT)), (cell_lev g M OK _ y HY).
Qed.
Lemma volume_positive x : In x cells -> (0 < volume g (t_b s) (sizes s) x)%Qc.
Proof. intros HX. unfold volume. repeat (apply Qcmult_lt_0; [|apply cell_positive, HX]). apply cell_positive, HX. Qed.
Lemma taken_nonneg x e up z : (0 <= k x e up z)%Qc.
Proof.
  unfold taken, Qcdiv. replace 0%Qc with (0 * / two)%Qc by ring. apply Qcmult_le_compat_r; [|apply inv_nonneg; reflexivity]. replace 0%Qc with (0 + 0)%Qc by ring. apply Qcplus_le_compat; apply KP.
Qed.
Lemma area_nonneg x z e : In x cells -> In z cells -> (0 <= face_area g (t_b s) (sizes s) (Z.max (lev x) (lev z)) e)%Qc.
Proof.
  intros HX HZ. assert (MX : exists y, In y cells /\ Z.max (lev x) (lev z) = lev y) by (destruct (Z.max_spec (lev x) (lev z)) as [(_ & ->)|(_ & ->)]; eauto). destruct MX as (y & HY & ->).
  apply Qclt_le_weak. unfold face_area. destruct e; apply Qcmult_lt_0; apply cell_positive; exact HY.
Qed.
Lemma distance_positive x z e : In x cells -> In z cells -> (0 < (cell_side g (t_b s) (sizes s) (lev x) e + cell_side g (t_b s) (sizes s) (lev z) e) / two)%Qc.
Proof. intros HX HZ. apply (Qcdiv_lt_0 _ two); [|reflexivity]. pose proof (cell_positive x e HX) as S1. pose proof (cell_positive z e HZ) as S2. qlin. Qed.

Lemma nonneg_mult (x y : Qc) : (0 <= x -> 0 <= y -> 0 <= x * y)%Qc.
Proof. intros H1 H2. replace 0%Qc with (0 * y)%Qc by ring. apply Qcmult_le_compat_r; assumption. Qed.
(** What enters [x] is bounded by the conductance. *)
Lemma heating_bound D x (c h : Qc) : In x cells -> (forall z, In z cells -> c * temperature g cells D (t_gamma s) z <= h)%Qc ->
  (c * (heating g (t_b s) (sizes s) cells D (t_gamma s) k x * volume g (t_b s) (sizes s) x) <=
   (h - c * temperature g cells D (t_gamma s) x) * conductance g (t_b s) (sizes s) cells k x)%Qc.
Proof.
  intros HX HT. unfold heating. set (S := csum _). replace (S / volume g (t_b s) (sizes s) x * volume g (t_b s) (sizes s) x)%Qc with S by (field; apply Qc_pos_nz, volume_positive, HX).
  unfold S, conductance. rewrite <- !csum_scale. apply csum_le. intros e _. rewrite <- !csum_scale. apply csum_le. intros up _. rewrite <- !csum_scale. apply csum_le. intros z HZ. apply filter_In in HZ. destruct HZ as (HZ & _).
  pose proof (area_nonneg x z e HX HZ) as AN. pose proof (taken_nonneg x e up z) as KN. pose proof (inv_nonneg _ (distance_positive x z e HX HZ)) as DN.
  unfold Qcdiv at 1 3. set (i := (/ _)%Qc) in *. set (a := face_area _ _ _ _ _) in *. set (kk := k x e up z) in *. specialize (HT z HZ).
  set (tz := temperature _ _ _ _ z) in *. set (tx := temperature _ _ _ _ x) in *.
  replace (c * (a * (kk * (tz - tx) * i)))%Qc with ((c * tz - c * tx) * (a * (kk * i)))%Qc by ring. apply Qcmult_le_compat_r.
  - qlin.
  - apply nonneg_mult; [exact AN|]. apply nonneg_mult; assumption.
Qed.
Lemma conductance_nonneg x : In x cells -> (0 <= conductance g (t_b s) (sizes s) cells k x)%Qc.
Proof.
  intros HX. unfold conductance. apply csum_nonneg. intros e _. apply csum_nonneg. intros up _. apply csum_nonneg. intros z HZ. apply filter_In in HZ. destruct HZ as (HZ & _).
  apply nonneg_mult; [apply area_nonneg; assumption|]. unfold Qcdiv at 1. apply nonneg_mult; [apply taken_nonneg|apply inv_nonneg, distance_positive; assumption].
Qed.
End Bounds.

(** A step small enough for every cell keeps the temperatures within any bounds, on every periodic
    mesh and for every conductivity. Missing: that the limiter gives such a step, see below. *)
Theorem C94_bounds_partial g n M s kappa dt D l h :
  periodic_run g n M (t_b s) (t_lo s) (t_hi s) -> of_position kappa -> (forall p, 0 <= kappa p)%Qc -> (0 <= dt)%Qc -> (1 <= t_gamma s)%Qc ->
  (forall x, In x (all_cells (t_b s) (leaves M)) -> still (D x) /\ between l h (heat_of (t_gamma s) (D x)) /\
     dt * (t_gamma s - 1) * conductance g (t_b s) (sizes s) (all_cells (t_b s) (leaves M)) (taken g (t_b s) (t_lo s) (sizes s) kappa) x <=
     u_rho (D x) * volume g (t_b s) (sizes s) x)%Qc ->
  exists D', conduct g s kappa dt M (field_arrays (t_b s) M D) (owned_values (t_b s) M D) = Some (owned_values (t_b s) M D') /\
    forall x, In x (all_cells (t_b s) (leaves M)) -> between l h (heat_of (t_gamma s) (D' x)).
Proof.
  intros PR KX KP DT GA H. destruct (C86_scheme_partial g n M s kappa dt D D PR KX) as (D' & E & V). exists D'. split; [exact E|]. intros x HX.
  assert (HM : has_var g Mass) by (intros _; discriminate). assert (HE : has_var g Energy) by (intros _; discriminate).
  pose proof (V x Mass HX HM) as VM. pose proof (V x Energy HX HE) as VE. cbn [cv] in VM, VE. clear V.
  destruct (H x HX) as (ST & (BL & BH) & SM). pose proof (volume_positive g n M s PR x HX) as VP.
  assert (TQ : forall z, In z (all_cells (t_b s) (leaves M)) -> temperature g (all_cells (t_b s) (leaves M)) D (t_gamma s) z = heat_of (t_gamma s) (D z)).
  { intros z HZ. destruct PR as (GS & RC & BO & _). apply (still_temperature g M (t_b s) D (t_gamma s) z (reachable_ok g n M GS RC) BO HZ). apply (H z HZ). }
  assert (UP : forall c m, (forall z, In z (all_cells (t_b s) (leaves M)) -> c * heat_of (t_gamma s) (D z) <= m)%Qc -> (c * heat_of (t_gamma s) (D' x) <= m)%Qc).
  { intros c m HM'. pose proof (heating_bound g n M s PR kappa KP D x c m HX) as HB. rewrite (TQ x HX) in HB.
    assert (HB' := HB (fun z HZ => eq_rect_r (fun q => (c * q <= m)%Qc) (HM' z HZ) (TQ z HZ))). clear HB.
    pose proof (conductance_nonneg g n M s PR kappa KP x HX) as CN. pose proof (HM' x HX) as TX. destruct ST as (RP & _).
    set (H0 := heating _ _ _ _ _ _ _ _) in *. set (C := conductance _ _ _ _ _ _) in *. set (vol := volume _ _ _ _) in *.
    assert (EQ : heat_of (t_gamma s) (D' x) = (heat_of (t_gamma s) (D x) + (t_gamma s - 1) * dt / (u_rho (D x) * vol) * (H0 * vol))%Qc).
    { unfold heat_of. rewrite VM, VE. replace (u_rho (D x) + dt * 0)%Qc with (u_rho (D x)) by ring. field. split; apply Qc_pos_nz; assumption. }
    rewrite EQ. set (tx := heat_of (t_gamma s) (D x)) in *. set (w := ((t_gamma s - 1) * dt / (u_rho (D x) * vol))%Qc).
    assert (RV : (0 < u_rho (D x) * vol)%Qc) by (apply Qcmult_lt_0; assumption).
    assert (WN : (0 <= w)%Qc).
    { unfold w, Qcdiv. apply nonneg_mult; [apply nonneg_mult; [clear - GA; qlin|exact DT]|apply inv_nonneg, RV]. }
    assert (WC : (w * C <= 1)%Qc).
    { unfold w. replace ((t_gamma s - 1) * dt / (u_rho (D x) * vol) * C)%Qc with (dt * (t_gamma s - 1) * C * / (u_rho (D x) * vol))%Qc by (unfold Qcdiv; ring).
      apply (Qcle_trans _ (u_rho (D x) * vol * / (u_rho (D x) * vol))%Qc); [apply Qcmult_le_compat_r; [exact SM|apply inv_nonneg, RV]|]. rewrite Qcmult_inv_r by (apply Qc_pos_nz, RV). apply Qcle_refl. }
    assert (S1 : (w * (c * (H0 * vol)) <= w * ((m - c * tx) * C))%Qc) by (rewrite !(Qcmult_comm w); apply Qcmult_le_compat_r; assumption).
    assert (S2 : (w * C * (m - c * tx) <= 1 * (m - c * tx))%Qc) by (apply Qcmult_le_compat_r; [exact WC|clear - TX; qlin]).
    replace (w * ((m - c * tx) * C))%Qc with (w * C * (m - c * tx))%Qc in S1 by ring. pose proof (Qcle_trans _ _ _ S1 S2) as S3.
    replace (c * (tx + w * (H0 * vol)))%Qc with (c * tx + w * (c * (H0 * vol)))%Qc by ring. clear - S3. set (a := (w * _)%Qc) in *. set (q := (c * tx)%Qc) in *. replace (1 * (m - q))%Qc with (m - q)%Qc in S3 by ring. clearbody a q. qlin. }
  split.
  - assert (K : (- (1) * heat_of (t_gamma s) (D' x) <= - l)%Qc).
    { apply UP. intros z HZ. destruct (H z HZ) as (_ & (B1 & _) & _). set (q := heat_of _ _) in *. clearbody q. clear - B1. qlin. }
    set (q := heat_of _ _) in *. clearbody q. clear - K. qlin.
  - assert (K : (1 * heat_of (t_gamma s) (D' x) <= h)%Qc).
    { apply UP. intros z HZ. destruct (H z HZ) as (_ & (_ & B1) & _). set (q := heat_of _ _) in *. clearbody q. clear - B1. qlin. }
    set (q := heat_of _ _) in *. clearbody q. clear - K. qlin.
Qed.
Lemma at_most_one {X} (f : X -> Qc) l y c : NoDup l -> (forall z, In z l -> z = y) -> (0 <= c)%Qc -> (forall z, In z l -> f z <= c)%Qc -> (csum (map f l) <= c)%Qc.
Proof.
  intros ND SAME C H. destruct l as [|z [|z' l]]; cbn [map csum fold_right]; [exact C| |].
  - replace (f z + 0)%Qc with (f z) by ring. apply H. left. reflexivity.
  - exfalso. inversion ND as [|a b1 NI _]; subst. apply NI. left. rewrite (SAME z (or_introl eq_refl)). apply SAME. right. left. reflexivity.
Qed.
Lemma three_eq : Q2Qc 3 = (1 + 1 + 1)%Qc. Proof. apply Qc_is_canon. reflexivity. Qed.
Lemma two_eq : Q2Qc 2 = (1 + 1)%Qc. Proof. apply Qc_is_canon. reflexivity. Qed.
Lemma axes_const g (c : Qc) : csum (map (fun _ => c) (axes_of g)) = (dimensions g * c)%Qc.
Proof. unfold axes_of, dimensions. destruct (g3d g); cbn [map csum fold_right]; rewrite ?three_eq, ?two_eq; ring. Qed.
Lemma volume_area g b ext x e : volume g b ext x = (face_area g b ext (lev x) e * cell_side g b ext (lev x) e)%Qc.
Proof. unfold volume, face_area, cell_side. cbv zeta. destruct e; ring. Qed.

(** With the step of the limiter, or a smaller one, on meshes whose cells all have one size: the
    temperatures stay within their bounds if the Courant number is small enough for the number of
    dimensions, the adiabatic index and the smallest density. *)
Theorem C94_one_size_partial lowest g n M s kappa mu cfl t dt D l h :
  periodic_run g n M (t_b s) (t_lo s) (t_hi s) -> one_size (all_cells (t_b s) (leaves M)) ->
  of_position kappa -> repeats (sizes s) kappa -> (forall p, 0 <= kappa p)%Qc -> (forall f, mu = Some f -> of_position f) ->
  (lowest <= 0)%Q -> (0 < cfl)%Qc -> (1 <= t_gamma s)%Qc ->
  parabolic_dt lowest g (t_b s) (t_lo s) (t_hi s) cfl (Some kappa) mu M = Some t -> (0 < dt)%Qc -> at_most (this dt) t ->
  (forall x, In x (all_cells (t_b s) (leaves M)) -> still (D x) /\ between l h (heat_of (t_gamma s) (D x)) /\
     two * dimensions g * cfl * (t_gamma s - 1) <= u_rho (D x))%Qc ->
  exists D', conduct g s kappa dt M (field_arrays (t_b s) M D) (owned_values (t_b s) M D) = Some (owned_values (t_b s) M D') /\
    forall x, In x (all_cells (t_b s) (leaves M)) -> between l h (heat_of (t_gamma s) (D' x)).
Proof.
  intros PR OS KX REP KP MX L CF GA ET DT AM H. pose proof PR as (GS & RC & BO & PER & EV & EXT). pose proof (reachable_ok g n M GS RC) as OK.
  apply (C94_bounds_partial g n M s kappa dt D l h PR KX KP (Qclt_le_weak _ _ DT) GA). intros x HX. destruct (H x HX) as (ST & BD & CR). split; [exact ST|]. split; [exact BD|].
  destruct (C94_limit lowest g n M (t_b s) (t_lo s) (t_hi s) cfl (Some kappa) mu t GS RC BO EXT L CF) as (_ & LIM); [|exact ET|].
  { intros f [K|[K|[]]]; [injection K as <-; exact KX|apply MX, K]. }
  apply (LIM dt DT) in AM. clear LIM ET. change (extent (t_lo s) (t_hi s)) with (sizes s) in AM.
  set (cells := all_cells (t_b s) (leaves M)) in *. set (vol := volume g (t_b s) (sizes s) x). pose proof (volume_positive g n M s PR x HX) as VP. fold vol in VP.
  assert (CV : (0 <= cfl * vol)%Qc) by (apply nonneg_mult; apply Qclt_le_weak; assumption).
  assert (CB : (dt * conductance g (t_b s) (sizes s) cells (taken g (t_b s) (t_lo s) (sizes s) kappa) x <= two * dimensions g * (cfl * vol))%Qc).
  { unfold conductance. rewrite <- csum_scale.
    apply (Qcle_trans _ (csum (map (fun _ => two * (cfl * vol))%Qc (axes_of g)))); [|rewrite axes_const; replace (two * dimensions g * (cfl * vol))%Qc with (dimensions g * (two * (cfl * vol)))%Qc by ring; apply Qcle_refl].
    apply csum_le. intros e IE. apply axes_flat' in IE. rewrite <- csum_scale.
    apply (Qcle_trans _ (csum (map (fun _ : bool => cfl * vol)%Qc [false; true]))); [|cbn [map csum fold_right]; unfold two; replace (cfl * vol + (cfl * vol + 0))%Qc with ((1 + 1) * (cfl * vol))%Qc by ring; apply Qcle_refl].
    apply csum_le. intros up _. rewrite <- csum_scale. apply (at_most_one _ _ (beside g (t_b s) x e up)); [apply NoDup_filter, (cells_NoDup g M OK (t_b s) BO)| |exact CV|].
    { intros z HZ. apply filter_In in HZ. apply (one_size_neighbour g M (t_b s) x e up z OS HX (proj1 HZ) (proj2 HZ)). }
    intros z HZ. apply filter_In in HZ. destruct HZ as (HZ & NB). pose proof (one_size_neighbour g M (t_b s) x e up z OS HX HZ NB) as EZ. pose proof (OS z x HZ HX) as LZ.
    rewrite LZ, Z.max_id. pose proof (cell_positive g n M s PR x e HX) as SP. unfold vol. rewrite (volume_area g (t_b s) (sizes s) x e).
    assert (KZ : (dt * taken g (t_b s) (t_lo s) (sizes s) kappa x e up z <= cfl * (cell_side g (t_b s) (sizes s) (lev x) e * cell_side g (t_b s) (sizes s) (lev x) e))%Qc).
    { unfold taken. rewrite LZ, Z.ltb_irrefl. change (sizes s) with (extent (t_lo s) (t_hi s)) at 2. rewrite (beyond_repeats g n M _ _ _ kappa x e up PR KX REP HX IE), <- EZ. change (extent (t_lo s) (t_hi s)) with (sizes s).
      pose proof (AM x kappa e HX (or_introl eq_refl) IE) as A1. pose proof (AM z kappa e HZ (or_introl eq_refl) IE) as A2. rewrite LZ in A2.
      set (k1 := kappa (middle g (t_b s) (t_lo s) (sizes s) x)) in *. set (k2 := kappa (middle g (t_b s) (t_lo s) (sizes s) z)) in *. set (m := (cfl * (cell_side g (t_b s) (sizes s) (lev x) e * cell_side g (t_b s) (sizes s) (lev x) e))%Qc) in *. clearbody k1 k2 m.
      replace (dt * ((k1 + k2) / two))%Qc with ((dt * k1 + dt * k2) / two)%Qc by (unfold Qcdiv; ring). set (a1 := (dt * k1)%Qc) in *. set (a2 := (dt * k2)%Qc) in *. clearbody a1 a2.
      replace m with ((m + m) * / two)%Qc by (unfold two; field; exact two_nz). unfold Qcdiv. apply Qcmult_le_compat_r; [clear - A1 A2; qlin|apply inv_nonneg; reflexivity]. }
    pose proof (area_nonneg g n M s PR x x e HX HX) as AN. rewrite Z.max_id in AN.
    set (sd := cell_side g (t_b s) (sizes s) (lev x) e) in *. set (ar := face_area g (t_b s) (sizes s) (lev x) e) in *. set (kz := taken g (t_b s) (t_lo s) (sizes s) kappa x e up z) in *. clearbody sd ar kz.
    assert (HS : ((sd + sd) / two = sd)%Qc) by (unfold two; field; exact two_nz). rewrite HS.
    replace (dt * (ar * (kz / sd)))%Qc with (dt * kz * (ar * / sd))%Qc by (unfold Qcdiv; ring).
    replace (cfl * (ar * sd))%Qc with (cfl * (sd * sd) * (ar * / sd))%Qc by (field; apply Qc_pos_nz, SP).
    apply Qcmult_le_compat_r; [exact KZ|]. apply nonneg_mult; [exact AN|apply inv_nonneg, SP]. }
  set (C := conductance _ _ _ _ _ _) in *. clearbody C vol.
  replace (dt * (t_gamma s - 1) * C)%Qc with (dt * C * (t_gamma s - 1))%Qc by ring.
  apply (Qcle_trans _ (two * dimensions g * (cfl * vol) * (t_gamma s - 1))%Qc); [apply Qcmult_le_compat_r; [exact CB|clear - GA; qlin]|].
  replace (two * dimensions g * (cfl * vol) * (t_gamma s - 1))%Qc with (two * dimensions g * cfl * (t_gamma s - 1) * vol)%Qc by ring.
  apply Qcmult_le_compat_r; [exact CR|apply Qclt_le_weak, VP].
Qed.

(** * Cases *)
(** A gas at rest of density [r] and temperature 1, one cell of temperature 2. *)
Definition warm (r : Qc) (x : oct) : cons := mkCons r (if oct_eqb x (mkOct 1 3 3 0) then two * r else r) 0 0 0.
Definition plain : point -> Qc := fun _ => 1%Qc.
Example plain_position : of_position plain. Proof. intros p p' _. reflexivity. Qed.
Example plain_repeats : repeats (sizes unit_box) plain. Proof. intros p e. reflexivity. Qed.
Example plain_positive p : (0 <= plain p)%Qc. Proof. discriminate. Qed.
Lemma warm_temperature r x : (0 < r)%Qc -> still (warm r x) /\ between 1 two (heat_of two (warm r x)).
Proof.
  intros R. split; [repeat split; try reflexivity; exact R|]. unfold heat_of, warm. cbn [u_e u_rho].
  assert (E : forall q, ((two - 1) * (q * r) / r = q)%Qc) by (intros q; unfold two; field; apply Qc_pos_nz, R).
  destruct (oct_eqb x (mkOct 1 3 3 0)); [rewrite E|replace r with (1 * r)%Qc at 1 by ring; rewrite E]; split; discriminate.
Qed.
Definition given (cfl : Qc) (q : Q) : Prop := parabolic_dt (-1) cs_g cs_b (t_lo unit_box) (t_hi unit_box) cfl (Some plain) None cs_M0 = Some (TimeModel.Fin q).
Example given_below_half : given (frac 2 5) (2 # 320). Proof. vm_compute. reflexivity. Qed.
Example given_quarter : given (frac 1 4) (1 # 256). Proof. vm_compute. reflexivity. Qed.
Example given_eighth : given (frac 1 8) (1 # 512). Proof. vm_compute. reflexivity. Qed.
(** Two levels, two ranks, both terms: the limit comes from the smallest cells. *)
Example C94_limit_example d : (0 < d)%Qc -> (this d <= 1 # 512)%Q <->
  step_ok cs_g cs_b (t_lo unit_box) (sizes unit_box) (all_cells cs_b (leaves cs_M)) (frac 1 2) [Some saw; Some plain] d.
Proof.
  intros HD. assert (E : parabolic_dt (-1) cs_g cs_b (t_lo unit_box) (t_hi unit_box) (frac 1 2) (Some saw) (Some plain) cs_M = Some (TimeModel.Fin (1 # 512))) by (vm_compute; reflexivity).
  destruct pb_usual as (GS & RC & BO & _ & _ & EXT).
  assert (LO : (-1 <= 0)%Q) by discriminate. assert (CP : (0 < frac 1 2)%Qc) by reflexivity.
  destruct (C94_limit (-1) cs_g 2 cs_M cs_b (t_lo unit_box) (t_hi unit_box) (frac 1 2) (Some saw) (Some plain) (TimeModel.Fin (1 # 512)) GS RC BO EXT LO CP) as (_ & LIM); [|exact E|exact (LIM d HD)].
  intros f [K|[K|[]]]; injection K as <-; [exact saw_position|exact plain_position].
Qed.

(** What is expected of the step of the limiter, for the Courant numbers that [ok] accepts. *)
Definition keeps_bounds (ok : geom -> Qc -> Prop) : Prop := forall lowest g n M s kappa cfl q D l h,
  periodic_run g n M (t_b s) (t_lo s) (t_hi s) -> one_size (all_cells (t_b s) (leaves M)) ->
  of_position kappa -> repeats (sizes s) kappa -> (forall p, 0 <= kappa p)%Qc ->
  (lowest <= 0)%Q -> (0 < cfl)%Qc -> ok g cfl -> (1 <= t_gamma s)%Qc ->
  parabolic_dt lowest g (t_b s) (t_lo s) (t_hi s) cfl (Some kappa) None M = Some (TimeModel.Fin q) ->
  (forall x, In x (all_cells (t_b s) (leaves M)) -> still (D x) /\ between l h (heat_of (t_gamma s) (D x))) ->
  exists D', conduct g s kappa (Q2Qc q) M (field_arrays (t_b s) M D) (owned_values (t_b s) M D) = Some (owned_values (t_b s) M D') /\
    forall x, In x (all_cells (t_b s) (leaves M)) -> between l h (heat_of (t_gamma s) (D' x)).

Definition cooled (r dt : Qc) : Qc :=
  ((two - 1) * (u_e (warm r (mkOct 1 3 3 0)) + dt * heating cs_g cs_b (sizes unit_box) (all_cells cs_b (leaves cs_M0)) (warm r) two (taken cs_g cs_b (t_lo unit_box) (sizes unit_box) plain) (mkOct 1 3 3 0)) /
   (u_rho (warm r (mkOct 1 3 3 0)) + dt * 0))%Qc.
Lemma too_long r cfl q (ok : geom -> Qc -> Prop) : (0 < r)%Qc -> (0 < cfl)%Qc -> given cfl q -> ok cs_g cfl -> ltb (cooled r (Q2Qc q)) 1 = true -> ~ keeps_bounds ok.
Proof.
  intros RP CP GV HO LOW H.
  destruct (C86_scheme_partial cs_g 2 cs_M0 unit_box plain (Q2Qc q) (warm r) (warm r) pb_usual_coarse plain_position) as (D1 & E1 & V1).
  assert (LO : (-1 <= 0)%Q) by discriminate. assert (GA : (1 <= t_gamma unit_box)%Qc) by discriminate.
  destruct (H (-1)%Q cs_g 2%nat cs_M0 unit_box plain cfl q (warm r) 1%Qc two pb_usual_coarse coarse_one_size plain_position plain_repeats plain_positive LO CP HO GA GV) as (D2 & E2 & V2).
  { intros x _. apply (warm_temperature r x RP). }
  pose proof (some_same _ _ (eq_trans (eq_sym E1) E2)) as E3. clear E1 E2 H GV.
  assert (HX : In (mkOct 1 3 3 0) (all_cells (t_b unit_box) (leaves cs_M0))).
  { assert (K : existsb (oct_eqb (mkOct 1 3 3 0)) (all_cells cs_b (leaves cs_M0)) = true) by (vm_compute; reflexivity). apply existsb_exists in K. destruct K as (y & HY & EQ). apply oct_eqb_eq in EQ. subst y. exact HY. }
  assert (HM : has_var cs_g Mass) by (intros _; discriminate). assert (HE : has_var cs_g Energy) by (intros _; discriminate).
  pose proof (V1 _ Mass HX HM) as KM. pose proof (V1 _ Energy HX HE) as KE. destruct (V2 _ HX) as (B1 & _). clear V1 V2. cbn [cv] in KM, KE.
  rewrite <- (owned_determined _ _ _ _ E3 _ HX) in B1. unfold heat_of in B1. rewrite KM, KE in B1. clear KM KE E3.
  apply ltb_spec in LOW. apply (Qclt_not_le _ _ LOW). exact B1.
Qed.
(** Courant numbers below 1/2, as documented: two dimensions already need 1/4. *)
Theorem C94_refuted : ~ keeps_bounds (fun _ cfl => (cfl < frac 1 2)%Qc).
Proof. apply (too_long 1 (frac 2 5) (2 # 320)); [reflexivity|reflexivity|exact given_below_half|reflexivity|vm_compute; reflexivity]. Qed.
(** Courant numbers that suit the number of dimensions: the limit leaves out the density. *)
Theorem C94_refuted_density : ~ keeps_bounds (fun g cfl => (two * dimensions g * cfl <= 1)%Qc).
Proof. apply (too_long (frac 1 4) (frac 1 4) (1 # 256)); [reflexivity|reflexivity|exact given_quarter|discriminate|vm_compute; reflexivity]. Qed.

Example C94_one_size_example : exists D', conduct cs_g unit_box plain (frac 1 512) cs_M0 (field_arrays cs_b cs_M0 (warm 1)) (owned_values cs_b cs_M0 (warm 1)) = Some (owned_values cs_b cs_M0 D') /\
  forall x, In x (all_cells cs_b (leaves cs_M0)) -> between 1 two (heat_of two (D' x)).
Proof.
  assert (LO : (-1 <= 0)%Q) by discriminate. assert (CP : (0 < frac 1 8)%Qc) by reflexivity. assert (GA : (1 <= t_gamma unit_box)%Qc) by discriminate. assert (DP : (0 < frac 1 512)%Qc) by reflexivity.
  apply (C94_one_size_partial (-1)%Q cs_g 2 cs_M0 unit_box plain None (frac 1 8) _ (frac 1 512) (warm 1) 1%Qc two pb_usual_coarse coarse_one_size plain_position plain_repeats plain_positive
    (fun f K => False_ind _ (eq_ind None (fun t => match t with None => True | Some _ => False end) I _ K)) LO CP GA given_eighth DP).
  - discriminate.
  - intros x _. destruct (warm_temperature 1 x) as (W1 & W2); [reflexivity|]. split; [exact W1|]. split; [exact W2|]. discriminate.
Qed.
(** Two levels: the condition of [C94_bounds_partial] holds around the hot cell of C86. *)
Example C94_bounds_example : exists D', conduct cs_g unit_box saw (frac 1 1024) cs_M (field_arrays cs_b cs_M hot) (owned_values cs_b cs_M hot) = Some (owned_values cs_b cs_M D') /\
  forall x, In x (all_cells cs_b (leaves cs_M)) -> between 1 two (heat_of two (D' x)).
Proof.
  assert (DP : (0 <= frac 1 1024)%Qc) by discriminate. assert (GA : (1 <= t_gamma unit_box)%Qc) by discriminate.
  assert (SP : forall p, (0 <= saw p)%Qc).
  { intros p. unfold saw, Qcle. cbn [Q2Qc this]. change (Qred 0) with 0%Q. pose proof (Qfloor_le (p AX)) as FL. apply Qle_minus_iff in FL. apply (Qle_trans _ _ _ FL). apply Qle_lteq. right. apply Qeq_sym, Qred_correct. }
  apply (C94_bounds_partial cs_g 2 cs_M unit_box saw (frac 1 1024) hot 1%Qc two pb_usual saw_position SP DP GA).
  assert (K : forallb (fun x => leb (frac 1 1024 * (two - 1) * conductance cs_g cs_b (sizes unit_box) (all_cells cs_b (leaves cs_M)) (taken cs_g cs_b (t_lo unit_box) (sizes unit_box) saw) x)%Qc
    (u_rho (hot x) * volume cs_g cs_b (sizes unit_box) x)%Qc) (all_cells cs_b (leaves cs_M)) = true) by (vm_compute; reflexivity).
  rewrite forallb_forall in K. intros x HX. specialize (K x HX). apply leb_spec in K. split; [|split; [|exact K]].
  - repeat split; reflexivity.
  - unfold hot, heat_of. cbn [u_e u_rho]. destruct (oct_eqb x (mkOct 2 7 3 0)); split; discriminate.
Qed.

Print Assumptions C94_limit.
Print Assumptions C94_bounds_partial.
Print Assumptions C94_one_size_partial.
Print Assumptions C94_refuted.
Print Assumptions C94_refuted_density.
