(** The second order Runge-Kutta update (C85). *)
From Coq Require Import QArith Qcanon Permutation Lqa.
From Verif Require Import Base OctreeSpec OctreeGeom OctreeModel FindNeighbors MeshSpec HistorySpec
  LookupModel CellModel CellSpec CellProofs CellProps RemapModel RemapSpec RemapProofs RemapProps HydroModel HydroSpec HydroProps
  ConserveSpec BlockGhost ConserveFaces ConserveProofs OctreeProps HistoryProofs LookupProps SchemeSpec ConserveProps SchemeProps
  GravitySpec GravityModel GravityProofs GravityLoop CloudProofs RKModel RKSpec RKProofs.
Open Scope Z_scope.

(** Periodic meshes, blocks and extents as in C39; not the well-balanced option. *)
Definition usual (g : geom) (n : nat) (M : mesh) (b : axis -> Z) (S : scheme) (ext : axis -> Qc) : Prop :=
  good_setup g n /\ reachable g n M /\ block_ok g b /\ periodic g /\ even_blocks g b /\ (forall a, 0 < ext a)%Qc /\ well_balanced (s_gi S) = false.
(** The parts of a scheme the specification speaks about. *)
Definition flux_of (S : scheme) : prim -> prim -> cons := fun a c => fst (s_riem S a c).
Definition grav_of (S : scheme) : option (axis -> Qc) := if in_step (s_gi S) then Some (gg (s_gi S)) else None.
Definition stage_of (g : geom) (b : axis -> Z) (S : scheme) (ext : axis -> Qc) (dt smallp : Qc) (M : mesh) (acc : option (oct -> axis -> Qc)) :=
  stage g b ext (all_cells b (leaves M)) (flux_of S) (s_gamma S) (s_smallr S) smallp dt (grav_of S) acc.
Definition unrepaired_of (g : geom) (b : axis -> Z) (S : scheme) (ext : axis -> Qc) (dt : Qc) (M : mesh) (acc : option (oct -> axis -> Qc)) :=
  unrepaired g b ext (all_cells b (leaves M)) (flux_of S) (s_gamma S) (s_smallr S) dt (grav_of S) acc.
Definition heun_of (g : geom) (b : axis -> Z) (S : scheme) (ext : axis -> Qc) (dt smallp : Qc) (M : mesh) (acc : option (oct -> axis -> Qc)) :=
  heun g b ext (all_cells b (leaves M)) (flux_of S) (s_gamma S) (s_smallr S) smallp dt (grav_of S) acc.

(** The update completes, and every cell gets the value of the Heun step: the stages use the
    same scheme as the first order update (C69), neighbours on other ranks included. *)
Theorem C85_scheme_partial g n M b S ext dt smallp gf acc old_star old_next D :
  usual g n M b S ext -> holds_acceleration b M acc gf ->
  exists D', rk2 (g3d g) (ctx g b S) ext dt smallp b M gf old_star old_next (field_arrays b M D) = Some (owned_values b M D') /\
    forall x v, In x (all_cells b (leaves M)) -> has_var g v -> cv v (D' x) = heun_of g b S ext dt smallp M acc D x v.
Proof.
  intros (GS & RC & BO & PER & EV & EXT & WB) GF.
  exact (step_run g n M b S ext dt smallp gf acc GS RC BO PER EV EXT WB GF D old_star old_next).
Qed.

(** * Conservation *)
Lemma mean_same (x : Qc) : ((x + x) / two = x)%Qc.
Proof. unfold two. field. exact two_nz. Qed.
Lemma repaired_sound gamma sr sp u : sound gamma u -> repaired gamma sr sp u = u.
Proof.
  intros (H1 & H2). unfold repaired. cbv zeta. rewrite !negative_ltb. unfold gas. cbn [q_rho q_p].
  apply ltb_false in H1, H2. rewrite H1, H2. reflexivity.
Qed.
Lemma owned_at g b M (D : oct -> cons) r R i A q : block_ok g b -> nth_error M r = Some R -> nth_error (loc R) i = Some A -> in_block b q ->
  field_of b (nth r (owned_values b M D) []) i (q AX + q AY * b AX + q AZ * b AX * b AY) = D (cell_of b A q).
Proof.
  intros BO HR HA Hq. unfold field_of, owned_values.
  assert (nth r (map (fun R => map D (all_cells b (loc R))) M) [] = map D (all_cells b (loc R))) as -> by (apply nth_error_nth; rewrite nth_error_map, HR; reflexivity).
  pose proof (all_cells_nth b (b_pos g b BO) (loc R) i A q HA Hq) as E.
  apply nth_error_nth. rewrite nth_error_map. unfold flat_cell in E. rewrite E. reflexivity.
Qed.
Lemma total_owned g b ext M v D : block_ok g b -> total_held g b ext M v (fun r => field_of b (nth r (owned_values b M D) [])) = domain_sum g M b ext (fun x => cv v (D x)).
Proof.
  intros BO. apply (total_cells g b ext M v _ (fun x => cv v (D x))). intros r R i A q HR HA Hq.
  rewrite (owned_at g b M D r R i A q BO HR HA (positions_in b q Hq)). reflexivity.
Qed.
Lemma total_field g b ext M v D : block_ok g b -> total_held g b ext M v (fun r => field_of b (nth r (field_arrays b M D) [])) = domain_sum g M b ext (fun x => cv v (D x)).
Proof.
  intros BO. apply (total_cells g b ext M v _ (fun x => cv v (D x))). intros r R i A q HR HA Hq.
  rewrite (field_of_holds g b M D BO r R i A q HR); [reflexivity| |apply positions_in, Hq]. rewrite nth_error_app1; [exact HA|apply nth_error_Some; congruence].
Qed.
Lemma domain_ext g M b ext f h : (forall x, In x (all_cells b (leaves M)) -> f x = h x) -> domain_sum g M b ext f = domain_sum g M b ext h.
Proof. intros H. unfold domain_sum. apply csum_ext. intros x HX. rewrite (H x HX). reflexivity. Qed.

(** Totals are unchanged if no stage needs a repair: mass always, the other variables without
    gravity. *)
Theorem C85_conservation_partial g n M b S ext dt smallp gf acc old_star old_next D outs v :
  usual g n M b S ext -> holds_acceleration b M acc gf ->
  (forall x, In x (all_cells b (leaves M)) -> sound (s_gamma S) (unrepaired_of g b S ext dt M acc D x)) ->
  (forall x, In x (all_cells b (leaves M)) -> sound (s_gamma S) (unrepaired_of g b S ext dt M acc (stage_of g b S ext dt smallp M acc D) x)) ->
  rk2 (g3d g) (ctx g b S) ext dt smallp b M gf old_star old_next (field_arrays b M D) = Some outs ->
  has_var g v -> v = Mass \/ (in_step (s_gi S) = false /\ acc = None) ->
  total_held g b ext M v (fun r => field_of b (nth r outs [])) = total_held g b ext M v (fun r => field_of b (nth r (field_arrays b M D) [])).
Proof.
  intros US GF S1 S2 RUN HV CV. destruct (C85_scheme_partial g n M b S ext dt smallp gf acc old_star old_next D US GF) as (D' & E & V).
  rewrite E in RUN. injection RUN as <-. destruct US as (GS & RC & BO & PER & EV & EXT & WB).
  rewrite total_owned, total_field by exact BO.
  rewrite (domain_ext g M b ext _ (fun x => heun_of g b S ext dt smallp M acc D x v)) by (intros x HX; apply V; assumption).
  pose proof (raw_total g n M b S ext dt acc D v GS RC BO PER EV EXT WB HV CV) as T1.
  pose proof (raw_total g n M b S ext dt acc (stage_of g b S ext dt smallp M acc D) v GS RC BO PER EV EXT WB HV CV) as T2.
  fold (unrepaired_of g b S ext dt M acc D) in T1.
  assert (T3 : domain_sum g M b ext (fun x => cv v (stage_of g b S ext dt smallp M acc D x)) = domain_sum g M b ext (fun x => cv v (D x))).
  { rewrite <- T1. apply domain_ext. intros x HX. unfold stage_of, stage. fold (unrepaired_of g b S ext dt M acc D). fold (unrepaired_of g b S ext dt M acc D x).
    rewrite (repaired_sound _ _ _ _ (S1 x HX)). reflexivity. }
  assert (T4 : domain_sum g M b ext (fun x => cv v (stage_of g b S ext dt smallp M acc (stage_of g b S ext dt smallp M acc D) x)) = domain_sum g M b ext (fun x => cv v (D x))).
  { rewrite <- T3, <- T2. apply domain_ext. intros x HX. unfold stage_of at 1, stage. fold (unrepaired_of g b S ext dt M acc (stage_of g b S ext dt smallp M acc D) x).
    rewrite (repaired_sound _ _ _ _ (S2 x HX)). reflexivity. }
  transitivity ((domain_sum g M b ext (fun x => cv v (D x)) + domain_sum g M b ext (fun x => cv v (stage_of g b S ext dt smallp M acc (stage_of g b S ext dt smallp M acc D) x))) / two)%Qc.
  - unfold domain_sum. rewrite <- csum_plus.
    assert (DIV : forall l : list oct, forall f : oct -> Qc, (csum (map f l) / two)%Qc = csum (map (fun x => f x / two)%Qc l)).
    { clear. intros l f. induction l as [|x l IH]; cbn [map csum fold_right]; [apply Qc_is_canon; reflexivity|]. fold (csum (map f l)). fold (csum (map (fun x => f x / two)%Qc l)). rewrite <- IH. unfold Qcdiv. ring. }
    rewrite DIV. apply csum_ext. intros x _. unfold heun_of, heun, stage_of, Qcdiv. ring.
  - rewrite T4. apply mean_same.
Qed.

(** * Uniform flow *)
Theorem C85_uniform_partial g n M b S ext dt smallp gf old_star old_next u :
  usual g n M b S ext -> holds_acceleration b M None gf -> in_step (s_gi S) = false -> sound (s_gamma S) (seen g u) ->
  exists D', rk2 (g3d g) (ctx g b S) ext dt smallp b M gf old_star old_next (field_arrays b M (fun _ => u)) = Some (owned_values b M D') /\
    forall x v, In x (all_cells b (leaves M)) -> has_var g v -> cv v (D' x) = cv v u.
Proof.
  intros (GS & RC & BO & PER & EV & EXT & WB) GF NG SU.
  assert (ST : forall x, In x (all_cells b (leaves M)) -> stage_of g b S ext dt smallp M None (fun _ => u) x = seen g u).
  { intros x HX. unfold stage_of, stage. fold (unrepaired_of g b S ext dt M None (fun _ => u) x).
    assert (RW : unrepaired_of g b S ext dt M None (fun _ => u) x = seen g u); [|rewrite RW; apply repaired_sound, SU].
    apply cells_in in HX. destruct HX as (A & q & HA & Hq & ->).
    apply in_concat in HA. destruct HA as (L & HL & HA). apply in_map_iff in HL. destruct HL as (R & <- & HR).
    apply In_nth_error in HR. destruct HR as (r & HR). apply In_nth_error in HA. destruct HA as (i & HA).
    destruct (cell_value g n M b S ext dt gf None GS RC BO PER EV EXT WB GF (fun _ => u) r R i A q cons0 HR HA Hq) as (o & E & SO).
    destruct (C67_uniform g n M b S ext dt u _ r R i A q cons0 GS RC BO PER EV EXT (field_of_holds g b M (fun _ => u) BO) WB NG HR HA Hq) as (o' & E' & V).
    rewrite (GF r R i A q HR HA Hq : gf r i (flat_cell b q) = None) in E. rewrite E in E'. injection E' as <-.
    unfold unrepaired_of, flux_of, grav_of. rewrite <- SO. apply seen_cv, V. }
  destruct (stage_run g n M b S ext dt smallp gf None GS RC BO PER EV EXT WB GF (fun _ => u) (fun _ => u) old_star) as (E & E1 & H1 & O1).
  assert (A : forall y, seen g (E y) = seen g u).
  { assert (DEC : forall y z : oct, {y = z} + {y <> z}) by (decide equality; apply Z.eq_dec).
    intros y. destruct (in_dec DEC y (all_cells b (leaves M))) as [HY|HY]; [|rewrite (O1 y HY); reflexivity]. rewrite (H1 y HY). exact (ST y HY). }
  destruct (stage_run g n M b S ext dt smallp gf None GS RC BO PER EV EXT WB GF E (fun _ => u) old_next) as (E' & E2 & H2 & _).
  eexists. split; [exact (step_stages g n M b S ext dt smallp gf GS RC BO (fun _ => u) E E' old_star old_next E1 E2)|].
  intros x v HX HV. cbv beta. rewrite (correct_cv g _ _ v HV).
  assert (SE : cv v (E' x) = cv v u).
  { apply (cv_seen g _ _ v HV). rewrite (H2 x HX). rewrite (stage_seen g M b S ext dt smallp None E (fun _ => u) x A). exact (ST x HX). }
  rewrite SE. apply mean_same.
Qed.

(** * The partition does not matter *)
Lemma filter_permuted {X} (f : X -> bool) l l' : Permutation l l' -> Permutation (filter f l) (filter f l').
Proof.
  intros P. induction P as [|x l l' P IH|x y l|l1 l2 l3 P1 IH1 P2 IH2]; cbn [filter].
  - apply perm_nil.
  - destruct (f x); [apply perm_skip|]; exact IH.
  - destruct (f x), (f y); try apply Permutation_refl. apply perm_swap.
  - eapply Permutation_trans; eassumption.
Qed.
Section Perm.
Context (g : geom) (b : axis -> Z) (ext : axis -> Qc) (cells cells' : list oct) (PM : Permutation cells cells') (riem : prim -> prim -> cons) (gamma floor : Qc).
Lemma existsb_perm f : existsb f cells = existsb f cells'.
Proof.
  destruct (existsb f cells) eqn:E; symmetry.
  - apply existsb_exists in E. destruct E as (x & H1 & H2). apply existsb_exists. exists x. split; [exact (Permutation_in x PM H1)|exact H2].
  - destruct (existsb f cells') eqn:E'; [|reflexivity]. apply existsb_exists in E'. destruct E' as (x & H1 & H2).
    rewrite <- E. symmetry. apply existsb_exists. exists x. split; [exact (Permutation_in x (Permutation_sym PM) H1)|exact H2].
Qed.
Lemma gas_at_perm D x : gas_at g cells D gamma x = gas_at g cells' D gamma x.
Proof. unfold gas_at, resample. rewrite !existsb_perm. reflexivity. Qed.
Lemma mean_flux_perm D v x e up : mean_flux g b ext cells D riem gamma floor v x e up = mean_flux g b ext cells' D riem gamma floor v x e up.
Proof.
  unfold mean_flux. rewrite (csum_perm _ _ (Permutation_map _ (filter_permuted (neighbour g b x e up) _ _ PM))).
  erewrite map_ext; [reflexivity|]. intros z. unfold flux_between. rewrite !gas_at_perm. reflexivity.
Qed.
Lemma unrepaired_perm dt grav acc D x : unrepaired g b ext cells riem gamma floor dt grav acc D x = unrepaired g b ext cells' riem gamma floor dt grav acc D x.
Proof.
  assert (F : forall v, forward g b ext cells riem gamma floor dt grav D x v = forward g b ext cells' riem gamma floor dt grav D x v).
  { intros v. unfold forward.
    assert (N : net_flux g b ext cells D riem gamma floor dt v x = net_flux g b ext cells' D riem gamma floor dt v x)
      by (unfold net_flux; erewrite map_ext; [reflexivity|]; intros e; rewrite !mean_flux_perm; reflexivity).
    rewrite N. destruct grav as [gr|]; [|reflexivity].
    assert (GV : gravity_source g b ext cells D riem gamma floor dt gr v x = gravity_source g b ext cells' D riem gamma floor dt gr v x); [|rewrite GV; reflexivity].
    unfold gravity_source. destruct v as [| |a]; [reflexivity| |reflexivity].
    erewrite map_ext; [reflexivity|]. intros e. rewrite !mean_flux_perm. reflexivity. }
  unfold unrepaired, forward_state. cbv zeta. rewrite !F. reflexivity.
Qed.
Lemma heun_perm smallp dt grav acc D x v : heun g b ext cells riem gamma floor smallp dt grav acc D x v = heun g b ext cells' riem gamma floor smallp dt grav acc D x v.
Proof.
  unfold heun.
  assert (ST : forall D y, stage g b ext cells riem gamma floor smallp dt grav acc D y = stage g b ext cells' riem gamma floor smallp dt grav acc D y) by (intros; unfold stage; rewrite unrepaired_perm; reflexivity).
  assert (SS : stage g b ext cells riem gamma floor smallp dt grav acc (stage g b ext cells riem gamma floor smallp dt grav acc D) x =
               stage g b ext cells' riem gamma floor smallp dt grav acc (stage g b ext cells' riem gamma floor smallp dt grav acc D) x); [|rewrite SS; reflexivity].
  rewrite ST. unfold stage at 1 3. rewrite (unrepaired_seen g b ext cells' riem gamma floor (stage g b ext cells riem gamma floor smallp dt grav acc D) (stage g b ext cells' riem gamma floor smallp dt grav acc D)); [reflexivity|].
  intros y. rewrite ST. reflexivity.
Qed.
End Perm.

(** The same leaves on other numbers of ranks, shared out otherwise, with other leftovers in the
    output arrays: the same values. *)
Theorem C85_partition_partial g n n' M M' b S S' ext dt smallp gf gf' acc old1 old2 old1' old2' D :
  usual g n M b S ext -> usual g n' M' b S' ext -> same_scheme S S' -> (forall B, In B (leaves M) <-> In B (leaves M')) ->
  holds_acceleration b M acc gf -> holds_acceleration b M' acc gf' ->
  exists D1 D2,
    rk2 (g3d g) (ctx g b S) ext dt smallp b M gf old1 old2 (field_arrays b M D) = Some (owned_values b M D1) /\
    rk2 (g3d g) (ctx g b S') ext dt smallp b M' gf' old1' old2' (field_arrays b M' D) = Some (owned_values b M' D2) /\
    forall x v, In x (all_cells b (leaves M)) -> has_var g v -> cv v (D1 x) = cv v (D2 x).
Proof.
  intros US US' (Q1 & Q2 & Q3 & Q4) SAME GF GF'.
  destruct (C85_scheme_partial g n M b S ext dt smallp gf acc old1 old2 D US GF) as (D1 & E1 & V1).
  destruct (C85_scheme_partial g n' M' b S' ext dt smallp gf' acc old1' old2' D US' GF') as (D2 & E2 & V2).
  exists D1, D2. split; [exact E1|]. split; [exact E2|]. intros x v HX HV.
  assert (SC : forall y, In y (all_cells b (leaves M)) <-> In y (all_cells b (leaves M'))).
  { intros y. rewrite !cells_in. split; intros (A & q & HA & Hq & E); exists A, q; (split; [apply SAME; exact HA|split; assumption]). }
  rewrite (V1 x v HX HV), (V2 x v (proj1 (SC x) HX) HV). unfold heun_of, flux_of, grav_of. rewrite Q1, Q2, Q3, Q4.
  destruct US as (GS & RC & BO & _). destruct US' as (GS' & RC' & _).
  apply heun_perm. apply NoDup_Permutation; [apply (cells_NoDup g M (reachable_ok g n M GS RC) b BO)|apply (cells_NoDup g M' (reachable_ok g n' M' GS' RC') b BO)|exact SC].
Qed.

(** * Density and pressure *)
Lemma convex (m1 m2 r1 r2 : Qc) : (0 < r1 -> 0 < r2 -> (m1 + m2) * (m1 + m2) / (r1 + r2) <= m1 * m1 / r1 + m2 * m2 / r2)%Qc.
Proof.
  intros H1 H2. assert (P : (0 < r1 + r2)%Qc) by (apply Qclt_le_trans with r1; [exact H1|]; rewrite <- (Qcplus_0_r r1) at 1; apply Qcplus_le_compat; [apply Qcle_refl|apply Qclt_le_weak, H2]).
  apply Qcle_minus_iff.
  assert (E : (m1 * m1 / r1 + m2 * m2 / r2 + - ((m1 + m2) * (m1 + m2) / (r1 + r2)) = (m1 * r2 - m2 * r1) * (m1 * r2 - m2 * r1) * / (r1 * r2 * (r1 + r2)))%Qc)
    by (field; repeat split; apply Qc_pos_nz; assumption).
  rewrite E. clear E.
  assert (SQ : forall x : Qc, (0 <= x * x)%Qc).
  { intros x. destruct (Qclt_le_dec x 0) as [L|L].
    - replace (x * x)%Qc with ((- x) * (- x))%Qc by ring. assert (0 <= - x)%Qc by (apply Qclt_le_weak; apply opp_pos in L; exact L). replace 0%Qc with (0 * - x)%Qc by ring. apply Qcmult_le_compat_r; assumption.
    - replace 0%Qc with (0 * x)%Qc by ring. apply Qcmult_le_compat_r; assumption. }
  assert (I : (0 < / (r1 * r2 * (r1 + r2)))%Qc).
  { replace (/ (r1 * r2 * (r1 + r2)))%Qc with (1 / (r1 * r2 * (r1 + r2)))%Qc by (unfold Qcdiv; ring). apply Qcdiv_lt_0; [reflexivity|]. apply Qcmult_lt_0; [apply Qcmult_lt_0; assumption|exact P]. }
  replace 0%Qc with (0 * / (r1 * r2 * (r1 + r2)))%Qc by ring. apply Qcmult_le_compat_r; [apply SQ|apply Qclt_le_weak, I].
Qed.
Lemma internal_mean u w x : (0 < u_rho u -> 0 < u_rho w -> 0 <= internal u -> 0 <= internal w ->
  (forall v, cv v x = (cv v u + cv v w) / two) -> 0 <= internal x)%Qc.
Proof.
  intros R1 R2 I1 I2 V.
  pose proof (V Mass) as VR. pose proof (V Energy) as VE. pose proof (V (Mom AX)) as VX. pose proof (V (Mom AY)) as VY. pose proof (V (Mom AZ)) as VZ. cbn [cv mom] in *.
  unfold internal, sqnorm in *. cbn [mom] in *. rewrite VR, VE, VX, VY, VZ.
  pose proof (convex (u_x u) (u_x w) _ _ R1 R2) as CX. pose proof (convex (u_y u) (u_y w) _ _ R1 R2) as CY. pose proof (convex (u_z u) (u_z w) _ _ R1 R2) as CZ.
  assert (P : (0 < u_rho u + u_rho w)%Qc) by (apply Qclt_le_trans with (u_rho u); [exact R1|]; rewrite <- (Qcplus_0_r (u_rho u)) at 1; apply Qcplus_le_compat; [apply Qcle_refl|apply Qclt_le_weak, R2]).
  pose proof (Qc_pos_nz _ R1) as N1. pose proof (Qc_pos_nz _ R2) as N2. pose proof (Qc_pos_nz _ P) as N3.
  assert (EQ : forall r a c d : Qc, r <> 0%Qc -> ((a * a + c * c + d * d) / (two * r) = (a * a / r + c * c / r + d * d / r) / two)%Qc) by (intros; field; auto using two_nz).
  rewrite EQ in I1, I2 by assumption.
  assert (EQ' : forall a a' c c' d d' r : Qc, r <> 0%Qc ->
    (((a + a') / two * ((a + a') / two) + (c + c') / two * ((c + c') / two) + (d + d') / two * ((d + d') / two)) / (two * (r / two)) =
     ((a + a') * (a + a') / r + (c + c') * (c + c') / r + (d + d') * (d + d') / r) / two / two)%Qc) by (intros; field; auto using two_nz).
  rewrite EQ' by assumption. 
  set (a1 := (u_x u * u_x u / u_rho u)%Qc) in *. set (a2 := (u_y u * u_y u / u_rho u)%Qc) in *. set (a3 := (u_z u * u_z u / u_rho u)%Qc) in *.
  set (b1 := (u_x w * u_x w / u_rho w)%Qc) in *. set (b2 := (u_y w * u_y w / u_rho w)%Qc) in *. set (b3 := (u_z w * u_z w / u_rho w)%Qc) in *.
  set (c1 := ((u_x u + u_x w) * (u_x u + u_x w) / (u_rho u + u_rho w))%Qc) in *. set (c2 := ((u_y u + u_y w) * (u_y u + u_y w) / (u_rho u + u_rho w))%Qc) in *. set (c3 := ((u_z u + u_z w) * (u_z u + u_z w) / (u_rho u + u_rho w))%Qc) in *.
  clearbody a1 a2 a3 b1 b2 b3 c1 c2 c3. clear - I1 I2 CX CY CZ.
  assert (H : forall y : Qc, (y / two = y * half_f)%Qc) by (intros y; rewrite half_two; reflexivity).
  assert (TH : (this half_f == 1 # 2)%Q) by reflexivity.
  rewrite !H in *. clear H. unfold Qcle in *.
  repeat (rewrite this_minus in * || rewrite this_plus in * || rewrite this_mult in * || rewrite this_0 in *). rewrite !TH in *. lra.
Qed.
Lemma repaired_ok gamma sr sp u : (1 < gamma -> 0 < sr -> 0 <= sp -> u_rho (repaired gamma sr sp u) <> 0 ->
  0 < u_rho (repaired gamma sr sp u) /\ 0 <= internal (repaired gamma sr sp u))%Qc.
Proof.
  intros G1 SR SP. assert (G : (0 < gamma - 1)%Qc) by (apply Qclt_sub in G1; exact G1). pose proof (Qc_pos_nz _ G) as GN.
  assert (DV : forall x : Qc, (0 <= x -> 0 <= x / (gamma - 1))%Qc).
  { intros x Hx. replace 0%Qc with (0 * / (gamma - 1))%Qc by ring. unfold Qcdiv. apply Qcmult_le_compat_r; [exact Hx|]. apply Qclt_le_weak.
    replace (/ (gamma - 1))%Qc with (1 / (gamma - 1))%Qc by (unfold Qcdiv; ring). apply Qcdiv_lt_0; [reflexivity|exact G]. }
  assert (LT : forall x : Qc, (0 <= x -> x <> 0 -> 0 < x)%Qc) by (intros x Hx N; destruct (Qcle_lt_or_eq _ _ Hx) as [L|L]; [exact L|congruence]).
  unfold repaired. cbv zeta. rewrite !negative_ltb. set (q := gas gamma u).
  destruct (ltb (q_rho q) 0 || ltb (q_p q) 0) eqn:E.
  - set (r' := if ltb (q_rho q) 0 then sr else q_rho q). set (p' := if ltb (q_p q) 0 then sp else q_p q).
    assert (R' : (0 <= r')%Qc) by (unfold r'; destruct (ltb (q_rho q) 0) eqn:EL; [apply Qclt_le_weak, SR|apply ltb_false; exact EL]).
    assert (P' : (0 <= p')%Qc) by (unfold p'; destruct (ltb (q_p q) 0) eqn:EL; [exact SP|apply ltb_false; exact EL]).
    cbn [state_of u_rho q_rho]. intros N. split; [apply LT; assumption|].
    assert (EQ : internal (state_of gamma (mkPrim r' p' (q_x q) (q_y q) (q_z q))) = (p' / (gamma - 1))%Qc).
    { unfold internal, state_of, sqnorm. cbn [u_rho u_e u_x u_y u_z mom vel q_rho q_p q_x q_y q_z]. field. repeat split; assumption || apply two_nz. }
    rewrite EQ. apply DV, P'.
  - apply Bool.orb_false_iff in E. destruct E as (E1 & E2). apply ltb_false in E1, E2. intros N. split; [apply LT; assumption|].
    replace (internal u) with (q_p q / (gamma - 1))%Qc; [apply DV, E2|]. unfold q, gas. cbn [q_p]. field. exact GN.
Qed.

(** From positive densities and pressures that are not negative the update makes the same, unless
    the second stage empties a cell exactly: the mean of two such states is such a state. *)
Theorem C85_positive_partial g n M b S ext dt smallp gf acc old_star old_next D outs :
  usual g n M b S ext -> holds_acceleration b M acc gf -> (1 < s_gamma S)%Qc -> (0 < s_smallr S)%Qc -> (0 <= smallp)%Qc ->
  (forall x, In x (all_cells b (leaves M)) -> 0 < u_rho (D x) /\ 0 <= internal (seen g (D x)))%Qc ->
  (forall x, In x (all_cells b (leaves M)) -> u_rho (stage_of g b S ext dt smallp M acc (stage_of g b S ext dt smallp M acc D) x) <> 0)%Qc ->
  rk2 (g3d g) (ctx g b S) ext dt smallp b M gf old_star old_next (field_arrays b M D) = Some outs ->
  forall out u, In out outs -> In u out -> (0 < u_rho u /\ 0 <= internal (seen g u))%Qc.
Proof.
  intros US GF G1 SR SP POS NE RUN out u HO HU.
  destruct (C85_scheme_partial g n M b S ext dt smallp gf acc old_star old_next D US GF) as (D' & E & V).
  rewrite E in RUN. injection RUN as <-.
  assert (X : exists x, In x (all_cells b (leaves M)) /\ u = D' x).
  { unfold owned_values in HO. apply in_map_iff in HO. destruct HO as (R & <- & HR). apply in_map_iff in HU. destruct HU as (x & <- & HX). exists x. split; [|reflexivity].
    rewrite all_cells_leaves. apply in_concat. eexists. split; [apply in_map_iff; exists R; split; [reflexivity|exact HR]|exact HX]. }
  destruct X as (x & HX & ->). destruct (POS x HX) as (P1 & P2).
  set (w := stage_of g b S ext dt smallp M acc (stage_of g b S ext dt smallp M acc D) x).
  destruct (repaired_ok (s_gamma S) (s_smallr S) smallp (unrepaired_of g b S ext dt M acc (stage_of g b S ext dt smallp M acc D) x) G1 SR SP (NE x HX)) as (W1 & W2).
  change (0 < u_rho w)%Qc in W1. change (0 <= internal w)%Qc in W2.
  assert (VV : forall v, has_var g v -> cv v (D' x) = ((cv v (D x) + cv v w) / two)%Qc) by (intros v HV; apply (V x v HX HV)).
  assert (SW : seen g w = w) by exact (stage_planar g b ext (all_cells b (leaves M)) (flux_of S) (s_gamma S) (s_smallr S) smallp dt (grav_of S) acc (stage_of g b S ext dt smallp M acc D) x).
  clearbody w.
  split.
  - pose proof (VV Mass ltac:(intros _; discriminate)) as VM. cbn [cv] in VM. rewrite VM. apply Qcdiv_lt_0; [|reflexivity].
    apply Qclt_le_trans with (u_rho (D x)); [exact P1|]. rewrite <- (Qcplus_0_r (u_rho (D x))) at 1. apply Qcplus_le_compat; [apply Qcle_refl|apply Qclt_le_weak, W1].
  - apply (internal_mean (seen g (D x)) w); [unfold seen; destruct (g3d g); exact P1|exact W1|exact P2|exact W2|].
    intros v. destruct (g3d g) eqn:E3.
    + unfold seen. rewrite E3. apply VV. intros K; congruence.
    + rewrite <- SW. unfold seen. rewrite E3. pose proof (fun v H => VV v (fun _ => H)) as V'.
      destruct v as [| |[]]; cbn [cv mom u_rho u_e u_x u_y u_z];
        [apply (V' Mass)|apply (V' Energy)|apply (V' (Mom AX))|apply (V' (Mom AY))|apply Qc_is_canon; reflexivity]; discriminate.
Qed.

(** * Examples *)

(** The states of the cells decide the stages. *)
Lemma unrepaired_local g n M b S ext dt acc D D' x : usual g n M b S ext -> 
  (forall y, In y (all_cells b (leaves M)) -> seen g (D y) = seen g (D' y)) -> In x (all_cells b (leaves M)) ->
  unrepaired_of g b S ext dt M acc D x = unrepaired_of g b S ext dt M acc D' x.
Proof.
  intros (GS & RC & BO & PER & EV & EXT & WB) AG HX. pose proof (reachable_ok g n M GS RC) as OK.
  assert (DEC : forall y z : oct, {y = z} + {y <> z}) by (decide equality; apply Z.eq_dec).
  set (D2 := fun y => if in_dec DEC y (all_cells b (leaves M)) then D' y else D y).
  assert (A1 : forall y, seen g (D y) = seen g (D2 y)) by (intros y; unfold D2; destruct (in_dec DEC y _) as [HY|HY]; [apply AG, HY|reflexivity]).
  unfold unrepaired_of. rewrite (unrepaired_seen g b ext (all_cells b (leaves M)) (flux_of S) (s_gamma S) (s_smallr S) D D2 A1).
  set (gf := fun (r i : nat) (k : Z) => match acc with
    | Some G => match nth_error M r with Some R => match nth_error (loc R) i with Some A => Some (G (cell_of b A (decode b k))) | None => None end | None => None end
    | None => None end).
  assert (GF : holds_acceleration b M acc gf).
  { intros r R i A q HR HA Hq. unfold gf. destruct acc as [G|]; [|reflexivity]. rewrite HR, HA. rewrite decode_at by (apply Hq || (specialize (Hq AZ); lia)). reflexivity. }
  assert (FA : field_arrays b M D2 = field_arrays b M D').
  { unfold field_arrays. apply map_ext_in. intros R HR. apply map_ext_in. intros y HY. unfold D2. destruct (in_dec DEC y _) as [_|N]; [reflexivity|]. exfalso. apply N.
    unfold all_cells in HY |- *. apply in_flat_map in HY. destruct HY as (A & HA & HY). apply in_flat_map. exists A. split; [|exact HY].
    apply in_app_or in HA. destruct HA as [HA|HA]; [apply (loc_leaf M R A HR HA)|]. destruct (ok_ghosts g M OK R HR) as (_ & G2). apply G2, HA. }
  apply cells_in in HX. destruct HX as (A & q & HA & Hq & ->).
  apply in_concat in HA. destruct HA as (L & HL & HA). apply in_map_iff in HL. destruct HL as (R & <- & HR).
  apply In_nth_error in HR. destruct HR as (r & HR). apply In_nth_error in HA. destruct HA as (i & HA).
  destruct (cell_value g n M b S ext dt gf acc GS RC BO PER EV EXT WB GF D2 r R i A q cons0 HR HA Hq) as (o & E & SO).
  destruct (cell_value g n M b S ext dt gf acc GS RC BO PER EV EXT WB GF D' r R i A q cons0 HR HA Hq) as (o' & E' & SO').
  rewrite FA, E' in E. injection E as ->. unfold flux_of, grav_of. rewrite <- SO, <- SO'. reflexivity.
Qed.
Lemma unrepaired_uniform g n M b S ext dt u x : usual g n M b S ext -> in_step (s_gi S) = false -> In x (all_cells b (leaves M)) ->
  unrepaired_of g b S ext dt M None (fun _ => u) x = seen g u.
Proof.
  intros (GS & RC & BO & PER & EV & EXT & WB) NG HX.
  assert (GF : holds_acceleration b M None (fun _ _ _ => None)) by (intros r R i A q _ _ _; reflexivity).
  apply cells_in in HX. destruct HX as (A & q & HA & Hq & ->).
  apply in_concat in HA. destruct HA as (L & HL & HA). apply in_map_iff in HL. destruct HL as (R & <- & HR).
  apply In_nth_error in HR. destruct HR as (r & HR). apply In_nth_error in HA. destruct HA as (i & HA).
  destruct (cell_value g n M b S ext dt (fun _ _ _ => None) None GS RC BO PER EV EXT WB GF (fun _ => u) r R i A q cons0 HR HA Hq) as (o & E & SO).
  destruct (C67_uniform g n M b S ext dt u _ r R i A q cons0 GS RC BO PER EV EXT (field_of_holds g b M (fun _ => u) BO) WB NG HR HA Hq) as (o' & E' & V).
  rewrite E in E'. injection E' as <-. unfold unrepaired_of, flux_of, grav_of. rewrite <- SO. apply seen_cv, V.
Qed.

(** The mesh of C39_example: two ranks, two levels. *)
Example rk_usual : usual cs_g 2 cs_M cs_b (cs_S cs_no_gravity) cs_ext.
Proof. repeat split; try exact cs_reach; try exact cs_block; try exact cs_periodic; try exact cs_even; try (intros a; reflexivity); try apply cs_setup; try (apply cs_block); try apply cs_even; assumption. Qed.
Example rk_usual_one : usual cs_g 1 one_M cs_b (cs_S cs_no_gravity) cs_ext.
Proof. repeat split; try exact one_reach; try exact cs_block; try exact cs_periodic; try exact cs_even; try (intros a; reflexivity); try apply one_setup; try (apply cs_block); try apply cs_even; assumption. Qed.
Example rk_no_field M : holds_acceleration cs_b M None (fun _ _ _ => None).
Proof. intros r R i A q _ _ _. reflexivity. Qed.
(** A flow that is not uniform, over two levels and two ranks. *)
Example C85_scheme_example dt smallp old1 old2 : exists D',
  rk2 false (ctx cs_g cs_b (cs_S cs_no_gravity)) cs_ext dt smallp cs_b cs_M (fun _ _ _ => None) old1 old2 (field_arrays cs_b cs_M cs_D) = Some (owned_values cs_b cs_M D') /\
  forall x v, In x (all_cells cs_b (leaves cs_M)) -> has_var cs_g v -> cv v (D' x) = heun_of cs_g cs_b (cs_S cs_no_gravity) cs_ext dt smallp cs_M None cs_D x v.
Proof. exact (C85_scheme_partial cs_g 2 cs_M cs_b (cs_S cs_no_gravity) cs_ext dt smallp (fun _ _ _ => None) None old1 old2 cs_D rk_usual (rk_no_field cs_M)). Qed.
(** On two ranks and on one. *)
Example C85_partition_example dt smallp old1 old2 : exists D1 D2,
  rk2 false (ctx cs_g cs_b (cs_S cs_no_gravity)) cs_ext dt smallp cs_b cs_M (fun _ _ _ => None) old1 old2 (field_arrays cs_b cs_M cs_D) = Some (owned_values cs_b cs_M D1) /\
  rk2 false (ctx cs_g cs_b (cs_S cs_no_gravity)) cs_ext dt smallp cs_b one_M (fun _ _ _ => None) old2 old1 (field_arrays cs_b one_M cs_D) = Some (owned_values cs_b one_M D2) /\
  forall x v, In x (all_cells cs_b (leaves cs_M)) -> has_var cs_g v -> cv v (D1 x) = cv v (D2 x).
Proof.
  exact (C85_partition_partial cs_g 2 1 cs_M one_M cs_b (cs_S cs_no_gravity) (cs_S cs_no_gravity) cs_ext dt smallp (fun _ _ _ => None) (fun _ _ _ => None) None old1 old2 old2 old1 cs_D
    rk_usual rk_usual_one (conj eq_refl (conj eq_refl (conj eq_refl eq_refl))) (proj1 C68_example) (rk_no_field cs_M) (rk_no_field one_M)).
Qed.
(** A uniform flow along x needs no repair. *)
Definition rk_u : cons := mkCons 1 (frac 5 2) 1 0 0.
Example rk_u_sound : sound (frac 5 3) (seen cs_g rk_u). Proof. split; vm_compute; discriminate. Qed.
Example C85_conservation_example dt smallp :
  (forall x, In x (all_cells cs_b (leaves cs_M)) -> sound (frac 5 3) (unrepaired_of cs_g cs_b (cs_S cs_no_gravity) cs_ext dt cs_M None (fun _ => rk_u) x)) /\
  (forall x, In x (all_cells cs_b (leaves cs_M)) -> sound (frac 5 3) (unrepaired_of cs_g cs_b (cs_S cs_no_gravity) cs_ext dt cs_M None
     (stage_of cs_g cs_b (cs_S cs_no_gravity) cs_ext dt smallp cs_M None (fun _ => rk_u)) x)).
Proof.
  assert (ST : forall x, In x (all_cells cs_b (leaves cs_M)) -> stage_of cs_g cs_b (cs_S cs_no_gravity) cs_ext dt smallp cs_M None (fun _ => rk_u) x = seen cs_g rk_u).
  { intros x HX. unfold stage_of, stage. fold (unrepaired_of cs_g cs_b (cs_S cs_no_gravity) cs_ext dt cs_M None (fun _ => rk_u) x).
    rewrite (unrepaired_uniform cs_g 2 cs_M cs_b (cs_S cs_no_gravity) cs_ext dt rk_u x rk_usual eq_refl HX). apply repaired_sound, rk_u_sound. }
  split; intros x HX.
  - rewrite (unrepaired_uniform cs_g 2 cs_M cs_b (cs_S cs_no_gravity) cs_ext dt rk_u x rk_usual eq_refl HX). apply rk_u_sound.
  - rewrite (unrepaired_local cs_g 2 cs_M cs_b (cs_S cs_no_gravity) cs_ext dt None _ (fun _ => rk_u) x rk_usual); [|intros y HY; rewrite (ST y HY); apply seen_seen|exact HX].
    rewrite (unrepaired_uniform cs_g 2 cs_M cs_b (cs_S cs_no_gravity) cs_ext dt rk_u x rk_usual eq_refl HX). apply rk_u_sound.
Qed.
Example C85_uniform_example dt smallp old1 old2 : exists D',
  rk2 false (ctx cs_g cs_b (cs_S cs_no_gravity)) cs_ext dt smallp cs_b cs_M (fun _ _ _ => None) old1 old2 (field_arrays cs_b cs_M (fun _ => rk_u)) = Some (owned_values cs_b cs_M D') /\
  forall x v, In x (all_cells cs_b (leaves cs_M)) -> has_var cs_g v -> cv v (D' x) = cv v rk_u.
Proof. exact (C85_uniform_partial cs_g 2 cs_M cs_b (cs_S cs_no_gravity) cs_ext dt smallp (fun _ _ _ => None) old1 old2 rk_u rk_usual (rk_no_field cs_M) eq_refl rk_u_sound). Qed.

Example C85_positive_example dt smallp x : In x (all_cells cs_b (leaves cs_M)) ->
  u_rho (stage_of cs_g cs_b (cs_S cs_no_gravity) cs_ext dt smallp cs_M None (stage_of cs_g cs_b (cs_S cs_no_gravity) cs_ext dt smallp cs_M None (fun _ => rk_u)) x) = 1%Qc /\
  (0 < u_rho rk_u /\ 0 <= internal (seen cs_g rk_u))%Qc.
Proof.
  intros HX. split; [|split; vm_compute; [reflexivity|discriminate]].
  assert (ST : forall x, In x (all_cells cs_b (leaves cs_M)) -> stage_of cs_g cs_b (cs_S cs_no_gravity) cs_ext dt smallp cs_M None (fun _ => rk_u) x = seen cs_g rk_u).
  { intros y HY. unfold stage_of, stage. fold (unrepaired_of cs_g cs_b (cs_S cs_no_gravity) cs_ext dt cs_M None (fun _ => rk_u) y).
    rewrite (unrepaired_uniform cs_g 2 cs_M cs_b (cs_S cs_no_gravity) cs_ext dt rk_u y rk_usual eq_refl HY). apply repaired_sound, rk_u_sound. }
  unfold stage_of at 1, stage. fold (unrepaired_of cs_g cs_b (cs_S cs_no_gravity) cs_ext dt cs_M None (stage_of cs_g cs_b (cs_S cs_no_gravity) cs_ext dt smallp cs_M None (fun _ => rk_u)) x).
  rewrite (unrepaired_local cs_g 2 cs_M cs_b (cs_S cs_no_gravity) cs_ext dt None _ (fun _ => rk_u) x rk_usual); [|intros y HY; rewrite (ST y HY); apply seen_seen|exact HX].
  rewrite (unrepaired_uniform cs_g 2 cs_M cs_b (cs_S cs_no_gravity) cs_ext dt rk_u x rk_usual eq_refl HX).
  change (s_gamma (cs_S cs_no_gravity)) with (frac 5 3). rewrite (repaired_sound _ _ _ _ rk_u_sound). reflexivity.
Qed.

Print Assumptions C85_scheme_partial.
Print Assumptions C85_conservation_partial.
Print Assumptions C85_uniform_partial.
Print Assumptions C85_partition_partial.
Print Assumptions C85_positive_partial.
