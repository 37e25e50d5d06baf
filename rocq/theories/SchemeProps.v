(** The hydrodynamic step is the finite-volume scheme of SchemeSpec (C69). *)
From Coq Require Import QArith Qcanon Permutation.
From Verif Require Import Base OctreeSpec OctreeGeom OctreeModel FindNeighbors MeshSpec HistorySpec
  LookupModel CellModel CellSpec CellProofs CellProps RemapModel RemapSpec RemapProofs RemapProps HydroModel HydroSpec HydroProps
  ConserveSpec BlockGhost ConserveFaces ConserveProofs OctreeProps HistoryProofs LookupProps SchemeSpec ConserveProps.
Open Scope Z_scope.

(** * Slopes *)
Lemma cmp_gt (x y : Qc) : (x ?= y)%Qc = Gt <-> (y < x)%Qc.
Proof. split; intro H; [apply Qcgt_alt in H; exact H|apply Qcgt_alt; exact H]. Qed.
Lemma cmp_lt (x y : Qc) : (x ?= y)%Qc = Lt <-> (x < y)%Qc.
Proof. split; intro H; [apply Qclt_alt in H; exact H|apply Qclt_alt; exact H]. Qed.
Lemma cmp_eq (x y : Qc) : (x ?= y)%Qc = Eq <-> x = y.
Proof. split; intro H; [apply Qceq_alt in H; exact H|apply Qceq_alt; exact H]. Qed.
Lemma Qclt_sub (x y : Qc) : (x < y)%Qc <-> (0 < y - x)%Qc.
Proof. unfold Qclt. cbn [Qcminus Qcplus Qcopp Q2Qc this]. rewrite !Qred_correct. split; intro H; [apply -> Qlt_minus_iff in H|apply <- Qlt_minus_iff]; exact H. Qed.
Lemma opp_pos (x : Qc) : (x < 0)%Qc <-> (0 < - x)%Qc.
Proof. split; intro H; [apply Qclt_sub in H|apply Qclt_sub]; [replace (- x)%Qc with (0 - x)%Qc by ring; exact H|replace (0 - x)%Qc with (- x)%Qc by ring; exact H]. Qed.

Lemma minmod_limit m p : minmod m p = limit p m.
Proof.
  unfold minmod, limit.
  assert (PP : (0 < p -> 0 < m -> leb (p * m) 0 = false)%Qc) by (intros H1 H2; apply leb_false, Qcmult_lt_0; assumption).
  assert (NN : (p < 0 -> m < 0 -> leb (p * m) 0 = false)%Qc).
  { intros H1 H2. apply leb_false. replace (p * m)%Qc with (- p * - m)%Qc by ring. apply Qcmult_lt_0; apply opp_pos; assumption. }
  assert (ZP : forall x y : Qc, (x <= 0 -> 0 <= y -> x * y <= 0)%Qc).
  { intros x y H1 H2. replace 0%Qc with (0 * y)%Qc by ring. apply Qcmult_le_compat_r; assumption. }
  assert (FP : forall x : Qc, (0 < x)%Qc -> fabs x = x).
  { intros x H. unfold fabs. replace (ltb x 0) with false; [reflexivity|]. symmetry. apply ltb_false, Qclt_le_weak, H. }
  assert (FN : forall x : Qc, (x < 0)%Qc -> fabs x = (- x)%Qc).
  { intros x H. unfold fabs. replace (ltb x 0) with true; [reflexivity|]. symmetry. apply ltb_spec, H. }
  destruct (m ?= 0)%Qc eqn:E1; destruct (p ?= 0)%Qc eqn:E2; rewrite ?cmp_gt, ?cmp_lt, ?cmp_eq in *;
    try (replace (leb (p * m) 0) with true; [reflexivity|symmetry; apply leb_spec]);
    try (subst m; rewrite Qcmult_0_r; apply Qcle_refl); try (subst p; rewrite Qcmult_0_l; apply Qcle_refl).
  - rewrite NN, !FN by assumption. unfold ltb. destruct (m ?= p)%Qc eqn:E.
    + apply cmp_eq in E. subst. destruct (_ ?= _)%Qc; reflexivity.
    + apply cmp_lt in E. destruct (- m ?= - p)%Qc eqn:E'; try reflexivity. exfalso. apply cmp_lt in E'. apply Qclt_sub in E'. replace (- p - - m)%Qc with (m - p)%Qc in E' by ring. apply Qclt_sub in E'. exact (Qclt_not_le _ _ E (Qclt_le_weak _ _ E')).
    + apply cmp_gt in E. replace (- m ?= - p)%Qc with Lt; [reflexivity|]. symmetry. apply cmp_lt. apply Qclt_sub. replace (- p - - m)%Qc with (m - p)%Qc by ring. apply -> Qclt_sub. exact E.
  - rewrite Qcmult_comm. apply ZP; apply Qclt_le_weak; assumption.
  - apply ZP; apply Qclt_le_weak; assumption.
  - rewrite PP, !FP by assumption. unfold ltb. destruct (m ?= p)%Qc; reflexivity.
Qed.
Lemma minmod_scale h x y : (0 < h)%Qc -> minmod (x / h) (y / h) = (minmod x y / h)%Qc.
Proof.
  intros H. assert (HN := Qc_pos_nz h H). assert (IH := Qcinv_lt_0 h H).
  assert (K : forall a c, ((a / h ?= c / h) = (a ?= c))%Qc).
  { intros a c. assert (L : forall a c, (a < c)%Qc -> (a / h < c / h)%Qc) by (intros; unfold Qcdiv; apply Qcmult_lt_compat_r; assumption).
    destruct (a ?= c)%Qc eqn:E; [apply cmp_eq in E; subst; apply cmp_eq; reflexivity|apply cmp_lt in E; apply cmp_lt, L, E|apply cmp_gt in E; apply cmp_gt, L, E]. }
  assert (Z0 : (0 = 0 / h)%Qc) by (field; exact HN).
  assert (K0 : forall a, ((a / h ?= 0) = (a ?= 0))%Qc) by (intros a; rewrite <- (K a 0%Qc), <- Z0; reflexivity).
  unfold minmod. rewrite !K0, K.
  destruct (x ?= 0)%Qc; destruct (y ?= 0)%Qc; try exact Z0; destruct (x ?= y)%Qc; reflexivity.
Qed.
Lemma floor_max x r : match (x ?= r)%Qc with Lt => r | _ => x end = fmax x r.
Proof.
  unfold fmax, ltb. destruct (x ?= r)%Qc eqn:E; [apply cmp_eq in E; subst; destruct (_ ?= _)%Qc; reflexivity| |apply cmp_gt in E; apply cmp_lt in E; rewrite E; reflexivity].
  apply cmp_lt in E. destruct (r ?= x)%Qc eqn:E'; [reflexivity| |reflexivity]. apply cmp_lt in E'. exfalso. exact (Qclt_not_le _ _ E (Qclt_le_weak _ _ E')).
Qed.
(** Extrapolation over lengths and in units of [h]. *)
Lemma extrapolate_eq h r qm q qp d d' sign f : (0 < h)%Qc -> d <> 0%Qc -> d' <> 0%Qc ->
  extrapolate_gas r qm q qp (h * d) (h * d') (sign * (h * f)) = reconstruct q (compute_slope qm q qp d d') sign r f.
Proof.
  intros H H1 H2. assert (HN := Qc_pos_nz h H).
  assert (K : forall m x p : Qc, extrapolate m x p (h * d) (h * d') (sign * (h * f)) = (x + sign * f * limit ((p - x) / d') ((x - m) / d))%Qc).
  { intros m x p. unfold extrapolate. rewrite <- minmod_limit.
    replace ((x - m) / (h * d))%Qc with ((x - m) / d / h)%Qc by (field; auto). replace ((p - x) / (h * d'))%Qc with ((p - x) / d' / h)%Qc by (field; auto).
    rewrite (minmod_scale h _ _ H). field. exact HN. }
  unfold extrapolate_gas, reconstruct, compute_slope, pmap2, pmap. cbn [pv q_rho q_p q_x q_y q_z]. rewrite !K, floor_max. reflexivity.
Qed.

(** * The gas *)
Lemma gas_eq g gamma u : gas gamma (seen g u) = consToPrim (g3d g) gamma (getCons (g3d g) u).
Proof.
  assert (IN : forall e s r : Qc, ((gamma - 1) * (e - s / (two * r)) = (e - half_f * s / r) * (gamma - 1))%Qc).
  { intros e s r. rewrite half_two. destruct (Qc_eq_dec r 0) as [-> |N]; [|field; auto using two_nz].
    replace (two * 0)%Qc with 0%Qc by ring. unfold Qcdiv. replace (/ 0)%Qc with 0%Qc by (apply Qc_is_canon; reflexivity). ring. }
  unfold gas, seen, consToPrim, getCons, internal, sqnorm, mom. destruct (g3d g); cbn [u_rho u_e u_x u_y u_z]; rewrite IN; [reflexivity|].
  f_equal. unfold Qcdiv. rewrite Qcmult_0_l. reflexivity.
Qed.

(** * Equality of the scheme with the value computed *)
Section SP.
Context (g : geom) (WF : wf_geom g) (M : mesh) (OK : mesh_ok g M) (b : axis -> Z) (BO : block_ok g b)
        (D : oct -> cons) (riem : prim -> prim -> cons * Qc) (gamma smallr : Qc) (gi : ginfo) (WB : well_balanced gi = false)
        (ext : axis -> Qc) (EXT : forall a, (0 < ext a)%Qc).
Local Notation cells := (all_cells b (leaves M)).
Local Notation N := (ncells g b).
Local Notation Fs := (F g M b D riem gamma smallr gi).
Local Notation flux_of := (fun q q' => fst (riem q q')).
Definition sgn (up : bool) : Z := if up then 1 else -1.

Lemma beside_eq x e up : beside g b x e up = disp g b x e (sgn up).
Proof. unfold beside, disp, displaced, step, sgn. destruct e, up; reflexivity. Qed.
Lemma neighbour_eq x e up z : neighbour g b x e up z = relb g b e (sgn up) x z.
Proof. unfold neighbour, relb. rewrite !beside_eq. destruct up; reflexivity. Qed.
Lemma gas_at_eq x : gas_at g cells D gamma x = QR g M b D gamma x.
Proof. unfold gas_at, QR. apply gas_eq. Qed.
Lemma side_eq l a : cell_side g b ext l a = side_len g b ext l a. Proof. reflexivity. Qed.
Lemma area_eq l e : face_area g b ext l e = area g b ext e l. Proof. destruct e; reflexivity. Qed.
Lemma ext_nz a : ext a <> 0%Qc. Proof. apply Qc_pos_nz, EXT. Qed.
Lemma side_pos l a : lmin g <= l -> (0 < side_len g b ext l a)%Qc.
Proof.
  intros H. unfold side_len. apply Qcdiv_lt_0; [apply EXT|]. unfold zq. pose proof (N_pos g WF b BO l a H). unfold Qclt. cbn [Q2Qc this]. rewrite !Qred_correct. unfold Qlt. cbn. lia.
Qed.

Lemma flux_eq e lo hi : In lo cells -> In hi cells -> flat g e = false -> rel g b e 1 lo hi ->
  flux_between g b ext cells D flux_of gamma smallr e lo hi = Fs e lo hi.
Proof.
  intros HL HH FE RR. pose proof (cell_lev g M OK b lo HL) as LL. pose proof (cell_lev g M OK b hi HH) as LH.
  unfold flux_between, F. rewrite !side_eq, !gas_at_eq, !beside_eq. cbn [sgn].
  rewrite (QR_cell g M b D gamma lo HL), (QR_cell g M b D gamma hi HH).
  set (P := Pc g D gamma). set (QB := QR _ _ _ _ _ (disp g b lo e (-1))). set (QA := QR _ _ _ _ _ (disp g b hi e 1)).
  assert (KEY : forall h d1 d2 d4 f1 f2, (0 < h)%Qc -> d1 <> 0%Qc -> d2 <> 0%Qc -> d4 <> 0%Qc ->
    side_len g b ext (lev lo) e = (h * d1)%Qc -> ((side_len g b ext (lev lo) e + side_len g b ext (lev hi) e) / two = h * d2)%Qc -> side_len g b ext (lev hi) e = (h * d4)%Qc ->
    (side_len g b ext (lev lo) e / two = h * f1)%Qc -> (side_len g b ext (lev hi) e / two = h * f2)%Qc ->
    turn_flux e (fst (riem (turn_gas e (extrapolate_gas smallr QB (P lo) (P hi) (side_len g b ext (lev lo) e) ((side_len g b ext (lev lo) e + side_len g b ext (lev hi) e) / two) (side_len g b ext (lev lo) e / two)))
                            (turn_gas e (extrapolate_gas smallr (P lo) (P hi) QA ((side_len g b ext (lev lo) e + side_len g b ext (lev hi) e) / two) (side_len g b ext (lev hi) e) (- (side_len g b ext (lev hi) e / two)))))) =
    fst (compute_euler_flux riem smallr gi (P lo) (P hi) (compute_slope QB (P lo) (P hi) d1 d2) (compute_slope (P lo) (P hi) QA d2 d4) e f1 f2 0%Qc)).
  { intros h d1 d2 d4 f1 f2 HP N1 N2 N4 E1 E2 E4 E5 E6. rewrite E2, E5, E6. rewrite E1 at 1. rewrite E4.
    replace (h * f1)%Qc with (1 * (h * f1))%Qc by ring. replace (- (h * f2))%Qc with (- (1) * (h * f2))%Qc by ring. rewrite !extrapolate_eq by assumption.
    unfold compute_euler_flux. rewrite WB.
    assert (T : forall q, turn_gas e q = swapPrim q e) by (intros; destruct e; reflexivity). rewrite !T. destruct (riem _ _) as (fl, p). destruct e; reflexivity. }
  assert (LD : lev hi = lev lo - 1 \/ lev hi = lev lo \/ lev hi = lev lo + 1).
  { destruct RR as [E|[E|E]]; apply (f_equal lev) in E; rewrite ?parent_lev, ?disp_lev in E; lia. }
  assert (TN := two_nz).
  assert (F2 : (frac 1 2 = 1 / two)%Qc) by (apply Qc_is_canon; reflexivity). assert (F4 : (frac 1 4 = 1 / (two * two))%Qc) by (apply Qc_is_canon; reflexivity).
  assert (F34 : (frac 3 4 = (1 + two) / (two * two))%Qc) by (apply Qc_is_canon; reflexivity).
  assert (D2 : (1 + 1 = two)%Qc) by reflexivity.
  destruct LD as [LD|[LD|LD]].
  - (* hi is bigger *)
    assert (HS := side_len_half g WF b BO gi WB (fun _ _ => false) ext ext_nz (lev hi) e ltac:(lia)). rewrite FE in HS. replace (lev hi + 1) with (lev lo) in HS by lia.
    unfold pair_dists. replace (lev lo - lev hi =? 0) with false by lia. replace (lev lo - lev hi <? 0) with false by lia.
    apply (KEY (side_len g b ext (lev hi) e)); [apply side_pos; lia|apply nz12|apply nz34|apply nz1|rewrite HS, F2; field; exact TN|rewrite HS, F34; field; exact TN|ring|rewrite HS, F4; field; exact TN|rewrite F2; field; exact TN].
  - assert (HS : side_len g b ext (lev hi) e = side_len g b ext (lev lo) e) by (rewrite LD; reflexivity).
    unfold pair_dists. replace (lev lo - lev hi =? 0) with true by lia.
    apply (KEY (side_len g b ext (lev lo) e)); [apply side_pos; lia|apply nz1..|ring|rewrite HS; unfold two; field; exact TN|rewrite HS; ring|rewrite F2; field; exact TN|rewrite HS, F2; field; exact TN].
  - assert (HS := side_len_half g WF b BO gi WB (fun _ _ => false) ext ext_nz (lev lo) e ltac:(lia)). rewrite FE in HS. rewrite <- LD in HS.
    unfold pair_dists. replace (lev lo - lev hi =? 0) with false by lia. replace (lev lo - lev hi <? 0) with true by lia.
    apply (KEY (side_len g b ext (lev lo) e)); [apply side_pos; lia|apply nz1|apply nz34|apply nz12|ring|rewrite HS, F34; field; exact TN|rewrite HS, F2; field; exact TN|rewrite F2; field; exact TN|rewrite HS, F4; field; exact TN].
Qed.

Lemma mean_eq v x e up : In x cells -> flat g e = false ->
  mean_flux g b ext cells D flux_of gamma smallr v x e up = side_flux g M b D riem gamma smallr gi e v (sgn up) x.
Proof.
  intros HX FE. pose proof (cell_lev g M OK b x HX) as LX. unfold mean_flux, side_flux.
  assert (AN : area g b ext e (lev x) <> 0%Qc).
  { intros K. pose proof (side_pos (lev x) AX ltac:(lia)). pose proof (side_pos (lev x) AY ltac:(lia)). pose proof (side_pos (lev x) AZ ltac:(lia)).
    revert K. apply Qc_pos_nz. unfold area. destruct e; apply Qcmult_lt_0; assumption. }
  rewrite (filter_ext (neighbour g b x e up) (relb g b e (sgn up) x)) by (intros z; apply neighbour_eq).
  rewrite (csum_ext _ (fun z => (area g b ext e (lev x) * (weight g x z * cv v (if sgn up =? 1 then Fs e x z else Fs e z x)))%Qc)).
  - rewrite csum_scale, area_eq. field. exact AN.
  - intros z HZ. apply filter_In in HZ. destruct HZ as (HZ & RB). apply relb_spec in RB.
    rewrite area_eq, <- (weight_area g WF M OK b BO gi WB (fun _ _ => false) ext ext_nz e x z HX HZ FE) by (destruct up; [left|right]; exact RB).
    rewrite <- Qcmult_assoc. f_equal. f_equal. f_equal. destruct up; cbn [sgn] in *.
    + change (1 =? 1) with true. apply flux_eq; assumption.
    + change (-1 =? 1) with false. apply flux_eq; try assumption. apply (rel_sym g WF b BO) in RB; [exact RB|apply (cells_inside g M OK b BO); assumption..].
Qed.

Lemma change_eq dt v x A : In x cells -> In A (leaves M) -> lev A = lev x -> stored_var g v ->
  change g M b D riem gamma smallr gi ext dt v x A =
  (net_flux g b ext cells D flux_of gamma smallr dt v x +
   if in_step gi then gravity_source g b ext cells D flux_of gamma smallr dt (gg gi) v x else 0)%Qc.
Proof.
  intros HX HA LA SV. unfold change, net_flux. change (axes_of g) with (axes g).
  rewrite csum_plus. f_equal.
  - apply csum_ext. intros e He. apply axes_flat in He. rewrite (cell_size_eq g WF M OK b BO gi WB (fun _ _ => false) ext ext_nz A e HA He), LA. change (cell_side g b ext (lev x) e) with (side_len g b ext (lev x) e).
    rewrite !mean_eq by assumption. cbn [sgn]. ring.
  - unfold source, gravity_source. destruct (in_step gi); [|apply csum_zero]. destruct v as [| |a].
    + apply csum_zero.
    + change (axes_of g) with (axes g). apply csum_ext. intros e He. apply axes_flat in He. rewrite !mean_eq by assumption. cbn [sgn]. rewrite half_two. unfold Qcdiv. ring.
    + assert (RHO : q_rho (Pc g D gamma x) = u_rho (D x)) by reflexivity. rewrite RHO.
      unfold axes. destruct (g3d g) eqn:E3; destruct a; cbn [map csum fold_right axis_eqb]; try ring. exfalso. apply (SV E3). reflexivity.
Qed.
End SP.

(** * C69 *)
Theorem C69_scheme_partial g n M b S ext dt D U r R i A q old :
  good_setup g n -> reachable g n M -> block_ok g b -> periodic g -> even_blocks g b -> (forall a, 0 < ext a)%Qc -> holds_field b M D U ->
  well_balanced (s_gi S) = false -> nth_error M r = Some R -> nth_error (loc R) i = Some A -> in_block b q ->
  let x := cell_of b A q in
  let cells := all_cells b (leaves M) in
  let riem a c := fst (s_riem S a c) in
  exists o, update_cell (ctx g b S R) ext dt (U r) None old (mkCell i q b LOCAL_TO_BLOCK) = Some o /\
    forall v, has_var g v ->
      cv v o = (cv v (D x) + (net_flux g b ext cells D riem (s_gamma S) (s_smallr S) dt v x +
                if in_step (s_gi S) then gravity_source g b ext cells D riem (s_gamma S) (s_smallr S) dt (gg (s_gi S)) v x else 0))%Qc.
Proof.
  intros GS RC BO PER EV EXT HF WB HR HA Hq x cells rm. pose proof (reachable_ok g n M GS RC) as OK.
  destruct (update_value g (proj1 GS) M OK b BO PER EV D U HF (s_riem S) (s_gamma S) (s_smallr S) (s_gi S) WB (s_bval S) (s_user S) (s_ovr S) (s_junk S) r R i A q ext dt None old HR HA Hq) as (o & E & V).
  exists o. split; [exact E|]. intros v HV. rewrite (V v HV). unfold corrected. rewrite cv_base. f_equal.
  assert (HRM : In R M) by (eapply nth_error_In, HR).
  apply (change_eq g (proj1 GS) M OK b BO); try assumption; [apply (own_in M b R HRM i A HA q Hq)|apply (loc_leaf M R A HRM); eapply nth_error_In, HA|reflexivity].
Qed.

(** Example: the hypotheses are those of C39_example. *)
Example C69_example v : has_var cs_g v -> exists o,
  update_cell (ctx cs_g cs_b (cs_S cs_no_gravity) (hd (mkRank [] [] [] 0 0) cs_M)) cs_ext (frac 1 10) (cs_U 0) None cons0 (mkCell 3 (mkoff 3 0 0) cs_b LOCAL_TO_BLOCK) = Some o /\
  cv v o = (cv v (cs_D (cell_of cs_b (mkOct 2 1 1 0) (mkoff 3 0 0))) +
    (net_flux cs_g cs_b cs_ext (all_cells cs_b (leaves cs_M)) cs_D (fun a c => fst (riemann_hllc (fun x => x) cs_P a c)) (frac 5 3) (frac 1 100) (frac 1 10) v (cell_of cs_b (mkOct 2 1 1 0) (mkoff 3 0 0)) + 0))%Qc.
Proof.
  intros HV. destruct (C69_scheme_partial cs_g 2 cs_M cs_b (cs_S cs_no_gravity) cs_ext (frac 1 10) cs_D cs_U 0 (hd (mkRank [] [] [] 0 0) cs_M) 3 (mkOct 2 1 1 0) (mkoff 3 0 0) cons0) as (o & E & V);
    [exact cs_setup|exact cs_reach|exact cs_block|exact cs_periodic|exact cs_even|intros a; reflexivity|apply arrays_hold|reflexivity|vm_compute; reflexivity|vm_compute; reflexivity|intros []; vm_compute; split; congruence|].
  exists o. split; [exact E|]. exact (V v HV).
Qed.
Print Assumptions C69_scheme_partial.
