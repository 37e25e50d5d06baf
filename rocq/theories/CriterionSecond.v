(** Proofs for the criterion on second derivatives. *)
From Coq Require Import QArith Qcanon Lqa.
From Verif Require Import Base OctreeSpec OctreeGeom OctreeModel FindNeighbors MeshSpec GhostExchange HistorySpec HistoryProofs
  LookupModel CellModel CellSpec CellProofs CellProps RemapModel RemapSpec RemapProofs RemapProps RefineModel RefineProps HydroModel HydroSpec HydroProps ConserveSpec SchemeSpec BlockGhost ConserveFaces ConserveProofs
  ConserveProps SchemeProps ParticleModel ParticleProofs CloudProofs GravitySpec GravityModel GravityLoop RKProofs ParabolicProofs HancockProofs CriterionModel CriterionSpec CriterionProofs.
Open Scope Z_scope.

Lemma frac2 : frac 2 1 = Q2Qc 2. Proof. apply Qc_is_canon. reflexivity. Qed.
Lemma frac100 : frac 1 100 = Q2Qc (1 # 100). Proof. reflexivity. Qed.
Lemma curvature_bend eps ql qc qr : curvature eps ql qc qr = bend eps ql qc qr.
Proof.
  unfold curvature, bend. cbv zeta. rewrite !absolute_fabs, frac2, frac100. replace (qr - qc + (ql - qc))%Qc with (ql + qr - Q2Qc 2 * qc)%Qc; [reflexivity|].
  replace (Q2Qc 2) with (1 + 1)%Qc by (apply Qc_is_canon; reflexivity). ring.
Qed.
Lemma bend_pos eps ql qc qr : (0 <= eps -> 0 <= bend eps ql qc qr)%Qc.
Proof.
  intros HE. unfold bend. set (d := (_ + eps)%Qc). assert (DP : (0 <= d)%Qc).
  { unfold d. pose proof (absolute_pos (qr - qc)). pose proof (absolute_pos (ql - qc)). pose proof (absolute_pos qr). pose proof (absolute_pos ql). pose proof (absolute_pos qc).
    generalize dependent (absolute (qr - qc)). generalize dependent (absolute (ql - qc)). generalize dependent (absolute qr). generalize dependent (absolute ql). generalize dependent (absolute qc).
    intros a1 H1 a2 H2 a3 H3 a4 H4 a5 H5.
    assert (P2 : (0 <= Q2Qc 2 * a1)%Qc) by (apply (Qcmult_le_compat_r 0 a1 (Q2Qc 2)) in H1; [|discriminate]; replace (0 * Q2Qc 2)%Qc with 0%Qc in H1 by ring; rewrite Qcmult_comm; exact H1).
    assert (P3 : (0 <= a3 + a2 + Q2Qc 2 * a1)%Qc) by qlin.
    assert (P4 : (0 <= Q2Qc (1 # 100) * (a3 + a2 + Q2Qc 2 * a1))%Qc) by (apply (Qcmult_le_compat_r 0 _ (Q2Qc (1 # 100))) in P3; [|discriminate]; replace (0 * Q2Qc (1 # 100))%Qc with 0%Qc in P3 by ring; rewrite Qcmult_comm; exact P3).
    qlin. }
  destruct (Qc_eq_dec d 0) as [-> | NZ]; [unfold Qcdiv; replace (/ 0)%Qc with 0%Qc by (apply Qc_is_canon; reflexivity); rewrite Qcmult_0_r; apply Qcle_refl|].
  assert (0 < d)%Qc by (apply Qcle_lt_or_eq in DP; destruct DP as [?|K]; [assumption|congruence]).
  unfold Qcdiv. apply Qcle_trans with (0 * / d)%Qc; [replace (0 * / d)%Qc with 0%Qc by ring; apply Qcle_refl|]. apply Qcmult_le_compat_r; [apply absolute_pos|]. apply Qclt_le_weak.
  replace (/ d)%Qc with (1 / d)%Qc by (unfold Qcdiv; ring). apply Qcdiv_lt_0; [reflexivity|assumption].
Qed.
Lemma floored_rho_eq r u : floored_rho r u = density_of r u.
Proof. unfold floored_rho, density_of. apply larger_fmax. Qed.
Lemma floored_p_eq gamma r p u : (0 < r)%Qc -> floored_p gamma r p u = pressure_of gamma r p u.
Proof.
  intros RP. unfold floored_p, pressure_of. cbv zeta. rewrite floored_rho_eq. set (d := density_of r u).
  assert (NZ : d <> 0%Qc) by (apply Qc_pos_nz; apply (Qclt_le_trans _ _ _ RP); unfold d, density_of; apply larger_r).
  rewrite larger_fmax. f_equal. unfold half_f. replace (Q2Qc 2) with (1 + 1)%Qc by (apply Qc_is_canon; reflexivity).
  try (replace (frac 1 2) with (1 / (1 + 1))%Qc by (apply Qc_is_canon; reflexivity)). field. split; [exact NZ|discriminate].
Qed.

Section Second.
Context (g : geom) (WF : wf_geom g) (M : mesh) (OK : mesh_ok g M) (b : axis -> Z) (BO : block_ok g b) (PER : periodic g) (EV : even_blocks g b)
        (D : oct -> cons) (S : scheme) (U : nat -> field) (HF : holds_field b M D U) (smallp eps : Qc) (HE : (0 <= eps)%Qc) (HS : (0 < s_smallr S)%Qc)
        (r : nat) (R : rank) (HR : nth_error M r = Some R) (i : nat) (A : oct) (HA : nth_error (loc R) i = Some A) (c : axis -> Z) (IB : in_block b c).
Local Notation cells := (all_cells b (leaves M)).
Local Notation x := (cell_of b A c).
Local Notation h := (ctx g b S R).
Local Notation state := (fun y => seen g (resample g cells D y)).

Lemma wide_b : widened b (wide g b) (wd g). Proof. intros a. unfold wide, wd. destruct (flat g a); lia. Qed.
Lemma one_bb a : 1 <= b a <= 2^14. Proof. apply (BO a). Qed.
Lemma value_at var p d : within (wd g) d -> (forall a, p a = c a + wd g a + d a) -> value_of h (U r) var (mkCell i p (wide g b) LOCAL_TO_BLOCK) = Some (var (state (displaced g b x d))).
Proof.
  intros W HP. unfold value_of. cbn [h_g h_st h_b h_bval ctx].
  assert (IP : in_block (wide g b) p).
  { intros a. rewrite HP. destruct (wide_b a) as (-> & K). specialize (W a). pose proof (IB a). lia. }
  rewrite (ghost_layer g WF M OK b BO PER EV D U HF r R i A p (s_bval S) HR HA IP). cbn [option_map]. do 2 f_equal.
  assert (displaced g b (cell_of b A (fun _ => 0)) (fun a => p a - wd g a) = displaced g b x d) as ->.
  { apply oct_ext; [reflexivity|]. intros a. unfold displaced. rewrite !coord_oct_of. unfold cell_of. rewrite !coord_oct_of. cbn [oct_of lev]. f_equal. unfold gpos. rewrite HP. lia. }
  unfold seen, getCons. cbn [u_rho u_e u_x u_y u_z]. destruct (g3d g); [destruct (resample _ _ _ _); reflexivity|reflexivity].
Qed.
Lemma at_place : displaced g b x (fun _ => 0) = x.
Proof.
  apply oct_ext; [reflexivity|]. intros a. unfold displaced. rewrite coord_oct_of, Z.add_0_r. apply Z.mod_small.
  pose proof (x_cell M b r R HR i A HA c IB) as HX. apply (cells_inside g M OK b BO x HX).
Qed.
Lemma next_place e up : displaced g b x (step e (sgn up)) = beside g b x e up.
Proof. rewrite (SchemeProps.beside_eq g b x e up). reflexivity. Qed.
Lemma within_step e k : flat g e = false -> Z.abs k <= 1 -> within (wd g) (step e k).
Proof. intros FE HK a. unfold wd. destruct (axis_case a e) as [-> | NE]; [rewrite step_on, FE; lia|]. rewrite step_off by exact NE. destruct (flat g a); lia. Qed.

Lemma error_value var p e : flat g e = false -> (forall a, p a = c a + wd g a) ->
  second_error h (U r) eps (mkCell i p (wide g b) LOCAL_TO_BLOCK) var e = Some (bend eps (var (state (beside g b x e false))) (var (state x)) (var (state (beside g b x e true)))).
Proof.
  intros FE HP. unfold second_error.
  assert (H0 : forall a, p a = c a + wd g a + 0) by (intros a; rewrite HP; lia).
  assert (W0 : within (wd g) (fun _ => 0)) by (intros a; unfold wd; destruct (flat g a); cbn; lia).
  destruct (move_any b one_bb i c IB _ _ p (fun _ => 0) (step e (-1)) wide_b (within_step e (-1) FE ltac:(lia)) H0) as (pl & EL & HL). rewrite EL.
  destruct (move_any b one_bb i c IB _ _ p (fun _ => 0) (step e 1) wide_b (within_step e 1 FE ltac:(lia)) H0) as (pr & ER & HRR). rewrite ER.
  rewrite (value_at var pl (step e (-1)) (within_step e (-1) FE ltac:(lia)) HL), (value_at var p (fun _ => 0) W0 H0), (value_at var pr (step e 1) (within_step e 1 FE ltac:(lia)) HRR).
  rewrite curvature_bend, at_place. rewrite <- !next_place. reflexivity.
Qed.
Definition bends (var : cons -> Qc) (e : axis) : Qc := bend eps (var (state (beside g b x e false))) (var (state x)) (var (state (beside g b x e true))).
Lemma bends_pos var e : (0 <= bends var e)%Qc.
Proof. unfold bends. apply bend_pos. exact HE. Qed.
Lemma single v : (0 <= v)%Qc -> is_largest (fun w => w = v) v.
Proof. apply is_largest_one. Qed.

Lemma second_value low high : exists ib, convert_index (wide g b) (mkCell i c b LOCAL_TO_BLOCK) = Some ib /\ c_oct ib = i /\
  second_marker h smallp (U r) eps low high ib = Some (decide low high (bending g b cells D (s_gamma S) (s_smallr S) smallp eps x)).
Proof.
  assert (H0 : forall a, c a = c a + 0 + 0) by (intros a; lia).
  destruct (convert_any b one_bb i c IB b (fun _ => 0) (wide g b) (wd g) c (fun _ => 0)) as (p & E & HP).
  { intros a. lia. } { exact wide_b. } { exists AX. unfold wd. cbn [flat]. lia. } { intros a. unfold wd. destruct (flat g a); cbn; lia. } { intros a. cbn. lia. } { exact H0. }
  assert (HP' : forall a, p a = c a + wd g a) by (intros a; rewrite HP; lia).
  exists (mkCell i p (wide g b) LOCAL_TO_BLOCK). split; [exact E|]. split; [reflexivity|]. unfold second_marker. cbn [h_g h_smallr h_gamma ctx].
  assert (VAR : forall var, exists m,
     (do fx <- second_error h (U r) eps (mkCell i p (wide g b) LOCAL_TO_BLOCK) var AX ;
      do fy <- second_error h (U r) eps (mkCell i p (wide g b) LOCAL_TO_BLOCK) var AY ;
      do fz <- (if g3d g then second_error h (U r) eps (mkCell i p (wide g b) LOCAL_TO_BLOCK) var AZ else Some 0%Qc) ;
      Some (fmax fx (fmax fy fz))) = Some m /\ is_largest (fun v => In v (map (bends var) (axes_of g))) m).
  { intros var. rewrite (error_value var p AX eq_refl HP'), (error_value var p AY eq_refl HP').
    assert (BX : is_largest (fun w => w = bends var AX) (bends var AX)) by exact (single _ (bends_pos var AX)).
    assert (BY : is_largest (fun w => w = bends var AY) (bends var AY)) by exact (single _ (bends_pos var AY)).
    assert (BZ : is_largest (fun w => w = bends var AZ) (bends var AZ)) by exact (single _ (bends_pos var AZ)).
    fold (bends var AX) (bends var AY). unfold axes_of. destruct (g3d g) eqn:D3.
    - rewrite (error_value var p AZ); [|unfold flat; rewrite D3; reflexivity|exact HP'].
      fold (bends var AZ). generalize dependent (bends var). intros B BX BY BZ. eexists. split; [reflexivity|]. eapply is_largest_join; [|exact BX|exact (join _ _ _ _ BY BZ)]. intros v. cbn [map In]. intuition congruence.
    - generalize dependent (bends var). intros B BX BY BZ. eexists. split; [reflexivity|]. eapply is_largest_join; [|exact BX|exact (join _ _ _ _ BY is_largest_none)]. intros v. cbn [map In]. intuition congruence. }
  destruct (VAR (floored_rho (s_smallr S))) as (m1 & E1 & L1). destruct (VAR (floored_p (s_gamma S) (s_smallr S) smallp)) as (m2 & E2 & L2).
  rewrite E1, E2. do 2 f_equal. unfold bending. cbv zeta. cbn [flat_map]. rewrite app_nil_r.
  eapply is_largest_unique; [|exact (join _ _ _ _ (join _ _ _ _ is_largest_none L1) L2)|apply largest_spec].
  intros v. rewrite in_app_iff. unfold bends.
  assert (X1 : forall y, floored_rho (s_smallr S) y = density_of (s_smallr S) y) by (intros y; apply floored_rho_eq).
  assert (X2 : forall y, floored_p (s_gamma S) (s_smallr S) smallp y = pressure_of (s_gamma S) (s_smallr S) smallp y) by (intros y; apply floored_p_eq, HS).
  rewrite (map_ext _ _ (fun e => f_equal3 (bend eps) (X1 (state (beside g b x e false))) (X1 (state x)) (X1 (state (beside g b x e true))))).
  rewrite (map_ext _ _ (fun e => f_equal3 (bend eps) (X2 (state (beside g b x e false))) (X2 (state x)) (X2 (state (beside g b x e true))))).
  tauto.
Qed.
End Second.

(** The markers of a rank are never below 0, whatever the fields, the mesh and the thresholds. *)
Lemma upd_pos l : forall i z, (forall m, In m l -> 0 <= m) -> forall m, In m (upd_nth i (Z.max z) l) -> 0 <= m.
Proof.
  induction l as [|x l IH]; intros [|i] z H m HM; cbn [upd_nth] in HM; try contradiction.
  - destruct HM as [<-|HM]; [pose proof (H x (or_introl eq_refl)); lia|apply H; right; exact HM].
  - destruct HM as [<-|HM]; [apply H; left; reflexivity|apply (IH i z (fun m K => H m (or_intror K)) m HM)].
Qed.
Lemma never_negative h smallp R U eps low high order l : mark_second h smallp R U eps low high order = Some l -> Forall (fun m => 0 <= m) l.
Proof.
  unfold mark_second. destruct (mapM _ order) as [ms|]; [|discriminate]. intros E. injection E as <-. apply Forall_forall. intros m HM.
  apply in_map_iff in HM. destruct HM as ((A & v) & <- & HV). apply in_combine_r in HV. cbn [fst snd].
  assert (V0 : 0 <= v).
  { revert HV. assert (H0 : forall m, In m (repeat 0 (length (loc R))) -> 0 <= m) by (intros m HM; apply repeat_spec in HM; lia). revert H0.
    generalize (repeat 0 (length (loc R))) as l. induction ms as [|x ms IH]; intros l H0 HV; [apply H0, HV|]. cbn [fold_left] in HV. refine (IH _ _ HV). apply upd_pos, H0. }
  unfold clamp_marker. cbv zeta. repeat match goal with |- context[if ?x then _ else _] => destruct x end; lia.
Qed.
Theorem second_marks g b S smallp eps low high q R U order : Permutation order (owned_cells b R) ->
  (forall i A p, nth_error (loc R) i = Some A -> in_block b p -> exists ib, convert_index (wide g b) (mkCell i p b LOCAL_TO_BLOCK) = Some ib /\ c_oct ib = i /\
     second_marker (ctx g b S R) smallp U eps low high ib = Some (decide low high (q (cell_of b A p)))) ->
  mark_second (ctx g b S R) smallp R U eps low high order = Some (map (fun A => Z.max 0 (marker_of g b q low high A)) (loc R)).
Proof.
  intros RO HF. unfold mark_second. cbn [h_g h_b ctx].
  destruct (marks b R order RO low high q (fun c =>
    do ib <- convert_index (wide g b) c ; do m <- second_marker (ctx g b S R) smallp U eps low high ib ; Some (c_oct ib, m))) as (ms & E & HM).
  - intros i A p HA IP. destruct (HF i A p HA IP) as (ib & -> & <- & ->). reflexivity.
  - rewrite E. f_equal. apply (raw_markers g b R low high q ms 0 (or_intror eq_refl) HM).
Qed.
