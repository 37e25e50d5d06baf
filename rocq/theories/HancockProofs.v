(** The Hancock update computes the step of HancockSpec. *)
From Coq Require Import QArith Qcanon Permutation.
From Verif Require Import Base OctreeSpec OctreeGeom OctreeModel FindNeighbors MeshSpec HistorySpec
  LookupModel CellModel CellSpec CellProofs CellProps RemapModel RemapSpec RemapProofs RemapProps HydroModel HydroSpec HydroProps
  ConserveSpec BlockGhost ConserveFaces ConserveProofs OctreeProps HistoryProofs LookupProps SchemeSpec ConserveProps SchemeProps
  ParticleModel ParticleProofs GravitySpec GravityModel GravityProofs GravityLoop RKModel RKSpec RKProofs RKProps ParabolicModel ParabolicSpec ParabolicProofs ParabolicRun
  HancockModel HancockSpec.
Open Scope Z_scope.

(** * Blocks with ghosts *)
Section Blocks.
Context (b : axis -> Z) (BB : forall a, 1 <= b a <= 2^14) (i : nat) (c : axis -> Z) (IB : in_block b c).
Definition widened (B w : axis -> Z) : Prop := forall a, B a = b a + 2 * w a /\ 0 <= w a <= 2.
Definition within (w d : axis -> Z) : Prop := forall a, Z.abs (d a) <= w a.

Lemma convert_any B1 w1 B2 w2 p d : widened B1 w1 -> widened B2 w2 -> (exists a, w1 a <> w2 a) -> within w2 d -> within w1 d -> (forall a, p a = c a + w1 a + d a) ->
  exists p', convert_index B2 (mkCell i p B1 LOCAL_TO_BLOCK) = Some (mkCell i p' B2 LOCAL_TO_BLOCK) /\ forall a, p' a = c a + w2 a + d a.
Proof.
  intros W1 W2 (a0 & NE) I2 I1 HP. unfold convert_index. cbn [c_blk c_pos c_oct].
  assert (SB : same_block B1 B2 = false).
  { destruct (same_block B1 B2) eqn:E; [|reflexivity]. pose proof (proj1 (same_block_spec _ _) E a0) as K. destruct (W1 a0) as (K1 & _), (W2 a0) as (K2 & _). lia. }
  rewrite SB. set (q := fun a => s32 (p a + Z.quot (B2 a - B1 a) 2)).
  assert (Q1 : forall a, q a = c a + w2 a + d a).
  { intros a. unfold q. destruct (W1 a) as (-> & L1), (W2 a) as (-> & L2). rewrite HP. replace (b a + 2 * w2 a - (b a + 2 * w1 a)) with (2 * (w2 a - w1 a)) by lia. rewrite quot2.
    pose proof (IB a). pose proof (BB a) as Bb. specialize (I1 a). change (2^14) with 16384 in Bb. rewrite s32_small; [lia|]. change (2^31) with 2147483648. lia. }
  change (all3 (fun a => (0 <=? s32 (p a + Z.quot (B2 a - B1 a) 2)) && (s32 (p a + Z.quot (B2 a - B1 a) 2) <? B2 a))) with (all3 (fun a => (0 <=? q a) && (q a <? B2 a))).
  assert (E3 : all3 (fun a => (0 <=? q a) && (q a <? B2 a)) = true).
  { apply all3_spec. intros a. rewrite Q1. destruct (W2 a) as (-> & L2). pose proof (IB a). specialize (I2 a). lia. }
  rewrite E3. eexists. split; [reflexivity|]. intros a. cbv beta. change (u32 (q a) = c a + w2 a + d a). rewrite Q1. apply u32_small.
  pose proof (IB a). pose proof (BB a) as Bb. specialize (I2 a). destruct (W2 a) as (_ & L2). change (2^14) with 16384 in Bb. change (2^32) with 4294967296. lia.
Qed.
Lemma move_any B w p d d' : widened B w -> within w (fun a => d a + d' a) -> (forall a, p a = c a + w a + d a) ->
  exists p', getNeighbor (mkCell i p B LOCAL_TO_BLOCK) d' = Some (mkCell i p' B LOCAL_TO_BLOCK) /\ forall a, p' a = c a + w a + (d a + d' a).
Proof.
  intros W IW HP.
  assert (UU : forall a, u32 (p a + d' a) = c a + w a + (d a + d' a)).
  { intros a. rewrite HP. rewrite u32_small; [lia|]. pose proof (IB a). pose proof (BB a) as Bb. specialize (IW a). cbv beta in IW. destruct (W a) as (_ & L). change (2^14) with 16384 in Bb. change (2^32) with 4294967296. lia. }
  exists (fun a => u32 (p a + d' a)). split; [|exact UU]. unfold getNeighbor. cbn [c_pos c_blk c_oct is_local c_status].
  assert (E3 : all3 (fun a => u32 (p a + d' a) <? B a) = true).
  { apply all3_spec; intros a. rewrite UU. pose proof (IB a). specialize (IW a). cbv beta in IW. destruct (W a) as (-> & L). lia. }
  rewrite E3. reflexivity.
Qed.
Lemma valid_any B1 w1 B2 w2 p d : widened B1 w1 -> widened B2 w2 -> (exists a, w1 a <> w2 a) -> within w2 d -> (forall a, p a = c a + w1 a + d a) ->
  is_valid (convert_index_ghost_local B2 (mkCell i p B1 LOCAL_TO_BLOCK)) = true.
Proof.
  intros W1 W2 (a0 & NE) I2 HP. unfold convert_index_ghost_local. cbn [c_blk c_pos c_oct].
  assert (SB : same_block B1 B2 = false).
  { destruct (same_block B1 B2) eqn:E; [|reflexivity]. pose proof (proj1 (same_block_spec _ _) E a0) as K. destruct (W1 a0) as (K1 & _), (W2 a0) as (K2 & _). lia. }
  rewrite SB.
  assert (E3 : all3 (fun a => u32 (p a + Z.quot (B2 a - B1 a) 2) <? B2 a) = true).
  { apply all3_spec. intros a. destruct (W1 a) as (-> & L1), (W2 a) as (-> & L2). rewrite HP. replace (b a + 2 * w2 a - (b a + 2 * w1 a)) with (2 * (w2 a - w1 a)) by lia. rewrite quot2.
    pose proof (IB a). pose proof (BB a) as Bb. specialize (I2 a). change (2^14) with 16384 in Bb. rewrite u32_small; [lia|]. change (2^32) with 4294967296. lia. }
  rewrite E3. reflexivity.
Qed.
End Blocks.

Lemma Qc_over_1 (q : Qc) : (q / 1)%Qc = q.
Proof. unfold Qcdiv. replace (/ 1)%Qc with 1%Qc by (apply Qc_is_canon; reflexivity). ring. Qed.
Lemma slope_eq qm q qp v : pv v (compute_slope qm q qp 1 1) = minmod (pv v q - pv v qm) (pv v qp - pv v q).
Proof. rewrite minmod_limit. destruct v; cbn [compute_slope pmap pmap2 pv q_rho q_p q_x q_y q_z]; rewrite !Qc_over_1; reflexivity. Qed.
Lemma Qc_sub_same (q : Qc) : (q - q)%Qc = 0%Qc. Proof. ring. Qed.
Lemma floor_max f r : fmax f r = match (r ?= f)%Qc with Lt => f | _ => r end.
Proof. unfold fmax, ltb. destruct (r ?= f)%Qc; reflexivity. Qed.

Lemma gain_cv u f1 f2 k v : cv v (cmap2 Qcplus u (cmap (fun z => z * k)%Qc (cmap2 Qcminus f1 f2))) = (cv v u + k * (cv v f1 - cv v f2))%Qc.
Proof. destruct v as [| |[]]; cbn [cv mom cmap cmap2 u_rho u_e u_x u_y u_z]; ring. Qed.

Section HP.
Context (g : geom) (WF : wf_geom g) (M : mesh) (OK : mesh_ok g M) (b : axis -> Z) (BO : block_ok g b)
        (PER : periodic g) (EV : even_blocks g b) (D : oct -> cons) (S : scheme) (ext : axis -> Qc) (EXT : forall a, (0 < ext a)%Qc) (dt : Qc).
Local Notation cells := (all_cells b (leaves M)).
Local Notation d3 := (g3d g).
Local Notation gamma := (s_gamma S).
Local Notation QR := (QR g M b D gamma).
Local Notation rm := (fun a c => fst (s_riem S a c)).

Definition slope_prim (y : oct) (e : axis) : prim :=
  let s := spread_at g b cells D gamma y e in mkPrim (s Vrho) (s Vp) (s Vx) (s Vy) (s Vz).
Definition half_prim (y : oct) : prim :=
  let s := half_step g b ext cells D gamma dt y in mkPrim (s Vrho) (s Vp) (s Vx) (s Vy) (s Vz).

Lemma gas_z x : d3 = false -> q_z (gas_at g cells D gamma x) = 0%Qc.
Proof. intros E. rewrite gas_at_eq. unfold ConserveProofs.QR, consToPrim. rewrite E. reflexivity. Qed.
Lemma spread_z y e : d3 = false -> spread_at g b cells D gamma y e Vz = 0%Qc.
Proof. intros E. unfold spread_at. cbn [pv]. rewrite !gas_z by exact E. rewrite Qc_sub_same. reflexivity. Qed.
Lemma half_z y : d3 = false -> half_step g b ext cells D gamma dt y Vz = 0%Qc.
Proof.
  intros E. unfold half_step. cbn [pv]. rewrite gas_z by exact E. unfold axes_of. rewrite E. cbn [map csum fold_right]. unfold euler_rate, gradient. rewrite !spread_z by exact E.
  cbn [axis_eq_dec]. destruct (axis_eq_dec AX AZ) as [K|_]; [discriminate K|]. destruct (axis_eq_dec AY AZ) as [K|_]; [discriminate K|]. unfold Qcdiv. ring.
Qed.
Lemma get_slope y e : getPrim d3 (slope_prim y e) = slope_prim y e.
Proof. unfold getPrim, slope_prim. cbn [q_rho q_p q_x q_y q_z]. destruct d3 eqn:E; [reflexivity|]. rewrite spread_z by exact E. reflexivity. Qed.

Section OneCell.
Context (U : nat -> field) (HF : holds_field b M D U) (r : nat) (R : rank) (HR : nth_error M r = Some R) (i : nat) (A : oct) (HA : nth_error (loc R) i = Some A) (c : axis -> Z) (IB : in_block b c).
Local Notation x := (cell_of b A c).
Local Notation cell := (mkCell i c b LOCAL_TO_BLOCK).
Local Notation h := (ctx g b S R).
Local Notation size := (cell_size g b ext A).

Definition wt (a : axis) : Z := if flat g a then 0 else 1.
Definition wtube (e a : axis) : Z := if axis_eqb e a then 1 else 0.
Lemma bb a : 1 <= b a <= 2^14. Proof. apply (BO a). Qed.
Lemma w_wide : widened b (wide g b) (wd g). Proof. intros a. unfold wide, wd. destruct (flat g a); lia. Qed.
Lemma w_thin : widened b (thin g b) wt. Proof. intros a. unfold thin, wt. destruct (flat g a); lia. Qed.
Lemma w_tube e : widened b (tube b e) (wtube e). Proof. intros a. unfold tube, wtube. destruct (axis_eqb e a); lia. Qed.
Lemma w_none : widened b b (fun _ => 0). Proof. intros a. lia. Qed.
Lemma ne_wt : exists a, wt a <> wd g a. Proof. exists AX. unfold wt, wd. cbn [flat]. lia. Qed.
Lemma ne_tt e : exists a, wt a <> wtube e a. Proof. destruct e; [exists AY|exists AX|exists AX]; unfold wt, wtube; cbn; lia. Qed.

(** Displacements by at most one cell. *)
Definition near (d : axis -> Z) : Prop := within wt d.
Definition plus1 (d : axis -> Z) (e : axis) (k : Z) : axis -> Z := fun a => d a + step e k a.

Lemma h_read p d : within (wd g) d -> (forall a, p a = c a + wd g a + d a) ->
  h_prim h (U r) (mkCell i p (wide g b) LOCAL_TO_BLOCK) = Some (gas_at g cells D gamma (displaced g b x d)).
Proof.
  intros W HP. rewrite gas_at_eq. assert (SM : small g d).
  { intros a. specialize (W a). unfold wd in W. destruct (flat g a); split; intros; try lia; congruence. }
  exact (wide_read g WF M OK b BO PER EV D gamma (fun _ => 0%Qc) ext EXT (s_bval S) (s_user S) (fun _ _ _ _ _ _ => 0%Qc) U HF r R HR i A HA c IB p d SM HP).
Qed.
Lemma near_wide d : near d -> within (wd g) d.
Proof. intros N a. specialize (N a). unfold wt, wd in *. destruct (flat g a); lia. Qed.
Lemma near_step d e k : flat g e = false -> Z.abs k <= 1 -> near d -> within (wd g) (fun a => d a + step e k a).
Proof.
  intros FE HK N a. specialize (N a). unfold wt, wd in *. destruct (axis_case a e) as [->|NE]; [rewrite step_on, FE in *; lia|]. rewrite step_off by exact NE. destruct (flat g a); lia.
Qed.
Lemma beside_disp d e up : beside g b (displaced g b x d) e up = displaced g b x (plus1 d e (sgn up)).
Proof. rewrite beside_eq. unfold disp. apply displaced_twice. Qed.

Lemma slope_value p d e : flat g e = false -> near d -> (forall a, p a = c a + wt a + d a) ->
  slope_of h (U r) e (mkCell i p (thin g b) LOCAL_TO_BLOCK) = Some (slope_prim (displaced g b x d) e).
Proof.
  intros FE N HP. unfold slope_of. cbn [h_g h_b ctx].
  destruct (convert_any b bb i c IB _ _ _ _ p d w_thin w_wide ne_wt (near_wide d N) N HP) as (pw & EW & HW). rewrite EW.
  destruct (move_any b bb i c IB _ _ pw d (step e (-1)) w_wide (near_step d e (-1) FE ltac:(lia) N) HW) as (pm & EM & HM). rewrite EM.
  destruct (move_any b bb i c IB _ _ pw d (step e 1) w_wide (near_step d e 1 FE ltac:(lia) N) HW) as (pp & EP & HPP). rewrite EP.
  fold h.
  rewrite (h_read pw d (near_wide d N) HW), (h_read pm _ (near_step d e (-1) FE ltac:(lia) N) HM), (h_read pp _ (near_step d e 1 FE ltac:(lia) N) HPP).
  f_equal. apply prim_ext. intros v. rewrite slope_eq.
  pose proof (beside_disp d e false) as B1. pose proof (beside_disp d e true) as B2. cbn [sgn] in B1, B2. unfold plus1 in B1, B2. rewrite <- B1, <- B2. destruct v; reflexivity.
Qed.
Lemma side_flat a : flat g a = false -> size a = cell_side g b ext (lev A) a.
Proof.
  intros FA. rewrite side_eq. apply (cell_size_eq g WF M OK b BO no_gi eq_refl (fun _ _ => false) ext (fun a => Qc_pos_nz _ (EXT a)) A a); [|exact FA].
  apply (loc_leaf M R A); [eapply nth_error_In, HR|eapply nth_error_In, HA].
Qed.
Lemma source_value p d : near d -> (forall a, p a = c a + wt a + d a) ->
  source_of h (U r) dt size (mkCell i p (thin g b) LOCAL_TO_BLOCK) = Some (half_prim (displaced g b x d)).
Proof.
  intros N HP. unfold source_of. cbn [h_g h_b h_gamma ctx]. cbv zeta. fold h.
  destruct (convert_any b bb i c IB _ _ _ _ p d w_thin w_wide ne_wt (near_wide d N) N HP) as (pw & EW & HW). rewrite EW, (h_read pw d (near_wide d N) HW).
  rewrite (slope_value p d AX eq_refl N HP), (slope_value p d AY eq_refl N HP).
  set (y := displaced g b x d). assert (LY : lev y = lev A) by reflexivity.
  pose proof (side_flat AX eq_refl) as SX. pose proof (side_flat AY eq_refl) as SY. rewrite SX, SY. clear SX SY.
  assert (ALL : forall sz, (if d3 then slope_of h (U r) AZ (mkCell i p (thin g b) LOCAL_TO_BLOCK) else Some prim0) = Some sz ->
     (d3 = true -> sz = slope_prim y AZ) ->
     getPrim d3 (compute_source d3 (gas_at g cells D gamma y) (slope_prim y AX) (slope_prim y AY) sz (dt / cell_side g b ext (lev A) AX) (dt / cell_side g b ext (lev A) AY) (dt / size AZ) gamma) = half_prim y).
  { intros sz _ HS. unfold half_prim. destruct d3 eqn:E3.
    - rewrite (HS eq_refl). rewrite (side_flat AZ) by (cbn [flat]; rewrite E3; reflexivity). unfold getPrim, compute_source, slope_prim. cbn [q_rho q_p q_x q_y q_z].
      unfold half_step, axes_of. rewrite E3. cbn [map csum fold_right pv]. unfold euler_rate, gradient, velocity. cbn [vel pv]. rewrite LY, half_two.
      unfold axis_eq_dec; cbn. f_equal; unfold Qcdiv; ring.
    - rewrite half_z by exact E3. unfold getPrim, compute_source, slope_prim. cbn [q_rho q_p q_x q_y q_z].
      unfold half_step, axes_of. rewrite E3. cbn [map csum fold_right pv]. unfold euler_rate, gradient, velocity. cbn [vel pv]. rewrite LY, half_two.
      unfold axis_eq_dec; cbn. f_equal; unfold Qcdiv; ring. }
  destruct d3 eqn:E3.
  - rewrite (slope_value p d AZ) in * by (try exact N; try exact HP; cbn [flat]; rewrite E3; reflexivity). f_equal. apply ALL; [reflexivity|]. intros _. reflexivity.
  - f_equal. apply ALL; [reflexivity|discriminate].
Qed.
Lemma tube_near e d : flat g e = false -> within (wtube e) d -> near d.
Proof. intros FE W a. specialize (W a). unfold wtube, wt in *. destruct (axis_eqb e a) eqn:E; [apply axis_eqb_spec in E; subst a; rewrite FE; exact W|destruct (flat g a); lia]. Qed.
Lemma tube_step e k : Z.abs k <= 1 -> within (wtube e) (step e k).
Proof. intros HK a. unfold wtube, step. destruct (axis_eqb e a); lia. Qed.
Lemma slopes_value p d e : flat g e = false -> within (wtube e) d -> (forall a, p a = c a + wtube e a + d a) ->
  slopes_at h (U r) e (mkCell i p (tube b e) LOCAL_TO_BLOCK) = Some (slope_prim (displaced g b x d) e).
Proof.
  intros FE W HP. pose proof (tube_near e d FE W) as N. unfold slopes_at. cbn [h_g h_b ctx]. fold h.
  destruct (convert_any b bb i c IB _ _ _ _ p d (w_tube e) w_thin ltac:(destruct (ne_tt e) as (a & K); exists a; lia) N W HP) as (pt & ET & HT). rewrite ET.
  rewrite (valid_any b bb i c IB _ _ _ _ pt d w_thin (w_tube e) (ne_tt e) W HT), (slope_value pt d e FE N HT), get_slope. reflexivity.
Qed.
Lemma face_value y e (up : bool) : reconstruct_state (half_prim y) (slope_prim y e) (if up then 1 else - (1))%Qc (s_smallr S) = face_gas g b ext cells D gamma (s_smallr S) dt y e up.
Proof.
  unfold reconstruct_state, face_gas. cbv zeta. rewrite floor_max. unfold half_prim, slope_prim. cbn [pmap pmap2 q_rho q_p q_x q_y q_z].
  assert (K : forall v, (half_step g b ext cells D gamma dt y v + (if up then 1 else - (1)) * spread_at g b cells D gamma y e v * half_f =
     if up then half_step g b ext cells D gamma dt y v + spread_at g b cells D gamma y e v / two else half_step g b ext cells D gamma dt y v - spread_at g b cells D gamma y e v / two)%Qc)
    by (intros v; rewrite half_two; destruct up; unfold Qcdiv; ring).
  rewrite !K. reflexivity.
Qed.
Lemma flux_value y e : hancock_flux h (half_prim y) (half_prim (beside g b y e true)) (slope_prim y e) (slope_prim (beside g b y e true) e) e =
  face_flux g b ext cells D rm gamma (s_smallr S) dt y e.
Proof.
  unfold hancock_flux, face_flux. cbn [h_smallr h_riem ctx]. rewrite (face_value y e true), (face_value (beside g b y e true) e false). destruct e; reflexivity.
Qed.
Lemma displaced_zero : displaced g b x (fun _ => 0) = x.
Proof.
  apply oct_ext; [reflexivity|]. intros a. unfold displaced. rewrite coord_oct_of, Z.add_0_r. apply Z.mod_small.
  pose proof (x_cell M b r R HR i A HA c IB) as HX. apply (cells_inside g M OK b BO x HX).
Qed.
Lemma sweep_value e u : flat g e = false ->
  exists u', hancock_sweep h (U r) e cell dt size u = Some u' /\
    forall v, cv v u' = (cv v u + dt / cell_side g b ext (lev x) e * (cv v (face_flux g b ext cells D rm gamma (s_smallr S) dt (beside g b x e false) e) - cv v (face_flux g b ext cells D rm gamma (s_smallr S) dt x e)))%Qc.
Proof.
  intros FE. unfold hancock_sweep. cbn [h_g h_b ctx]. fold h.
  assert (Z0 : forall a, c a = c a + 0 + 0) by (intros; lia).
  assert (within0 : within (fun _ => 0) (fun _ => 0)) by (intros a; cbn; lia).
  assert (N0 : near (fun _ => 0)) by (intros a; unfold wt; destruct (flat g a); lia).
  assert (T0 : within (wtube e) (fun _ => 0)) by (intros a; unfold wtube; destruct (axis_eqb e a); lia).
  assert (NK : forall k, Z.abs k <= 1 -> near (step e k)) by (intros k HK; apply (tube_near e _ FE), tube_step, HK).
  destruct (convert_any b bb i c IB _ _ _ _ c (fun _ => 0) w_none w_thin ltac:(exists AX; unfold wt; cbn; lia) N0 within0 Z0) as (pC & EC & HC). rewrite EC.
  destruct (move_any b bb i c IB _ _ pC (fun _ => 0) (step e (-1)) w_thin (NK (-1) ltac:(lia)) HC) as (pL & EL & HL). rewrite EL.
  destruct (move_any b bb i c IB _ _ pC (fun _ => 0) (step e 1) w_thin (NK 1 ltac:(lia)) HC) as (pR & ER & HRR). rewrite ER.
  destruct (convert_any b bb i c IB _ _ _ _ c (fun _ => 0) w_none (w_tube e) ltac:(exists e; unfold wtube; destruct e; cbn; lia) T0 within0 Z0) as (tC & EC' & HC'). rewrite EC'.
  destruct (move_any b bb i c IB _ _ tC (fun _ => 0) (step e (-1)) (w_tube e) (tube_step e (-1) ltac:(lia)) HC') as (tL & EL' & HL'). rewrite EL'.
  destruct (move_any b bb i c IB _ _ tC (fun _ => 0) (step e 1) (w_tube e) (tube_step e 1 ltac:(lia)) HC') as (tR & ER' & HRR'). rewrite ER'.
  rewrite (source_value pL _ (NK (-1) ltac:(lia)) HL), (source_value pC _ N0 HC), (source_value pR _ (NK 1 ltac:(lia)) HRR).
  rewrite (slopes_value tL _ e FE (tube_step e (-1) ltac:(lia)) HL'), (slopes_value tC _ e FE T0 HC'), (slopes_value tR _ e FE (tube_step e 1 ltac:(lia)) HRR').
  eexists. split; [reflexivity|]. intros v.
  assert (BL : displaced g b x (step e (-1)) = beside g b x e false) by (symmetry; apply beside_eq).
  assert (BR : displaced g b x (step e 1) = beside g b x e true) by (symmetry; apply beside_eq).
  rewrite BL, BR, displaced_zero, (side_flat e FE).
  assert (BC : beside g b (beside g b x e false) e true = x) by (apply (beside_back g WF M OK b BO x e false), (x_cell M b r R HR i A HA c IB)).
  rewrite flux_value. rewrite <- BC at 2 4. rewrite flux_value.
  apply gain_cv.
Qed.

Lemma hancock_value ga old : exists o, hancock_cell h ext dt (U r) ga old cell = Some o /\
  seen g o = kicked g dt (u_rho (D x)) ga (advanced_state g b ext cells D rm gamma (s_smallr S) dt x).
Proof.
  unfold hancock_cell. cbn [h_g h_st h_b c_oct ctx]. cbv zeta. fold h. rewrite (A_st R i A HA).
  set (o0 := setCons d3 old (read d3 (U r) cell)).
  assert (V0 : forall v, has_var g v -> cv v (getCons d3 o0) = cv v (D x)).
  { intros v SV. unfold o0. rewrite (cv_getset g v _ _ SV). rewrite (read_cell g M b D U HF r R cell x HR); [apply (cv_get g v _ SV)|]. apply (own_cell M b R (nth_error_In _ _ HR) i A HA c IB). }
  set (F := fun v e => (dt / cell_side g b ext (lev x) e * (cv v (face_flux g b ext cells D rm gamma (s_smallr S) dt (beside g b x e false) e) - cv v (face_flux g b ext cells D rm gamma (s_smallr S) dt x e)))%Qc).
  assert (ONE : forall e o, flat g e = false -> exists o',
     match hancock_sweep h (U r) e cell dt size (getCons d3 o) with Some u => Some (setCons d3 o u) | None => None end = Some o' /\
     forall v, has_var g v -> cv v (getCons d3 o') = (cv v (getCons d3 o) + F v e)%Qc).
  { intros e o FE. destruct (sweep_value e (getCons d3 o) FE) as (u & EU & HU). rewrite EU. eexists. split; [reflexivity|]. intros v SV. rewrite (cv_getset g v _ _ SV). apply HU. }
  destruct (ONE AX o0 eq_refl) as (o1 & E1 & V1). rewrite E1.
  destruct (ONE AY o1 eq_refl) as (o2 & E2 & V2). rewrite E2.
  assert (Z3 : exists o3, (if d3 then match hancock_sweep h (U r) AZ cell dt size (getCons d3 o2) with Some u => Some (setCons d3 o2 u) | None => None end else Some o2) = Some o3 /\
    seen g o3 = advanced_state g b ext cells D rm gamma (s_smallr S) dt x).
  { assert (TOT : forall o3, (forall v, has_var g v -> cv v (getCons d3 o3) = advanced g b ext cells D rm gamma (s_smallr S) dt x v) ->
      seen g o3 = advanced_state g b ext cells D rm gamma (s_smallr S) dt x).
    { intros o3 H. transitivity (seen g (advanced_state g b ext cells D rm gamma (s_smallr S) dt x)).
      - apply seen_cv. intros v SV. rewrite <- (cv_get g v _ SV), (H v SV). destruct v as [| |[]]; try reflexivity. unfold advanced_state. cbn [cv mom u_z].
        destruct d3 eqn:E3; [reflexivity|]. exfalso. apply (SV E3). reflexivity.
      - rewrite seen_get. unfold getCons, advanced_state. cbn [u_rho u_e u_x u_y u_z]. destruct d3; reflexivity. }
    destruct d3 eqn:E3.
    - destruct (ONE AZ o2) as (o3 & EZ & VZ); [cbn [flat]; rewrite E3; reflexivity|]. exists o3. split; [exact EZ|]. apply TOT. intros v SV.
      rewrite VZ, V2, V1, V0 by exact SV. unfold advanced, axes_of. rewrite E3. cbn [map csum fold_right]. unfold F. ring.
    - exists o2. split; [reflexivity|]. apply TOT. intros v SV. rewrite V2, V1, V0 by exact SV. unfold advanced, axes_of. rewrite E3. cbn [map csum fold_right]. unfold F. ring. }
  destruct Z3 as (o3 & EZ & SZ). rewrite EZ.
  assert (RO : u_rho (U r i (flat_cell b c)) = u_rho (D x)) by (unfold flat_cell; rewrite (HF r R i A c HR (A_st R i A HA) IB); reflexivity).
  destruct ga as [ga|]; (eexists; split; [reflexivity|]).
  - cbn [c_blk c_pos]. rewrite seen_kick, SZ, RO. reflexivity.
  - exact SZ.
Qed.
End OneCell.
End HP.
