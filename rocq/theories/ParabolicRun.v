(** Runs of the parabolic update over the ranks, and sums of what the cells exchange. *)
From Coq Require Import QArith Qcanon Permutation Lqa.
From Verif Require Import Base OctreeSpec OctreeGeom OctreeModel FindNeighbors MeshSpec HistorySpec
  LookupModel CellModel CellSpec CellProofs CellProps RemapModel RemapSpec RemapProofs RemapProps HydroModel HydroSpec HydroProps
  ConserveSpec BlockGhost ConserveFaces ConserveProofs OctreeProps HistoryProofs LookupProps SchemeSpec ConserveProps SchemeProps ParticleModel ParticleProofs
  GravitySpec GravityModel GravityProofs GravityLoop CloudProofs RKModel RKSpec RKProofs RKProps ParabolicModel ParabolicSpec ParabolicProofs.
Open Scope Z_scope.

Lemma parabolic_run g M b rhs (Q : oct -> cvar -> Qc) D Next dt : mesh_ok g M -> block_ok g b ->
  (forall U, holds_field b M D U -> forall r R i A c, nth_error M r = Some R -> nth_error (loc R) i = Some A -> in_block b c ->
     exists u, rhs R (U r) (mkCell i c b LOCAL_TO_BLOCK) = Some u /\ forall v, has_var g v -> cv v u = Q (cell_of b A c) v) ->
  exists D', parabolic_update rhs (g3d g) dt b M (field_arrays b M D) (owned_values b M Next) = Some (owned_values b M D') /\
    forall x v, In x (all_cells b (leaves M)) -> has_var g v -> cv v (D' x) = (cv v (Next x) + dt * Q x v)%Qc.
Proof.
  intros OK BO H. specialize (H _ (field_of_holds g b M D BO)).
  set (P := fun x o => forall v, has_var g v -> cv v o = (cv v (Next x) + dt * Q x v)%Qc).
  unfold parabolic_update, field_arrays at 1, owned_values at 1. rewrite combine_maps, combine_self, mapM_map. cbn [fst snd].
  match goal with |- context [mapM ?f M] => destruct (mapM_rel f (fun R V => Forall2 P (all_cells b (loc R)) V) M) as (Vs & E & F) end.
  - intros R HRM. apply In_nth_error in HRM. destruct HRM as (r & HR). apply kernel_rel. intros i A q HA Hq.
    destruct (H r R i A q HR HA Hq) as (u & EU & VU).
    assert (FA : nth r (field_arrays b M D) [] = map D (all_cells b (loc R ++ gho R))) by (apply nth_error_nth; unfold field_arrays; rewrite nth_error_map, HR; reflexivity).
    assert (FO : nth r (owned_values b M Next) [] = map Next (all_cells b (loc R))) by (apply nth_error_nth; unfold owned_values; rewrite nth_error_map, HR; reflexivity).
    rewrite FA in EU. unfold parabolic_cell. rewrite EU. eexists. split; [reflexivity|]. cbn [c_oct c_pos].
    pose proof (owned_at g b M Next r R i A q BO HR HA Hq) as OA. rewrite FO in OA. unfold flat_cell. rewrite OA.
    intros v HV. specialize (VU v HV). assert (HZ : g3d g = false -> v <> Mom AZ) by exact HV. rewrite <- VU. destruct v as [| |[]]; cbn [cv setCons getCons cmap cmap2 u_rho u_e mom u_x u_y u_z]; try reflexivity.
    destruct (g3d g); [reflexivity|]. exfalso. exact (HZ eq_refl eq_refl).
  - destruct (spread P Next b M Vs (cells_NoDup g M OK b BO) F) as (D' & -> & H1 & _). exists D'. split; [exact E|]. intros x v HX HV. exact (H1 x HX v HV).
Qed.

Section Sums.
Context (g : geom) (WF : wf_geom g) (M : mesh) (OK : mesh_ok g M) (b : axis -> Z) (BO : block_ok g b)
  (ext : axis -> Qc) (EXT : forall a, (0 < ext a)%Qc) (D : oct -> cons) (gamma : Qc).
Local Notation cells := (all_cells b (leaves M)).
Local Notation T := (temperature g cells D gamma).

Lemma volume_nz x : In x cells -> volume g b ext x <> 0%Qc.
Proof.
  intros HX. pose proof (cell_lev g M OK b x HX) as LX. rewrite (volume_area g b ext x AX) by lia. unfold area.
  apply Qc_pos_nz. apply Qcmult_lt_0; [apply Qcmult_lt_0|]; apply (side_pos g WF b BO ext EXT); lia.
Qed.

Lemma axes_flat' e : In e (axes_of g) -> flat g e = false.
Proof. unfold axes_of. intros IE. destruct e; [reflexivity|reflexivity|]. cbn [flat]. destruct (g3d g); [reflexivity|]. cbn in IE. intuition discriminate. Qed.
Lemma neighbour_sym x e up z : In x cells -> In z cells -> neighbour g b x e up z = neighbour g b z e (negb up) x.
Proof.
  intros HX HZ. rewrite !neighbour_eq. rewrite (relb_sym g WF b BO e (sgn up) x z) by (apply (cells_inside g M OK b BO); assumption).
  destruct up; reflexivity.
Qed.
(** Heat that leaves one cell enters another, when both take the same conductivity. *)
Definition flow (k : oct -> axis -> bool -> oct -> Qc) (e : axis) (up : bool) (x z : oct) : Qc :=
  (face_area g b ext (Z.max (lev x) (lev z)) e * (k x e up z * (T z - T x) / ((cell_side g b ext (lev x) e + cell_side g b ext (lev z) e) / two)))%Qc.
Lemma heat_total k : (forall x z e up, In x cells -> In z cells -> flat g e = false -> neighbour g b x e up z = true -> k x e up z = k z e (negb up) x) ->
  csum (map (fun x => (volume g b ext x * heating g b ext cells D gamma k x)%Qc) cells) = 0%Qc.
Proof.
  intros SYM. set (f := fun e up x z => if neighbour g b x e up z then flow k e up x z else 0%Qc).
  transitivity (csum (map (fun x => csum (map (fun e => (csum (map (f e false x) cells) + csum (map (f e true x) cells))%Qc) (axes_of g))) cells)).
  - apply csum_ext. intros x HX. unfold heating. rewrite Qcmult_comm. unfold Qcdiv. rewrite <- Qcmult_assoc, (Qcmult_comm (/ _)), Qcmult_inv_r, Qcmult_1_r by (apply volume_nz, HX).
    apply csum_ext. intros e _. cbn [map]. unfold f. rewrite <- !csum_filter. cbn [csum fold_right]. unfold flow, Qcdiv. ring.
  - rewrite csum_swap. rewrite <- (csum_zero (axes_of g)). apply csum_ext. intros e HE. apply axes_flat' in HE. rewrite csum_plus.
    rewrite (csum_swap (f e true)). rewrite <- csum_plus, <- (csum_zero cells). apply csum_ext. intros x HX. rewrite <- csum_plus, <- (csum_zero cells). apply csum_ext. intros z HZ.
    unfold f. rewrite (neighbour_sym z e true x HZ HX). cbn [negb]. destruct (neighbour g b x e false z) eqn:NB; [|ring].
    assert (K : k x e false z = k z e true x) by (apply SYM; assumption). unfold flow. rewrite K, (Z.max_comm (lev z)), (Qcplus_comm (cell_side g b ext (lev z) e)). unfold Qcdiv. ring.
Qed.

(** On meshes of one size, the position beside a cell is a cell, and every cell is beside one. *)
Lemma beside_cell x e up : periodic g -> even_blocks g b -> one_size cells -> flat g e = false -> In x cells -> In (beside g b x e up) cells.
Proof.
  intros PER EV OS FE HX. rewrite beside_eq. pose proof HX as HX'. apply cells_in in HX'. destruct HX' as (A & q & HA & Hq & ->).
  unfold leaves in HA. apply in_concat in HA. destruct HA as (lR & HR & HA). apply in_map_iff in HR. destruct HR as (R & <- & HR). apply In_nth_error in HA. destruct HA as (i & HA).
  destruct (face_query g WF M OK b BO PER EV R HR i A HA q Hq e (sgn up) (sgn_unit up) FE) as (n & y & _ & IC & _ & [(_ & <- & _)|[(_ & EY & _)|(_ & _ & l & zs & _ & F & _ & LN & LV & _)]]).
  - exact (is_cell_in M b _ _ _ IC).
  - exfalso. pose proof (is_cell_in M b _ _ _ IC) as YC. pose proof (OS _ _ YC HX) as EL. rewrite EY in EL. rewrite parent_lev, disp_lev in EL. lia.
  - exfalso. destruct F as [|k z l zs (IZ & _) F]; [destruct (g3d g); discriminate LN|]. pose proof (OS _ _ (is_cell_in M b _ _ _ IZ) HX) as EL. rewrite (LV z (or_introl eq_refl)) in EL. lia.
Qed.
Lemma beside_back x e up : In x cells -> beside g b (beside g b x e up) e (negb up) = x.
Proof.
  intros HX. rewrite !beside_eq. assert (sgn (negb up) = - sgn up) as -> by (destruct up; reflexivity). apply (disp_back g WF b BO). apply (cells_inside g M OK b BO x HX).
Qed.
Lemma beside_perm e up : periodic g -> even_blocks g b -> one_size cells -> flat g e = false -> Permutation (map (fun x => beside g b x e up) cells) cells.
Proof.
  intros PER EV OS FE. pose proof (cells_NoDup g M OK b BO) as ND. apply NoDup_Permutation; [|exact ND|].
  - assert (INJ : forall x y, In x cells -> In y cells -> beside g b x e up = beside g b y e up -> x = y).
    { intros x y HX HY EQ. rewrite <- (beside_back x e up HX), EQ. apply beside_back, HY. }
    revert ND INJ. generalize cells. induction l as [|x l IH]; intros ND INJ; cbn [map]; constructor.
    + intros IX. apply in_map_iff in IX. destruct IX as (y & EQ & IY). inversion ND as [|? ? NI ND']; subst. apply NI. rewrite (INJ x y (or_introl eq_refl) (or_intror IY) (eq_sym EQ)). exact IY.
    + apply IH; [inversion ND; assumption|]. intros y z HY HZ. apply INJ; right; assumption.
  - intros z. rewrite in_map_iff. split.
    + intros (x & <- & HX). apply beside_cell; assumption.
    + intros HZ. exists (beside g b z e (negb up)). split; [|apply beside_cell; assumption]. pose proof (beside_back z e (negb up) HZ) as BB. rewrite Bool.negb_involutive in BB. exact BB.
Qed.
Lemma viscous_total mu v : periodic g -> even_blocks g b -> one_size cells ->
  csum (map (fun x => (volume g b ext x * viscous g b ext cells D gamma mu v x)%Qc) cells) = 0%Qc.
Proof.
  intros PER EV OS.
  set (f := fun y e => match v with Mass => 0%Qc | Mom f => stress g b ext cells D gamma y e f | Energy => power g b ext cells D gamma y e end).
  assert (V : forall x, viscous g b ext cells D gamma mu v x = (mu * csum (map (fun e => (f x e - f (beside g b x e false) e) / cell_side g b ext (lev x) e) (axes_of g)))%Qc) by reflexivity.
  assert (EX : cells = [] \/ exists x0, In x0 cells) by (destruct cells as [|x0 l]; [left; reflexivity|right; exists x0; left; reflexivity]).
  destruct EX as [EC|(x0 & HX0)]; [rewrite EC at 1; reflexivity|].
  transitivity (csum (map (fun x => (csum (map (fun e => volume g b ext x0 * mu * / cell_side g b ext (lev x0) e * (f x e + - (1) * f (beside g b x e false) e)) (axes_of g)))%Qc) cells)).
  - apply csum_ext. intros x HX. rewrite V, Qcmult_assoc, <- csum_scale. apply csum_ext. intros e _. unfold volume. rewrite (OS x x0 HX HX0). unfold Qcdiv. ring.
  - rewrite csum_swap, <- (csum_zero (axes_of g)). apply csum_ext. intros e HE. apply axes_flat' in HE. rewrite csum_scale, csum_plus, csum_scale.
    pose proof (csum_perm _ _ (Permutation_map (fun y => f y e) (beside_perm e false PER EV OS HE))) as CP. rewrite map_map in CP.
    clearbody f. rewrite CP. ring.
Qed.
End Sums.
