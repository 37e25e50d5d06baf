(** The flux-flux cooling (C91). *)
From Coq Require Import String.
From Coq Require Import QArith Qcanon Lqa List.
From Verif Require Import Base OctreeSpec OctreeGeom OctreeModel FindNeighbors MeshSpec GhostExchange HistorySpec
  LookupModel CellModel CellSpec CellProofs CellProps RemapModel RemapSpec RemapProofs RemapProps HydroModel HydroSpec HydroProps ConserveSpec BlockGhost ConserveFaces ConserveProofs OctreeProps HistoryProofs ConserveProps
  ParticleModel ParticleSpec ParticleProofs CloudProofs CGTheory GravitySpec GravityModel GravityFaces GravityProofs GravityOp GravityLoop RKProofs CoolingModel CoolingSpec CoolingProofs.
Open Scope Z_scope.

(** The box of the mesh and its dimension come from the same entries of the configuration. *)
Definition box_given (g : geom) (lo hi : point) (ndim : option Z) (ymin ymax zmin zmax : option Qc) : Prop :=
  or_default ndim 3 = (if g3d g then 3 else 2) /\
  lo AY = or_default ymin 0%Qc /\ hi AY = or_default ymax 1%Qc /\ lo AZ = or_default zmin 0%Qc /\ hi AZ = or_default zmax 1%Qc.
Definition cooling_run (g : geom) (n : nat) (M : mesh) (b : axis -> Z) (lo hi : point) : Prop :=
  good_setup g n /\ reachable g n M /\ block_ok g b /\ forall a, (lo a < hi a)%Qc.

Lemma vertical_flat g : flat g (vertical g) = false.
Proof. unfold vertical. destruct (g3d g) eqn:E; unfold flat; rewrite ?E; reflexivity. Qed.
Lemma scaled l k m m' : (0 < k)%Qc -> ltb (l + zq m * k)%Qc (l + zq m' * k)%Qc = (m <? m').
Proof.
  intros K. destruct (Z.ltb_spec m m') as [H|H].
  - apply ltb_spec. apply zq_lt in H. apply (Qcmult_lt_compat_r _ _ k K) in H. set (u := (zq m * k)%Qc) in *. set (v := (zq m' * k)%Qc) in *. clearbody u v. qlin.
  - apply ltb_false. apply zq_le in H. assert (K' : (0 <= k)%Qc) by (apply Qclt_le_weak, K). apply (Qcmult_le_compat_r _ _ k) in H; [|exact K']. set (u := (zq m * k)%Qc) in *. set (v := (zq m' * k)%Qc) in *. clearbody u v. qlin.
Qed.

(** Every cell gets the change of its energy, whatever rank owns it: the cells along the lower side
    lose energy, those along the upper side get some, the others keep theirs. With the layers
    nothing changes. *)
Theorem C91_cells g n M b lo hi fluxes layer ndim ymin ymax zmin zmax k dt E :
  cooling_run g n M b lo hi -> box_given g lo hi ndim ymin ymax zmin zmax ->
  make_cooler fluxes layer ndim ymin ymax zmin zmax = Some k ->
  exists E', cooling_update k g b lo hi dt M (field_arrays b M E) = Some (owned_values b M E') /\
    forall x, In x (all_cells b (leaves M)) ->
      E' x = (E x + dt * if String.eqb (or_default layer "one_cell"%string) "layer" then 0 else cooled g b (extent lo hi) (or_default fluxes 0) x)%Qc.
Proof.
  intros (GS & RC & BO & LH) (ND & YL & YH & ZL & ZH) MK. pose proof (reachable_ok g n M GS RC) as OK. destruct GS as (WF & _).
  assert (KE : k = mkCooler (negb (String.eqb (or_default layer "one_cell"%string) "layer")) (or_default fluxes 0%Qc) (lo (vertical g)) (hi (vertical g))).
  { unfold make_cooler in MK. rewrite ND in MK. unfold vertical. destruct (String.eqb_spec (or_default layer "one_cell"%string) "one_cell") as [E1|E1].
    - rewrite E1 in *. cbn [String.eqb Ascii.eqb Bool.eqb negb]. destruct (g3d g); injection MK as <-; rewrite ?YL, ?YH, ?ZL, ?ZH; reflexivity.
    - destruct (String.eqb (or_default layer "one_cell"%string) "layer"); [|discriminate MK]. destruct (g3d g); injection MK as <-; rewrite ?YL, ?YH, ?ZL, ?ZH; reflexivity. }
  clear MK. subst k. set (one := String.eqb (or_default layer "one_cell"%string) "layer").
  set (P := fun x o => o = (E x + dt * if one then 0 else cooled g b (extent lo hi) (or_default fluxes 0) x)%Qc).
  set (k := mkCooler (negb one) (or_default fluxes 0%Qc) (lo (vertical g)) (hi (vertical g))).
  destruct (mapM_rel (fun RU : rank * list Qc => kernel b (fst RU) (cool_cell k g lo hi (loc (fst RU) ++ gho (fst RU)) dt (snd RU)))
    (fun RU V => Forall2 P (all_cells b (loc (fst RU))) V) (combine M (field_arrays b M E))) as (Vs & EV & F).
  - intros (R, U) HI. unfold field_arrays in HI. rewrite combine_self in HI. apply in_map_iff in HI. destruct HI as (R' & EQ & HR). injection EQ as -> <-. cbn [fst snd].
    apply kernel_rel. intros i A q HA IQ.
    assert (HST : nth_error (loc R ++ gho R) i = Some A) by (rewrite nth_error_app1; [exact HA|apply nth_error_Some; congruence]).
    unfold cool_cell, getCellCenter. cbn [c_oct c_pos c_blk]. rewrite HST.
    rewrite (at_owned g b BO E R (map E (all_cells b (loc R ++ gho R))) i A q (owns_field b E R) HA IQ).
    eexists. split; [reflexivity|]. unfold P. f_equal. f_equal.
    set (v := vertical g). pose proof (vertical_flat g) as FV. fold v in FV.
    assert (PV : forall f : axis -> Qc, (if g3d g then f AZ else f AY) = f v) by (intros f; unfold v, vertical; destruct (g3d g); reflexivity).
    rewrite (PV (fun a => if flat g a then 0%Qc else (lo a + Q2Qc (getCenter g A a) * extent lo hi a + (frac (q a) 1 - frac (b a) 1 * half_f + half_f) * cell_size g b (extent lo hi) A a)%Qc)).
    rewrite (PV (cell_size g b (extent lo hi) A)). cbv beta. rewrite FV.
    rewrite (center_eq_at g WF M OK b BO R HR i A HA q lo hi LH v FV), (size_len_at g WF M OK b BO R HR i A HA lo hi LH v FV).
    unfold k. cbn [k_one_cell k_flux k_min k_max]. fold v. destruct one; cbn [negb]; [reflexivity|].
    unfold centre. rewrite (line_len g WF M OK b BO R HR i A HA lo hi v).
    assert (VA : valid g A) by (apply (leaf_valid g M OK A); unfold leaves; apply in_concat; exists (loc R); split; [apply in_map, HR|eapply nth_error_In, HA]).
    assert (CN : coord (cell_of b A q) v = gpos b A q v) by (destruct v; reflexivity).
    assert (NP : 0 < ncells g b (lev A) v) by (apply (N_pos g WF b BO), VA).
    assert (GP : 0 <= gpos b A q v < ncells g b (lev A) v) by (unfold gpos, ncells in *; pose proof (IQ v); destruct VA as (_ & VC); specialize (VC v); nia).
    set (h := len g b lo hi (lev A) v). assert (HP : (0 < h / two)%Qc) by (apply Qcdiv_lt_0; [apply (len_pos g WF b BO lo hi LH), VA|reflexivity]).
    assert (H2 : h = (zq 2 * (h / two))%Qc) by (rewrite zq_2; unfold two; field; exact two_nz).
    assert (HE : hi v = (lo v + zq (2 * ncells g b (lev A) v) * (h / two))%Qc).
    { unfold h, len, extent. rewrite zq_mult, zq_2. field. split; [apply Qc_pos_nz, zq_pos, NP|exact two_nz]. }
    assert (B1 : ltb (lo v + zq (2 * gpos b A q v + 1) * (h / two))%Qc (lo v + h)%Qc = (gpos b A q v =? 0)).
    { rewrite H2 at 2. rewrite scaled by exact HP. lia. }
    assert (B2 : ltb (hi v - h)%Qc (lo v + zq (2 * gpos b A q v + 1) * (h / two))%Qc = (gpos b A q v =? ncells g b (lev A) v - 1)).
    { replace (hi v - h)%Qc with (lo v + zq (2 * ncells g b (lev A) v + -2) * (h / two))%Qc; [rewrite scaled by exact HP; lia|].
      rewrite HE, zq_plus. change (zq (-2)) with (- zq 2)%Qc. transitivity (lo v + zq (2 * ncells g b (lev A) v) * (h / two) - zq 2 * (h / two))%Qc; [ring|rewrite <- H2; reflexivity]. }
    rewrite B1, B2. unfold cooled, lowest, highest, height. fold v. change (lev (cell_of b A q)) with (lev A). rewrite CN. reflexivity.
  - assert (F' : Forall2 (fun R V => Forall2 P (all_cells b (loc R)) V) M Vs).
    { assert (MM : map fst (combine M (field_arrays b M E)) = M) by (unfold field_arrays; rewrite combine_self, map_map; apply map_id).
      rewrite <- MM at 1. clear - F. induction F; cbn [map]; constructor; assumption. }
    destruct (spread P E b M Vs (cells_NoDup g M OK b BO) F') as (W & -> & H1 & _).
    exists W. split; [exact EV|exact H1].
Qed.

(** At least two rows of cells of the coarsest level between the two sides. *)
Definition two_rows (g : geom) (b : axis -> Z) : Prop := 2 <= ncells g b (lmin g) (vertical g).

Section Power.
Context (g : geom) (n : nat) (M : mesh) (b : axis -> Z) (lo hi : point) (CR : cooling_run g n M b lo hi) (flux : Qc).
Local Notation ext := (extent lo hi).
Local Notation cells := (all_cells b (leaves M)).
Local Notation v := (vertical g).
Lemma cr_wf : wf_geom g. Proof. apply CR. Qed.
Lemma cr_ok : mesh_ok g M. Proof. destruct CR as (GS & RC & _). exact (reachable_ok g n M GS RC). Qed.
Lemma cr_bo : block_ok g b. Proof. apply CR. Qed.
Lemma cell_level x : In x cells -> lmin g <= lev x.
Proof. intros HX. pose proof (cell_lev g M cr_ok b x HX). lia. Qed.
Lemma area_height x : In x cells -> (volume g b ext x * (flux / height g b ext x))%Qc = (flux * but v (fun a => ext a / zq (ncells g b (lev x) a)))%Qc.
Proof.
  intros HX. pose proof (cell_level x HX) as LX.
  assert (NZ : forall a, zq (ncells g b (lev x) a) <> 0%Qc) by (intros a; apply Qc_pos_nz, zq_pos, (N_pos g cr_wf b cr_bo), LX).
  assert (EZ : forall a, ext a <> 0%Qc) by (intros a; apply Qc_pos_nz, ext_pos, CR).
  unfold volume, height, but, prod3. fold (zq (ncells g b (lev x) AX)) (zq (ncells g b (lev x) AY)) (zq (ncells g b (lev x) AZ)) (zq (ncells g b (lev x) v)).
  assert (VC : v = AY \/ v = AZ) by (unfold vertical; destruct (g3d g); auto). destruct VC as [-> | ->]; cbn [axis_eqb]; field; repeat split; auto.
Qed.
Lemma rows_area up : csum (map (fun x => (one_if (coord x v =? cell_edge g b v up (lev x)) * (volume g b ext x * (flux / height g b ext x)))%Qc) cells) = (flux * side_area g ext)%Qc.
Proof.
  rewrite (csum_ext _ (fun x => (flux * (one_if (coord x v =? cell_edge g b v up (lev x)) * but v (fun a => ext a / zq (ncells g b (lev x) a))))%Qc)).
  - rewrite csum_scale, (cell_rows g cr_wf (leaves M) (ok_tiles g M cr_ok) b cr_bo ext v up (vertical_flat g)). f_equal.
    unfold but, prod3, side_area, vertical. destruct (g3d g); cbn [axis_eqb]; ring.
  - intros x HX. rewrite (area_height x HX). ring.
Qed.
Lemma apart x : two_rows g b -> In x cells -> lowest g x && highest g b x = false.
Proof.
  intros TR HX. pose proof (cell_level x HX) as LX. unfold lowest, highest. unfold two_rows, ncells in TR. unfold ncells.
  assert (ncell g v (lmin g) <= ncell g v (lev x)).
  { unfold ncell. destruct (flat g v); [lia|]. rewrite Z.sub_diag. assert (1 <= 2 ^ (lev x - lmin g)) by (apply (Z.pow_le_mono_r 2 0); lia). pose proof cr_wf as (_ & _ & _ & W & _). specialize (W v). nia. }
  pose proof (cr_bo v). nia.
Qed.
End Power.

(** The energy that leaves through the lower side, and the one that enters through the upper side,
    per time: the flux times the area of the side. *)
Theorem C91_sides g n M b lo hi flux : cooling_run g n M b lo hi ->
  csum (map (fun x => volume g b (extent lo hi) x * cooled g b (extent lo hi) flux x)%Qc (filter (lowest g) (all_cells b (leaves M)))) = (- (flux * side_area g (extent lo hi)))%Qc /\
  (two_rows g b -> csum (map (fun x => volume g b (extent lo hi) x * cooled g b (extent lo hi) flux x)%Qc (filter (highest g b) (all_cells b (leaves M)))) = (flux * side_area g (extent lo hi))%Qc).
Proof.
  intros CR. split; [|intros TR]; rewrite csum_filter.
  - replace (- (flux * side_area g (extent lo hi)))%Qc with (- (1) * (flux * side_area g (extent lo hi)))%Qc by ring. rewrite <- (rows_area g n M b lo hi CR flux false), <- csum_scale. apply csum_ext. intros x HX. unfold cooled, cell_edge, one_if. fold (lowest g x).
    destruct (lowest g x); ring.
  - rewrite <- (rows_area g n M b lo hi CR flux true). apply csum_ext. intros x HX. unfold cooled, cell_edge, one_if. fold (highest g b x).
    pose proof (apart g n M b lo hi CR x TR HX) as AP. destruct (highest g b x); [|ring]. destruct (lowest g x); [discriminate AP|]. ring.
Qed.

Lemma total_owned_values g b ext M E : total_over g b ext M (owned_values b M E) = csum (map (fun x => volume g b ext x * E x)%Qc (all_cells b (leaves M))).
Proof.
  unfold total_over, owned_values. rewrite combine_self, map_map. cbn [fst snd]. rewrite all_cells_leaves.
  induction M as [|R M' IH]; [reflexivity|]. cbn [map concat csum fold_right]. rewrite map_app, csum_app. fold csum in IH. unfold csum in *. rewrite IH. f_equal. rewrite combine_self, map_map. reflexivity.
Qed.
Lemma combine_more {X Y} (l : list X) (m t : list Y) : length l = length m -> combine l (m ++ t) = combine l m.
Proof. revert m. induction l as [|x l IH]; intros [|y m] H; try discriminate H; [reflexivity|]. cbn. rewrite IH; [reflexivity|]. injection H as H. exact H. Qed.
Lemma total_field_arrays g b ext M E : total_over g b ext M (field_arrays b M E) = total_over g b ext M (owned_values b M E).
Proof.
  unfold total_over, owned_values, field_arrays. rewrite !combine_self, !map_map. f_equal. apply map_ext. intros R. cbn [fst snd].
  rewrite all_cells_app, map_app, combine_more by (rewrite map_length; reflexivity). reflexivity.
Qed.

(** No energy is put into the box or taken out of it. [rows]: on which boxes. *)
Definition cooling_conserves (rows : geom -> (axis -> Z) -> Prop) : Prop := forall g n M b lo hi fluxes layer ndim ymin ymax zmin zmax k dt E outs,
  cooling_run g n M b lo hi -> box_given g lo hi ndim ymin ymax zmin zmax -> rows g b ->
  make_cooler fluxes layer ndim ymin ymax zmin zmax = Some k ->
  cooling_update k g b lo hi dt M (field_arrays b M E) = Some outs ->
  total_over g b (extent lo hi) M outs = total_over g b (extent lo hi) M (field_arrays b M E).
Theorem C91_energy_partial : cooling_conserves two_rows.
Proof.
  intros g n M b lo hi fluxes layer ndim ymin ymax zmin zmax k dt E outs CR BG TR MK RUN.
  destruct (C91_cells g n M b lo hi fluxes layer ndim ymin ymax zmin zmax k dt E CR BG MK) as (E' & E1 & V). rewrite E1 in RUN. injection RUN as <-.
  rewrite total_field_arrays, !total_owned_values. set (flux := or_default fluxes 0%Qc) in *.
  destruct (String.eqb (or_default layer "one_cell"%string) "layer").
  - apply csum_ext. intros x HX. rewrite (V x HX). ring.
  - rewrite (csum_ext _ (fun x => (volume g b (extent lo hi) x * E x + dt * (
        one_if (coord x (vertical g) =? cell_edge g b (vertical g) true (lev x)) * (volume g b (extent lo hi) x * (flux / height g b (extent lo hi) x)) +
        - (1) * (one_if (coord x (vertical g) =? cell_edge g b (vertical g) false (lev x)) * (volume g b (extent lo hi) x * (flux / height g b (extent lo hi) x)))))%Qc)).
    + rewrite csum_plus, csum_scale, csum_plus, csum_scale, !(rows_area g n M b lo hi CR). ring.
    + intros x HX. rewrite (V x HX). pose proof (apart g n M b lo hi CR x TR HX) as AP. unfold cooled, cell_edge, one_if. fold (lowest g x) (highest g b x).
      destruct (lowest g x), (highest g b x); try discriminate AP; ring.
Qed.

(** With one row of cells the cells along both sides only lose energy. *)
Definition ck_g : geom := mkGeom false 1 1 2 1 1 true true false.
Definition ck_M : mesh := match private_init id_order ck_g 1 with Some M => M | None => [] end.
Definition ck_b : axis -> Z := fun _ => 1.
Definition ck_lo : point := fun _ => 0%Qc.
Definition ck_hi : point := fun _ => 1%Qc.
Definition ck_k (flux : Qc) : cooler := mkCooler true flux 0 1.
Example ck_run : cooling_run ck_g 1 ck_M ck_b ck_lo ck_hi.
Proof.
  split; [split; [apply wf_geom_check; reflexivity|cbn [ck_g lmin gsx gsy gsz]; lia]|].
  split; [apply (reach_init ck_g 1 id_order); [exact id_order_ok|vm_compute; reflexivity]|].
  split; [intros a; unfold ck_b; split; [lia|reflexivity]|]. intros a; reflexivity.
Qed.
Example ck_given g : g3d g = false -> box_given g ck_lo ck_hi (Some 2) None None None None.
Proof. intros H. unfold box_given. rewrite H. repeat split. Qed.
Theorem C91_refuted_one_row : ~ cooling_conserves (fun _ _ => True).
Proof.
  intros H. destruct (C91_cells ck_g 1 ck_M ck_b ck_lo ck_hi (Some 1%Qc) None (Some 2) None None None None (ck_k 1) 1 (fun _ => 1%Qc) ck_run (ck_given ck_g eq_refl) eq_refl) as (E' & E1 & V).
  specialize (H ck_g 1%nat ck_M ck_b ck_lo ck_hi (Some 1%Qc) None (Some 2) None None None None (ck_k 1) 1%Qc (fun _ => 1%Qc) _ ck_run (ck_given ck_g eq_refl) I eq_refl E1).
  rewrite total_field_arrays, !total_owned_values in H. clear E1.
  rewrite (csum_ext (fun x => volume ck_g ck_b (extent ck_lo ck_hi) x * E' x)%Qc (fun x => volume ck_g ck_b (extent ck_lo ck_hi) x * (1 + 1 * cooled ck_g ck_b (extent ck_lo ck_hi) 1 x))%Qc) in H by (intros x HX; rewrite (V x HX); reflexivity).
  refine (differ _ _ _ H). vm_compute. reflexivity.
Qed.

(** * Examples *)
(** The mesh of C39_example: two ranks, two levels, blocks of 4x4 cells. *)
Example ck_run_levels : cooling_run cs_g 2 cs_M cs_b ck_lo ck_hi.
Proof. split; [exact cs_setup|]. split; [exact cs_reach|]. split; [exact cs_block|]. intros a; reflexivity. Qed.
Example C91_cells_example flux dt E := C91_cells cs_g 2 cs_M cs_b ck_lo ck_hi (Some flux) None (Some 2) None None None None (ck_k flux) dt E ck_run_levels (ck_given cs_g eq_refl) eq_refl.
(** Cells of both levels are cooled there. *)
Example C91_cells_cooled : In (mkOct 2 0 0 0) (all_cells cs_b (leaves cs_M)) /\ In (mkOct 1 4 0 0) (all_cells cs_b (leaves cs_M)) /\
  this (cooled cs_g cs_b (extent ck_lo ck_hi) 1 (mkOct 2 0 0 0)) = (-16 # 1)%Q /\ this (cooled cs_g cs_b (extent ck_lo ck_hi) 1 (mkOct 1 4 0 0)) = (-8 # 1)%Q.
Proof.
  assert (K : forall x, existsb (oct_eqb x) (all_cells cs_b (leaves cs_M)) = true -> In x (all_cells cs_b (leaves cs_M))).
  { intros x H. apply existsb_exists in H. destruct H as (y & HY & EQ). apply oct_eqb_eq in EQ. subst y. exact HY. }
  split; [apply K; vm_compute; reflexivity|]. split; [apply K; vm_compute; reflexivity|]. split; vm_compute; reflexivity.
Qed.
Example C91_sides_example flux := C91_sides cs_g 2 cs_M cs_b ck_lo ck_hi flux ck_run_levels.
Example C91_rows_example : two_rows cs_g cs_b. Proof. unfold two_rows. vm_compute. discriminate. Qed.
Example C91_energy_example flux dt E : exists outs, cooling_update (ck_k flux) cs_g cs_b ck_lo ck_hi dt cs_M (field_arrays cs_b cs_M E) = Some outs /\
  total_over cs_g cs_b (extent ck_lo ck_hi) cs_M outs = total_over cs_g cs_b (extent ck_lo ck_hi) cs_M (field_arrays cs_b cs_M E).
Proof.
  destruct (C91_cells_example flux dt E) as (E' & E1 & _). eexists. split; [exact E1|].
  exact (C91_energy_partial cs_g 2%nat cs_M cs_b ck_lo ck_hi (Some flux) None (Some 2) None None None None (ck_k flux) dt E _ ck_run_levels (ck_given cs_g eq_refl) C91_rows_example eq_refl E1).
Qed.

Print Assumptions C91_cells.
Print Assumptions C91_sides.
Print Assumptions C91_energy_partial.
Print Assumptions C91_refuted_one_row.
