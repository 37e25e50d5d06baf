(** The parabolic update computes the terms of ParabolicSpec. *)
From Coq Require Import QArith Qcanon Permutation.
From Verif Require Import Base OctreeSpec OctreeGeom OctreeModel FindNeighbors MeshSpec HistorySpec
  LookupModel CellModel CellSpec CellProofs CellProps RemapModel RemapSpec RemapProofs RemapProps HydroModel HydroSpec HydroProps
  ConserveSpec BlockGhost ConserveFaces ConserveProofs OctreeProps HistoryProofs LookupProps SchemeSpec ConserveProps SchemeProps
  ParticleModel ParticleProofs GravitySpec GravityModel GravityProofs GravityLoop RKModel RKSpec RKProofs ParabolicModel ParabolicSpec.
Open Scope Z_scope.

Definition no_gi : ginfo := mkG (fun _ => 0%Qc) false false.

Lemma frac_zq z : frac z 1 = zq z.
Proof. unfold frac, zq. f_equal. Qed.
Lemma zq_two : zq 2 = two. Proof. apply Qc_is_canon. reflexivity. Qed.

Lemma displaced_ext g b x d d' : (forall a, d a = d' a) -> displaced g b x d = displaced g b x d'.
Proof. intros H. apply oct_ext; [reflexivity|]. intros a. unfold displaced. rewrite !coord_oct_of, H. reflexivity. Qed.
Lemma displaced_twice g b x d d' : displaced g b (displaced g b x d) d' = displaced g b x (fun a => d a + d' a).
Proof.
  apply oct_ext; [reflexivity|]. intros a. unfold displaced. rewrite !coord_oct_of. cbn [oct_of lev]. rewrite Zplus_mod_idemp_l, Z.add_assoc. reflexivity.
Qed.

Section PP.
Context (g : geom) (WF : wf_geom g) (M : mesh) (OK : mesh_ok g M) (b : axis -> Z) (BO : block_ok g b)
        (PER : periodic g) (EV : even_blocks g b) (D : oct -> cons) (gamma : Qc) (lo hi : point) (EXT : forall a, (lo a < hi a)%Qc)
        (bval : cidx -> option cons) (user : axis -> bool -> bool) (heat : Qc -> prim -> Qc -> Qc -> axis -> bool -> Qc).
Local Notation cells := (all_cells b (leaves M)).
Local Notation N := (ncells g b).
Local Notation d3 := (g3d g).
Local Notation ext := (extent lo hi).
Local Notation Pc := (Pc g D gamma).
Local Notation QR := (QR g M b D gamma).
Definition pc (R : rank) : pctx := mkP g (loc R ++ gho R) b lo hi gamma bval user heat.

Lemma ext_pos a : (0 < ext a)%Qc.
Proof. unfold extent. apply -> Qclt_sub. apply EXT. Qed.
Lemma ext_nz' a : ext a <> 0%Qc. Proof. apply Qc_pos_nz, ext_pos. Qed.
Lemma temperature_QR x : temperature g cells D gamma x = compute_temperature (QR x).
Proof. unfold temperature, compute_temperature. rewrite gas_at_eq. reflexivity. Qed.

Section OneCell.
Context (U : nat -> field) (HF : holds_field b M D U) (r : nat) (R : rank) (HR : nth_error M r = Some R) (i : nat) (A : oct) (HA : nth_error (loc R) i = Some A) (c : axis -> Z) (IB : in_block b c).
Local Notation st := (loc R ++ gho R).
Local Notation x := (cell_of b A c).
Local Notation cell := (mkCell i c b LOCAL_TO_BLOCK).

Lemma A_leaf' : In A (leaves M).
Proof. apply (loc_leaf M R A); [eapply nth_error_In, HR|eapply nth_error_In, HA]. Qed.
Lemma A_st : nth_error st i = Some A.
Proof. rewrite nth_error_app1; [exact HA|apply nth_error_Some; congruence]. Qed.
Lemma x_cell : In x cells. Proof. apply (own_in M b R (nth_error_In _ _ HR) i A HA c IB). Qed.
Lemma lev_A : lmin g <= lev A <= lmax g.
Proof. apply (cell_lev g M OK b x x_cell). Qed.

(** * The widened block *)
Definition small (d : axis -> Z) : Prop := forall a, Z.abs (d a) <= 2 /\ (flat g a = true -> d a = 0).
Lemma wide_in p d : small d -> (forall a, p a = c a + wd g a + d a) -> in_block (wide g b) p.
Proof.
  intros SD HP a. rewrite HP. destruct (wide_props g b BO no_gi eq_refl user a) as (-> & W1 & W2 & W3). specialize (IB a). destruct (SD a) as (S1 & S2).
  destruct (flat g a) eqn:FA; [rewrite (S2 eq_refl); lia|rewrite (W3 eq_refl) in *; lia].
Qed.
Lemma wide_read p d : small d -> (forall a, p a = c a + wd g a + d a) ->
  p_prim (pc R) (U r) (mkCell i p (wide g b) LOCAL_TO_BLOCK) = Some (QR (displaced g b x d)).
Proof.
  intros SD HP. pose proof (wide_in p d SD HP) as IP. unfold p_prim, pc. cbn [p_g p_st p_b p_bval p_gamma].
  unfold Qgroup. rewrite (ghost_layer g WF M OK b BO PER EV D U HF r R i A p bval HR HA IP). cbn [option_map]. f_equal.
  assert (displaced g b (cell_of b A (fun _ => 0)) (fun a => p a - wd g a) = displaced g b x d) as ->.
  { apply oct_ext; [reflexivity|]. intros a. unfold displaced. rewrite !coord_oct_of. unfold cell_of. rewrite !coord_oct_of. cbn [oct_of lev]. f_equal.
    unfold gpos. rewrite HP. lia. }
  unfold ConserveProofs.QR, getPrim, consToPrim. cbn [q_rho q_p q_x q_y q_z]. f_equal. destruct d3; reflexivity.
Qed.
Lemma wide_own : exists p, convert_index (wide g b) cell = Some (mkCell i p (wide g b) LOCAL_TO_BLOCK) /\ forall a, p a = c a + wd g a.
Proof.
  assert (FX : flat g AX = false) by reflexivity.
  destruct (wide_cell g b BO no_gi eq_refl user i c IB AX FX) as (p & E & HP). exists p. split; [exact E|]. intros a. rewrite HP.
  assert (Z0 : step AX 0 a = 0) by (unfold step; destruct (axis_eqb AX a); reflexivity). lia.
Qed.
Lemma wide_move p d : small d -> (forall a, p a = c a + wd g a) ->
  exists p', getNeighbor (mkCell i p (wide g b) LOCAL_TO_BLOCK) d = Some (mkCell i p' (wide g b) LOCAL_TO_BLOCK) /\ forall a, p' a = c a + wd g a + d a.
Proof.
  intros SD HP. pose proof (wide_in (fun a => c a + wd g a + d a) d SD (fun a => eq_refl)) as IP.
  assert (UU : forall a, u32 (p a + d a) = c a + wd g a + d a).
  { intros a. rewrite HP. apply u32_small. specialize (IP a). cbv beta in IP. destruct (wide_props g b BO no_gi eq_refl user a) as (W & W1 & W2 & _). change (2^14) with 16384 in W2. change (2^32) with 4294967296. lia. }
  exists (fun a => u32 (p a + d a)). split; [|exact UU]. unfold getNeighbor. cbn [c_pos c_blk c_oct is_local c_status].
  assert (E3 : all3 (fun a => u32 (p a + d a) <? wide g b a) = true) by (apply all3_spec; intros a; rewrite UU; specialize (IP a); cbv beta in IP; lia).
  rewrite E3. reflexivity.
Qed.

(** * Centres *)
Lemma center_value n B p blk s k : nth_error st n = Some B -> In B (leaves M) ->
  (forall a, flat g a = false -> exists w, p a = k a + w /\ blk a = b a + 2 * w) ->
  exists pos, center_at (pc R) (mkCell n p blk s) = Some pos /\
    forall a, pos a = if flat g a then 0%Qc else (lo a + (zq (gpos b B k a) + 1 / two) * cell_side g b ext (lev B) a)%Qc.
Proof.
  intros HB LB HP. unfold center_at. cbn [pc p_st c_oct p_g p_lo p_hi c_pos c_blk]. rewrite HB. eexists. split; [reflexivity|].
  intros a. cbv beta. destruct (flat g a) eqn:FA; [reflexivity|]. destruct (HP a FA) as (w & -> & ->).
  pose proof (leaf_valid g M OK B LB) as VB.
  unfold p_size. cbn [pc p_g p_b p_lo p_hi]. rewrite (cell_size_eq g WF M OK b BO no_gi eq_refl user ext ext_nz' B a LB FA).
  change (cell_side g b ext (lev B) a) with (side_len g b ext (lev B) a). unfold side_len, ncells, getCenter, getSize. rewrite FA, (cell_count_eq g WF a (lev B)) by (try exact FA; destruct VB; lia).
  pose proof (ncell_pos g WF a (lev B) ltac:(apply VB)) as P1. pose proof (b_pos g b BO a) as P2.
  assert (E : Q2Qc (inject_Z (coord B a) * (1 / inject_Z (ncell g a (lev B))) + 1 / inject_Z (ncell g a (lev B)) / 2) = (zq (coord B a) * (1 / zq (ncell g a (lev B))) + 1 / zq (ncell g a (lev B)) / two)%Qc).
  { apply Qc_is_canon. unfold zq, Qcdiv, Qcinv, Qcmult, Qcplus. cbn [Q2Qc this]. rewrite !Qred_correct. reflexivity. }
  rewrite E, !frac_zq, half_two. unfold gpos. rewrite !zq_plus, !zq_mult, zq_two.
  assert (Z1 : zq (ncell g a (lev B)) <> 0%Qc) by (apply Qc_pos_nz, zq_pos; lia). assert (Z2 : zq (b a) <> 0%Qc) by (apply Qc_pos_nz, zq_pos; lia). assert (TN := two_nz).
  unfold two in *. field. repeat split; assumption.
Qed.

Lemma center_own s p : (forall a, p a = c a + wd g a + s a) -> exists pos, center_at (pc R) (mkCell i p (wide g b) LOCAL_TO_BLOCK) = Some pos /\
  forall a, pos a = if flat g a then 0%Qc else (middle g b lo ext x a + zq (s a) * cell_side g b ext (lev x) a)%Qc.
Proof.
  intros HP. destruct (center_value i A p (wide g b) LOCAL_TO_BLOCK (fun a => c a + s a) A_st A_leaf') as (pos & E & H).
  { intros a FA. exists (wd g a). destruct (wide_props g b BO no_gi eq_refl user a) as (W & _). rewrite HP. split; [lia|exact W]. }
  exists pos. split; [exact E|]. intros a. rewrite H. destruct (flat g a) eqn:FA; [reflexivity|]. unfold middle. rewrite FA. fold (zq (coord x a)).
  unfold cell_of. rewrite coord_oct_of. cbn [oct_of lev]. unfold gpos. rewrite !zq_plus. ring.
Qed.
Lemma center_self : exists pos, center_at (pc R) cell = Some pos /\ forall a, pos a = middle g b lo ext x a.
Proof.
  destruct (center_value i A c b LOCAL_TO_BLOCK c A_st A_leaf') as (pos & E & H).
  { intros a FA. exists 0. lia. }
  exists pos. split; [exact E|]. intros a. rewrite H. unfold middle. destruct (flat g a); [reflexivity|]. fold (zq (coord x a)). unfold cell_of. rewrite coord_oct_of. reflexivity.
Qed.
Lemma center_cell n z : is_cell M b st n z -> exists pos, center_at (pc R) n = Some pos /\ forall a, pos a = middle g b lo ext z a.
Proof.
  intros (EB & IP & B & HB & LB & <-). destruct n as [k p blk s]. cbn [c_blk c_pos c_oct] in *. subst blk.
  destruct (center_value k B p b s p HB LB) as (pos & E & H).
  { intros a FA. exists 0. lia. }
  exists pos. split; [exact E|]. intros a. rewrite H. unfold middle. destruct (flat g a); [reflexivity|]. fold (zq (coord (cell_of b B p) a)). unfold cell_of. rewrite coord_oct_of. reflexivity.
Qed.

(** * Heat through one side *)
Section Heat.
Context (kappa : point -> Qc) (KX : of_position kappa) (e : axis) (FE : flat g e = false).
Local Notation T := (temperature g cells D gamma).
Definition gap (y z : oct) : Qc := ((cell_side g b ext (lev y) e + cell_side g b ext (lev z) e) / two)%Qc.
Definition heat_in (up : bool) (y : oct) : Qc :=
  csum (map (fun z => (weight g y z * (taken g b lo ext kappa y e up z * (T z - T y) / gap y z))%Qc) (filter (relb g b e (sgn up) y) cells)).

Lemma heat_in_list up y zs : NoDup zs -> (forall z, In z zs <-> In z cells /\ rel g b e (sgn up) y z) ->
  heat_in up y = csum (map (fun z => (weight g y z * (taken g b lo ext kappa y e up z * (T z - T y) / gap y z))%Qc) zs).
Proof.
  intros ND H. apply csum_perm, Permutation_map, Permutation_sym, filter_perm; [apply (cells_NoDup g M OK b BO)|exact ND|].
  intros z. rewrite relb_spec. apply H.
Qed.
Lemma heat_in_one up y z : In z cells -> (forall z', In z' cells -> (rel g b e (sgn up) y z' <-> z' = z)) ->
  heat_in up y = (weight g y z * (taken g b lo ext kappa y e up z * (T z - T y) / gap y z))%Qc.
Proof.
  intros HZ H. rewrite (heat_in_list up y [z]).
  - cbn [map csum fold_right]. ring.
  - repeat constructor. intros [].
  - intros z'. split; [intros [<-|[]]; split; [exact HZ|apply H; [exact HZ|reflexivity]]|]. intros (H1 & H2). left. symmetry. apply H; assumption.
Qed.
Lemma sgn_unit up : unit_step (sgn up). Proof. destruct up; [left|right]; reflexivity. Qed.
Lemma beyond_eq up a : (if flat g a then 0 else middle g b lo ext x a + zq (step e (sgn up) a) * cell_side g b ext (lev x) a)%Qc = beyond g b lo ext x e up a.
Proof.
  unfold beyond. destruct (axis_eq_dec a e) as [->|NE].
  - rewrite step_on, FE. destruct up; cbn [sgn]; [replace (zq 1) with 1%Qc by (apply Qc_is_canon; reflexivity)|replace (zq (-1)) with (- (1))%Qc by (apply Qc_is_canon; reflexivity)]; ring.
  - rewrite step_off by exact NE. replace (zq 0) with 0%Qc by (apply Qc_is_canon; reflexivity). unfold middle. destruct (flat g a); [reflexivity|]. ring.
Qed.
Lemma step_small up : small (step e (sgn up)).
Proof.
  intros a. destruct (axis_case a e) as [->|NE]; [rewrite step_on; destruct up; cbn [sgn]; split; try lia; congruence|].
  rewrite step_off by exact NE. split; [lia|reflexivity].
Qed.
Lemma half3 : (frac 3 2 = (1 + two) / two)%Qc. Proof. apply Qc_is_canon. reflexivity. Qed.
Lemma half34 : (frac 3 4 = (1 + two) / (two * two))%Qc. Proof. apply Qc_is_canon. reflexivity. Qed.

Lemma side_heat_value up n p h : getNeighbor_ghost g st cell (step e (sgn up)) = Some n -> (forall a, p a = c a + wd g a) -> h = cell_side g b ext (lev x) e ->
  side_heat (pc R) kappa (U r) e (negb up) (mkCell i p (wide g b) LOCAL_TO_BLOCK) n (kappa (middle g b lo ext x)) (T x) h =
  Some (if up then heat_in up x else - heat_in up x)%Qc.
Proof.
  intros EN HP EH. pose proof (sgn_unit up) as US.
  destruct (face_query g WF M OK b BO PER EV R (nth_error_In _ _ HR) i A HA c IB e (sgn up) US FE) as (n' & y & EQ & IC & PR & CASE).
  rewrite EN in EQ. injection EQ as <-. pose proof (is_cell_in M b _ _ _ IC) as YC. set (W := disp g b x e (sgn up)) in *.
  unfold side_heat. change (p_g (pc R)) with g. change (p_st (pc R)) with st. change (p_gamma (pc R)) with gamma. assert (OFF : (if negb up then -1 else 1) = sgn up) by (destruct up; reflexivity). rewrite OFF.
  destruct (wide_move p (step e (sgn up)) (step_small up) HP) as (p' & EM & HP').
  destruct (center_own (step e (sgn up)) p' HP') as (pos & EP & HPos).
  assert (KB : kappa pos = kappa (beyond g b lo ext x e up)) by (apply KX; intros a; rewrite HPos; apply beyond_eq).
  pose proof (wide_read p' (step e (sgn up)) (step_small up) HP') as ER. change (displaced g b x (step e (sgn up))) with W in ER.
  assert (TN := two_nz).
  pose proof lev_A as LA. assert (LX : lev x = lev A) by reflexivity.
  assert (SH : forall l, lmin g <= l -> cell_side g b ext (l + 1) e = (cell_side g b ext l e / two)%Qc).
  { intros l Hl. pose proof (side_len_half g WF b BO no_gi eq_refl user ext ext_nz' l e Hl) as K. rewrite FE in K. exact K. }
  destruct CASE as [(LD & -> & RL)|[(LD & -> & NB & RL & m & GM & ICM)|(LD & NB & l & zs & SL & F2 & ND & _ & LZ & RL)]]; rewrite LD.
  - change (spacing 0) with (Some 1%Qc). cbv iota beta. change (0 <=? 0) with true. cbv iota. rewrite EM, EP, ER. rewrite (heat_in_one up x W YC RL). unfold weight, taken, gap. change (lev W) with (lev x). rewrite Z.ltb_irrefl.
    rewrite <- KB. rewrite <- EH. rewrite temperature_QR, (temperature_QR W), half_two.
    assert (G2 : ((h + h) / two = h)%Qc) by (unfold two; field; exact TN). rewrite G2. f_equal. destruct up; cbn [negb]; unfold Qcdiv; rewrite !Qcmult_1_l; ring.
  - change (spacing 1) with (Some (frac 3 2)). cbv iota beta. change (0 <=? 1) with true. cbv iota. rewrite EM, EP, ER. rewrite (heat_in_one up x _ YC RL). unfold weight, taken, gap. assert (LP : lev (parent g W) = lev x - 1) by reflexivity. rewrite LP.
    replace (lev x <? lev x - 1) with false by lia. rewrite <- KB.
    pose proof (cell_lev g M OK b _ YC) as LYC. rewrite LP in LYC.
    pose proof (SH (lev x - 1) ltac:(lia)) as K. replace (lev x - 1 + 1) with (lev x) in K by lia.
    rewrite temperature_QR, (temperature_QR (parent g W)), half_two, (QR_parent g M OK b BO D gamma W YC), (QR_cell g M b D gamma _ YC).
    assert (G2 : ((cell_side g b ext (lev x) e + cell_side g b ext (lev x - 1) e) / two = frac 3 2 * h)%Qc).
    { rewrite EH, K, half3. field. exact TN. }
    rewrite G2. f_equal. destruct up; cbn [negb]; unfold Qcdiv; rewrite !Qcmult_1_l; ring.
  - change (spacing (-1)) with (Some (frac 3 4)). cbv iota beta. change (0 <=? -1) with false. cbv iota. rewrite SL.
    match goal with |- context [mapM ?f l] => set (body := f) end.
    set (val := fun z => (half_f * (kappa (middle g b lo ext x) + kappa (middle g b lo ext z)) * (if negb up then T x - T z else T z - T x))%Qc).
    assert (ML : mapM body l = Some (map val zs)).
    { clear SL ND RL LZ. assert (F2' : Forall2 (fun k z => is_cell M b st k z) l zs) by (clear - F2; induction F2 as [|k z l zs (K & _) F2 IH]; constructor; assumption). clear F2.
      induction F2' as [|k z l zs ICK F2 IH]; [reflexivity|]. cbn [mapM map]. unfold body at 1.
      destruct (center_cell k z ICK) as (pz & EZ & HZ). rewrite EZ, IH.
      rewrite (read_P g M b D U HF gamma r R HR k z ICK). unfold val. rewrite (KX _ _ HZ), (temperature_QR z), (QR_cell g M b D gamma z (is_cell_in M b _ _ _ ICK)).
      destruct up; reflexivity. }
    rewrite ML, (heat_in_list up x zs ND RL). f_equal.
    assert (FS : forall l a, fold_left Qcplus l a = (a + csum l)%Qc).
    { clear. induction l as [|y l IH]; intros a; cbn [fold_left csum fold_right]; [ring|]. rewrite IH. unfold csum. ring. }
    rewrite FS, Qcplus_0_l.
    set (fac := (if d3 then frac 1 4 else frac 1 2)%Qc).
    transitivity (csum (map (fun z => (fac * val z / (frac 3 4 * h))%Qc) zs)).
    { unfold Qcdiv. clear. induction zs as [|z zs IH]; cbn [map csum fold_right]; [ring|]. fold (csum (map val zs)). fold (csum (map (fun z => fac * val z * / (frac 3 4 * h))%Qc zs)). rewrite <- IH. ring. }
    assert (OPP : forall (f : oct -> Qc) l, (- csum (map f l) = csum (map (fun z => - f z) l))%Qc).
    { clear. intros f l. induction l as [|z l IH]; cbn [map csum fold_right]; [ring|]. fold (csum (map f l)). fold (csum (map (fun z => - f z)%Qc l)). rewrite <- IH. ring. }
    rewrite OPP. assert (EQ : forall z, In z zs -> (fac * val z / (frac 3 4 * h))%Qc =
       (if up then weight g x z * (taken g b lo ext kappa x e up z * (T z - T x) / gap x z) else - (weight g x z * (taken g b lo ext kappa x e up z * (T z - T x) / gap x z)))%Qc).
    { intros z Hz. unfold weight, taken, gap. rewrite (LZ z Hz). replace (lev x <? lev x + 1) with true by lia. fold fac.
      pose proof (SH (lev x) ltac:(lia)) as K.
      assert (G2 : ((cell_side g b ext (lev x) e + cell_side g b ext (lev x + 1) e) / two = frac 3 4 * h)%Qc).
      { rewrite K, EH, half34. field. exact TN. }
      rewrite G2. unfold val. rewrite half_two. destruct up; cbn [negb]; unfold Qcdiv; ring. }
    destruct up; apply csum_ext; exact EQ.
Qed.
End Heat.

(** * The heating of a cell *)
Section Rhs.
Context (kappa : point -> Qc) (KX : of_position kappa).
Local Notation T := (temperature g cells D gamma).
Definition face (e : axis) (up : bool) : Qc := (csum (map (fun z => (face_area g b ext (Z.max (lev x) (lev z)) e * (taken g b lo ext kappa x e up z * (T z - T x) / ((cell_side g b ext (lev x) e + cell_side g b ext (lev z) e) / two)))%Qc)
  (filter (neighbour g b x e up) cells))).

Lemma heat_area e up : flat g e = false -> (area g b ext e (lev x) * heat_in kappa e up x)%Qc = face e up.
Proof.
  intros FE. unfold heat_in, face. rewrite <- csum_scale.
  assert (FF : filter (neighbour g b x e up) cells = filter (relb g b e (sgn up) x) cells) by (apply filter_ext; intros z; apply neighbour_eq). rewrite FF.
  apply csum_ext. intros z HZ. apply filter_In in HZ. destruct HZ as (HZ & RB). apply relb_spec in RB. rewrite area_eq, Qcmult_assoc.
  rewrite (weight_area g WF M OK b BO no_gi eq_refl user ext ext_nz' e x z x_cell HZ FE) by (destruct up; [left|right]; exact RB).
  unfold gap. reflexivity.
Qed.
Lemma flux_value e iW kC : flat g e = false -> (forall a, c_pos iW a = c a + wd g a) -> iW = mkCell i (c_pos iW) (wide g b) LOCAL_TO_BLOCK -> kC = kappa (middle g b lo ext x) ->
  thermal_flux (pc R) kappa (U r) (p_size (pc R) A) cell iW (QR x) kC e =
  Some (interface_area d3 (p_size (pc R) A) e * (heat_in kappa e true x + heat_in kappa e false x))%Qc.
Proof.
  intros FE HP EI EK. subst kC. rewrite EI. set (p := c_pos iW) in *. clearbody p. clear EI.
  unfold thermal_flux. change (p_g (pc R)) with g. change (p_st (pc R)) with st.
  assert (USm : unit_step (-1)) by (right; reflexivity). assert (USp : unit_step 1) by (left; reflexivity).
  destruct (face_query g WF M OK b BO PER EV R (nth_error_In _ _ HR) i A HA c IB e (-1) USm FE) as (nL & yL & EL & _ & PRL & _).
  destruct (face_query g WF M OK b BO PER EV R (nth_error_In _ _ HR) i A HA c IB e 1 USp FE) as (nR & yR & ER & _ & PRR & _).
  rewrite EL, ER.
  assert (ES : p_size (pc R) A e = cell_side g b ext (lev x) e) by (exact (cell_size_eq g WF M OK b BO no_gi eq_refl user ext ext_nz' A e A_leaf' FE)).
  rewrite <- temperature_QR.
  rewrite (side_heat_value kappa KX e FE false nL p (p_size (pc R) A e) EL HP ES : side_heat (pc R) kappa (U r) e true _ _ _ _ _ = _).
  rewrite (side_heat_value kappa KX e FE true nR p (p_size (pc R) A e) ER HP ES : side_heat (pc R) kappa (U r) e false _ _ _ _ _ = _).
  rewrite (proper_not_boundary nL PRL), (proper_not_boundary nR PRR). cbn [andb]. f_equal. ring.
Qed.
Lemma area_ratio e : flat g e = false ->
  let size := p_size (pc R) A in (interface_area d3 size e / (size AX * size AY * (if d3 then size AZ else 1)) = area g b ext e (lev x) / volume g b ext x)%Qc.
Proof.
  intros FE. cbv zeta. pose proof lev_A as LA.
  assert (SP : forall a, flat g a = false -> p_size (pc R) A a = side_len g b ext (lev x) a) by (intros a FA; exact (cell_size_eq g WF M OK b BO no_gi eq_refl user ext ext_nz' A a A_leaf' FA)).
  assert (NZ : forall a, side_len g b ext (lev x) a <> 0%Qc) by (intros a; apply Qc_pos_nz, (side_pos g WF b BO ext ext_pos); apply LA).
  rewrite (volume_area g b ext x AX) by apply LA. pose proof (NZ AX). pose proof (NZ AY). pose proof (NZ AZ).
  rewrite (SP AX eq_refl), (SP AY eq_refl). unfold area, interface_area. destruct d3 eqn:E3.
  - rewrite (SP AZ) by (cbn [flat]; rewrite E3; reflexivity). destruct e; rewrite ?(SP AX eq_refl), ?(SP AY eq_refl), ?(SP AZ) by (cbn [flat]; rewrite E3; reflexivity); field; auto.
  - destruct e; [| |cbn [flat] in FE; rewrite E3 in FE; discriminate FE]; rewrite ?(SP AX eq_refl), ?(SP AY eq_refl); field; auto.
Qed.

Lemma thermal_value : exists u, thermal_rhs kappa (pc R) (U r) cell = Some u /\
  forall v, cv v u = match v with Energy => heating g b ext cells D gamma (taken g b lo ext kappa) x | _ => 0%Qc end.
Proof.
  unfold thermal_rhs. change (p_g (pc R)) with g. change (p_st (pc R)) with st. change (p_b (pc R)) with b. cbn [c_oct]. rewrite A_st.
  unfold convert_index at 1. cbn [c_blk]. rewrite same_block_refl.
  destruct wide_own as (p & EW & HP). rewrite EW. destruct center_self as (pos & EP & HPos). rewrite EP.
  assert (Z0 : small (fun _ => 0)) by (intros a; split; [lia|reflexivity]).
  rewrite (wide_read p (fun _ => 0) Z0) by (intros a; rewrite HP; lia).
  assert (X0 : displaced g b x (fun _ => 0) = x).
  { apply oct_ext; [reflexivity|]. intros a. unfold displaced. rewrite coord_oct_of, Z.add_0_r. apply Z.mod_small, (cells_inside g M OK b BO x x_cell). }
  rewrite X0. pose proof (KX _ _ HPos) as EK.
  set (iW := mkCell i p (wide g b) LOCAL_TO_BLOCK) in *. assert (HP' : forall a, c_pos iW a = c a + wd g a) by exact HP. assert (EI : iW = mkCell i (c_pos iW) (wide g b) LOCAL_TO_BLOCK) by reflexivity.
  rewrite (flux_value AX iW _ eq_refl HP' EI EK), (flux_value AY iW _ eq_refl HP' EI EK).
  set (H := fun e => (heat_in kappa e true x + heat_in kappa e false x)%Qc).
  assert (TZ : (if d3 then thermal_flux (pc R) kappa (U r) (p_size (pc R) A) cell iW (QR x) (kappa pos) AZ else Some 0%Qc) =
    Some (if d3 then interface_area d3 (p_size (pc R) A) AZ * H AZ else 0)%Qc).
  { destruct d3 eqn:E3; [|reflexivity]. rewrite (flux_value AZ iW _ (eq_trans (f_equal negb E3) eq_refl : flat g AZ = false) HP' EI EK). rewrite E3. reflexivity. }
  rewrite TZ. eexists. split; [reflexivity|]. intros v. destruct v as [| |[]]; try reflexivity. cbn [cv u_e]. fold (H AX) (H AY).
  assert (KEY : forall e, flat g e = false -> (interface_area d3 (p_size (pc R) A) e * H e / (p_size (pc R) A AX * p_size (pc R) A AY * (if d3 then p_size (pc R) A AZ else 1)) =
     (face e false + face e true) / volume g b ext x)%Qc).
  { intros e FE. rewrite <- !heat_area by exact FE. unfold H. pose proof (area_ratio e FE) as AR. cbv zeta in AR.
    transitivity (interface_area d3 (p_size (pc R) A) e / (p_size (pc R) A AX * p_size (pc R) A AY * (if d3 then p_size (pc R) A AZ else 1)) * (heat_in kappa e true x + heat_in kappa e false x))%Qc; [unfold Qcdiv; ring|].
    rewrite AR. unfold Qcdiv. ring. }
  unfold heating, axes_of. unfold face in KEY. pose proof (KEY AX eq_refl) as KX'. pose proof (KEY AY eq_refl) as KY'.
  assert (SPL : forall u w z V : Qc, ((u + w + z) / V = u / V + w / V + z / V)%Qc) by (intros; unfold Qcdiv; ring).
  rewrite SPL, KX', KY'. destruct d3 eqn:E3.
  - rewrite (KEY AZ) by (cbn [flat]; rewrite E3; reflexivity). cbn [map csum fold_right]. unfold Qcdiv. ring.
  - cbn [map csum fold_right]. unfold Qcdiv. ring.
Qed.
End Rhs.

(** * Viscosity *)
Section Visc.
Local Notation vel_at := (velocity g cells D gamma).
Local Notation h := (side_len g b ext (lev x)).
Definition wb (o : axis -> Z) (f : axis) : Qc := vel_at (displaced g b x o) f.
Definition w (i j k : Z) (f : axis) : Qc := wb (mkoff i j k) f.
Definition plus (o : axis -> Z) (e : axis) (s : Z) : axis -> Z := fun a => o a + step e s a.
Lemma wb_w o f : wb o f = w (o AX) (o AY) (o AZ) f.
Proof. unfold w, wb. rewrite (displaced_ext g b x o (mkoff (o AX) (o AY) (o AZ))); [reflexivity|]. intros []; reflexivity. Qed.
Lemma h_nz a : h a <> 0%Qc.
Proof. apply Qc_pos_nz, (side_pos g WF b BO ext ext_pos). apply lev_A. Qed.
Lemma beside_at o e up : beside g b (displaced g b x o) e up = displaced g b x (plus o e (sgn up)).
Proof. rewrite beside_eq. unfold disp. apply displaced_twice. Qed.
Lemma quarter : fr 1 4 = (1 / (two * two))%Qc. Proof. apply Qc_is_canon. reflexivity. Qed.
Lemma fr43 : fr 4 3 = (1 + 1 - fr 2 3)%Qc. Proof. apply Qc_is_canon. reflexivity. Qed.
Lemma fr23 : ((1 + 1) / (1 + 1 + 1) = fr 2 3)%Qc. Proof. apply Qc_is_canon. reflexivity. Qed.
Lemma derivative_along o e f : derivative g b ext cells D gamma (displaced g b x o) e e f = (/ h e * (wb (plus o e 1) f - wb o f))%Qc.
Proof.
  unfold derivative. cbv zeta. destruct (axis_eq_dec e e) as [_|K]; [|congruence]. rewrite (beside_at o e true). cbn [sgn].
  change (cell_side g b ext (lev (displaced g b x o)) e) with (h e). unfold wb, Qcdiv. ring.
Qed.
Lemma derivative_across o e a f : a <> e -> derivative g b ext cells D gamma (displaced g b x o) e a f =
  (fr 1 4 * / h a * (wb (plus (plus o e 1) a 1) f - wb (plus (plus o e 1) a (-1)) f + wb (plus o a 1) f - wb (plus o a (-1)) f))%Qc.
Proof.
  intros NE. unfold derivative. cbv zeta. destruct (axis_eq_dec a e) as [K|_]; [congruence|]. rewrite !beside_at. cbn [sgn].
  change (cell_side g b ext (lev (displaced g b x o)) a) with (h a). fold (wb (plus (plus o e 1) a 1) f) (wb (plus (plus o e 1) a (-1)) f) (wb (plus o a 1) f) (wb (plus o a (-1)) f).
  rewrite quarter. field. repeat split; try exact two_nz. apply h_nz.
Qed.
Local Notation stress_at := (stress g b ext cells D gamma).
Local Notation power_at := (power g b ext cells D gamma).
(** Velocity at the two sides of a face, and area of the model. *)
Lemma tau_same o e : stress_at (displaced g b x o) e e = ((1 + 1) * derivative g b ext cells D gamma (displaced g b x o) e e e - fr 2 3 * divergence g b ext cells D gamma (displaced g b x o) e)%Qc.
Proof. unfold stress. destruct (axis_eq_dec e e) as [_|K]; [|congruence]. rewrite fr23. ring. Qed.
Lemma tau_diff o e f : e <> f -> stress_at (displaced g b x o) e f = (derivative g b ext cells D gamma (displaced g b x o) e e f + derivative g b ext cells D gamma (displaced g b x o) e f e)%Qc.
Proof. intros NE. unfold stress. destruct (axis_eq_dec e f) as [K|_]; [congruence|]. ring. Qed.

Definition through (v : cvar) (y : oct) (e : axis) : Qc := match v with Mass => 0%Qc | Mom f => stress_at y e f | Energy => power_at y e end.
Context (inv : axis -> Qc) (HI : forall a, flat g a = false -> inv a = / h a).
Ltac canon := rewrite !wb_w; unfold plus, step, mkoff; cbn [axis_eqb Z.add Pos.add Z.opp Z.pos_sub Pos.pred_double Pos.succ].
Ltac go E3 := unfold through, power; rewrite ?tau_same; unfold divergence, axes_of; rewrite ?E3; cbn [map csum fold_right]; rewrite ?tau_same;
  unfold divergence, axes_of; rewrite ?E3; cbn [map csum fold_right]; rewrite ?tau_diff by discriminate;
  rewrite ?derivative_along, ?derivative_across by discriminate; rewrite ?beside_at; cbn [sgn];
  repeat match goal with |- context [velocity g cells D gamma (displaced g b x ?o) ?f] => change (velocity g cells D gamma (displaced g b x o) f) with (wb o f) end;
  canon; unfold at3, vmean; rewrite ?fr43, ?half_two; unfold Qcdiv; ring.
Ltac start v := intros [->| ->] HV; assert (HZ : d3 = false -> v <> Mom AZ) by exact HV; unfold visc_x, visc_y, visc_z; cbn [Z.add Z.pos_sub]; rewrite (HI AX eq_refl), (HI AY eq_refl);
  (destruct d3 eqn:E3; [rewrite (HI AZ (f_equal negb E3))|try discriminate]); (destruct v as [| |[]]; [cbn [cv u_rho through]; ring| | | |try (exfalso; exact (HZ eq_refl eq_refl))]); cbn [cv mom u_x u_y u_z u_e]; go E3.
Lemma tau_x size L sign v : L = 0 \/ L = -1 -> has_var g v ->
  cv v (visc_x d3 size inv w (L + 1) L sign) = (sign * (size AY * size AZ) * through v (displaced g b x (mkoff L 0 0)) AX)%Qc.
Proof. start v. Qed.
Lemma tau_y size L sign v : L = 0 \/ L = -1 -> has_var g v ->
  cv v (visc_y d3 size inv w (L + 1) L sign) = (sign * (size AX * size AZ) * through v (displaced g b x (mkoff 0 L 0)) AY)%Qc.
Proof. start v. Qed.
Lemma tau_z size L sign v : d3 = true -> L = 0 \/ L = -1 -> has_var g v ->
  cv v (visc_z size inv w (L + 1) L sign) = (sign * (size AX * size AY) * through v (displaced g b x (mkoff 0 0 L)) AZ)%Qc.
Proof. intros E. start v. Qed.

(** The formulas only look at the offsets of the stencil. *)
Definition near (i j k : Z) : Prop := Z.abs i + Z.abs j + Z.abs k <= 2 /\ Z.abs i <= 1 /\ Z.abs j <= 1 /\ Z.abs k <= 1 /\ (d3 = false -> k = 0).
Context (s : Z -> Z -> Z -> axis -> Qc) (HS : forall i j k f, near i j k -> s i j k f = w i j k f).
Ltac near3 E3 := unfold near; cbn; repeat split; try lia; try (intro; congruence).
Lemma same_x size L sign : L = 0 \/ L = -1 -> visc_x d3 size inv s (L + 1) L sign = visc_x d3 size inv w (L + 1) L sign.
Proof. intros [->| ->]; unfold visc_x, at3; cbn [Z.add Z.pos_sub]; destruct d3 eqn:E3; rewrite !HS by near3 E3; reflexivity. Qed.
Lemma same_y size L sign : L = 0 \/ L = -1 -> visc_y d3 size inv s (L + 1) L sign = visc_y d3 size inv w (L + 1) L sign.
Proof. intros [->| ->]; unfold visc_y, at3; cbn [Z.add Z.pos_sub]; destruct d3 eqn:E3; rewrite !HS by near3 E3; reflexivity. Qed.
Lemma same_z size L sign : d3 = true -> L = 0 \/ L = -1 -> visc_z size inv s (L + 1) L sign = visc_z size inv w (L + 1) L sign.
Proof. intros E3 [->| ->]; unfold visc_z, at3; cbn [Z.add Z.pos_sub]; rewrite !HS by near3 E3; reflexivity. Qed.

Definition jump (v : cvar) (e : axis) : Qc := (through v x e - through v (beside g b x e false) e)%Qc.
Lemma x_zero : displaced g b x (mkoff 0 0 0) = x.
Proof. apply oct_ext; [reflexivity|]. intros a. unfold displaced. rewrite coord_oct_of. assert (mkoff 0 0 0 a = 0) as -> by (destruct a; reflexivity). rewrite Z.add_0_r. apply Z.mod_small, (cells_inside g M OK b BO x x_cell). Qed.
Lemma x_below e o : (forall a, o a = step e (-1) a) -> displaced g b x o = beside g b x e false.
Proof. intros H. rewrite beside_eq. unfold disp. apply displaced_ext. exact H. Qed.
Lemma cv_cmap2 f v u u' : cv v (cmap2 f u u') = f (cv v u) (cv v u').
Proof. destruct v as [| |[]]; reflexivity. Qed.
Lemma flux_sum size v : has_var g v -> cv v (visc_flux d3 size inv s) =
  (size AY * size AZ * jump v AX + size AX * size AZ * jump v AY + (if d3 then size AX * size AY * jump v AZ else 0))%Qc.
Proof.
  intros HV. unfold visc_flux. cbn [fold_left Z.sub Z.add Z.opp Z.eqb Z.pos_sub].
  change (visc_x d3 size inv s 0 (-1)) with (visc_x d3 size inv s (-1 + 1) (-1)). change (visc_x d3 size inv s 1 0) with (visc_x d3 size inv s (0 + 1) 0).
  change (visc_y d3 size inv s 0 (-1)) with (visc_y d3 size inv s (-1 + 1) (-1)). change (visc_y d3 size inv s 1 0) with (visc_y d3 size inv s (0 + 1) 0).
  change (visc_z size inv s 0 (-1)) with (visc_z size inv s (-1 + 1) (-1)). change (visc_z size inv s 1 0) with (visc_z size inv s (0 + 1) 0).
  rewrite !same_x, !same_y by auto.
  assert (TX : forall L sign, L = 0 \/ L = -1 -> _) by exact (fun L sign HL => tau_x size L sign v HL HV).
  assert (TY : forall L sign, L = 0 \/ L = -1 -> _) by exact (fun L sign HL => tau_y size L sign v HL HV).
  assert (C0 : cv v cons0 = 0%Qc) by (destruct v as [| |[]]; reflexivity).
  pose proof (x_below AX (mkoff (-1) 0 0) ltac:(intros []; reflexivity)) as BX. pose proof (x_below AY (mkoff 0 (-1) 0) ltac:(intros []; reflexivity)) as BY. pose proof (x_below AZ (mkoff 0 0 (-1)) ltac:(intros []; reflexivity)) as BZ.
  unfold jump. rewrite <- BX, <- BY, <- BZ. destruct d3 eqn:E3.
  - rewrite !same_z by auto. rewrite !cv_cmap2, C0.
    assert (TZ : forall L sign, L = 0 \/ L = -1 -> _) by exact (fun L sign HL => tau_z size L sign v E3 HL HV).
    rewrite !TX, !TY, !TZ by auto. rewrite !x_zero. ring.
  - rewrite !cv_cmap2, C0, !TX, !TY by auto. rewrite !x_zero. ring.
Qed.
End Visc.

Lemma depth_eq : d3 = false -> p_size (pc R) A AZ = depth g ext x.
Proof.
  intros E3. unfold depth. rewrite E3. unfold p_size. change (p_g (pc R)) with g. change (p_b (pc R)) with b. change (extent (p_lo (pc R)) (p_hi (pc R))) with ext.
  unfold cell_size, getSize. cbn [lev cell_of oct_of]. destruct (BO AZ) as (_ & B1). rewrite B1 by (cbn [flat]; rewrite E3; reflexivity).
  pose proof WF as (W1 & W2 & W3 & W4 & W5). pose proof lev_A as LA.
  assert (CC : cell_count g AZ (lev A) = 2 ^ (lev A - lmin g)).
  { unfold cell_count. cbn [gsize]. rewrite (W5 E3), Z.mul_1_l. unfold u32. apply Z.mod_small. split; [apply Z.pow_nonneg; lia|]. apply Z.pow_lt_mono_r; lia. }
  rewrite CC. assert (P : 0 < 2 ^ (lev A - lmin g)) by (apply Z.pow_pos_nonneg; lia). 
  assert (Q2Qc (1 / inject_Z (2 ^ (lev A - lmin g))) = (1 / zq (2 ^ (lev A - lmin g)))%Qc) as ->.
  { apply Qc_is_canon. unfold zq, Qcdiv, Qcinv, Qcmult. cbn [Q2Qc this]. rewrite !Qred_correct. reflexivity. }
  change (Q2Qc (inject_Z (2 ^ (lev A - lmin g)))) with (zq (2 ^ (lev A - lmin g))). change (Q2Qc (inject_Z 1)) with 1%Qc.
  field. split; [apply Qc_pos_nz, zq_pos; exact P|discriminate].
Qed.
Lemma viscous_value mu : exists u, viscous_rhs mu (pc R) (U r) cell = Some u /\
  forall v, has_var g v -> cv v u = (depth g ext x * viscous g b ext cells D gamma mu v x)%Qc.
Proof.
  unfold viscous_rhs. change (p_g (pc R)) with g. change (p_st (pc R)) with st. change (p_b (pc R)) with b. cbn [c_oct]. rewrite A_st.
  destruct wide_own as (p & EW & HP). rewrite EW.
  set (stencil := fun o => do n <- getNeighbor (mkCell i p (wide g b) LOCAL_TO_BLOCK) o ; p_prim (pc R) (U r) n).
  assert (ST : forall o, small o -> stencil o = Some (QR (displaced g b x o))).
  { intros o SO. unfold stencil. destruct (wide_move p o SO HP) as (p' & -> & HP'). apply (wide_read p' o SO HP'). }
  assert (NS : forall i j k, near i j k -> small (mkoff i j k)).
  { intros i0 j0 k0 (_ & N1 & N2 & N3 & N4) a. split; [destruct a; cbn [mkoff]; lia|]. destruct a; [discriminate|discriminate|]. intros FZ. apply N4. cbn [flat] in FZ. destruct d3; [discriminate|reflexivity]. }
  assert (MS : exists ys, mapM stencil (visc_offsets d3) = Some ys).
  { assert (AL : forall o, In o (visc_offsets d3) -> exists q, stencil o = Some q).
    { intros o IO. eexists. apply ST. unfold visc_offsets in IO. apply filter_In in IO as (IO & _). apply in_flat_map in IO as (z & IZ & IO). apply in_flat_map in IO as (y & IY & IO). apply in_map_iff in IO as (w0 & <- & IX).
      intros a. split; [|intros FA].
      - cbn in IX, IY. assert (Z.abs z <= 1) by (destruct d3; cbn in IZ; lia). destruct a; cbn [mkoff]; lia.
      - destruct a; try discriminate. cbn [flat] in FA. destruct d3; [discriminate|]. cbn in IZ |- *. lia. }
    clear - AL. revert AL. induction (visc_offsets d3) as [|o l IH]; intros AL; [exists []; reflexivity|]. destruct (AL o (or_introl eq_refl)) as (q & E). destruct (IH (fun o' I => AL o' (or_intror I))) as (ys & E').
    exists (q :: ys). cbn [mapM]. rewrite E, E'. reflexivity. }
  destruct MS as (ys & ->). eexists. split; [reflexivity|]. intros v HV.
  set (size := p_size (pc R) A). set (inv := fun a => (1 / size a)%Qc).
  assert (SP : forall a, flat g a = false -> size a = side_len g b ext (lev x) a) by (intros a FA; exact (cell_size_eq g WF M OK b BO no_gi eq_refl user ext ext_nz' A a A_leaf' FA)).
  assert (HI : forall a, flat g a = false -> inv a = (/ side_len g b ext (lev x) a)%Qc) by (intros a FA; unfold inv, Qcdiv; rewrite (SP a FA); ring).
  assert (CM : forall f u, cv v (cmap f u) = f (cv v u)) by (intros f u; destruct v as [| |[]]; reflexivity). rewrite CM.
  match goal with |- context [visc_flux _ _ _ ?s] => assert (HS : forall i0 j0 k0 f, near i0 j0 k0 -> s i0 j0 k0 f = w i0 j0 k0 f) by (intros i0 j0 k0 f NN; cbv beta; pose proof (ST _ (NS _ _ _ NN)) as E; unfold stencil in E; cbv zeta; rewrite E; unfold w, wb, velocity; rewrite gas_at_eq; destruct f; reflexivity) end.
  rewrite (flux_sum inv HI _ HS size v HV).
  assert (VE : viscous g b ext cells D gamma mu v x = (mu * csum (map (fun e => jump v e / side_len g b ext (lev x) e) (axes_of g)))%Qc) by (unfold viscous, jump, through; destruct v; reflexivity).
  rewrite VE. pose proof h_nz as NZ. pose proof (NZ AX). pose proof (NZ AY). pose proof (NZ AZ). rewrite (SP AX eq_refl), (SP AY eq_refl). unfold axes_of. destruct d3 eqn:E3.
  - rewrite (SP AZ (f_equal negb E3)). unfold depth. rewrite E3. cbn [map csum fold_right]. field. auto.
  - unfold size. rewrite (depth_eq E3). cbn [map csum fold_right]. field. auto.
Qed.
End OneCell.
End PP.
