(** Proofs for the refinement criteria: from the markers of the cells to those of the octants. *)
From Coq Require Import QArith Qcanon Lqa.
From Verif Require Import Base OctreeSpec OctreeGeom OctreeModel FindNeighbors MeshSpec GhostExchange HistorySpec HistoryProofs
  LookupModel CellModel CellSpec CellProofs CellProps RemapModel RemapSpec RemapProofs RemapProps RefineModel RefineProps HydroModel HydroSpec HydroProps ConserveSpec SchemeSpec BlockGhost ConserveFaces ConserveProofs
  ParticleModel ParticleSpec ParticleProofs CloudProofs CGTheory GravitySpec GravityModel GravityFaces GravityProofs GravityOp GravityLoop ConserveProps SchemeProps RKModel RKSpec RKProofs RKProps ParabolicModel ParabolicSpec ParabolicProofs ParabolicRun FaceTouch HancockModel HancockSpec HancockProofs CriterionModel CriterionSpec.
Open Scope Z_scope.

(** ** Comparisons *)
Lemma above_ltb l v : above l v = ltb l v.
Proof.
  unfold above. destruct (Qclt_le_dec l v) as [H|H]; symmetry; [apply ltb_spec, H|apply ltb_false, H].
Qed.
Lemma leb_above l v : leb v l = negb (above l v).
Proof.
  rewrite above_ltb. destruct (ltb l v) eqn:E; cbn [negb]; [apply leb_false, ltb_spec, E|apply leb_spec, ltb_false, E].
Qed.
Lemma decide_eq low high v : decide low high v = if above high v then 1 else if above low v then 0 else -1.
Proof. unfold decide. rewrite <- above_ltb, leb_above. destruct (above high v), (above low v); reflexivity. Qed.
Lemma larger_fmax x y : fmax x y = larger x y.
Proof.
  unfold fmax, larger. destruct (ltb y x) eqn:E.
  - apply ltb_spec in E. destruct (Qclt_le_dec x y) as [H|H]; [exfalso; apply (Qclt_not_le _ _ E), Qclt_le_weak, H|reflexivity].
  - apply ltb_false in E. destruct (Qclt_le_dec x y) as [H|H]; [reflexivity|apply Qcle_antisym; assumption].
Qed.
Lemma absolute_fabs x : fabs x = absolute x.
Proof. unfold fabs, absolute. destruct (Qclt_le_dec x 0) as [H|H]; [rewrite (proj2 (ltb_spec _ _) H)|rewrite (proj2 (ltb_false _ _) H)]; reflexivity. Qed.
Lemma absolute_pos x : (0 <= absolute x)%Qc.
Proof. unfold absolute. destruct (Qclt_le_dec x 0) as [H|H]; [|exact H]. apply Qclt_le_weak in H. apply (Qcopp_le_compat _ _) in H. exact H. Qed.
Lemma larger_l x y : (x <= larger x y)%Qc.
Proof. unfold larger. destruct (Qclt_le_dec x y) as [H|H]; [apply Qclt_le_weak, H|apply Qcle_refl]. Qed.
Lemma larger_r x y : (y <= larger x y)%Qc.
Proof. unfold larger. destruct (Qclt_le_dec x y) as [H|H]; [apply Qcle_refl|exact H]. Qed.
Lemma larger_or x y : larger x y = x \/ larger x y = y.
Proof. unfold larger. destruct (Qclt_le_dec x y); auto. Qed.
(** The largest is known by its members. *)
Definition is_largest (P : Qc -> Prop) (m : Qc) : Prop := (0 <= m)%Qc /\ (forall v, P v -> (v <= m)%Qc) /\ (m = 0%Qc \/ P m).
Lemma is_largest_unique (P Q : Qc -> Prop) m m' : (forall v, P v <-> Q v) -> is_largest P m -> is_largest Q m' -> m = m'.
Proof.
  intros E (A1 & A2 & A3) (B1 & B2 & B3). apply Qcle_antisym.
  - destruct A3 as [->|A3]; [exact B1|apply B2, E, A3].
  - destruct B3 as [->|B3]; [exact A1|apply A2, E, B3].
Qed.
Lemma largest_spec l : is_largest (fun v => In v l) (largest l).
Proof.
  induction l as [|x l (H1 & H2 & H3)]; [split; [apply Qcle_refl|split; [intros v []|left; reflexivity]]|].
  change (largest (x :: l)) with (larger x (largest l)). split; [apply (Qcle_trans _ _ _ H1), larger_r|]. split.
  - intros v [->|H]; [apply larger_l|]. apply (Qcle_trans _ _ _ (H2 v H)), larger_r.
  - destruct (larger_or x (largest l)) as [E|E]; rewrite E; [right; left; reflexivity|]. destruct H3 as [H3|H3]; [left; exact H3|right; right; exact H3].
Qed.
Lemma is_largest_join (P Q S : Qc -> Prop) m m' : (forall v, S v <-> P v \/ Q v) -> is_largest P m -> is_largest Q m' -> is_largest S (fmax m m').
Proof.
  intros E (A1 & A2 & A3) (B1 & B2 & B3). rewrite larger_fmax. split; [apply (Qcle_trans _ _ _ A1), larger_l|]. split.
  - intros v H. apply E in H. destruct H as [H|H]; [apply (Qcle_trans _ _ _ (A2 v H)), larger_l|apply (Qcle_trans _ _ _ (B2 v H)), larger_r].
  - destruct (larger_or m m') as [-> | ->]; [destruct A3 as [A3|A3]|destruct B3 as [B3|B3]]; try (left; assumption); right; apply E; auto.
Qed.
Lemma is_largest_one v : (0 <= v)%Qc -> is_largest (fun w => w = v) v.
Proof. intros H. split; [exact H|]. split; [intros w ->; apply Qcle_refl|right; reflexivity]. Qed.
Lemma is_largest_none : is_largest (fun _ => False) 0%Qc.
Proof. split; [apply Qcle_refl|]. split; [intros v []|left; reflexivity]. Qed.

(** ** Octants *)
Section Mark.
Context (g : geom) (b : axis -> Z) (R : rank) (order : list cidx) (RO : Permutation order (owned_cells b R)) (low high : Qc) (q : oct -> Qc).

Lemma owned_shape c : In c (owned_cells b R) -> exists i A p, nth_error (loc R) i = Some A /\ in_block b p /\ c = mkCell i p b LOCAL_TO_BLOCK.
Proof.
  unfold owned_cells. rewrite block_positions_eq. intros H. apply in_flat_map in H. destruct H as (i & Hi & H). apply in_map_iff in H. destruct H as (p & <- & Hp).
  apply in_seq in Hi. destruct (nth_error (loc R) i) as [A|] eqn:E; [|apply nth_error_None in E; lia]. exists i, A, p. split; [exact E|]. split; [apply positions_in, Hp|reflexivity].
Qed.
Lemma visited_cell i A x : nth_error (loc R) i = Some A -> In x (all_cells b [A]) -> exists p, In (mkCell i p b LOCAL_TO_BLOCK) order /\ in_block b p /\ x = cell_of b A p.
Proof.
  intros HA HX. unfold all_cells in HX. cbn [flat_map] in HX. rewrite app_nil_r in HX. apply in_map_iff in HX. destruct HX as (p & <- & Hp).
  exists p. split; [|split; [apply positions_in, Hp|reflexivity]]. apply (Permutation_in _ (Permutation_sym RO)). unfold owned_cells. rewrite block_positions_eq.
  apply in_flat_map. exists i. split; [apply in_seq; assert (i < length (loc R))%nat by (apply nth_error_Some; congruence); lia|]. apply in_map_iff. exists p. split; [reflexivity|exact Hp].
Qed.
Lemma block_cells A p : in_block b p -> In (cell_of b A p) (all_cells b [A]).
Proof.
  intros IP. unfold all_cells. cbn [flat_map]. rewrite app_nil_r. destruct (positions_all b p IP) as (p' & HP & EP). apply in_map_iff. exists p'. split; [|exact HP].
  unfold cell_of, oct_of, gpos. rewrite !EP. reflexivity.
Qed.

(** The marker of an octant before the limits on levels: the largest of its cells and [m0]. *)
Lemma raw_marker ms i A m0 m : nth_error (loc R) i = Some A -> (m0 = -1 \/ m0 = 0) ->
  (forall v, In (i, v) ms <-> exists x, In x (all_cells b [A]) /\ v = decide low high (q x)) ->
  m0 <= m -> (forall v, In (i, v) ms -> v <= m) -> (m = m0 \/ In (i, m) ms) ->
  clamp_marker g A m = Z.max (if m0 =? 0 then 0 else -1) (marker_of g b q low high A).
Proof.
  intros HA HM0 E L1 L2 L3.
  assert (HI : existsb (fun x => above high (q x)) (all_cells b [A]) = true <-> m = 1).
  { rewrite existsb_exists. split.
    - intros (x & HX & H). assert (1 <= m) by (apply L2, E; exists x; split; [exact HX|rewrite decide_eq, H; reflexivity]).
      destruct L3 as [->|L3]; [lia|]. apply E in L3. destruct L3 as (y & _ & ->). rewrite decide_eq in *. destruct (above high (q y)), (above low (q y)); lia.
    - intros ->. destruct L3 as [L3|L3]; [lia|]. apply E in L3. destruct L3 as (y & HY & D). exists y. split; [exact HY|]. rewrite decide_eq in D. destruct (above high (q y)), (above low (q y)); congruence. }
  assert (LO : existsb (fun x => above high (q x)) (all_cells b [A]) = false -> existsb (fun x => above low (q x)) (all_cells b [A]) = true -> m = 0).
  { intros H1 H2. apply existsb_exists in H2. destruct H2 as (x & HX & H).
    assert (NH : forall y, In y (all_cells b [A]) -> above high (q y) = false).
    { intros y HY. destruct (above high (q y)) eqn:K; [|reflexivity]. assert (existsb (fun x => above high (q x)) (all_cells b [A]) = true) by (apply existsb_exists; exists y; auto). congruence. }
    assert (0 <= m) by (apply L2, E; exists x; split; [exact HX|rewrite decide_eq, H, (NH x HX); reflexivity]).
    destruct L3 as [->|L3]; [lia|]. apply E in L3. destruct L3 as (y & HY & ->). rewrite decide_eq, (NH y HY) in *. destruct (above low (q y)); lia. }
  assert (NO : existsb (fun x => above high (q x)) (all_cells b [A]) = false -> existsb (fun x => above low (q x)) (all_cells b [A]) = false -> m = m0).
  { intros H1 H2. destruct L3 as [L3|L3]; [exact L3|]. apply E in L3. destruct L3 as (y & HY & D). rewrite decide_eq in D.
    destruct (above high (q y)) eqn:K1; [assert (existsb (fun x => above high (q x)) (all_cells b [A]) = true) by (apply existsb_exists; exists y; auto); congruence|].
    destruct (above low (q y)) eqn:K2; [assert (existsb (fun x => above low (q x)) (all_cells b [A]) = true) by (apply existsb_exists; exists y; auto); congruence|]. lia. }
  unfold marker_of. cbv zeta. unfold clamp_marker. cbv zeta.
  destruct (existsb (fun x => above high (q x)) (all_cells b [A])).
  - rewrite (proj1 HI eq_refl). change (1 =? 1) with true. rewrite andb_true_r. destruct (Z.leb_spec (lmax g) (lev A)), (Z.ltb_spec (lev A) (lmax g)); try lia;
      [change (0 =? -1) with false|change (1 =? -1) with false]; rewrite andb_false_r; destruct HM0 as [-> | ->]; reflexivity.
  - destruct (existsb (fun x => above low (q x)) (all_cells b [A])).
    + rewrite (LO eq_refl eq_refl). change (0 =? 1) with false. rewrite andb_false_r. change (0 =? -1) with false. rewrite andb_false_r. destruct HM0 as [-> | ->]; reflexivity.
    + rewrite (NO eq_refl eq_refl). destruct HM0 as [-> | ->].
      * change (-1 =? 1) with false. rewrite andb_false_r. change (-1 =? -1) with true. rewrite andb_true_r. change (-1 =? 0) with false. cbv iota.
        destruct (Z.leb_spec (lev A) (lmin g)), (Z.ltb_spec (lmin g) (lev A)); try lia; reflexivity.
      * change (0 =? 1) with false. rewrite andb_false_r. change (0 =? -1) with false. rewrite andb_false_r. destruct (lmin g <? lev A); reflexivity.
Qed.
Lemma raw_markers ms m0 : (m0 = -1 \/ m0 = 0) ->
  (forall i A, nth_error (loc R) i = Some A -> forall v, In (i, v) ms <-> exists x, In x (all_cells b [A]) /\ v = decide low high (q x)) ->
  map (fun x => clamp_marker g (fst x) (snd x)) (combine (loc R) (fold_left (fun l (x : nat * Z) => upd_nth (fst x) (Z.max (snd x)) l) ms (repeat m0 (length (loc R))))) =
  map (fun A => Z.max (if m0 =? 0 then 0 else -1) (marker_of g b q low high A)) (loc R).
Proof.
  intros HM0 E. set (raw := fold_left _ ms _).
  assert (LR : length raw = length (loc R)).
  { unfold raw. rewrite <- (repeat_length m0 (length (loc R))) at 2. generalize (repeat m0 (length (loc R))) as l. clear. induction ms as [|c ms IH]; intros l; [reflexivity|]. cbn [fold_left]. rewrite IH. apply upd_nth_length. }
  assert (K : forall i A, nth_error (loc R) i = Some A -> exists m, nth_error raw i = Some m /\ clamp_marker g A m = Z.max (if m0 =? 0 then 0 else -1) (marker_of g b q low high A)).
  { intros i A HA. destruct (raw_fold ms (repeat m0 (length (loc R))) i m0) as (m & E1 & E2 & E3 & E4).
    - assert (i < length (loc R))%nat by (apply nth_error_Some; congruence). rewrite (nth_error_nth' _ m0) by (rewrite repeat_length; assumption). f_equal. apply nth_repeat.
    - exists m. split; [exact E1|]. apply (raw_marker ms i A m0 m HA HM0 (E i A HA) E2 E3 E4). }
  clearbody raw. clear E. revert raw LR K. generalize (loc R) as l. induction l as [|A l IH]; intros [|m raw] LR K; try discriminate; [reflexivity|].
  cbn [combine map fst snd]. f_equal.
  - destruct (K 0%nat A eq_refl) as (m' & EM & H). injection EM as <-. exact H.
  - apply IH; [cbn in LR; lia|]. intros i B HB. exact (K (S i) B HB).
Qed.
Context (f : cidx -> option (nat * Z))
  (HF : forall i A p, nth_error (loc R) i = Some A -> in_block b p -> f (mkCell i p b LOCAL_TO_BLOCK) = Some (i, decide low high (q (cell_of b A p)))).
Lemma marks : exists ms, mapM f order = Some ms /\
  forall i A, nth_error (loc R) i = Some A -> forall v, In (i, v) ms <-> exists x, In x (all_cells b [A]) /\ v = decide low high (q x).
Proof.
  destruct (mapM_total f order) as (ms & E).
  { intros c Hc. apply (Permutation_in _ RO), owned_shape in Hc. destruct Hc as (i & A & p & HA & IP & ->). rewrite (HF i A p HA IP). eexists. reflexivity. }
  exists ms. split; [exact E|]. intros i A HA v. split.
  - intros H. destruct (mapM_In _ _ _ _ E H) as (c & Hc & EC). apply (Permutation_in _ RO), owned_shape in Hc. destruct Hc as (j & B & p & HB & IP & ->).
    rewrite (HF j B p HB IP) in EC. injection EC as -> <-. assert (B = A) as -> by congruence. exists (cell_of b A p). split; [apply block_cells, IP|reflexivity].
  - intros (x & HX & ->). destruct (visited_cell i A x HA HX) as (p & HP & IP & ->). destruct (mapM_In_fwd _ _ _ _ E HP) as (y & HY & EY).
    rewrite (HF i A p HA IP) in EY. injection EY as <-. exact HY.
Qed.
End Mark.
Lemma marker_least g b q low high A : -1 <= marker_of g b q low high A.
Proof. unfold marker_of. cbv zeta. repeat match goal with |- context[if ?x then _ else _] => destruct x end; lia. Qed.

Theorem mark_value g b R order low high q f : Permutation order (owned_cells b R) ->
  (forall i A p, nth_error (loc R) i = Some A -> in_block b p -> f (mkCell i p b LOCAL_TO_BLOCK) = Some (decide low high (q (cell_of b A p)))) ->
  mark g R order f = Some (map (marker_of g b q low high) (loc R)).
Proof.
  intros RO HF. unfold mark.
  destruct (marks b R order RO low high q (fun c => match f c with Some m => Some (c_oct c, m) | None => None end)) as (ms & E & HM).
  - intros i A p HA IP. rewrite (HF i A p HA IP). reflexivity.
  - rewrite E. f_equal. unfold mark_cells, mark_cells_raw. etransitivity; [apply (raw_markers g b R low high q ms (-1) (or_introl eq_refl) HM)|].
    apply map_ext. intros A. pose proof (marker_least g b q low high A). change (-1 =? 0) with false. cbv iota. lia.
Qed.

(** ** Mass and downflow *)
Section Cell.
Context (g : geom) (WF : wf_geom g) (M : mesh) (OK : mesh_ok g M) (b : axis -> Z) (BO : block_ok g b) (R : rank) (HR : In R M).

Lemma mass_value ext low high rho U i A p : (forall a, 0 < ext a)%Qc -> owns b rho R U -> nth_error (loc R) i = Some A -> in_block b p ->
  mass_marker g b ext R low high U (mkCell i p b LOCAL_TO_BLOCK) = Some (decide low high (cell_mass g b ext rho (cell_of b A p))).
Proof.
  intros EXT OW HA IP. unfold mass_marker. cbn [c_oct].
  assert (HST : nth_error (loc R ++ gho R) i = Some A) by (rewrite nth_error_app1; [exact HA|apply nth_error_Some; congruence]). rewrite HST.
  rewrite (at_owned g b BO rho R U i A p OW HA IP). do 2 f_equal.
  assert (AL : In A (leaves M)) by (unfold leaves; apply in_concat; exists (loc R); split; [apply in_map, HR|eapply nth_error_In, HA]).
  assert (SZ : forall a, flat g a = false -> cell_size g b ext A a = cell_side g b ext (lev A) a) by (intros a FA; change (cell_side g b ext (lev A) a) with (side_len g b ext (lev A) a); apply (cell_size_eq g WF M OK b BO no_gi eq_refl (fun _ _ => false) ext (fun a => Qc_pos_nz _ (EXT a)) A a); assumption).
  unfold cell_mass, axes_of. change (lev (cell_of b A p)) with (lev A).
  rewrite (SZ AX) by reflexivity. rewrite (SZ AY) by reflexivity.
  destruct (g3d g) eqn:D3; [rewrite (SZ AZ) by (unfold flat; rewrite D3; reflexivity)|]; cbn [map fold_right]; ring.
Qed.

Lemma downflow_value sign low high rho my mz U Uy Uz i A p : owns b rho R U -> owns b my R Uy -> owns b mz R Uz -> nth_error (loc R) i = Some A -> in_block b p ->
  rho (cell_of b A p) <> 0%Qc ->
  downflow_marker g sign low high U Uy Uz (mkCell i p b LOCAL_TO_BLOCK) =
  Some (decide low high (downflow g sign rho (fun a => match a with AY => my | _ => mz end) (cell_of b A p))).
Proof.
  intros OW OY OZ HA IP NZ. unfold downflow_marker, downflow. rewrite (at_owned g b BO rho R U i A p OW HA IP).
  assert (NB : Qc_eq_bool (rho (cell_of b A p)) 0 = false) by (unfold Qc_eq_bool; destruct (Qc_eq_dec _ _); [contradiction|reflexivity]).
  destruct (g3d g).
  - rewrite (at_owned g b BO mz R Uz i A p OZ HA IP), NB. do 2 f_equal. unfold Qcdiv. ring.
  - rewrite (at_owned g b BO my R Uy i A p OY HA IP), NB. do 2 f_equal. unfold Qcdiv. ring.
Qed.

(** ** Pseudo gradient *)
Lemma thousandth : (0 < Q2Qc (1 # 1000))%Qc. Proof. reflexivity. Qed.
Lemma contrast_pos u v : (0 <= contrast u v)%Qc.
Proof.
  unfold contrast. cbv zeta. set (m := larger _ _). destruct (Qclt_le_dec m _) as [H|H]; [apply Qcle_refl|]. destruct (Qclt_le_dec _ 1) as [H1|H1]; [|discriminate].
  assert (MP : (0 < m)%Qc) by (apply (Qclt_le_trans _ _ _ thousandth H)). pose proof (absolute_pos (u - v)) as AP. unfold Qcdiv.
  apply Qcle_trans with (0 * / m)%Qc; [replace (0 * / m)%Qc with 0%Qc by ring; apply Qcle_refl|]. apply Qcmult_le_compat_r; [exact AP|]. apply Qclt_le_weak.
  replace (/ m)%Qc with (1 / m)%Qc by (unfold Qcdiv; ring). apply Qcdiv_lt_0; [reflexivity|exact MP].
Qed.
Lemma indicator_contrast u v : indicator u v = contrast u v.
Proof.
  pose proof (contrast_pos u v) as CP. unfold contrast, indicator in *. cbv zeta in *. rewrite larger_fmax, !absolute_fabs. set (m := larger _ _) in *. change (frac 1 1000) with (Q2Qc (1 # 1000)).
  destruct (Qclt_le_dec m (Q2Qc (1 # 1000))) as [H|H]; [rewrite (proj2 (ltb_spec _ _) H); reflexivity|]. rewrite (proj2 (ltb_false _ _) H).
  unfold fmin. destruct (Qclt_le_dec (absolute (u - v) / m) 1) as [H1|H1]; [rewrite (proj2 (ltb_spec _ _) H1)|rewrite (proj2 (ltb_false _ _) H1); reflexivity].
  rewrite larger_fmax. unfold larger. destruct (Qclt_le_dec _ 0) as [H2|_]; [exfalso; apply (Qclt_not_le _ _ H2 CP)|reflexivity].
Qed.
Lemma fold_largest {X} (h : X -> Qc) vs : forall (P : Qc -> Prop) m, (forall v, In v vs -> (0 <= h v)%Qc) -> is_largest P m ->
  is_largest (fun w => P w \/ exists v, In v vs /\ w = h v) (fold_left (fun m v => fmax m (h v)) vs m).
Proof.
  induction vs as [|v vs IH]; intros P m HP H.
  - cbn [fold_left]. destruct H as (H1 & H2 & H3). split; [exact H1|]. split; [intros w [K|(x & [] & _)]; apply H2, K|]. destruct H3 as [H3|H3]; auto.
  - cbn [fold_left]. assert (H' : is_largest (fun w => P w \/ w = h v) (fmax m (h v))).
    { apply (is_largest_join P (fun w => w = h v)); [intros w; reflexivity|exact H|apply is_largest_one, HP; left; reflexivity]. }
    destruct (IH _ _ (fun x Hx => HP x (or_intror Hx)) H') as (K1 & K2 & K3). split; [exact K1|]. split.
    + intros w [K|(x & [->|Hx] & ->)]; apply K2; [left; left; exact K|left; right; reflexivity|right; exists x; auto].
    + destruct K3 as [K3|[[K3|K3]|(x & Hx & K3)]]; [left; exact K3|right; left; exact K3|right; right; exists v; split; [left; reflexivity|exact K3]|right; right; exists x; split; [right; exact Hx|exact K3]].
Qed.

Lemma join (P Q : Qc -> Prop) m n : is_largest P m -> is_largest Q n -> is_largest (fun v => P v \/ Q v) (fmax m n).
Proof. intros. apply (is_largest_join P Q); [intros v; reflexivity|assumption..]. Qed.

Section Grad.
Context (rho : oct -> Qc) (i : nat) (A : oct) (HA : nth_error (loc R) i = Some A) (p : axis -> Z) (IP : in_block b p).
Local Notation st := (loc R ++ gho R).
Local Notation x := (cell_of b A p).
Local Notation cells := (all_cells b (leaves M)).
Definition at_face (e : axis) (up : bool) (v : Qc) : Prop := exists y, In y cells /\ touches g b e up x y = true /\ v = contrast (rho x) (rho y).

Lemma boundary_alone e up y : flat g e = false -> In y cells -> at_boundary g b e up x = true -> touches g b e up x y = false.
Proof.
  intros FE HY AB. unfold at_boundary in AB. apply andb_true_iff in AB. destruct AB as (PF & AB). apply negb_true_iff in PF.
  pose proof (fine_edges g b y e FE (cells_inside g M OK b BO y HY)) as FY.
  unfold touches. apply andb_false_iff. left. unfold same_plane. rewrite PF. cbn [andb]. destruct up; apply Z.eqb_eq in AB; rewrite orb_false_r; apply Z.eqb_neq; lia.
Qed.
Lemma grad_value e up : flat g e = false -> exists m, grad g st (map rho (all_cells b st)) (mkCell i p b LOCAL_TO_BLOCK) e (sg up) = Some m /\ is_largest (at_face e up) m.
Proof.
  intros FE. unfold grad. pose proof (at_owned g b BO rho R _ i A p (owns_field b rho R) HA IP) as OWN.
  destruct (at_boundary g b e up x) eqn:AB.
  - destruct (query_boundary g WF M OK b BO e FE up R HR i A HA p IP AB) as (n & E & S). rewrite E. unfold GravityModel.is_boundary. rewrite S. exists 0%Qc. split; [reflexivity|].
    split; [apply Qcle_refl|]. split; [|left; reflexivity]. intros v (y & HY & T & _). rewrite (boundary_alone e up y FE HY AB) in T. discriminate T.
  - destruct (query_found g WF M OK b BO e FE up R HR i A HA p IP AB) as (n & E & (PR1 & PR2) & CASE). rewrite E.
    replace (GravityModel.is_boundary n) with false by (unfold GravityModel.is_boundary; destruct (c_status n); congruence).
    destruct CASE as [(LD & y & IC & TY)|(LD & l & zs & EL & F2 & VL & TZ)].
    + replace (level_diff n >=? 0) with true by lia. rewrite OWN.
      assert (VN : is_valid n = true) by (unfold is_valid; destruct (c_status n); congruence).
      rewrite (at_cell_holds b (b_pos g b BO) M st rho n y IC VN). exists (contrast (rho x) (rho y)). split; [rewrite indicator_contrast; reflexivity|].
      split; [apply contrast_pos|]. split; [|right; exists y; destruct (proj2 (TY y) eq_refl); auto]. intros v (z & HZ & T & ->). rewrite (proj1 (TY z) (conj HZ T)). apply Qcle_refl.
    + rewrite LD. change (-1 >=? 0) with false. change (-1 =? -1) with true. cbv iota. rewrite EL, OWN.
      assert (MV : mapM (at_cell (map rho (all_cells b st))) l = Some (map rho zs)).
      { clear - F2 VL BO. induction F2 as [|k z l zs IC F2 IH]; [reflexivity|]. cbn [mapM map].
        rewrite (at_cell_holds b (b_pos g b BO) M st rho k z IC (VL k (or_introl eq_refl))). rewrite IH; [reflexivity|]. intros k' Hk. apply VL. right. exact Hk. }
      rewrite MV. eexists. split; [reflexivity|].
      destruct (fold_largest (indicator (rho x)) (map rho zs) (fun _ => False) 0%Qc) as (K1 & K2 & K3); [intros v _; rewrite indicator_contrast; apply contrast_pos|apply is_largest_none|].
      split; [exact K1|]. split.
      * intros v (z & HZ & T & ->). apply K2. right. exists (rho z). split; [apply in_map, TZ; split; assumption|rewrite indicator_contrast; reflexivity].
      * destruct K3 as [K3|[[]|(v & Hv & K3)]]; [left; exact K3|]. right. apply in_map_iff in Hv. destruct Hv as (z & <- & Hz). apply TZ in Hz. exists z. split; [apply Hz|]. split; [apply Hz|].
        rewrite <- indicator_contrast. exact K3.
Qed.
Lemma gradient_value low high : gradient_marker g R low high (map rho (all_cells b st)) (mkCell i p b LOCAL_TO_BLOCK) = Some (decide low high (steepness g b cells rho x)).
Proof.
  unfold gradient_marker.
  destruct (grad_value AX true eq_refl) as (xp & E1 & L1). destruct (grad_value AX false eq_refl) as (xm & E2 & L2).
  destruct (grad_value AY true eq_refl) as (yp & E3 & L3). destruct (grad_value AY false eq_refl) as (ym & E4 & L4). cbn [sg] in *. rewrite E1, E2, E3, E4.
  assert (J : is_largest (fun v => (((False \/ at_face AX true v) \/ at_face AX false v) \/ at_face AY true v) \/ at_face AY false v) (fmax (fmax (fmax (fmax 0 xp) xm) yp) ym)).
  { exact (join _ _ _ _ (join _ _ _ _ (join _ _ _ _ (join _ _ _ _ is_largest_none L1) L2) L3) L4). }
  assert (MEM : forall v e, In v (flat_map (fun up => map (fun y => contrast (rho x) (rho y)) (filter (touches g b e up x) cells)) [true; false]) <-> at_face e true v \/ at_face e false v).
  { intros v e. cbn [flat_map]. rewrite app_nil_r, in_app_iff, !in_map_iff. unfold at_face.
    assert (K : forall up, (exists y, contrast (rho x) (rho y) = v /\ In y (filter (touches g b e up x) cells)) <-> exists y, In y cells /\ touches g b e up x y = true /\ v = contrast (rho x) (rho y)).
    { intros up. split; intros (y & H); exists y; rewrite filter_In in *; intuition congruence. }
    rewrite !K. reflexivity. }
  destruct (g3d g) eqn:D3.
  - assert (FZ : flat g AZ = false) by (unfold flat; rewrite D3; reflexivity).
    destruct (grad_value AZ true FZ) as (zp & E5 & L5). destruct (grad_value AZ false FZ) as (zm & E6 & L6). cbn [sg] in *. rewrite E5, E6. do 2 f_equal.
    eapply is_largest_unique; [|exact (join _ _ _ _ (join _ _ _ _ J L5) L6)|apply largest_spec].
    intros v. unfold axes_of. rewrite D3. change [AX; AY; AZ] with ([AX] ++ [AY] ++ [AZ]). rewrite !flat_map_app, !in_app_iff.
    assert (ONE : forall e, In v (flat_map (fun e => flat_map (fun up => map (fun y => contrast (rho x) (rho y)) (filter (touches g b e up x) cells)) [true; false]) [e]) <-> at_face e true v \/ at_face e false v).
    { intros e. rewrite <- MEM. cbn [flat_map]. rewrite !app_nil_r. reflexivity. }
    rewrite !ONE. tauto.
  - do 2 f_equal. eapply is_largest_unique; [|exact J|apply largest_spec].
    intros v. unfold axes_of. rewrite D3. change [AX; AY] with ([AX] ++ [AY]). rewrite !flat_map_app, !in_app_iff.
    assert (ONE : forall e, In v (flat_map (fun e => flat_map (fun up => map (fun y => contrast (rho x) (rho y)) (filter (touches g b e up x) cells)) [true; false]) [e]) <-> at_face e true v \/ at_face e false v).
    { intros e. rewrite <- MEM. cbn [flat_map]. rewrite !app_nil_r. reflexivity. }
    rewrite !ONE. tauto.
Qed.
End Grad.
End Cell.
