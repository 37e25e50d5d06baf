(** The gravity solver: it solves the discrete Poisson equation (C77), with a symmetric, definite
    and conservative matrix (C78), to the same result whatever the partition (C79), and exerts
    no net force on the gas where the mesh has a single level (C80). *)
From Coq Require Import QArith Qcanon Permutation.
From Verif Require Import Base OctreeSpec OctreeGeom OctreeModel FindNeighbors MeshSpec HistorySpec GhostExchange
  LookupModel CellModel CellSpec CellProofs CellProps RemapModel RemapSpec RemapProofs RemapProps HydroModel HydroSpec HydroProps ConserveSpec BlockGhost ConserveFaces ConserveProofs ParticleProofs
  OctreeProps HistoryProofs LookupProps CGTheory GravitySpec GravityModel GravityFaces GravityProofs GravityOp GravityLoop GravityForce.
Open Scope Z_scope.

(** What every theorem assumes of a run in three dimensions. *)
Definition gravity_run (q : gconf) (n : nat) (M : mesh) : Prop :=
  good_setup (q_g q) n /\ reachable (q_g q) n M /\ g3d (q_g q) = true /\ block_ok (q_g q) (q_b q) /\ (forall a, 0 < q_ext q a)%Qc.
Local Notation cells q M := (all_cells (q_b q) (leaves M)).
Definition lap (q : gconf) (M : mesh) := laplacian (q_g q) (q_b q) (q_ext q) (q_absorbing q) (cells q M).
Definition acc (q : gconf) (M : mesh) := acceleration (q_g q) (q_b q) (q_ext q) (q_absorbing q) (cells q M).
Definition source (q : gconf) (M : mesh) := poisson_source (q_g q) (q_b q) (q_ext q) (cells q M) (q_aexp q) (q_4piG q).
(** In a cosmological run the density is divided by its mean. *)
Definition mean_usable (q : gconf) (M : mesh) (rho : oct -> Qc) : Prop :=
  q_aexp q = None \/ mean (q_g q) (q_b q) (q_ext q) (cells q M) rho <> 0%Qc.

(** * C77 *)
Theorem C77_poisson q n M rho phi0 junk fuel :
  gravity_run q n M -> mean_usable q M rho -> length junk = length M -> (length (cells q M) <= fuel)%nat ->
  exists k phi,
    update_gravity_field fuel q M junk (field_arrays (q_b q) M rho) (field_arrays (q_b q) M phi0) =
      Some (k, owned_values (q_b q) M (fun x => (phi x, (acc q M phi x AX, acc q M phi x AY, acc q M phi x AZ)))) /\
    (k <= length (cells q M))%nat /\
    (csum (map (fun x => (lap q M phi x - source q M rho x) * (lap q M phi x - source q M rho x)) (cells q M)) <=
      q_eps q * q_eps q * csum (map (fun x => source q M rho x * source q M rho x) (cells q M)))%Qc.
Proof.
  intros (GS & RC & D3 & BO & EXT) MZ LJ F. pose proof (reachable_ok _ n M GS RC) as OK.
  destruct (solve q D3 (proj1 GS) M OK BO EXT rho phi0 MZ junk fuel LJ F) as (k & E & B1 & _ & _ & B2).
  exists k, (s_phi (st (cells q M) (diag q) (opA q M) (srcb q M rho) phi0 k)). split; [exact E|]. split; [exact B1|].
  replace (csum (map (fun x => source q M rho x * source q M rho x)%Qc (cells q M))) with (norm2 (cells q M) (srcb q M rho))
    by (apply csum_ext; intros x _; unfold srcb, source; ring).
  match type of B2 with (?r <= _)%Qc => match goal with |- (?l <= _)%Qc => replace l with r end end; [exact B2|].
  apply csum_ext. intros x HX. rewrite (residual_is q D3 M OK BO EXT rho phi0 k x HX). reflexivity.
Qed.

(** * C78 *)
(** [A u x] is what the product by the matrix of the solver gives at cell [x] when every rank
    holds the field [u]. *)
Definition is_matrix (q : gconf) (M : mesh) (A : (oct -> Qc) -> oct -> Qc) : Prop :=
  forall u R i B p, In R M -> nth_error (loc R) i = Some B -> in_block (q_b q) p ->
    matprod q (loc R ++ gho R) (map u (all_cells (q_b q) (loc R ++ gho R))) (mkCell i p (q_b q) LOCAL_TO_BLOCK) (cell_size (q_g q) (q_b q) (q_ext q) B)
    = Some (A u (cell_of (q_b q) B p)).
(** Some face of the mesh is on a boundary kept at zero potential. *)
Definition grounded (q : gconf) (M : mesh) : Prop :=
  exists x e up, In x (cells q M) /\ at_boundary (q_g q) (q_b q) e up x = true /\ q_absorbing q e = false.

Lemma matrix_pin q n M A : gravity_run q n M -> is_matrix q M A -> forall u x, In x (cells q M) -> A u x = opA q M u x.
Proof.
  intros (GS & RC & D3 & BO & EXT) H u x HX. pose proof (reachable_ok _ n M GS RC) as OK. apply cells_in in HX. destruct HX as (B & p & HB & IB & ->).
  unfold leaves in HB. apply in_concat in HB. destruct HB as (l & Hl & HB). apply in_map_iff in Hl. destruct Hl as (R & <- & HR). apply In_nth_error in HB. destruct HB as (i & HB).
  pose proof (H u R i B p HR HB IB) as E. rewrite (matprod_eq q D3 (proj1 GS) M OK BO EXT R HR i B HB p IB u) in E. injection E as E. symmetry. exact E.
Qed.
Theorem C78_matrix_exists q n M : gravity_run q n M -> is_matrix q M (fun u x => 0 - lap q M u x)%Qc.
Proof.
  intros (GS & RC & D3 & BO & EXT) u R i B p HR HB IB. pose proof (reachable_ok _ n M GS RC) as OK. exact (matprod_eq q D3 (proj1 GS) M OK BO EXT R HR i B HB p IB u).
Qed.
Theorem C78_symmetric q n M A u v : gravity_run q n M -> is_matrix q M A -> inner (cells q M) u (A v) = inner (cells q M) v (A u).
Proof.
  intros GR H. pose proof (matrix_pin q n M A GR H) as P. destruct GR as (GS & RC & D3 & BO & EXT). pose proof (reachable_ok _ n M GS RC) as OK.
  pose proof (opA_sym q D3 M OK BO EXT u v) as K. unfold dot in K. unfold inner.
  rewrite (csum_ext (fun x => u x * A v x)%Qc (fun x => u x * opA q M v x)%Qc) by (intros x HX; rewrite (P v x HX); reflexivity).
  rewrite (csum_ext (fun x => v x * A u x)%Qc (fun x => v x * opA q M u x)%Qc) by (intros x HX; rewrite (P u x HX); reflexivity). exact K.
Qed.
Theorem C78_positive q n M A u : gravity_run q n M -> is_matrix q M A -> (0 <= inner (cells q M) u (A u))%Qc.
Proof.
  intros GR H. pose proof (matrix_pin q n M A GR H) as P. destruct GR as (GS & RC & D3 & BO & EXT). pose proof (reachable_ok _ n M GS RC) as OK.
  pose proof (opA_psd q D3 (proj1 GS) M OK BO EXT u) as K. unfold dot in K. unfold inner.
  rewrite (csum_ext (fun x => u x * A u x)%Qc (fun x => u x * opA q M u x)%Qc) by (intros x HX; rewrite (P u x HX); reflexivity). exact K.
Qed.
Theorem C78_conservative q n M A u : gravity_run q n M -> is_matrix q M A -> ~ grounded q M -> csum (map (A u) (cells q M)) = 0%Qc.
Proof.
  intros GR H NG. pose proof (matrix_pin q n M A GR H) as P. destruct GR as (GS & RC & D3 & BO & EXT). pose proof (reachable_ok _ n M GS RC) as OK.
  rewrite (csum_ext (A u) (gop (cells q M) (weight (q_g q) (q_b q) (q_ext q)) (outer (q_g q) (q_b q) (q_ext q) (q_absorbing q)) u)).
  - apply gop_total; [intros x y _ _; apply weight_sym|]. intros x HX. unfold outer. rewrite (csum_ext _ (fun _ => 0%Qc) faces); [apply csum_zero|].
    intros (e, up) _. cbn [fst snd]. destruct (at_boundary (q_g q) (q_b q) e up x) eqn:AB; [|reflexivity]. destruct (q_absorbing q e) eqn:QA; [reflexivity|].
    exfalso. apply NG. exists x, e, up. auto.
  - intros x HX. rewrite (P u x HX). apply (opA_graph q D3 M OK BO EXT u x HX).
Qed.
(** The matrix determines the potential: up to a constant, or entirely if grounded. *)
Theorem C78_unique q n M A u v : gravity_run q n M -> is_matrix q M A ->
  (forall x, In x (cells q M) -> A u x = A v x) ->
  (exists c, forall x, In x (cells q M) -> u x = (v x + c)%Qc) /\
  (grounded q M -> forall x, In x (cells q M) -> u x = v x).
Proof.
  intros GR H EQ. pose proof (matrix_pin q n M A GR H) as P. destruct GR as (GS & RC & D3 & BO & EXT). pose proof (reachable_ok _ n M GS RC) as OK. pose proof (proj1 GS) as WF.
  set (w := fun x => (u x + (0 - 1) * v x)%Qc).
  assert (ZW : forall x, In x (cells q M) -> opA q M w x = 0%Qc).
  { intros x HX. unfold w. rewrite (opA_lin q D3 M OK BO EXT u v (0 - 1)%Qc x HX), <- (P u x HX), <- (P v x HX), (EQ x HX). ring. }
  assert (ZD : dot (cells q M) w (opA q M w) = 0%Qc).
  { unfold dot. rewrite (csum_ext _ (fun _ => 0%Qc)); [apply csum_zero|]. intros x HX. rewrite (ZW x HX). ring. }
  pose proof (opA_null q D3 WF M OK BO EXT w ZD) as CST.
  assert (UV : forall x, u x = (v x + w x)%Qc) by (intros x; unfold w; ring).
  split.
  - destruct (cells q M) as [|x0 l] eqn:E; [exists 0%Qc; intros x []|]. exists (w x0). intros x HX. rewrite (UV x), (CST x x0 HX (or_introl eq_refl)). reflexivity.
  - intros (x0 & e & up & HX0 & AB & QA) x HX. rewrite (UV x), (CST x x0 HX HX0).
    assert (Z0 : w x0 = 0%Qc); [|rewrite Z0; ring].
    rewrite (opA_dot q D3 M OK BO EXT w w) in ZD. apply (gop_null_d (cells q M) (weight (q_g q) (q_b q) (q_ext q)) (outer (q_g q) (q_b q) (q_ext q) (q_absorbing q)) (fun x y _ _ => weight_sym _ _ _ x y)
       (weight_nonneg (q_g q) D3 WF M OK (q_b q) BO (q_ext q) EXT (q_absorbing q)) (outer_nonneg (q_g q) D3 WF M OK (q_b q) BO (q_ext q) EXT (q_absorbing q)) w ZD x0 HX0).
    pose proof (cell_lev (q_g q) M OK (q_b q) x0 HX0) as LX.
    intros K. assert (NN : forall f : axis * bool, In f faces -> (0 <= (if at_boundary (q_g q) (q_b q) (fst f) (snd f) x0 then if q_absorbing q (fst f) then 0 else face (q_g q) (q_b q) (q_ext q) (fst f) (lev x0) / GravitySpec.side (q_g q) (q_b q) (q_ext q) (lev x0) (fst f) else 0))%Qc).
    { intros f _. destruct (at_boundary (q_g q) (q_b q) (fst f) (snd f) x0); [|apply Qcle_refl]. destruct (q_absorbing q (fst f)); [apply Qcle_refl|].
      apply Qclt_le_weak, Qcdiv_lt_0; [apply (face_pos _ WF _ BO _ EXT); lia|apply (side_pos _ WF _ BO _ EXT); lia]. }
    pose proof (csum_nonneg_zero _ faces NN K (e, up) (in_faces e up)) as K'. cbn [fst snd] in K'. rewrite AB, QA in K'.
    refine (Qc_pos_nz _ _ K'). apply Qcdiv_lt_0; [apply (face_pos _ WF _ BO _ EXT); lia|apply (side_pos _ WF _ BO _ EXT); lia].
Qed.

(** * C79 *)
Lemma filter_permutation {X} (f : X -> bool) l l' : Permutation l l' -> Permutation (filter f l) (filter f l').
Proof.
  induction 1 as [|y l l' P IH|y z l|l l' l'' P1 IH1 P2 IH2]; cbn [filter].
  - constructor.
  - destruct (f y); [apply perm_skip; exact IH|exact IH].
  - destruct (f y), (f z); try apply Permutation_refl. apply perm_swap.
  - apply Permutation_trans with (filter f l'); assumption.
Qed.
Section Perm.
Context (g : geom) (b : axis -> Z) (ext : axis -> Qc) (ab : axis -> bool) (C C' : list oct) (PM : Permutation C C').
Lemma flux_perm u v x e up : (forall y, u y = v y) -> face_flux g b ext ab C u x e up = face_flux g b ext ab C' v x e up.
Proof.
  intros H. unfold face_flux. rewrite (H x). destruct (at_boundary g b e up x); [reflexivity|].
  rewrite (csum_ext _ (fun y => common_face g b ext e x y * (v y - v x) / centre_distance g b ext e x y)%Qc) by (intros y _; rewrite (H y); reflexivity).
  apply csum_perm, Permutation_map. apply filter_permutation, PM.
Qed.
Lemma lap_perm u v x : (forall y, u y = v y) -> laplacian g b ext ab C u x = laplacian g b ext ab C' v x.
Proof. intros H. unfold laplacian. apply csum_ext. intros f _. apply flux_perm, H. Qed.
Lemma acc_perm u v x e : (forall y, u y = v y) -> acceleration g b ext ab C u x e = acceleration g b ext ab C' v x e.
Proof. intros H. unfold acceleration, slope. rewrite !(flux_perm u v x e _ H). reflexivity. Qed.
Lemma source_perm aexp pg rho x : poisson_source g b ext C aexp pg rho x = poisson_source g b ext C' aexp pg rho x.
Proof. unfold poisson_source, mean. rewrite (csum_perm _ _ (Permutation_map _ PM)). reflexivity. Qed.
Lemma dot_perm (u u' v v' : oct -> Qc) : (forall x, u x = u' x) -> (forall x, v x = v' x) -> dot C u v = dot C' u' v'.
Proof. intros H K. unfold dot. rewrite (csum_ext _ (fun x => u' x * v' x)%Qc) by (intros x _; rewrite H, K; reflexivity). apply csum_perm, Permutation_map, PM. Qed.
End Perm.
Theorem C79_partition q n n' M M' rho phi0 junk junk' fuel fuel' :
  gravity_run q n M -> gravity_run q n' M' -> (forall B, In B (leaves M) <-> In B (leaves M')) -> mean_usable q M rho ->
  length junk = length M -> length junk' = length M' -> (length (cells q M) <= fuel)%nat -> (length (cells q M') <= fuel')%nat ->
  exists k F,
    update_gravity_field fuel q M junk (field_arrays (q_b q) M rho) (field_arrays (q_b q) M phi0) = Some (k, owned_values (q_b q) M F) /\
    update_gravity_field fuel' q M' junk' (field_arrays (q_b q) M' rho) (field_arrays (q_b q) M' phi0) = Some (k, owned_values (q_b q) M' F).
Proof.
  intros (GS & RC & D3 & BO & EXT) (GS' & RC' & _) SAME MZ LJ LJ' F F'.
  pose proof (reachable_ok _ n M GS RC) as OK. pose proof (reachable_ok _ n' M' GS' RC') as OK'. pose proof (proj1 GS) as WF.
  assert (PM : Permutation (cells q M) (cells q M')).
  { apply NoDup_Permutation; [apply (cells_NoDup (q_g q) M OK (q_b q) BO)|apply (cells_NoDup (q_g q) M' OK' (q_b q) BO)|].
    intros x. rewrite !cells_in. split; intros (A & p & HA & K); exists A, p; (split; [apply SAME; exact HA|exact K]). }
  assert (MZ' : mean_usable q M' rho).
  { destruct MZ as [MZ|MZ]; [left; exact MZ|right]. intros K. apply MZ. rewrite <- K. unfold mean. rewrite (csum_perm _ _ (Permutation_map _ PM)). reflexivity. }
  destruct (solve q D3 WF M OK BO EXT rho phi0 MZ junk fuel LJ F) as (k & E & _ & N1 & G1 & _).
  destruct (solve q D3 WF M' OK' BO EXT rho phi0 MZ' junk' fuel' LJ' F') as (k' & E' & _ & N1' & G1' & _).
  set (T := st (cells q M) (diag q) (opA q M) (srcb q M rho) phi0) in *. set (T' := st (cells q M') (diag q) (opA q M') (srcb q M' rho) phi0) in *.
  assert (EA : forall u v x, (forall y, u y = v y) -> opA q M u x = opA q M' v x).
  { intros u v x H. unfold opA. rewrite (lap_perm _ _ _ _ _ _ PM u v x H). reflexivity. }
  assert (ES : forall x, srcb q M rho x = srcb q M' rho x).
  { intros x. unfold srcb. rewrite (source_perm _ _ _ _ _ PM). reflexivity. }
  assert (ST : forall j, (forall x, s_phi (T j) x = s_phi (T' j) x) /\ (forall x, s_r (T j) x = s_r (T' j) x) /\ (forall x, s_p (T j) x = s_p (T' j) x) /\ s_rz (T j) = s_rz (T' j)).
  { assert (PR : forall u v : oct -> Qc, (forall x, u x = v x) -> forall x, prec (diag q) u x = prec (diag q) v x) by (intros u v H x; unfold prec; rewrite H; reflexivity).
    induction j as [|j (I1 & I2 & I3 & I4)].
    - assert (R0 : forall x, s_r (T 0%nat) x = s_r (T' 0%nat) x) by (intros x; unfold T, T'; cbn [st start s_r]; rewrite ES, (EA phi0 phi0 x (fun _ => eq_refl)); reflexivity).
      split; [reflexivity|]. split; [exact R0|]. split; [exact (PR _ _ R0)|]. exact (dot_perm _ _ PM _ _ _ _ R0 (PR _ _ R0)).
    - assert (AL : (s_rz (T j) / dot (cells q M) (s_p (T j)) (opA q M (s_p (T j))))%Qc = (s_rz (T' j) / dot (cells q M') (s_p (T' j)) (opA q M' (s_p (T' j))))%Qc).
      { rewrite I4, (dot_perm _ _ PM _ _ _ _ I3 (fun x => EA _ _ x I3)). reflexivity. }
      assert (RS : forall x, s_r (T (S j)) x = s_r (T' (S j)) x).
      { intros x. unfold T, T'. cbn [st CGTheory.step s_r]. fold (T j) (T' j). rewrite AL, I2, (EA _ _ x I3). reflexivity. }
      assert (RZ : s_rz (T (S j)) = s_rz (T' (S j))) by exact (dot_perm _ _ PM _ _ _ _ RS (PR _ _ RS)).
      split; [|split; [exact RS|split; [|exact RZ]]].
      + intros x. unfold T, T'. cbn [st CGTheory.step s_phi]. fold (T j) (T' j). rewrite AL, I1, I3. reflexivity.
      + intros x. change (s_p (T (S j)) x) with (prec (diag q) (s_r (T (S j))) x + s_rz (T (S j)) / s_rz (T j) * s_p (T j) x)%Qc.
        change (s_p (T' (S j)) x) with (prec (diag q) (s_r (T' (S j))) x + s_rz (T' (S j)) / s_rz (T' j) * s_p (T' j) x)%Qc.
        rewrite RZ, I4, I3, (PR _ _ RS). reflexivity. }
  assert (GO : forall j, goes_on q M rho phi0 j = goes_on q M' rho phi0 j).
  { intros j. unfold goes_on, norm2. fold (T j) (T' j). destruct (ST j) as (_ & SR & _).
    rewrite (dot_perm _ _ PM _ _ _ _ SR SR), (dot_perm _ _ PM _ _ _ _ ES ES). reflexivity. }
  assert (KK : k = k').
  { destruct (Nat.lt_trichotomy k k') as [H|[H|H]]; [|exact H|].
    - specialize (G1' k H). rewrite <- GO in G1'. congruence.
    - specialize (G1 k' H). rewrite GO in G1. congruence. }
  subst k'. exists k, (answer q M rho phi0 k). split; [exact E|]. rewrite E'.
  replace (owned_values (q_b q) M' (answer q M' rho phi0 k)) with (owned_values (q_b q) M' (answer q M rho phi0 k)); [reflexivity|].
  unfold owned_values. apply map_ext. intros R. apply map_ext. intros x.
  destruct (ST k) as (SP & _). unfold answer. fold (T k) (T' k).
  rewrite !(acc_perm _ _ _ _ _ _ PM (s_phi (T k)) (s_phi (T' k)) x _ SP), SP. reflexivity.
Qed.

(** * C80 *)
(** With an exact solve ([q_eps q = 0]) on a periodic mesh, the gravitational forces on the gas
    add up to zero, for the meshes and densities [ok]. *)
Definition no_net_force (ok : gconf -> mesh -> (oct -> Qc) -> Prop) : Prop :=
  forall q n M rho phi0 junk fuel k phi ax ay az,
  gravity_run q n M -> mean_usable q M rho -> length junk = length M -> (length (cells q M) <= fuel)%nat ->
  (forall a, per (q_g q) a = true) -> q_eps q = 0%Qc -> (match q_aexp q with None => q_4piG q | Some a => a end <> 0)%Qc -> ok q M rho ->
  update_gravity_field fuel q M junk (field_arrays (q_b q) M rho) (field_arrays (q_b q) M phi0) =
    Some (k, owned_values (q_b q) M (fun x => (phi x, (ax x, ay x, az x)))) ->
  let force f := csum (map (fun x => volume (q_g q) (q_b q) (q_ext q) x * rho x * f x)%Qc (cells q M)) in
  force ax = 0%Qc /\ force ay = 0%Qc /\ force az = 0%Qc.
Definition one_level (M : mesh) : Prop := forall A B, In A (leaves M) -> In B (leaves M) -> lev A = lev B.

Lemma owned_inj {X} b M (D D' : oct -> X) : owned_values b M D = owned_values b M D' -> forall x, In x (all_cells b (leaves M)) -> D x = D' x.
Proof.
  unfold owned_values, leaves. induction M as [|R M IH]; intros E x HX; [destruct HX|]. cbn [map concat] in *. injection E as E1 E2. rewrite all_cells_app in HX. apply in_app_iff in HX.
  destruct HX as [HX|HX]; [|exact (IH E2 x HX)]. clear - E1 HX. induction (all_cells b (loc R)) as [|y l IHl]; [destruct HX|]. cbn [map] in E1. injection E1 as E1 E2.
  destruct HX as [->|HX]; [exact E1|exact (IHl E2 HX)].
Qed.
Theorem C80_no_net_force_partial : no_net_force (fun _ M _ => one_level M).
Proof.
  intros q n M rho phi0 junk fuel k phi ax ay az GR MZ LJ F PER EPS CZ OL E.
  destruct (C77_poisson q n M rho phi0 junk fuel GR MZ LJ F) as (k' & phi' & E' & _ & RES).
  destruct GR as (GS & RC & D3 & BO & EXT). pose proof (reachable_ok _ n M GS RC) as OK. pose proof (proj1 GS) as WF.
  rewrite E in E'. injection E' as _ E'. pose proof (owned_inj _ _ _ _ E') as PT. clear E E'.
  assert (SOL : forall x, In x (cells q M) -> lap q M phi' x = source q M rho x).
  { intros x HX. rewrite EPS in RES. rewrite !Qcmult_0_l in RES.
    assert (Z : csum (map (fun x => (lap q M phi' x - source q M rho x) * (lap q M phi' x - source q M rho x))%Qc (cells q M)) = 0%Qc) by (apply Qcle_antisym; [exact RES|apply csum_nonneg; intros; apply sq_nonneg]).
    pose proof (sq_zero _ (csum_nonneg_zero _ _ (fun y _ => sq_nonneg _) Z x HX)) as K. cbn beta in K.
    replace (lap q M phi' x) with (source q M rho x + (lap q M phi' x - source q M rho x))%Qc by ring. rewrite K. ring. }
  assert (UNI : exists L, forall A, In A (leaves M) -> lev A = L).
  { destruct (leaves M) as [|A0 l] eqn:EL; [exists 0; intros A []|]. exists (lev A0). intros A HA. apply OL; rewrite EL; [exact HA|left; reflexivity]. }
  destruct UNI as (L & UNI).
  set (vl := (GravitySpec.side (q_g q) (q_b q) (q_ext q) L AX * GravitySpec.side (q_g q) (q_b q) (q_ext q) L AY * GravitySpec.side (q_g q) (q_b q) (q_ext q) L AZ)%Qc).
  assert (G : forall f e, (forall x, In x (cells q M) -> f x = acc q M phi' x e) -> csum (map (fun x => volume (q_g q) (q_b q) (q_ext q) x * rho x * f x)%Qc (cells q M)) = 0%Qc).
  { intros f e Hf. set (m := mean (q_g q) (q_b q) (q_ext q) (cells q M) rho).
    assert (VR : exists c1 c2, forall x, In x (cells q M) -> (volume (q_g q) (q_b q) (q_ext q) x * rho x)%Qc = (c1 * lap q M phi' x + c2)%Qc).
    { unfold source, poisson_source in SOL. fold m in SOL. destruct (q_aexp q) as [a|] eqn:QA.
      - assert (MN : m <> 0%Qc) by (destruct MZ as [K|K]; [congruence|exact K]). exists (m / (Q2Qc 6 * a))%Qc, (m * vl)%Qc. intros x HX.
        rewrite (SOL x HX), (volume_uniform (q_g q) M (q_b q) (q_ext q) L UNI x HX). fold vl. field. repeat split; try assumption. discriminate.
      - exists (1 / q_4piG q)%Qc, (m * vl)%Qc. intros x HX. rewrite (SOL x HX), (volume_uniform (q_g q) M (q_b q) (q_ext q) L UNI x HX). fold vl. field. exact CZ. }
    destruct VR as (c1 & c2 & VR).
    rewrite (csum_ext _ (fun x => c1 * (lap q M phi' x * acc q M phi' x e) + c2 * acc q M phi' x e)%Qc) by (intros x HX; rewrite (VR x HX), (Hf x HX); ring).
    rewrite csum_plus, !csum_scale. unfold lap, acc.
    rewrite (self_force (q_g q) D3 WF M OK (q_b q) BO (q_ext q) EXT (q_absorbing q) PER L UNI phi' e), (total_acceleration (q_g q) D3 WF M OK (q_b q) BO (q_ext q) EXT (q_absorbing q) PER L UNI phi' e). ring. }
  split; [|split]; [apply (G ax AX)|apply (G ay AY)|apply (G az AZ)]; intros x HX; specialize (PT x HX); injection PT as _ P1 P2 P3; assumption.
Qed.

From Verif Require Import CloudProps.
(** * Examples *)
(** The mesh of CloudProps (eight octants, one of them refined, on two ranks) with one cell per
    block. *)
Definition gr_b : axis -> Z := mkoff 1 1 1.
Definition gr_q (eps : Qc) : gconf := mkGconf pt_g gr_b (fun _ => 1%Qc) (fun _ => false) None 1%Qc eps.
Lemma gr_block : block_ok pt_g gr_b. Proof. intros []; cbn; split; try discriminate; lia. Qed.
Example gr_run eps : gravity_run (gr_q eps) 2 pt_M.
Proof. split; [exact pt_setup|]. split; [exact pt_reach|]. split; [reflexivity|]. split; [exact gr_block|]. reflexivity. Qed.
Definition gr_rho (x : oct) : Qc := frac (1 + cx x + 2 * cz x) (Z.to_pos (1 + cy x)).
(** Two iterations reach a tenth of the source. *)
Definition gr_zero (x : oct) : Qc := 0%Qc.
Definition gr_answer : option (nat * list (list (Qc * (Qc * Qc * Qc)))) :=
  update_gravity_field 15 (gr_q (frac 1 10)) pt_M [[]; []] (field_arrays gr_b pt_M gr_rho) (field_arrays gr_b pt_M gr_zero).
Definition shape (o : option (nat * list (list (Qc * (Qc * Qc * Qc))))) : option (nat * list nat) :=
  match o with Some (k, out) => Some (k, map (fun l => length l) out) | None => None end.
Lemma gr_cells : length (all_cells gr_b (leaves pt_M)) = 15%nat. Proof. vm_compute. reflexivity. Qed.
Example C77_example : mean_usable (gr_q (frac 1 10)) pt_M gr_rho /\ shape gr_answer = Some (2, [11; 4])%nat.
Proof. split; [left; reflexivity|]. vm_compute. reflexivity. Qed.

(** A mesh with walls. *)
Definition gw_g : geom := mkGeom true 1 2 2 2 2 false true true.
Definition gw_M : mesh := match private_init id_order gw_g 2 with Some M => M | None => [] end.
Definition gw_q (absorbing : bool) : gconf := mkGconf gw_g gr_b (fun _ => 1%Qc) (fun _ => absorbing) None 1%Qc 0%Qc.
Example gw_run ab : gravity_run (gw_q ab) 2 gw_M.
Proof.
  split; [split; [apply wf_geom_check; reflexivity|cbn [gw_g gw_q q_g lmin gsx gsy gsz]; lia]|]. split; [apply (reach_init gw_g 2 id_order); [exact id_order_ok|vm_compute; reflexivity]|].
  split; [reflexivity|]. split; [intros []; cbn; split; try discriminate; lia|reflexivity].
Qed.
Lemma grounded_check q M x e up : existsb (oct_eqb x) (cells q M) && at_boundary (q_g q) (q_b q) e up x && negb (q_absorbing q e) = true -> grounded q M.
Proof.
  intros H. apply andb_true_iff in H. destruct H as (H & K). apply andb_true_iff in H. destruct H as (H & J). apply existsb_exists in H. destruct H as (y & HY & E).
  apply oct_eqb_eq in E. subst y. exists x, e, up. split; [exact HY|]. split; [exact J|]. destruct (q_absorbing q e); [discriminate K|reflexivity].
Qed.
Example C78_example_grounded : grounded (gw_q false) gw_M.
Proof. apply (grounded_check _ _ (mkOct 1 0 0 0) AX false). vm_compute. reflexivity. Qed.
Lemma insulated_check q M : (forall e, q_absorbing q e = true) -> ~ grounded q M.
Proof. intros H (x & e & up & _ & _ & K). rewrite H in K. discriminate K. Qed.
Lemma periodic_check q M : (forall e, per (q_g q) e = true) -> ~ grounded q M.
Proof. intros H (x & e & up & _ & K & _). unfold at_boundary in K. rewrite H in K. discriminate K. Qed.
Example C78_example_insulated : ~ grounded (gw_q true) gw_M. Proof. apply insulated_check. intros []; reflexivity. Qed.
Example C78_example_periodic : ~ grounded (gr_q 0) pt_M. Proof. apply periodic_check. intros []; reflexivity. Qed.
(** The matrix is not the zero matrix. *)
Example C78_example_value : this (lap (gw_q true) gw_M (fun x => if cx x =? 0 then 0%Qc else 1%Qc) (mkOct 1 0 0 0)) = (1 # 2)%Q.
Proof. vm_compute. reflexivity. Qed.

(** The same octants on one rank. *)
Definition gr_M1_0 : mesh := match private_init id_order pt_g 1 with Some M => M | None => [] end.
Definition gr_M1 : mesh := match adapt 20 id_order pt_g gr_M1_0 (map (map pt_refine) (map loc gr_M1_0)) with Some M => M | None => [] end.
Example C79_example : gravity_run (gr_q 0) 1 gr_M1 /\ (forall B, In B (leaves pt_M) <-> In B (leaves gr_M1)) /\ length pt_M = 2%nat /\ length gr_M1 = 1%nat.
Proof.
  split.
  - split; [split; [apply wf_geom_check; reflexivity|cbn [pt_g gr_q q_g lmin gsx gsy gsz]; lia]|]. split; [|split; [reflexivity|split; [exact gr_block|reflexivity]]].
    apply (reach_adapt pt_g 1 id_order 20 gr_M1_0 (map (map pt_refine) (map loc gr_M1_0))); [|exact id_order_ok| |vm_compute; reflexivity].
    + apply (reach_init pt_g 1 id_order); [exact id_order_ok|vm_compute; reflexivity].
    + apply good_markers_of, good_request_check. vm_compute. reflexivity.
  - split; [|split; vm_compute; reflexivity]. assert (leaves pt_M = leaves gr_M1) as -> by (vm_compute; reflexivity). intros B. split; exact (fun K => K).
Qed.

Example C80_example : gravity_run (gr_q 0) 2 pt_M0 /\ one_level pt_M0.
Proof.
  split.
  - split; [exact pt_setup|]. split; [apply (reach_init pt_g 2 id_order); [exact id_order_ok|vm_compute; reflexivity]|]. split; [reflexivity|]. split; [exact gr_block|reflexivity].
  - assert (K : forallb (fun A => lev A =? 1) (leaves pt_M0) = true) by (vm_compute; reflexivity). rewrite forallb_forall in K.
    intros A B HA HB. rewrite (proj1 (Z.eqb_eq _ _) (K A HA)), (proj1 (Z.eqb_eq _ _) (K B HB)). reflexivity.
Qed.

(** * C80 fails where cells of two sizes meet *)
Lemma acc_shift q M u v c x e : (forall a, per (q_g q) a = true) -> (forall y, In y (cells q M) -> u y = (v y + c)%Qc) -> In x (cells q M) -> acc q M u x e = acc q M v x e.
Proof.
  intros PER H HX. unfold acc, acceleration, slope.
  assert (FX : forall up, face_flux (q_g q) (q_b q) (q_ext q) (q_absorbing q) (cells q M) u x e up = face_flux (q_g q) (q_b q) (q_ext q) (q_absorbing q) (cells q M) v x e up).
  { intros up. unfold face_flux, at_boundary. rewrite PER. cbn [negb andb]. apply ConserveProofs.csum_ext. intros y HY. apply filter_In in HY. destruct HY as (HY & _). rewrite (H y HY), (H x HX). unfold Qcdiv. ring. }
  rewrite !FX. reflexivity.
Qed.
(** The density of mean [m] whose potential is [u]. *)
Definition density_of (q : gconf) (M : mesh) (m : Qc) (u : oct -> Qc) (x : oct) : Qc := (lap q M u x / volume (q_g q) (q_b q) (q_ext q) x + m)%Qc.
Definition own_force (q : gconf) (M : mesh) (m : Qc) (u : oct -> Qc) (e : axis) : Qc :=
  csum (map (fun x => volume (q_g q) (q_b q) (q_ext q) x * density_of q M m u x * acc q M u x e)%Qc (cells q M)).
Lemma net_force_refuted (ok : gconf -> mesh -> (oct -> Qc) -> Prop) q n M m u e (junk : list array) : gravity_run q n M -> ok q M (density_of q M m u) -> (forall a, per (q_g q) a = true) -> q_aexp q = None -> q_4piG q = 1%Qc -> q_eps q = 0%Qc ->
  length junk = length M -> own_force q M m u e <> 0%Qc -> ~ no_net_force ok.
Proof.
  intros GR OKM PER AE G4 EPS LJ NZ H.
  set (rho := density_of q M m u) in *.
  assert (MU : mean_usable q M rho) by (left; exact AE).
  destruct (C77_poisson q n M rho u junk (length (cells q M)) GR MU LJ (le_n _)) as (k & phi & E & _ & RES).
  destruct (H q n M rho u junk (length (cells q M)) k phi (fun x => acc q M phi x AX) (fun x => acc q M phi x AY) (fun x => acc q M phi x AZ) GR MU LJ (le_n _) PER EPS) as (FX & FY & FZ);
    [rewrite AE, G4; discriminate|exact OKM|exact E|].
  pose proof (C78_matrix_exists q n M GR) as IM.
  assert (VN : forall x, In x (cells q M) -> volume (q_g q) (q_b q) (q_ext q) x <> 0%Qc).
  { intros x HX. destruct GR as (GS & RC & D3 & BO & EXT). pose proof (reachable_ok _ n M GS RC) as OK. pose proof (cell_lev (q_g q) M OK (q_b q) x HX) as LX.
    apply Qc_pos_nz. rewrite volume_side. pose proof (fun a => side_pos (q_g q) (proj1 GS) (q_b q) BO (q_ext q) EXT (lev x) a (proj1 LX)) as SP.
    apply Qcmult_lt_0; [apply Qcmult_lt_0|]; apply SP. }
  assert (GS0 : forall x, In x (cells q M) -> source q M rho x = lap q M u x).
  { intros x HX. unfold source, poisson_source. rewrite AE, G4.
    assert (MZ : mean (q_g q) (q_b q) (q_ext q) (cells q M) rho = m).
    { unfold mean. rewrite (ConserveProofs.csum_ext _ (fun x => (0 - 1) * (0 - lap q M u x) + m * volume (q_g q) (q_b q) (q_ext q) x)%Qc).
      - rewrite ConserveProofs.csum_plus, !ConserveProofs.csum_scale. pose proof (C78_conservative q n M _ u GR IM (periodic_check q M PER)) as CS. cbn beta in CS. rewrite CS.
        destruct GR as (GS & RC & D3 & BO & EXT). pose proof (reachable_ok _ n M GS RC) as OK. rewrite (volumes_total (q_g q) D3 (proj1 GS) M OK (q_b q) BO (q_ext q) EXT (q_absorbing q)).
        pose proof (fun a => Qc_pos_nz _ (EXT a)) as EN. field. repeat split; apply EN.
      - intros y HY. unfold rho, density_of. field. apply VN, HY. }
    rewrite MZ. unfold rho, density_of. field. apply VN, HX. }
  assert (SAME : forall x, In x (cells q M) -> (0 - lap q M phi x)%Qc = (0 - lap q M u x)%Qc).
  { intros x HX. rewrite EPS, !Qcmult_0_l in RES.
    assert (Z : csum (map (fun x => (lap q M phi x - source q M rho x) * (lap q M phi x - source q M rho x))%Qc (cells q M)) = 0%Qc)
      by (apply Qcle_antisym; [exact RES|apply csum_nonneg; intros; apply sq_nonneg]).
    pose proof (sq_zero _ (csum_nonneg_zero _ _ (fun y _ => sq_nonneg _) Z x HX)) as K. cbn beta in K. rewrite (GS0 x HX) in K.
    replace (lap q M phi x) with (lap q M u x + (lap q M phi x - lap q M u x))%Qc by ring. rewrite K. ring. }
  destruct (C78_unique q n M _ phi u GR IM SAME) as ((c & HC) & _).
  apply NZ. unfold own_force.
  rewrite (ConserveProofs.csum_ext _ (fun x => volume (q_g q) (q_b q) (q_ext q) x * rho x * acc q M phi x e)%Qc).
  - destruct e; [exact FX|exact FY|exact FZ].
  - intros x HX. rewrite (acc_shift q M phi u c x e PER HC HX). reflexivity.
Qed.

Definition gr_phi (x : oct) : Qc := if oct_eqb x (mkOct 2 0 0 0) then 1%Qc else 0%Qc.
Definition all_positive (q : gconf) (M : mesh) (rho : oct -> Qc) : Prop := forall x, In x (cells q M) -> (0 < rho x)%Qc.
Lemma all_positive_check q M rho : forallb (fun x => negb (Qle_bool (this (rho x)) 0)) (cells q M) = true -> all_positive q M rho.
Proof.
  intros H x HX. rewrite forallb_forall in H. specialize (H x HX). apply Qcnot_le_lt. intros K. apply Qle_bool_iff in K. change (this 0%Qc) with 0%Q in K. rewrite K in H. discriminate H.
Qed.
Lemma gr_force : own_force (gr_q 0) pt_M (zq 200) gr_phi AX <> 0%Qc.
Proof. intros H. apply (f_equal (fun x => Qeq_bool (this x) 0)) in H. vm_compute in H. discriminate H. Qed.
Lemma gr_positive : all_positive (gr_q 0) pt_M (density_of (gr_q 0) pt_M (zq 200) gr_phi).
Proof. apply all_positive_check. vm_compute. reflexivity. Qed.
Theorem C80_refuted_levels : ~ no_net_force all_positive.
Proof.
  apply (net_force_refuted all_positive (gr_q 0) 2 pt_M (zq 200) gr_phi AX [[]; []] (gr_run 0) gr_positive); [intros []; reflexivity|reflexivity|reflexivity|reflexivity| |exact gr_force].
  vm_compute. reflexivity.
Qed.

Print Assumptions C77_poisson.
Print Assumptions C78_matrix_exists.
Print Assumptions C78_symmetric.
Print Assumptions C78_positive.
Print Assumptions C78_conservative.
Print Assumptions C78_unique.
Print Assumptions C79_partition.
Print Assumptions C80_no_net_force_partial.
Print Assumptions C80_refuted_levels.
