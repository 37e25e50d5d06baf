(** The loop of the solver runs the conjugate gradient recurrences of CGTheory on the system
    given by the finite volume Laplacian. *)
From Coq Require Import QArith Qcanon.
From Verif Require Import Base OctreeSpec OctreeGeom OctreeModel FindNeighbors MeshSpec GhostExchange
  LookupModel CellModel CellSpec CellProofs CellProps RemapModel RemapSpec RemapProofs RemapProps HydroModel HydroSpec HydroProps ConserveSpec BlockGhost ConserveFaces ConserveProofs ParticleProofs
  CGTheory GravitySpec GravityModel GravityFaces GravityProofs GravityOp.
Open Scope Z_scope.

(** * Lists *)
Lemma mapM_map {X Y Z'} (f : Y -> option Z') (h : X -> Y) l : mapM f (map h l) = mapM (fun x => f (h x)) l.
Proof. induction l as [|x l IH]; [reflexivity|]. cbn. rewrite IH. reflexivity. Qed.
Lemma combine_self {X Y} (f : X -> Y) l : combine l (map f l) = map (fun x => (x, f x)) l.
Proof. induction l as [|x l IH]; [reflexivity|]. cbn. rewrite IH. reflexivity. Qed.
Lemma combine_maps {X Y Z'} (f : X -> Y) (h : X -> Z') l : combine (map f l) (map h l) = map (fun x => (f x, h x)) l.
Proof. induction l as [|x l IH]; [reflexivity|]. cbn. rewrite IH. reflexivity. Qed.
Lemma csum_concat ll : csum (concat ll) = csum (map csum ll).
Proof. induction ll as [|l ll IH]; [reflexivity|]. cbn [concat map csum fold_right]. rewrite csum_app, IH. reflexivity. Qed.
Lemma all_cells_leaves b (M : mesh) : all_cells b (leaves M) = concat (map (fun R => all_cells b (loc R)) M).
Proof.
  unfold leaves. induction M as [|R M IH]; [reflexivity|]. cbn [map concat]. rewrite all_cells_app, IH. reflexivity.
Qed.
Lemma sum_owned {X} b M (D : oct -> X) f : sum_of f (owned_values b M D) = csum (map (fun x => f (D x)) (all_cells b (leaves M))).
Proof.
  unfold sum_of, allreduce, owned_values. rewrite total_csum, all_cells_leaves, concat_map, csum_concat, !map_map. f_equal. apply map_ext. intros R.
  rewrite total_csum, map_map. reflexivity.
Qed.
Lemma sum_owned_id b M (D : oct -> Qc) : allreduce (owned_values b M D) = csum (map D (all_cells b (leaves M))).
Proof. transitivity (sum_of (fun v => v) (owned_values b M D)); [|exact (sum_owned b M D (fun v => v))]. unfold sum_of. f_equal. rewrite <- (map_id (owned_values b M D)) at 1. apply map_ext. intros l. rewrite map_id. reflexivity. Qed.

Section Ex.
Context (g : geom) (M : mesh) (OK : mesh_ok g M) (b : axis -> Z) (BO : block_ok g b).
(** The owned part of the array [U] of rank [R] holds the field [D]. *)
Definition owns {X} (D : oct -> X) (R : rank) (U : list X) : Prop := exists t, U = map D (all_cells b (loc R)) ++ t.
Lemma at_owned D R U i A p : owns D R U -> nth_error (loc R) i = Some A -> in_block b p -> at_cell U (mkCell i p b LOCAL_TO_BLOCK) = Some (D (cell_of b A p)).
Proof.
  intros (t & ->) H IB. unfold at_cell. cbn [is_valid c_status c_oct c_blk c_pos].
  pose proof (all_cells_nth b (b_pos g b BO) (loc R) i A p H IB) as E.
  rewrite nth_error_app1; [rewrite nth_error_map, E; reflexivity|]. rewrite map_length. apply nth_error_Some. congruence.
Qed.
Lemma owns_field {X} (D : oct -> X) R : owns D R (map D (all_cells b (loc R ++ gho R))).
Proof. exists (map D (all_cells b (gho R))). rewrite all_cells_app, map_app. reflexivity. Qed.
Lemma owns_put {X} (D : oct -> X) (f : X -> Qc) olds : length olds = length M ->
  Forall2 (owns (fun x => f (D x))) M (map (fun ov : array * list X => overwrite (fst ov) (map f (snd ov))) (combine olds (owned_values b M D))).
Proof.
  unfold owned_values. clear OK. revert olds. induction M as [|R M' IH]; intros [|o olds] L; try discriminate; [constructor|]. cbn [map combine]. constructor; [|apply IH; injection L as L; exact L].
  cbn [fst snd]. unfold overwrite. rewrite map_map. eexists. reflexivity.
Qed.
Definition blk {X} (D : oct -> X) (A : oct) : list X := map D (map (cell_of b A) (positions b)).
Lemma blk_len {X} (D : oct -> X) A : length (blk D A) = Z.to_nat (block_len b).
Proof. unfold blk. rewrite !map_length. apply positions_len, (b_pos g b BO). Qed.
Lemma blocks_eq {X} (D : oct -> X) R U : owns D R U -> blocks_of b R U = map (fun A => (A, blk D A)) (loc R).
Proof.
  intros (t & ->). unfold blocks_of. rewrite <- combine_self. f_equal.
  assert (G : forall Ls t, map (fun i => firstn (Z.to_nat (block_len b)) (skipn (Z.to_nat (block_len b) * i) (map D (all_cells b Ls) ++ t))) (seq 0 (length Ls)) = map (blk D) Ls).
  { clear t. induction Ls as [|A Ls IH]; intros t; [reflexivity|]. cbn [length seq map]. unfold all_cells. cbn [flat_map]. fold (all_cells b Ls). rewrite map_app.
    change (map D (map (cell_of b A) (positions b))) with (blk D A). rewrite <- app_assoc. f_equal.
    - rewrite Nat.mul_0_r. cbn [skipn]. rewrite firstn_app, blk_len, Nat.sub_diag. cbn [firstn]. rewrite app_nil_r. apply firstn_all2. rewrite blk_len. lia.
    - rewrite <- (IH t), <- seq_shift, map_map. apply map_ext. intros i. f_equal.
      rewrite skipn_app, blk_len. replace (Z.to_nat (block_len b) * S i - Z.to_nat (block_len b))%nat with (Z.to_nat (block_len b) * i)%nat by lia.
      rewrite skipn_all2; [reflexivity|]. rewrite blk_len. lia. }
  apply G.
Qed.
Lemma exchange_eq {X} (D : oct -> X) Us : Forall2 (owns D) M Us -> exchange b M Us = Some (field_arrays b M D).
Proof.
  intros H. unfold exchange, field_arrays.
  set (owned := flat_map (fun RU : rank * list X => blocks_of b (fst RU) (snd RU)) (combine M Us)).
  assert (EO : owned = map (fun A => (A, blk D A)) (leaves M)).
  { unfold owned, leaves. clear - H BO. induction H as [|R U M Us H1 H2 IH]; [reflexivity|]. cbn [combine flat_map fst snd map concat]. rewrite map_app, IH, (blocks_eq D R U H1). reflexivity. }
  assert (G : forall M' Us', incl M' M -> Forall2 (owns D) M' Us' ->
     mapM (fun RU : rank * list X =>
       do gs <- mapM (fun B => option_map snd (find (fun ov : oct * list X => oct_eqb B (fst ov)) owned)) (gho (fst RU)) ;
       Some (firstn (length (loc (fst RU)) * Z.to_nat (block_len b)) (snd RU) ++ concat gs)) (combine M' Us') =
     Some (map (fun R => map D (all_cells b (loc R ++ gho R))) M')).
  { clear - EO BO OK. intros M' Us' I F. induction F as [|R U M' Us' H1 H2 IH]; [reflexivity|]. cbn [combine mapM fst snd].
    rewrite IH by (intros x Hx; apply I; right; exact Hx).
    rewrite (mapM_map_some _ (blk D)).
    - cbn [map]. f_equal. f_equal. destruct H1 as (t & ->). rewrite all_cells_app, map_app. f_equal.
      + rewrite firstn_app, map_length, (all_cells_len b (b_pos g b BO)), Nat.sub_diag. cbn [firstn]. rewrite app_nil_r. apply firstn_all2. rewrite map_length, (all_cells_len b (b_pos g b BO)). lia.
      + unfold all_cells, blk. rewrite flat_map_concat_map, concat_map, map_map. reflexivity.
    - intros B HB. assert (LB : In B (leaves M)).
      { destruct (ok_ghosts g M OK R (I R (or_introl eq_refl))) as (_ & G2). apply G2, HB. }
      rewrite EO. clear - LB. induction (leaves M) as [|A L IHL]; [destruct LB|]. cbn [map find fst].
      destruct (oct_eqb B A) eqn:E; [apply oct_eqb_eq in E; subst; reflexivity|]. apply IHL. destruct LB as [->|LB]; [|exact LB]. exfalso. assert (oct_eqb B B = true) by (apply oct_eqb_eq; reflexivity). congruence. }
  apply G; [apply incl_refl|exact H].
Qed.
End Ex.

Section Sys.
Context (q : gconf) (D3 : g3d (q_g q) = true) (WF : wf_geom (q_g q)) (M : mesh) (OK : mesh_ok (q_g q) M) (BO : block_ok (q_g q) (q_b q))
        (EXT : forall a, (0 < q_ext q a)%Qc).
Local Notation g := (q_g q).
Local Notation b := (q_b q).
Local Notation ext := (q_ext q).
Local Notation ab := (q_absorbing q).
Local Notation cells := (all_cells b (leaves M)).
Local Notation owns := (owns b).
Definition opA (u : oct -> Qc) (x : oct) : Qc := (0 - laplacian g b ext ab cells u x)%Qc.
Definition diag (x : oct) : Qc := Aii (GravitySpec.side g b ext (lev x)).
Definition srcb (rho : oct -> Qc) (x : oct) : Qc := (0 - poisson_source g b ext cells (q_aexp q) (q_4piG q) rho x)%Qc.

Lemma diag_pos x : In x cells -> (0 < diag x)%Qc.
Proof.
  intros HX. pose proof (cell_lev g M OK b x HX) as L. pose proof (fun a => side_pos g WF b BO ext EXT (lev x) a (proj1 L)) as S.
  unfold diag, Aii. pose proof (S AX) as SX. pose proof (S AY) as SY. pose proof (S AZ) as SZ.
  assert (T : forall h, (0 < h)%Qc -> (0 < frac 2 1 / (h * h))%Qc) by (intros h Hh; apply Qcdiv_lt_0; [reflexivity|apply Qcmult_lt_0; assumption]).
  assert (P : forall u v, (0 < u -> 0 < v -> 0 < u + v)%Qc) by (intros u v H1 H2; replace 0%Qc with (0 + 0)%Qc by ring; apply Qclt_le_trans with (u + 0)%Qc; [rewrite !Qcplus_0_r; exact H1|apply Qcplus_le_compat; [apply Qcle_refl|apply Qclt_le_weak, H2]]).
  apply Qcmult_lt_0; [exact (Qcmult_lt_0 _ _ (Qcmult_lt_0 _ _ SX SY) SZ)|]. apply P; [apply P|]; apply T; assumption.
Qed.
Lemma opA_graph u x : In x cells -> opA u x = gop cells (weight g b ext) (outer g b ext ab) u x.
Proof. intros HX. apply (laplacian_graph g D3 M OK b BO ext EXT ab u x HX). Qed.
Lemma opA_lin u v t x : In x cells -> opA (fun y => u y + t * v y)%Qc x = (opA u x + t * opA v x)%Qc.
Proof. intros HX. rewrite !opA_graph by exact HX. apply gop_lin. Qed.
Lemma opA_ext u v x : (forall y, In y cells -> u y = v y) -> In x cells -> opA u x = opA v x.
Proof. intros H HX. rewrite !opA_graph by exact HX. apply gop_ext; [exact H|exact HX]. Qed.
Lemma opA_dot u v : dot cells u (opA v) = dot cells u (gop cells (weight g b ext) (outer g b ext ab) v).
Proof. apply dot_ext; [reflexivity|]. intros x HX. apply opA_graph, HX. Qed.
Lemma opA_sym u v : dot cells u (opA v) = dot cells v (opA u).
Proof. rewrite !opA_dot. apply gop_sym. intros x y _ _. apply weight_sym. Qed.
Lemma opA_psd u : (0 <= dot cells u (opA u))%Qc.
Proof.
  rewrite opA_dot. apply gop_psd; [intros x y _ _; apply weight_sym|apply (weight_nonneg g D3 WF M OK b BO ext EXT ab)|apply (outer_nonneg g D3 WF M OK b BO ext EXT ab)].
Qed.
Lemma opA_null u : dot cells u (opA u) = 0%Qc -> forall x y, In x cells -> In y cells -> u x = u y.
Proof. rewrite opA_dot. apply (null_constant g D3 WF M OK b BO ext EXT ab u). Qed.

Definition vol : Qc := (ext AX * ext AY * ext AZ)%Qc.
Lemma vol_nz : vol <> 0%Qc.
Proof. apply Qc_pos_nz. unfold vol. repeat apply Qcmult_lt_0; apply EXT. Qed.
Lemma vols : csum (map (volume g b ext) cells) = vol. Proof. apply (volumes_total g D3 WF M OK b BO ext EXT ab). Qed.
Lemma source_total rho : (q_aexp q = None \/ mean g b ext cells rho <> 0%Qc) -> csum (map (poisson_source g b ext cells (q_aexp q) (q_4piG q) rho) cells) = 0%Qc.
Proof.
  intros H. unfold poisson_source. set (m := mean g b ext cells rho) in *.
  assert (EM : csum (map (fun x => volume g b ext x * rho x)%Qc cells) = (m * vol)%Qc) by (unfold m, mean; fold vol; field; exact vol_nz).
  destruct (q_aexp q) as [a|].
  - assert (NZ : m <> 0%Qc) by (destruct H; [discriminate|assumption]).
    rewrite (csum_ext _ (fun x => Q2Qc 6 * a / m * (volume g b ext x * rho x) + (0 - Q2Qc 6 * a) * volume g b ext x)%Qc) by (intros; field; exact NZ).
    rewrite csum_plus, !csum_scale, EM, vols. field. exact NZ.
  - rewrite (csum_ext _ (fun x => q_4piG q * (volume g b ext x * rho x) + (0 - q_4piG q * m) * volume g b ext x)%Qc) by (intros; ring).
    rewrite csum_plus, !csum_scale, EM, vols. ring.
Qed.
Lemma opA_ker rho : (q_aexp q = None \/ mean g b ext cells rho <> 0%Qc) -> forall u, dot cells u (opA u) = 0%Qc -> dot cells (srcb rho) u = 0%Qc.
Proof.
  intros H u Z. pose proof (opA_null u Z) as K. unfold dot. destruct cells as [|x0 C] eqn:E; [reflexivity|]. rewrite <- E in *.
  rewrite (csum_ext _ (fun x => (0 - u x0) * poisson_source g b ext cells (q_aexp q) (q_4piG q) rho x)%Qc).
  - rewrite csum_scale, source_total by exact H. ring.
  - intros x HX. unfold srcb. rewrite (K x x0 HX) by (rewrite E; left; reflexivity). ring.
Qed.

(** ** The kernels *)
Lemma size_of R i A p : In R M -> nth_error (loc R) i = Some A -> with_size q R (mkCell i p b LOCAL_TO_BLOCK) = Some (cell_size g b ext A).
Proof. intros HR HA. unfold with_size. cbn [c_oct]. rewrite nth_error_app1 by (apply nth_error_Some; congruence). rewrite HA. reflexivity. Qed.
Lemma aii_of R i A p : In R M -> nth_error (loc R) i = Some A -> Aii (cell_size g b ext A) = diag (cell_of b A p).
Proof. intros HR HA. unfold diag, Aii. rewrite !(size_at q D3 WF M OK BO EXT R HR i A HA). reflexivity. Qed.
Lemma kernels {X Y} (F : rank -> Y) (f : rank * Y -> cidx -> option X) (D : oct -> X) :
  (forall R i A p, In R M -> nth_error (loc R) i = Some A -> in_block b p -> f (R, F R) (mkCell i p b LOCAL_TO_BLOCK) = Some (D (cell_of b A p))) ->
  mapM (fun RU : rank * Y => kernel b (fst RU) (f RU)) (map (fun R => (R, F R)) M) = Some (owned_values b M D).
Proof.
  intros H. rewrite mapM_map. apply mapM_map_some. intros R HR. apply (kernel_eq b). intros i A p HA IB. apply (H R i A p HR HA IB).
Qed.

(** ** The state of the solver and the state of the recurrences *)
Definition rep (rho phi0 : oct -> Qc) (S : cg) (T : state (X := oct)) : Prop :=
  Forall2 (owns (s_p T)) M (g_p S) /\ Forall2 (owns (s_r T)) M (g_r S) /\ Forall2 (owns (s_phi T)) M (g_phi S) /\ g_R S = norm2 cells (s_r T) /\ g_B S = norm2 cells (srcb rho) /\ g_rz S = s_rz T.
Local Notation stk rho phi0 := (st cells diag opA (srcb rho) phi0).

Lemma mean_eq rho : mean_density q M (field_arrays b M rho) = Some (mean g b ext cells rho).
Proof.
  unfold mean_density, field_arrays. rewrite combine_self.
  rewrite (kernels (fun R => map rho (all_cells b (loc R ++ gho R))) _ (fun x => (volume g b ext x * rho x)%Qc)).
  - rewrite sum_owned_id. reflexivity.
  - intros R i A p HR HA IB. cbn [fst snd]. rewrite (size_of R i A p HR HA), (at_own q M BO R HR i A HA p IB rho).
    rewrite !(size_at q D3 WF M OK BO EXT R HR i A HA). f_equal. rewrite (volume_side g b ext). cbn [lev cell_of oct_of]. ring.
Qed.
Lemma init_rep junk rho phi0 : length junk = length M ->
  exists S, init q M junk (field_arrays b M rho) (field_arrays b M phi0) = Some S /\ rep rho phi0 S (stk rho phi0 0).
Proof.
  intros LJ. unfold init. rewrite mean_eq. set (m := mean g b ext cells rho).
  unfold field_arrays at 1 2. rewrite combine_maps, combine_self.
  set (T := stk rho phi0 0).
  rewrite (kernels (fun R => (map rho (all_cells b (loc R ++ gho R)), map phi0 (all_cells b (loc R ++ gho R)))) _
     (fun x => (phi0 x, srcb rho x, s_r T x, s_p T x))).
  - eexists. split; [reflexivity|]. unfold rep. cbn [g_p g_r g_phi g_R g_B g_rz].
    split; [|split; [|split]].
    + apply (owns_put M b (fun x => (phi0 x, srcb rho x, s_r T x, s_p T x)) snd junk LJ).
    + apply (owns_put M b (fun x => (phi0 x, srcb rho x, s_r T x, s_p T x)) (fun v => snd (fst v)) junk LJ).
    + apply (owns_put M b (fun x => (phi0 x, srcb rho x, s_r T x, s_p T x)) (fun v => fst (fst (fst v))) junk LJ).
    + rewrite !sum_owned. cbn [fst snd]. repeat split; reflexivity.
  - intros R i A p HR HA IB. cbn [fst snd]. unfold init_cell.
    rewrite (at_own q M BO R HR i A HA p IB phi0), (size_of R i A p HR HA), (at_own q M BO R HR i A HA p IB rho).
    rewrite (matprod_eq q D3 WF M OK BO EXT R HR i A HA p IB phi0).
    assert (EB : rhs q m (rho (cell_of b A p)) (cell_size g b ext A) = srcb rho (cell_of b A p)).
    { unfold rhs, srcb, poisson_source. fold m. rewrite (volume_side g b ext), !(size_at q D3 WF M OK BO EXT R HR i A HA).
      destruct (q_aexp q); [change (frac 6 1) with (Q2Qc 6)|]; cbn [lev cell_of oct_of]; ring. }
    rewrite EB, (aii_of R i A p HR HA). reflexivity.
Qed.

Lemma owned_len {X} (D : oct -> X) : length (owned_values b M D) = length M. Proof. apply map_length. Qed.
Lemma fields_len {X} (D : oct -> X) : length (field_arrays b M D) = length M. Proof. apply map_length. Qed.
(** The arrays after a kernel overwrites their owned part, as a function of the rank. *)
Lemma put_map {X} (D : oct -> X) (f : X -> Qc) U :
  map (fun ov : array * list X => overwrite (fst ov) (map f (snd ov))) (combine (field_arrays b M U) (owned_values b M D)) =
  map (fun R => overwrite (map U (all_cells b (loc R ++ gho R))) (map f (map D (all_cells b (loc R))))) M.
Proof. unfold field_arrays, owned_values. rewrite combine_maps, map_map. reflexivity. Qed.

Lemma iterate_rep rho phi0 S k : rep rho phi0 S (stk rho phi0 k) ->
  dot cells (s_p (stk rho phi0 k)) (opA (s_p (stk rho phi0 k))) <> 0%Qc -> s_rz (stk rho phi0 k) <> 0%Qc ->
  exists S', iterate q M S = Some S' /\ rep rho phi0 S' (stk rho phi0 (Datatypes.S k)).
Proof.
  intros (HP & HRR & HPH & ER & EB & ERZ) NZ1 NZ2. set (T := stk rho phi0 k) in *. set (T' := stk rho phi0 (Datatypes.S k)).
  unfold iterate. rewrite (exchange_eq g M OK b BO _ _ HP), (exchange_eq g M OK b BO _ _ HRR), (exchange_eq g M OK b BO _ _ HPH).
  unfold field_arrays at 1. rewrite combine_self.
  rewrite (kernels (fun R => map (s_p T) (all_cells b (loc R ++ gho R))) _ (fun x => (s_p T x * opA (s_p T) x)%Qc)).
  2: { intros R i A p HR HA IB. cbn [fst snd]. rewrite (size_of R i A p HR HA), (at_own q M BO R HR i A HA p IB (s_p T)), (matprod_eq q D3 WF M OK BO EXT R HR i A HA p IB (s_p T)). reflexivity. }
  rewrite sum_owned_id. change (csum (map (fun x => s_p T x * opA (s_p T) x)%Qc cells)) with (dot cells (s_p T) (opA (s_p T))).
  destruct (Qc_eq_bool (dot cells (s_p T) (opA (s_p T))) 0) eqn:E1; [apply Qc_eq_bool_correct in E1; contradiction|].
  rewrite ERZ. set (al := (s_rz T / dot cells (s_p T) (opA (s_p T)))%Qc).
  unfold field_arrays at 1 2 3. rewrite !combine_maps, combine_self.
  rewrite (kernels (fun R => (map (s_p T) (all_cells b (loc R ++ gho R)), (map (s_r T) (all_cells b (loc R ++ gho R)), map (s_phi T) (all_cells b (loc R ++ gho R))))) _
     (fun x => (s_phi T' x, s_r T' x, (s_r T' x / diag x)%Qc))).
  2: { intros R i A p HR HA IB. cbn [fst snd]. rewrite (size_of R i A p HR HA), (at_own q M BO R HR i A HA p IB (s_p T)), (at_own q M BO R HR i A HA p IB (s_r T)), (at_own q M BO R HR i A HA p IB (s_phi T)), (matprod_eq q D3 WF M OK BO EXT R HR i A HA p IB (s_p T)), (aii_of R i A p HR HA). reflexivity. }
  destruct (Qc_eq_bool (s_rz T) 0) eqn:E2; [apply Qc_eq_bool_correct in E2; contradiction|].
  set (D3v := fun x => (s_phi T' x, s_r T' x, (s_r T' x / diag x)%Qc)).
  rewrite !sum_owned. cbn [fst snd D3v].
  change (csum (map (fun x => s_r T' x * (s_r T' x / diag x))%Qc cells)) with (s_rz T').
  match goal with |- context[combine M (combine _ ?l)] =>
    replace l with (map (fun R => overwrite (map (s_r T) (all_cells b (loc R ++ gho R))) (map (fun v : Qc * Qc * Qc => snd (fst v)) (map D3v (all_cells b (loc R))))) M)
      by (symmetry; apply put_map) end.
  unfold field_arrays at 1. rewrite combine_maps, combine_self.
  rewrite (kernels (fun R => (map (s_p T) (all_cells b (loc R ++ gho R)), overwrite (map (s_r T) (all_cells b (loc R ++ gho R))) (map (fun v : Qc * Qc * Qc => snd (fst v)) (map D3v (all_cells b (loc R)))))) _ (s_p T')).
  2: { intros R i A p HR HA IB. cbn [fst snd]. rewrite (size_of R i A p HR HA), (at_own q M BO R HR i A HA p IB (s_p T)).
       rewrite (at_owned g b BO (s_r T') R _ i A p).
       - rewrite (aii_of R i A p HR HA). reflexivity.
       - unfold overwrite. rewrite map_map. eexists. reflexivity.
       - exact HA.
       - exact IB. }
  eexists. split; [reflexivity|]. unfold rep. cbn [g_p g_r g_phi g_R g_B g_rz]. split; [|split; [|split; [|split; [|split]]]].
  - pose proof (owns_put M b (s_p T') (fun v => v) (field_arrays b M (s_p T)) (fields_len _)) as K.
    match type of K with Forall2 _ _ ?l => match goal with |- Forall2 _ _ ?l' => replace l' with l end end; [exact K|].
    apply map_ext. intros ov. rewrite map_id. reflexivity.
  - pose proof (owns_put M b D3v (fun v => snd (fst v)) (field_arrays b M (s_r T)) (fields_len _)) as K. rewrite put_map in K. exact K.
  - exact (owns_put M b D3v (fun v => fst (fst v)) (field_arrays b M (s_phi T)) (fields_len _)).
  - reflexivity.
  - exact EB.
  - reflexivity.
Qed.

(** ** The loop *)
Section Loop.
Context (rho phi0 : oct -> Qc) (MZ : q_aexp q = None \/ mean g b ext cells rho <> 0%Qc).
Local Notation K k := (stk rho phi0 k).
Local Notation Live := (live cells diag opA (srcb rho) phi0).
Lemma norm_nonneg u : (0 <= norm2 cells u)%Qc.
Proof. apply csum_nonneg. intros x _. apply sq_nonneg. Qed.
Lemma ratio_le x y e : (0 < y -> x / y <= e -> x <= e * y)%Qc.
Proof. intros P H. replace x with (x / y * y)%Qc by (field; apply Qc_pos_nz, P). apply Qcmult_le_compat_r; [exact H|apply Qclt_le_weak, P]. Qed.
Lemma continue_spec S k : rep rho phi0 S (K k) ->
  if continue q S then s_rz (K k) <> 0%Qc else (norm2 cells (s_r (K k)) <= q_eps q * q_eps q * norm2 cells (srcb rho))%Qc.
Proof.
  intros (_ & _ & _ & ER & EB & ERZ). unfold continue. rewrite ER, EB.
  assert (RZ : s_rz (K k) = 0%Qc -> norm2 cells (s_r (K k)) = 0%Qc) by (apply (rz_zero cells diag diag_pos)).
  destruct (Qc_eq_bool (norm2 cells (srcb rho)) 0) eqn:E.
  - apply Qc_eq_bool_correct in E. rewrite E. destruct (ltb 0 (norm2 cells (s_r (K k)))) eqn:L.
    + apply ltb_spec in L. intros Z. rewrite (RZ Z) in L. exact (Qclt_not_eq _ _ L eq_refl).
    + assert (L' : ~ (0 < norm2 cells (s_r (K k)))%Qc) by (intros H; apply ltb_spec in H; congruence). apply Qcnot_lt_le in L'. rewrite Qcmult_0_r. exact L'.
  - assert (NB : norm2 cells (srcb rho) <> 0%Qc) by (intros H; rewrite H in E; discriminate).
    assert (PB : (0 < norm2 cells (srcb rho))%Qc) by (apply nonneg_pos; [apply norm_nonneg|exact NB]).
    destruct (ltb (q_eps q * q_eps q) (norm2 cells (s_r (K k)) / norm2 cells (srcb rho))) eqn:L.
    + apply ltb_spec in L. intros Z. rewrite (RZ Z) in L. unfold Qcdiv in L. rewrite Qcmult_0_l in L. apply (Qclt_not_le _ _ L). apply sq_nonneg.
    + assert (L' : ~ (q_eps q * q_eps q < norm2 cells (s_r (K k)) / norm2 cells (srcb rho))%Qc) by (intros H; apply ltb_spec in H; congruence). apply Qcnot_lt_le in L'.
      apply ratio_le; assumption.
Qed.
(** The loop condition on the recurrences. *)
Definition goes_on (k : nat) : bool :=
  if Qc_eq_bool (norm2 cells (srcb rho)) 0 then ltb 0 (norm2 cells (s_r (K k))) else ltb (q_eps q * q_eps q) (norm2 cells (s_r (K k)) / norm2 cells (srcb rho)).
Lemma continue_goes S k : rep rho phi0 S (K k) -> continue q S = goes_on k.
Proof. intros (_ & _ & _ & ER & EB & _). unfold continue, goes_on. rewrite ER, EB. reflexivity. Qed.
Lemma live_S k : Live k -> s_rz (K k) <> 0%Qc -> Live (S k).
Proof. intros L N j J. destruct (Nat.eq_dec j k) as [->|]; [exact N|apply L; lia]. Qed.
Lemma live_bound k : Live k -> (k <= length cells)%nat.
Proof.
  apply (cg_finite cells oct_eq_dec (cells_NoDup g M OK b BO) diag diag_pos opA (srcb rho) opA_lin opA_ext opA_sym opA_psd (opA_ker rho MZ) phi0 k).
Qed.
Lemma loop_eq fuel : forall S k, rep rho phi0 S (K k) -> Live k -> (length cells <= k + fuel)%nat ->
  exists n S', cg_loop fuel q M S = Some (n, S') /\ rep rho phi0 S' (K (k + n)) /\ Live (k + n) /\
    goes_on (k + n) = false /\ (forall j, (k <= j < k + n)%nat -> goes_on j = true) /\
    (norm2 cells (s_r (K (k + n))) <= q_eps q * q_eps q * norm2 cells (srcb rho))%Qc.
Proof.
  induction fuel as [|fuel IH]; intros S k RP L F; cbn [cg_loop]; pose proof (continue_spec S k RP) as C; pose proof (continue_goes S k RP) as CG; destruct (continue q S).
  - exfalso. pose proof (live_bound _ (live_S k L C)). lia.
  - exists 0%nat, S. rewrite Nat.add_0_r. split; [reflexivity|]. split; [exact RP|]. split; [exact L|]. split; [congruence|]. split; [intros; lia|exact C].
  - pose proof (live_S k L C) as L'.
    destruct (iterate_rep rho phi0 S k RP) as (S1 & E1 & R1); [|exact C|].
    { apply (cg_defined cells diag opA (srcb rho) opA_lin opA_ext opA_sym opA_psd (opA_ker rho MZ) phi0 k L'). }
    rewrite E1. destruct (IH S1 (Datatypes.S k) R1 L' ltac:(lia)) as (n & S2 & E2 & R2 & L2 & N2 & G2 & B2). rewrite E2. exists (Datatypes.S n), S2.
    cbn [fst snd]. replace (k + Datatypes.S n)%nat with (Datatypes.S k + n)%nat by lia. split; [reflexivity|]. split; [exact R2|]. split; [exact L2|]. split; [exact N2|]. split; [|exact B2].
    intros j J. destruct (Nat.eq_dec j k) as [->|]; [congruence|]. apply G2. lia.
  - exists 0%nat, S. rewrite Nat.add_0_r. split; [reflexivity|]. split; [exact RP|]. split; [exact L|]. split; [congruence|]. split; [intros; lia|exact C].
Qed.
Definition answer (n : nat) (x : oct) : Qc * (Qc * Qc * Qc) :=
  (s_phi (K n) x, (acceleration g b ext ab cells (s_phi (K n)) x AX, acceleration g b ext ab cells (s_phi (K n)) x AY, acceleration g b ext ab cells (s_phi (K n)) x AZ)).
Theorem solve junk fuel : length junk = length M -> (length cells <= fuel)%nat ->
  exists n, update_gravity_field fuel q M junk (field_arrays b M rho) (field_arrays b M phi0) = Some (n, owned_values b M (answer n)) /\
    (n <= length cells)%nat /\ goes_on n = false /\ (forall j, (j < n)%nat -> goes_on j = true) /\
    (norm2 cells (s_r (K n)) <= q_eps q * q_eps q * norm2 cells (srcb rho))%Qc.
Proof.
  intros LJ F. destruct (init_rep junk rho phi0 LJ) as (S0 & E0 & R0).
  destruct (loop_eq fuel S0 0 R0) as (n & S1 & E1 & (HP & HRR & HPH & _) & L1 & N1 & G1 & B1); [intros j J; lia|lia|]. cbn [Nat.add] in *.
  exists n. split; [|split; [apply live_bound, L1|split; [exact N1|split; [intros j J; apply G1; lia|exact B1]]]].
  unfold update_gravity_field. rewrite D3. cbn [negb]. rewrite E0, E1. cbn [fst snd]. rewrite (exchange_eq g M OK b BO _ _ HPH). unfold field_arrays. rewrite combine_self.
  rewrite (kernels (fun R => map (s_phi (K n)) (all_cells b (loc R ++ gho R))) _ (answer n)); [reflexivity|].
  intros R i A p HR HA IB. cbn [fst snd]. rewrite (size_of R i A p HR HA), (at_own q M BO R HR i A HA p IB (s_phi (K n))).
  rewrite !(gradient_eq q D3 WF M OK BO EXT R HR i A HA p IB (s_phi (K n))). reflexivity.
Qed.
Lemma residual_is n x : In x cells -> s_r (K n) x = (laplacian g b ext ab cells (s_phi (K n)) x - poisson_source g b ext cells (q_aexp q) (q_4piG q) rho x)%Qc.
Proof.
  intros HX. rewrite (true_residual cells diag opA (srcb rho) opA_lin phi0 n x HX). unfold srcb, opA. ring.
Qed.
End Loop.
End Sys.
