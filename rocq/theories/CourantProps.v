(** The limit of the time step by the waves of the gas (C100). *)
From Coq Require Import QArith Qround Qcanon Permutation Lqa.
From Verif Require Import Base OctreeSpec OctreeGeom OctreeModel FindNeighbors MeshSpec HistorySpec
  LookupModel CellModel CellSpec CellProofs CellProps RemapModel RemapSpec RemapProofs RemapProps HydroModel HydroSpec HydroProps
  ConserveSpec BlockGhost ConserveFaces ConserveProofs OctreeProps HistoryProofs LookupProps SchemeSpec ConserveProps SchemeProps ParticleModel ParticleProofs
  GravitySpec GravityModel GravityProofs CGTheory CloudProofs CloudProps RKModel RKSpec RKProofs RKProps ParabolicModel ParabolicSpec ParabolicProofs ParabolicRun ParabolicProps.
From Verif Require Import TimeModel.
From Verif Require TimeStepProps TimeProps MarkerLoop.
From Verif Require Import LimiterModel LimiterSpec LimiterProofs LimiterProps PointMassProps ParticleStepProps CourantModel.
Open Scope Z_scope.

(** Absolute value. *)
Definition magnitude (x : Qc) : Qc := if Qclt_le_dec x 0 then (- x)%Qc else x.
(** The gas of a cell, as the simulation sees it, and its speed of sound sqrt(gamma p / rho). *)
Definition gas_in (g : geom) (gamma : Qc) (D : oct -> cons) (x : oct) : prim := gas gamma (seen g (D x)).
Definition sound (root : Qc -> Qc) (gamma : Qc) (q : prim) : Qc := root (gamma * q_p q / q_rho q)%Qc.
(** A gas with a speed of sound. *)
Definition real_gas (q : prim) : Prop := (0 < q_rho q /\ 0 <= q_p q)%Qc.
(** The fraction of the cell [x] that the fastest waves cross in a unit of time, summed over axes. *)
Definition crossing (root : Qc -> Qc) (g : geom) (b : axis -> Z) (ext : axis -> Qc) (gamma : Qc) (D : oct -> cons) (x : oct) : Qc :=
  let q := gas_in g gamma D x in
  csum (map (fun a => (magnitude (vel q a) + sound root gamma q) / cell_side g b ext (lev x) a)%Qc (axes_of g)).
Definition courant_run (lowest : Q) (root : Qc -> Qc) (g : geom) (n : nat) (M : mesh) (b : axis -> Z) (lo hi : axis -> Qc) (gamma cfl : Qc) (D : oct -> cons) (U : nat -> field) : Prop :=
  good_setup g n /\ reachable g n M /\ block_ok g b /\ (forall a, lo a < hi a)%Qc /\ (lowest <= 0)%Q /\ (0 < cfl)%Qc /\ (0 < gamma)%Qc /\ upper_root root /\ holds_field b M D U.
(** The limiter answers, with the largest step during which the waves of no cell with a speed of sound
    cross more than the fraction [cfl] of it. *)
Definition largest_step (lowest : Q) (root : Qc -> Qc) (g : geom) (M : mesh) (b : axis -> Z) (lo hi : axis -> Qc) (gamma cfl : Qc) (D : oct -> cons) (U : nat -> field) : Prop :=
  forall t, courant_dt lowest root g b lo hi gamma cfl M U = Some t ->
  (forall q, t = Fin q -> (0 < q)%Q) /\
  forall d, (0 < d)%Qc -> at_most (this d) t <->
    forall x, In x (all_cells b (leaves M)) -> real_gas (gas_in g gamma D x) -> (d * crossing root g b (extent lo hi) gamma D x <= cfl)%Qc.

(** * The reduction *)
Lemma Qlt_bool_false x y : Qlt_bool x y = false -> (y <= x)%Q.
Proof. unfold Qlt_bool. intros H. apply Qle_bool_iff. destruct (Qle_bool y x); [reflexivity|discriminate H]. Qed.
Lemma nan_fold (rs : list Q) : forall x, exists m, fold_left nan_max (map Some rs) (Some x) = Some m /\ (x <= m)%Q /\ (forall r, In r rs -> (r <= m)%Q) /\ (m = x \/ In m rs).
Proof.
  induction rs as [|r rs IH]; intros x; [exists x; split; [reflexivity|]; split; [apply Qle_refl|]; split; [intros r []|left; reflexivity]|].
  cbn [map fold_left nan_max]. destruct (Qlt_bool r x) eqn:E.
  - apply TimeProps.Qlt_bool_iff in E. destruct (IH x) as (m & E1 & E2 & E3 & E4). exists m. split; [exact E1|]. split; [exact E2|]. split.
    + intros y [<-|Y]; [lra|apply E3, Y].
    + destruct E4 as [E4|E4]; [left; exact E4|right; right; exact E4].
  - apply Qlt_bool_false in E. destruct (IH r) as (m & E1 & E2 & E3 & E4). exists m. split; [exact E1|]. split; [lra|]. split.
    + intros y [<-|Y]; [exact E2|apply E3, Y].
    + right. destruct E4 as [-> |E4]; [left; reflexivity|right; exact E4].
Qed.
Lemma courant_local_spec lowest cfl rs e : (lowest <= 0)%Q -> (0 < cfl)%Q -> courant_local lowest cfl (map Some rs) = Some e ->
  TimeStepProps.ext_pos e /\ forall d, (0 < d)%Q -> (at_most d e <-> forall r, In r rs -> (d * r <= cfl)%Q).
Proof.
  intros L C. unfold courant_local. destruct (nan_fold rs lowest) as (m & -> & _ & GE & IN). unfold local_dt. cbn [fold_left].
  assert (B : forall d, (0 < d)%Q -> (d * m <= cfl)%Q <-> forall r, In r rs -> (d * r <= cfl)%Q).
  { intros d D. split.
    - intros H r Hr. pose proof (GE r Hr). nra.
    - intros H. destruct IN as [-> |IN]; [nra|apply H, IN]. }
  destruct (Qeq_bool m 0) eqn:E0.
  - apply Qeq_bool_iff in E0. destruct (Qlt_bool 0 cfl); [|discriminate]. intros E. injection E as <-. split; [exact I|]. intros d D. rewrite <- (B d D). split; [|intros _; exact I]. intros _. rewrite E0. lra.
  - destruct (Qlt_bool 0 (cfl / m)) eqn:EP; [|discriminate]. apply TimeProps.Qlt_bool_iff in EP. intros E. injection E as <-. pose proof (TimeStepProps.div_pos _ _ C EP) as IP.
    split; [exact EP|]. intros d D. rewrite <- (B d D). cbn [at_most]. assert (W : (cfl / m * m == cfl)%Q) by (field; lra). split.
    + intros DL. assert (d * m <= cfl / m * m)%Q by (apply Qmult_le_compat_r; lra). lra.
    + intros H. apply Qle_shift_div_l; assumption.
Qed.
Lemma courant_local_total lowest cfl rs : (0 < cfl)%Q -> rs <> [] -> (forall r, In r rs -> (0 <= r)%Q) -> exists e, courant_local lowest cfl (map Some rs) = Some e.
Proof.
  intros C NE P. unfold courant_local. destruct (nan_fold rs lowest) as (m & -> & _ & GE & IN). unfold local_dt. cbn [fold_left].
  assert (M0 : (0 <= m)%Q). { destruct rs as [|r rs]; [contradiction|]. apply Qle_trans with r; [apply P|apply GE]; left; reflexivity. }
  destruct (Qeq_bool m 0) eqn:E0; [rewrite (proj2 (TimeProps.Qlt_bool_iff 0 cfl) C); eauto|].
  assert (MP : (0 < m)%Q). { apply Qeq_bool_neq in E0. apply Qle_lt_or_eq in M0. destruct M0 as [M0|M0]; [exact M0|]. exfalso. apply E0. symmetry. exact M0. }
  assert (Q0 : (0 < cfl / m)%Q) by (apply Qlt_shift_div_l; [exact MP|lra]). rewrite (proj2 (TimeProps.Qlt_bool_iff _ _) Q0). eauto.
Qed.

(** * One cell *)
Lemma magnitude_eq x : fabs x = magnitude x.
Proof. unfold fabs, magnitude. destruct (ltb x 0) eqn:E; destruct (Qclt_le_dec x 0) as [H|H]; try reflexivity; [apply ltb_spec in E; exfalso; exact (Qcle_not_lt _ _ H E)|apply ltb_false in E; exfalso; exact (Qcle_not_lt _ _ E H)]. Qed.
Lemma magnitude_nonneg x : (0 <= magnitude x)%Qc.
Proof. unfold magnitude. destruct (Qclt_le_dec x 0) as [H|H]; [qlin|exact H]. Qed.
Lemma ratio_nonneg gamma q : (0 < gamma)%Qc -> real_gas q -> (0 <= gamma * q_p q / q_rho q)%Qc.
Proof. intros G (R & P). unfold Qcdiv. repeat apply Qcmult_nonneg; [apply Qclt_le_weak, G|exact P|apply inv_nonneg, R]. Qed.
Lemma numbered_in {X} (l : list X) : forall k r x, In (r, x) (combine (seq k (length l)) l) -> exists j, r = (k + j)%nat /\ nth_error l j = Some x.
Proof.
  induction l as [|y l IH]; intros k r x H; [destruct H|]. cbn [length seq combine] in H. destruct H as [H|H].
  - injection H as <- <-. exists 0%nat. split; [lia|reflexivity].
  - apply IH in H. destruct H as (j & -> & E). exists (S j). split; [lia|exact E].
Qed.
Lemma numbered_all {X} (l : list X) : forall k x, In x l -> exists r, In (r, x) (combine (seq k (length l)) l).
Proof.
  induction l as [|y l IH]; intros k x H; [destruct H|]. cbn [length seq combine]. destruct H as [<-|H]; [exists k; left; reflexivity|].
  destruct (IH (S k) x H) as (r & K). exists r. right. exact K.
Qed.
Lemma somes {X Y} (f : X -> Y) l m : Forall2 (fun x o => o = Some (f x)) l m -> m = map Some (map f l).
Proof. induction 1 as [|x o l m -> _ IH]; [reflexivity|]. cbn [map]. rewrite <- IH. reflexivity. Qed.

Section Run.
Context (lowest : Q) (root : Qc -> Qc) (g : geom) (n : nat) (M : mesh) (b : axis -> Z) (lo hi : axis -> Qc) (gamma cfl : Qc) (D : oct -> cons) (U : nat -> field).
Context (CR : courant_run lowest root g n M b lo hi gamma cfl D U).
Local Notation rate := (crossing root g b (extent lo hi) gamma D).
Local Notation cells := (all_cells b (leaves M)).

Lemma run_side x a : In x cells -> (0 < cell_side g b (extent lo hi) (lev x) a)%Qc.
Proof.
  destruct CR as (GS & RC & BO & EXT & _). pose proof (reachable_ok g n M GS RC) as OK. destruct GS as (WF & _).
  intros HX. apply (side_pos g WF b BO (extent lo hi) (ext_pos lo hi EXT)), (cell_lev g M OK b x HX).
Qed.
Lemma owned_in R i A c : In R M -> nth_error (loc R) i = Some A -> in_block b c -> In (cell_of b A c) cells.
Proof.
  destruct CR as (GS & RC & BO & EXT & _). intros HR HA IB. apply (cells_in M b). exists A, c. split; [|split; [exact IB|reflexivity]].
  unfold leaves. apply in_concat. exists (loc R). split; [apply in_map, HR|eapply nth_error_In, HA].
Qed.
Lemma one_rate r R i A c : nth_error M r = Some R -> nth_error (loc R) i = Some A -> in_block b c -> real_gas (gas_in g gamma D (cell_of b A c)) ->
  courant_rate root g (loc R ++ gho R) lo hi gamma (U r) (mkCell i c b LOCAL_TO_BLOCK) = Some (Some (rate (cell_of b A c))).
Proof.
  destruct CR as (GS & RC & BO & EXT & L & CF & GP & UR & HF). pose proof (reachable_ok g n M GS RC) as OK. destruct GS as (WF & _).
  intros HR HA IB RG. pose proof (A_st R i A HA) as ST. pose proof (A_leaf' M r R HR i A HA) as AL.
  unfold courant_rate. cbn [c_oct c_blk]. rewrite ST. cbv zeta. apply (f_equal Some).
  assert (Q : consToPrim true gamma (read (g3d g) (U r) (mkCell i c b LOCAL_TO_BLOCK)) = gas_in g gamma D (cell_of b A c)).
  { unfold gas_in. rewrite gas_eq. unfold read. cbn [c_oct c_blk c_pos]. unfold flat_cell. rewrite (HF r R i A c HR ST IB).
    destruct (g3d g); [reflexivity|]. unfold consToPrim, getCons. cbn [u_rho u_e u_x u_y u_z]. f_equal. unfold Qcdiv. ring. }
  rewrite Q. set (q := gas_in g gamma D (cell_of b A c)) in *.
  assert (SS : sound_speed root gamma q = Some (sound root gamma q)).
  { unfold sound_speed, sound. pose proof (ratio_nonneg gamma q GP RG) as RN. destruct RG as (R0 & _).
    destruct (Qc_eq_dec (q_rho q) 0) as [E|_]; [exfalso; exact (Qc_pos_nz _ R0 E)|]. rewrite (Qcmult_comm (q_p q) gamma).
    destruct (ltb (gamma * q_p q / q_rho q) 0) eqn:E; [|reflexivity]. apply ltb_spec in E. exfalso. exact (Qcle_not_lt _ _ RN E). }
  rewrite SS. apply (f_equal Some).
  assert (SZ : forall a, flat g a = false -> cell_size g b (extent lo hi) A a = cell_side g b (extent lo hi) (lev A) a).
  { intros a FA. apply (cell_size_eq g WF M OK b BO no_gi eq_refl (fun _ _ => false) (extent lo hi) (fun a' => Qc_pos_nz _ (ext_pos lo hi EXT a'))); assumption. }
  unfold crossing. cbv zeta. fold q. change (lev (cell_of b A c)) with (lev A). rewrite (SZ AX eq_refl), (SZ AY eq_refl), !magnitude_eq. unfold axes_of.
  assert (EZ : g3d g = true -> flat g AZ = false) by (unfold flat; intros ->; reflexivity).
  destruct (g3d g); cbn [map csum fold_right vel].
  - rewrite (SZ AZ (EZ eq_refl)). unfold Qcdiv. ring.
  - unfold Qcdiv. ring.
Qed.
Context (ALL : forall x, In x cells -> real_gas (gas_in g gamma D x)).
Lemma process_rates r R : nth_error M r = Some R ->
  mapM (courant_rate root g (loc R ++ gho R) lo hi gamma (U r)) (owned_cells b R) = Some (map Some (map rate (all_cells b (loc R)))).
Proof.
  intros HR. destruct (kernel_rel b R (courant_rate root g (loc R ++ gho R) lo hi gamma (U r)) (fun x o => o = Some (rate x))) as (V & EV & FV).
  - intros i A q HA IQ. eexists. split; [|reflexivity]. apply (one_rate r R i A q HR HA IQ). apply ALL, (owned_in R i A q (nth_error_In _ _ HR) HA IQ).
  - unfold kernel in EV. rewrite EV. rewrite (somes rate _ _ FV). reflexivity.
Qed.
Definition local_answer (rR : nat * rank) : option ext :=
  courant_local lowest (this cfl) (map Some (map (fun x => this (rate x)) (all_cells b (loc (snd rR))))).
Lemma run_unfold : courant_dt lowest root g b lo hi gamma cfl M U =
  match mapM local_answer (combine (seq 0 (length M)) M) with Some dts => Some (fold_left ext_min dts Infinite) | None => None end.
Proof.
  unfold courant_dt. erewrite MarkerLoop.mapM_ext; [reflexivity|]. intros (r & R) H. apply numbered_in in H. destruct H as (j & -> & HR). cbn [fst snd].
  rewrite (process_rates (0 + j) R HR). unfold local_answer. cbn [snd]. rewrite !map_map. reflexivity.
Qed.
Lemma cells_split x : In x cells <-> exists R, In R M /\ In x (all_cells b (loc R)).
Proof.
  unfold all_cells, leaves. split.
  - intros HX. apply in_flat_map in HX. destruct HX as (A & HA & HX). apply in_concat in HA. destruct HA as (LL & HL & HA). apply in_map_iff in HL. destruct HL as (R & <- & HR).
    exists R. split; [exact HR|]. apply in_flat_map. exists A. split; assumption.
  - intros (R & HR & HX). apply in_flat_map in HX. destruct HX as (A & HA & HX). apply in_flat_map. exists A. split; [|exact HX]. apply in_concat. exists (loc R). split; [apply in_map, HR|exact HA].
Qed.
Lemma run_largest : largest_step lowest root g M b lo hi gamma cfl D U.
Proof.
  destruct CR as (_ & _ & _ & _ & L & CF & _). intros t. rewrite run_unfold. destruct (mapM local_answer _) as [dts|] eqn:EM; [|discriminate]. intros E. injection E as <-.
  assert (P : forall y, In y dts -> exists R, In R M /\ local_answer (0%nat, R) = Some y).
  { intros y Hy. destruct (mapM_In _ _ _ _ EM Hy) as ((r & R) & H & E). apply numbered_in in H. destruct H as (j & _ & HR). exists R. split; [eapply nth_error_In, HR|exact E]. }
  assert (F : forall R, In R M -> exists y, In y dts /\ local_answer (0%nat, R) = Some y).
  { intros R HR. destruct (numbered_all M 0 R HR) as (r & H). destruct (mapM_In_fwd _ _ _ _ EM H) as (y & Hy & E). exists y. split; [exact Hy|exact E]. }
  assert (SP : forall R y, local_answer (0%nat, R) = Some y -> TimeStepProps.ext_pos y /\ forall d, (0 < d)%Qc -> (at_most (this d) y <-> forall x, In x (all_cells b (loc R)) -> (d * rate x <= cfl)%Qc)).
  { intros R y E. unfold local_answer in E. cbn [snd] in E. apply (courant_local_spec _ _ _ _ L CF) in E. destruct E as (E1 & E2). split; [exact E1|]. intros d HD. rewrite (E2 (this d) HD). split.
    - intros H x HX. apply this_le_mult. apply H. apply in_map_iff. exists x. split; [reflexivity|exact HX].
    - intros H r Hr. apply in_map_iff in Hr. destruct Hr as (x & <- & HX). apply this_le_mult, H, HX. }
  split.
  - intros q E. change (TimeStepProps.ext_pos (Fin q)). rewrite <- E. apply TimeStepProps.fold_min_pos; [exact I|]. intros y Hy. destruct (P y Hy) as (R & _ & EY). apply (SP R y EY).
  - intros d HD. change (at_most (this d) ?t) with (TimeStepProps.ext_le (Fin (this d)) t). rewrite TimeStepProps.fold_min_glb. split.
    + intros (_ & H) x HX _. apply cells_split in HX. destruct HX as (R & HR & HX). destruct (F R HR) as (y & Hy & EY). apply (proj2 (SP R y EY) d HD); [exact (H y Hy)|exact HX].
    + intros H. split; [exact I|]. intros y Hy. destruct (P y Hy) as (R & HR & EY). apply (proj2 (SP R y EY) d HD). intros x HX. assert (HC : In x cells) by (apply cells_split; exists R; split; assumption). apply H; [exact HC|apply ALL, HC].
Qed.
Lemma rate_nonneg x : In x cells -> (0 <= rate x)%Qc.
Proof.
  intros HX. destruct CR as (_ & _ & _ & _ & _ & _ & GP & (_ & UR) & _). unfold crossing. cbv zeta. set (q := gas_in g gamma D x). apply csum_nonneg. intros a _. unfold Qcdiv.
  apply Qcmult_nonneg; [|apply inv_nonneg, run_side, HX]. pose proof (magnitude_nonneg (vel q a)) as N1. pose proof (proj1 (UR _ (ratio_nonneg gamma q GP (ALL x HX)))) as N2. fold (sound root gamma q) in N2. clear - N1 N2. qlin.
Qed.
Lemma run_answers : (forall R, In R M -> loc R <> []) -> exists t, courant_dt lowest root g b lo hi gamma cfl M U = Some t.
Proof.
  intros NE. destruct CR as (GS & RC & BO & _ & L & CF & _). rewrite run_unfold. destruct (mapM_rel local_answer (fun _ _ => True) (combine (seq 0 (length M)) M)) as (dts & -> & _); [|eauto].
  intros (r & R) H. apply numbered_in in H. destruct H as (j & _ & HR). apply nth_error_In in HR. unfold local_answer. cbn [snd].
  destruct (courant_local_total lowest (this cfl) (map (fun x => this (rate x)) (all_cells b (loc R)))) as (e & E).
  - exact CF.
  - destruct (loc R) as [|A l] eqn:EL; [exfalso; exact (NE R HR EL)|]. assert (IB : in_block b (fun _ => 0)) by (intros a; pose proof (BO a); lia).
    destruct (positions_all b _ IB) as (p & PP & _). intros K. assert (HX : In (cell_of b A p) (all_cells b (A :: l))) by (unfold all_cells; apply in_flat_map; exists A; split; [left; reflexivity|apply in_map, PP]).
    apply (in_map (fun x => this (rate x))) in HX. rewrite K in HX. exact HX.
  - intros y Hy. apply in_map_iff in Hy. destruct Hy as (x & <- & HX). change (0 <= rate x)%Qc. apply rate_nonneg, cells_split. exists R. split; assumption.
  - exists e. split; [exact E|exact I].
Qed.
End Run.

(** * The theorems *)
(** Every cell has a gas with a speed of sound. *)
Theorem C100_largest_partial lowest root g n M b lo hi gamma cfl D U :
  courant_run lowest root g n M b lo hi gamma cfl D U -> (forall x, In x (all_cells b (leaves M)) -> real_gas (gas_in g gamma D x)) ->
  largest_step lowest root g M b lo hi gamma cfl D U.
Proof. exact (run_largest lowest root g n M b lo hi gamma cfl D U). Qed.
(** Then there is an answer if every process has an octant. *)
Theorem C100_answers_partial lowest root g n M b lo hi gamma cfl D U :
  courant_run lowest root g n M b lo hi gamma cfl D U -> (forall x, In x (all_cells b (leaves M)) -> real_gas (gas_in g gamma D x)) ->
  (forall R, In R M -> loc R <> []) -> exists t, courant_dt lowest root g b lo hi gamma cfl M U = Some t.
Proof. exact (run_answers lowest root g n M b lo hi gamma cfl D U). Qed.
Lemma csum_term {Y} (f : Y -> Qc) l y : (forall x, In x l -> 0 <= f x)%Qc -> In y l -> (f y <= csum (map f l))%Qc.
Proof.
  induction l as [|z l IH]; intros P J; [destruct J|]. pose proof (P z (or_introl eq_refl)) as PZ. assert (PL : forall x, In x l -> (0 <= f x)%Qc) by (intros x Hx; apply P; right; exact Hx).
  pose proof (csum_nonneg f l PL) as S. cbn [map csum fold_right]. fold (csum (map f l)). destruct J as [-> |J]; [clear - S; qlin|]. specialize (IH PL J). clear - IH PZ. qlin.
Qed.
Lemma magnitude_sum x y : (magnitude (x + y) <= magnitude x + magnitude y)%Qc.
Proof. unfold magnitude. destruct (Qclt_le_dec (x + y) 0), (Qclt_le_dec x 0), (Qclt_le_dec y 0); qlin. Qed.
(** What the documentation of the limiter says: along each axis no wave, of velocity v, v + c or
    v - c for a speed of sound [c], goes further than [cfl] times the side of its cell. *)
Theorem C100_waves_partial lowest root g n M b lo hi gamma cfl D U t d x a c w :
  courant_run lowest root g n M b lo hi gamma cfl D U -> (forall x, In x (all_cells b (leaves M)) -> real_gas (gas_in g gamma D x)) ->
  courant_dt lowest root g b lo hi gamma cfl M U = Some t -> (0 < d)%Qc -> at_most (this d) t -> In x (all_cells b (leaves M)) -> flat g a = false ->
  (0 <= c)%Qc -> (c * c = gamma * q_p (gas_in g gamma D x) / q_rho (gas_in g gamma D x))%Qc -> In w [0%Qc; c; (- c)%Qc] ->
  (d * magnitude (vel (gas_in g gamma D x) a + w) <= cfl * cell_side g b (extent lo hi) (lev x) a)%Qc.
Proof.
  intros CR ALL E HD AM HX FA C0 C2 HW. pose proof (proj1 (proj2 (run_largest _ _ _ _ _ _ _ _ _ _ _ _ CR ALL t E) d HD) AM x HX (ALL x HX)) as B.
  pose proof (run_side _ _ _ _ _ _ _ _ _ _ _ _ CR x a HX) as SP. set (s := cell_side g b (extent lo hi) (lev x) a) in *. set (q := gas_in g gamma D x) in *.
  pose proof CR as (_ & _ & _ & _ & _ & _ & GP & (UR & _) & _). pose proof (ratio_nonneg gamma q GP (ALL x HX)) as RN.
  assert (SC : sound root gamma q = c) by (unfold sound; rewrite <- C2; apply UR, C0).
  assert (T : ((magnitude (vel q a) + c) / s <= crossing root g b (extent lo hi) gamma D x)%Qc).
  { unfold crossing. cbv zeta. fold q. rewrite SC.
    apply (csum_term (fun a => (magnitude (vel q a) + c) / cell_side g b (extent lo hi) (lev x) a)%Qc (axes_of g) a).
    - intros e _. unfold Qcdiv. apply Qcmult_nonneg; [|apply inv_nonneg, (run_side _ _ _ _ _ _ _ _ _ _ _ _ CR x e HX)]. pose proof (magnitude_nonneg (vel q e)) as N. clear - N C0. qlin.
    - unfold axes_of. unfold flat in FA. destruct (g3d g); destruct a; try discriminate FA; cbn; tauto. }
  assert (W : (magnitude (vel q a + w) <= magnitude (vel q a) + c)%Qc).
  { eapply Qcle_trans; [apply magnitude_sum|]. assert (MW : (magnitude w <= c)%Qc) by (unfold magnitude; destruct HW as [<-|[<-|[<-|[]]]]; destruct (Qclt_le_dec _ 0); qlin). clear - MW. qlin. }
  apply Qcle_trans with (d * (magnitude (vel q a) + c))%Qc.
  - rewrite !(Qcmult_comm d). apply Qcmult_le_compat_r; [exact W|apply Qclt_le_weak, HD].
  - replace (d * (magnitude (vel q a) + c))%Qc with (d * ((magnitude (vel q a) + c) / s) * s)%Qc by (field; apply Qc_pos_nz, SP).
    apply Qcmult_le_compat_r; [|apply Qclt_le_weak, SP]. apply Qcle_trans with (d * crossing root g b (extent lo hi) gamma D x)%Qc; [|exact B].
    rewrite !(Qcmult_comm d). apply Qcmult_le_compat_r; [exact T|apply Qclt_le_weak, HD].
Qed.

(** With invalid cells: those of a process visited after the last invalid one. Missing: the cells
    before it. *)
Lemma nan_fold_any (rs : list Q) o : rs <> [] -> exists m, fold_left nan_max (map Some rs) o = Some m /\ forall r, In r rs -> (r <= m)%Q.
Proof.
  destruct rs as [|r rs]; [contradiction|]. intros _. destruct o as [x|].
  - destruct (nan_fold (r :: rs) x) as (m & E & _ & G & _). exists m. split; assumption.
  - cbn [map fold_left nan_max]. destruct (nan_fold rs r) as (m & E & G0 & G & _). exists m. split; [exact E|]. intros y [<-|Y]; [exact G0|apply G, Y].
Qed.
Lemma local_bound m cfl e d : (0 < cfl)%Q -> (0 < d)%Q -> local_dt m cfl [] = Some e -> at_most d e -> (d * m <= cfl)%Q.
Proof.
  intros C D. unfold local_dt. cbn [fold_left]. destruct (Qeq_bool m 0) eqn:E0; [apply Qeq_bool_iff in E0; intros _ _; rewrite E0; lra|].
  destruct (Qlt_bool 0 (cfl / m)) eqn:EP; [|discriminate]. apply TimeProps.Qlt_bool_iff in EP. intros E. injection E as <-. pose proof (TimeStepProps.div_pos _ _ C EP) as IP. cbn [at_most]. intros DL.
  assert (W : (cfl / m * m == cfl)%Q) by (field; lra). assert (d * m <= cfl / m * m)%Q by (apply Qmult_le_compat_r; lra). lra.
Qed.
Lemma numbered_nth {X} (l : list X) : forall k j x, nth_error l j = Some x -> In ((k + j)%nat, x) (combine (seq k (length l)) l).
Proof.
  induction l as [|y l IH]; intros k [|j] x H; try discriminate; cbn [length seq combine].
  - injection H as ->. left. f_equal. lia.
  - right. replace (k + S j)%nat with (S k + j)%nat by lia. apply IH, H.
Qed.
Theorem C100_after_partial lowest root g n M b lo hi gamma cfl D U t d r R l1 l2 x :
  courant_run lowest root g n M b lo hi gamma cfl D U -> courant_dt lowest root g b lo hi gamma cfl M U = Some t -> (0 < d)%Qc -> at_most (this d) t ->
  nth_error M r = Some R -> all_cells b (loc R) = l1 ++ l2 -> (forall y, In y l2 -> real_gas (gas_in g gamma D y)) -> In x l2 ->
  (d * crossing root g b (extent lo hi) gamma D x <= cfl)%Qc.
Proof.
  intros CR E HD AM HR SPLIT ALL HX. pose proof CR as (_ & _ & _ & _ & _ & CF & _). unfold courant_dt in E. destruct (mapM _ _) as [dts|] eqn:EM; [|discriminate E]. injection E as <-.
  destruct (mapM_In_fwd _ _ _ _ EM (numbered_nth M 0 r R HR)) as (y & HY & EY). cbn [fst snd] in EY. change (0 + r)%nat with r in EY.
  change (at_most (this d) ?t) with (TimeStepProps.ext_le (Fin (this d)) t) in AM. apply TimeStepProps.fold_min_glb in AM. destruct AM as (_ & AM). specialize (AM y HY).
  destruct (kernel_rel b R (courant_rate root g (loc R ++ gho R) lo hi gamma (U r)) (fun x o => real_gas (gas_in g gamma D x) -> o = Some (crossing root g b (extent lo hi) gamma D x))) as (V & EV & FV).
  { intros i A q HA IQ. destruct (courant_rate root g (loc R ++ gho R) lo hi gamma (U r) (mkCell i q b LOCAL_TO_BLOCK)) as [o|] eqn:EO.
    - exists o. split; [reflexivity|]. intros RG. rewrite (one_rate _ _ _ _ _ _ _ _ _ _ _ _ CR r R i A q HR HA IQ RG) in EO. injection EO as <-. reflexivity.
    - exfalso. unfold courant_rate in EO. cbn [c_oct] in EO. rewrite (A_st R i A HA) in EO. discriminate EO. }
  unfold kernel in EV. rewrite EV in EY. rewrite SPLIT in FV. apply Forall2_app_inv_l in FV. destruct FV as (V1 & V2 & _ & F2 & ->).
  assert (V2E : V2 = map Some (map (crossing root g b (extent lo hi) gamma D) l2)).
  { apply somes. clear - F2 ALL. induction F2 as [|z o l V H F IH]; constructor; [apply H, ALL; left; reflexivity|apply IH; intros w W; apply ALL; right; exact W]. }
  subst V2. unfold courant_local in EY. rewrite map_app, fold_left_app in EY. set (o := fold_left nan_max (map (option_map this) V1) (Some lowest)) in EY. clearbody o.
  destruct (nan_fold_any (map (fun z => this (crossing root g b (extent lo hi) gamma D z)) l2) o) as (m & EF & G).
  { destruct l2; [destruct HX|discriminate]. }
  rewrite !map_map in EY. rewrite map_map in EF. cbn [option_map] in EY. rewrite EF in EY.
  apply (local_bound m (this cfl) y (this d) CF HD EY) in AM. specialize (G _ (in_map _ _ _ HX)). cbv beta in G. apply this_le_mult. unfold Qclt in HD. cbn [this Q2Qc] in HD. change (this 0%Qc) with 0%Q in HD. 
  apply Qle_trans with (this d * m)%Q; [|exact AM]. rewrite !(Qmult_comm (this d)). apply Qmult_le_compat_r; [exact G|apply Qlt_le_weak, HD].
Qed.

(** * Example and refutation: two processes, a gas with a speed of sound of 1 *)
Definition calm : cons := mkCons 1 (frac 9 10) 0 0 0.
Definition fast : cons := mkCons 1 (frac 49014 10) (frac 99 1) 0 0.
Definition vacuum : cons := mkCons 1 (frac (-1) 1) 0 0 0.
Definition fast_cell : oct := mkOct 2 0 0 0.
Definition moving_gas (x : oct) : cons := if oct_eqb x fast_cell then fast else calm.
(** The same, and the cell beside the fast one has lost its internal energy. *)
Definition broken_gas (x : oct) : cons := if oct_eqb x (mkOct 2 1 0 0) then vacuum else moving_gas x.
Example courant_example D : courant_run (- 100)%Q careful_root cs_g 2 cs_M cs_b box_lo box_hi (frac 5 3) (frac 1 2) D (arrays cs_b cs_M D).
Proof.
  split; [exact cs_setup|]. split; [exact cs_reach|]. split; [exact cs_block|]. split; [intros a; reflexivity|]. split; [discriminate|]. split; [reflexivity|]. split; [reflexivity|].
  split; [exact careful_root_ok|apply arrays_hold].
Qed.
Example moving_real x : real_gas (gas_in cs_g (frac 5 3) moving_gas x).
Proof. unfold gas_in, moving_gas. destruct (oct_eqb x fast_cell); split; try reflexivity; discriminate. Qed.
Example C100_answer : is_answer (courant_dt (- 100)%Q careful_root cs_g cs_b box_lo box_hi (frac 5 3) (frac 1 2) cs_M (arrays cs_b cs_M moving_gas)) (Some (1 # 3232)%Q) = true.
Proof. vm_compute. reflexivity. Qed.
Example C100_example : largest_step (- 100)%Q careful_root cs_g cs_M cs_b box_lo box_hi (frac 5 3) (frac 1 2) moving_gas (arrays cs_b cs_M moving_gas).
Proof. exact (C100_largest_partial _ _ _ _ _ _ _ _ _ _ _ _ (courant_example moving_gas) (fun x _ => moving_real x)). Qed.
Lemma listed x R M b : In R M -> existsb (oct_eqb x) (all_cells b (loc R)) = true -> In x (all_cells b (leaves M)).
Proof. intros HR K. apply existsb_exists in K. destruct K as (y & HY & E). apply oct_eqb_eq in E. subst y. apply cells_split. exists R. split; assumption. Qed.
Lemma fast_in : In fast_cell (all_cells cs_b (leaves cs_M)).
Proof. exact (listed fast_cell pl_R cs_M cs_b pl_in (eq_refl true <: existsb (oct_eqb fast_cell) (all_cells cs_b (loc pl_R)) = true)). Qed.
(** The limit holds for the 78 cells of the first process after the invalid one. *)
Lemma others_real l : forallb (fun x => negb (oct_eqb x (mkOct 2 1 0 0))) l = true -> forall x, In x l -> real_gas (gas_in cs_g (frac 5 3) broken_gas x).
Proof.
  intros H x HX. rewrite forallb_forall in H. specialize (H x HX). pose proof (moving_real x) as K. unfold gas_in, broken_gas in *. destruct (oct_eqb x (mkOct 2 1 0 0)); [discriminate H|exact K].
Qed.
Example C100_after_example t d x : courant_dt (- 100)%Q careful_root cs_g cs_b box_lo box_hi (frac 5 3) (frac 1 2) cs_M (arrays cs_b cs_M broken_gas) = Some t ->
  (0 < d)%Qc -> at_most (this d) t -> In x (skipn 2 (all_cells cs_b (loc pl_R))) -> (d * crossing careful_root cs_g cs_b (extent box_lo box_hi) (frac 5 3) broken_gas x <= frac 1 2)%Qc.
Proof.
  intros E HD AM HX. apply (C100_after_partial _ _ _ _ _ _ _ _ _ _ _ _ t d 0 pl_R (firstn 2 (all_cells cs_b (loc pl_R))) (skipn 2 (all_cells cs_b (loc pl_R))) x (courant_example broken_gas) E HD AM).
  - vm_compute. reflexivity.
  - symmetry. apply firstn_skipn.
  - apply others_real. vm_compute. reflexivity.
  - exact HX.
Qed.
Theorem C100_refuted : ~ (forall lowest root g n M b lo hi gamma cfl D U, courant_run lowest root g n M b lo hi gamma cfl D U -> largest_step lowest root g M b lo hi gamma cfl D U).
Proof.
  intros H. specialize (H _ _ _ _ _ _ _ _ _ _ _ _ (courant_example broken_gas)). unfold largest_step in H.
  assert (K : is_answer (courant_dt (- 100)%Q careful_root cs_g cs_b box_lo box_hi (frac 5 3) (frac 1 2) cs_M (arrays cs_b cs_M broken_gas)) (Some (1 # 64)%Q) = true) by (vm_compute; reflexivity).
  destruct (courant_dt _ _ _ _ _ _ _ _ _ _) as [t|]; [|discriminate K]. destruct (H t eq_refl) as (_ & B).
  assert (AM : at_most (this (frac 1 64)) t) by (destruct t as [q|]; [cbn in K; apply Qeq_bool_iff in K; cbn [at_most]; rewrite K; discriminate|exact I]).
  assert (RG : real_gas (gas_in cs_g (frac 5 3) broken_gas fast_cell)) by (split; [reflexivity|discriminate]).
  pose proof (proj1 (B (frac 1 64) eq_refl) AM fast_cell fast_in RG) as G. apply G. vm_compute. reflexivity.
Qed.

Print Assumptions C100_largest_partial.
Print Assumptions C100_answers_partial.
Print Assumptions C100_waves_partial.
Print Assumptions C100_after_partial.
Print Assumptions C100_refuted.
