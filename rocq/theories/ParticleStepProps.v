(** The limit of the time step by the velocities of particles (C97). *)
From Coq Require Import QArith Qround Qcanon Lqa.
From Verif Require ParabolicProofs.
From Verif Require Import Base OctreeSpec OctreeGeom OctreeModel FindNeighbors MeshSpec GhostExchange LookupModel LookupSpec LookupProps
  CellModel CellSpec CellProofs CellProps RemapModel RemapSpec RemapProofs HydroModel HydroSpec HydroProps ConserveSpec BlockGhost ConserveProofs
  ParticleSpec ParticleModel ParticleProofs ParticleProps CloudProofs CloudProps HistorySpec HistoryProofs OctreeProps ConserveProps LocateProps RKProofs
  SchemeSpec GravitySpec GravityModel GravityProofs CGTheory TimeModel LimiterSpec LimiterProofs LimiterProps TracerProps PointMassProps ParticleStepModel.
Open Scope Z_scope.

(** A square root: exact on squares, and nowhere below the true one. *)
Definition upper_root (root : Qc -> Qc) : Prop := square_root root /\ forall x, (0 <= x)%Qc -> (0 <= root x)%Qc /\ (x <= root x * root x)%Qc.
(** Side of the cells of an octant. *)
Definition cell_width (g : geom) (b : axis -> Z) (lo hi : axis -> Qc) (A : oct) (a : axis) : Qc := ((hi a - lo a) / Q2Qc (inject_Z (ncells g b (lev A) a)))%Qc.
(** Square of a velocity, among the axes of the simulation. *)
Definition speed2 (g : geom) (v : axis -> Qc) : Qc := csum (map (fun a => v a * v a)%Qc (axes_of g)).
(** During [d] a particle of velocity [v] in a cell of [A] goes no further than [cfl] times any side
    of the cell. *)
Definition goes_within (g : geom) (b : axis -> Z) (lo hi : axis -> Qc) (A : oct) (cfl d : Qc) (v : axis -> Qc) : Prop :=
  forall e, flat g e = false -> (d * d * speed2 g v <= (cfl * cell_width g b lo hi A e) * (cfl * cell_width g b lo hi A e))%Qc.
(** [t] is the answer of the limiter, and a particle of process [r] is at [p], in the cell [q] of
    [A], with velocity [v]. *)
Definition limited (lowest : Q) (root : Qc -> Qc) (g : geom) (P : nat) (M : mesh) (b : axis -> Z) (lo hi : axis -> Qc) (cfl : Qc) (parts : list (list (point * point))) (t : ext) (r : nat) (R : rank) (A : oct) (q : axis -> Z) (p v : axis -> Qc) : Prop :=
  (lowest <= 0)%Q /\ (0 < cfl)%Qc /\ upper_root root /\ particle_dt lowest root g b lo hi cfl M parts = Some t /\ tracer_in g P M b lo hi r R A q p /\
  exists ps, nth_error parts r = Some ps /\ In (p, v) ps.

Lemma combine_nth {X Y} (l : list X) (m : list Y) r x y : nth_error l r = Some x -> nth_error m r = Some y -> In (x, y) (combine l m).
Proof. revert m r. induction l as [|a l IH]; intros [|c m] [|r] H1 H2; try discriminate. - injection H1 as ->. injection H2 as ->. left. reflexivity. - right. exact (IH m r H1 H2). Qed.
Lemma fmin_le_l x y : (fmin x y <= x)%Qc. Proof. unfold fmin. destruct (ltb x y) eqn:E; [apply Qcle_refl|]. apply ltb_false in E. exact E. Qed.
Lemma fmin_le_r x y : (fmin x y <= y)%Qc. Proof. unfold fmin. destruct (ltb x y) eqn:E; [|apply Qcle_refl]. apply ltb_spec in E. apply Qclt_le_weak, E. Qed.
Lemma fmin_pos x y : (0 < x -> 0 < y -> 0 < fmin x y)%Qc. Proof. unfold fmin. destruct (ltb x y); auto. Qed.

(** The speed the limiter takes for a particle, squared. *)
Definition taken2 (g : geom) (v : axis -> Qc) : Qc := speed2 g (fun a => small_v + v a)%Qc.
(** What the answer guarantees for each particle, with the velocity the limiter takes. *)
Lemma limited_taken lowest root g P M b lo hi cfl parts t r R A q p v d :
  limited lowest root g P M b lo hi cfl parts t r R A q p v -> (0 < d)%Qc -> at_most (this d) t ->
  exists s, (0 <= s /\ taken2 g v <= s * s)%Qc /\ forall e, flat g e = false -> (d * s <= cfl * cell_width g b lo hi A e)%Qc /\ (0 < cell_width g b lo hi A e)%Qc.
Proof.
  intros (L & CF & (_ & UR) & E & TI & ps & HPS & HPV) HD AM. destruct TI as (GS & RC & BO & LH & IP & HR & IA & IQ & IC).
  pose proof (proj1 GS) as WF. pose proof (reachable_ok g P M GS RC) as OK. destruct (In_nth_error _ _ IA) as (i & HA). pose proof (nth_error_In _ _ HR) as IR.
  unfold particle_dt in E. destruct (mapM _ (combine M parts)) as [rates|] eqn:EM; [|discriminate E].
  apply (kernel_spec lowest (this cfl, rates) t L CF) in E. destruct E as (_ & SPEC). apply (proj1 (SPEC (this d) HD)) in AM. unfold TimeStepProps.allowed in AM. cbn [fst snd] in AM.
  destruct (mapM_In_fwd _ _ _ _ EM (combine_nth _ _ _ _ _ HR HPS)) as (l & HL & EL). cbn [fst snd] in EL.
  destruct (mapM (particle_rate root g b lo hi R) ps) as [l0|] eqn:E0; [|discriminate EL]. injection EL as <-.
  destruct (mapM_In_fwd _ _ _ _ E0 HPV) as (o & HO & EO).
  specialize (AM (map this l0) (this o) HL (in_map this _ _ HO)).
  apply this_le_mult in AM.
  destruct (cell_found g WF M OK b BO lo hi p LH IP R IR i A q HA IQ IC) as (c & EC & C1 & C2 & C3 & C4).
  unfold particle_rate in EO. cbn [fst snd] in EO. rewrite EC in EO. unfold in_array, is_valid in EO. rewrite C3 in EO. cbv zeta in EO. rewrite C1 in EO.
  assert (HA' : nth_error (loc R ++ gho R) i = Some A) by (rewrite nth_error_app1; [exact HA|apply nth_error_Some; congruence]). rewrite HA' in EO. 
  assert (LA : In A (leaves M)) by (unfold leaves; apply in_concat; exists (loc R); split; [apply in_map, IR|exact IA]).
  assert (W : forall e, flat g e = false -> cell_size g b (extent lo hi) A e = cell_width g b lo hi A e).
  { intros e FE. exact (cell_size_eq g WF M OK b BO ParabolicProofs.no_gi eq_refl (fun _ _ => false) (extent lo hi) (fun a' => Qc_pos_nz _ (ParabolicProofs.ext_pos lo hi LH a')) A e LA FE). }
  assert (WP : forall e, flat g e = false -> (0 < cell_width g b lo hi A e)%Qc).
  { intros e FE. pose proof (VA g WF M OK R IR i A HA) as VAA. pose proof (N_pos g WF b BO (lev A) e (proj1 (proj1 VAA))) as NP. unfold cell_width.
    apply Qcdiv_lt_0; [apply (proj1 (Qclt_sub _ _)), LH|]. unfold Qclt. cbn [this Q2Qc]. rewrite !Qred_correct. unfold Qlt. cbn. lia. }
  assert (XY : flat g AX = false /\ flat g AY = false) by (split; reflexivity). destruct XY as (FX & FY).
  rewrite (W AX FX), (W AY FY) in EO.
  assert (T2 : (0 <= taken2 g v)%Qc).
  { unfold taken2, speed2, axes_of. destruct (g3d g); cbn [map csum fold_right];
    pose proof (sq_nonneg (small_v + v AX)) as N1; pose proof (sq_nonneg (small_v + v AY)) as N2; pose proof (sq_nonneg (small_v + v AZ)) as N3; qlin. }
  destruct (UR _ T2) as (U1 & U2). exists (root (taken2 g v)). split; [split; assumption|].
  assert (ARG : taken2 g v = ((small_v + v AX) * (small_v + v AX) + (small_v + v AY) * (small_v + v AY) + (if g3d g then small_v + v AZ else 0) * (if g3d g then small_v + v AZ else 0))%Qc).
  { unfold taken2, speed2, axes_of. destruct (g3d g); cbn [map csum fold_right]; ring. }
  rewrite <- ARG in EO. set (s := root (taken2 g v)) in *.
  set (dm := if g3d g then fmin (fmin (cell_width g b lo hi A AX) (cell_width g b lo hi A AY)) (cell_size g b (extent lo hi) A AZ) else fmin (cell_width g b lo hi A AX) (cell_width g b lo hi A AY)) in *.
  assert (DM : (0 < dm)%Qc /\ forall e, flat g e = false -> (dm <= cell_width g b lo hi A e)%Qc).
  { unfold dm. destruct (g3d g) eqn:E3.
    - assert (FZ : flat g AZ = false) by (unfold flat; rewrite E3; reflexivity). rewrite (W AZ FZ). split; [repeat apply fmin_pos; apply WP; assumption|].
      intros [] FE; [eapply Qcle_trans; [apply fmin_le_l|apply fmin_le_l]|eapply Qcle_trans; [apply fmin_le_l|apply fmin_le_r]|apply fmin_le_r].
    - split; [apply fmin_pos; apply WP; assumption|]. intros [] FE; [apply fmin_le_l|apply fmin_le_r|]. unfold flat in FE. rewrite E3 in FE. discriminate FE. }
  destruct DM as (DP & DL). injection EO as <-. intros e FE. split; [|apply WP, FE].
  apply Qcle_trans with (cfl * dm)%Qc.
  - replace (d * s)%Qc with ((d * (s / dm)) * dm)%Qc by (field; apply Qc_pos_nz, DP). apply Qcmult_le_compat_r; [exact AM|apply Qclt_le_weak, DP].
  - rewrite !(Qcmult_comm cfl). apply Qcmult_le_compat_r; [apply DL, FE|apply Qclt_le_weak, CF].
Qed.
Lemma square_le x y : (0 <= x -> x <= y -> x * x <= y * y)%Qc.
Proof. intros X Y. apply Qcle_trans with (y * x)%Qc; [apply Qcmult_le_compat_r; assumption|]. rewrite (Qcmult_comm y x). apply Qcmult_le_compat_r; [exact Y|]. apply Qcle_trans with x; assumption. Qed.
Lemma square_bound x y : (0 <= y -> x * x <= y * y -> - y <= x /\ x <= y)%Qc.
Proof.
  intros Y H. split.
  - apply Qcnot_lt_le. intros K. assert (K1 : (y < - x)%Qc) by qlin. assert (K2 : (0 < - x)%Qc) by (apply Qcle_lt_trans with y; assumption).
    assert (T : (y * y < (- x) * (- x))%Qc) by (apply Qcle_lt_trans with (y * - x)%Qc; [rewrite (Qcmult_comm y (- x)); apply Qcmult_le_compat_r; [apply Qclt_le_weak, K1|exact Y]|apply Qcmult_lt_compat_r; assumption]).
    replace (- x * - x)%Qc with (x * x)%Qc in T by ring. apply (Qcle_not_lt _ _ H T).
  - apply Qcnot_lt_le. intros K. assert (K2 : (0 < x)%Qc) by (apply Qcle_lt_trans with y; assumption).
    assert (T : (y * y < x * x)%Qc) by (apply Qcle_lt_trans with (y * x)%Qc; [rewrite (Qcmult_comm y x); apply Qcmult_le_compat_r; [apply Qclt_le_weak, K|exact Y]|apply Qcmult_lt_compat_r; assumption]).
    apply (Qcle_not_lt _ _ H T).
Qed.
(** Particles whose velocity has no negative component. *)
Theorem C97_forward_partial lowest root g P M b lo hi cfl parts t r R A q p v d :
  limited lowest root g P M b lo hi cfl parts t r R A q p v -> (0 < d)%Qc -> at_most (this d) t ->
  (forall a, flat g a = false -> 0 <= v a)%Qc -> goes_within g b lo hi A cfl d v.
Proof.
  intros LM HD AM NN. destruct (limited_taken _ _ _ _ _ _ _ _ _ _ _ _ _ _ _ _ _ d LM HD AM) as (s & (S0 & S2) & B). intros e FE. destruct (B e FE) as (B1 & _).
  assert (SP : (speed2 g v <= taken2 g v)%Qc).
  { assert (K : forall a, flat g a = false -> (v a * v a <= (small_v + v a) * (small_v + v a))%Qc).
    { intros a FA. apply square_le; [apply NN, FA|]. assert (SV : (0 <= small_v)%Qc) by discriminate. clear - SV. qlin. }
    pose proof (K AX eq_refl) as KX. pose proof (K AY eq_refl) as KY. unfold taken2, speed2, axes_of.
    destruct (g3d g) eqn:E3; cbn [map csum fold_right]; [pose proof (K AZ) as KZ; unfold flat in KZ; rewrite E3 in KZ; specialize (KZ eq_refl); clear - KX KY KZ; qlin|clear - KX KY; qlin]. }
  apply Qcle_trans with ((d * s) * (d * s))%Qc.
  - replace (d * s * (d * s))%Qc with ((s * s) * (d * d))%Qc by ring. rewrite (Qcmult_comm (d * d)). apply Qcmult_le_compat_r; [apply Qcle_trans with (taken2 g v); assumption|apply sq_nonneg].
  - apply square_le; [|exact B1]. apply Qcmult_nonneg; [apply Qclt_le_weak, HD|exact S0].
Qed.
(** All particles: each component, up to the velocity [small_v] = 1e-10. *)
Theorem C97_close_partial lowest root g P M b lo hi cfl parts t r R A q p v d :
  limited lowest root g P M b lo hi cfl parts t r R A q p v -> (0 < d)%Qc -> at_most (this d) t ->
  forall a e, flat g a = false -> flat g e = false ->
    (- (cfl * cell_width g b lo hi A e + d * frac 1 10000000000) <= d * v a /\ d * v a <= cfl * cell_width g b lo hi A e)%Qc.
Proof.
  intros LM HD AM a e FA FE. destruct (limited_taken _ _ _ _ _ _ _ _ _ _ _ _ _ _ _ _ _ d LM HD AM) as (s & (S0 & S2) & B). destruct (B e FE) as (B1 & _).
  assert (C : ((small_v + v a) * (small_v + v a) <= s * s)%Qc).
  { apply Qcle_trans with (taken2 g v); [|exact S2]. unfold taken2, speed2, axes_of.
    pose proof (sq_nonneg (small_v + v AX)) as N1; pose proof (sq_nonneg (small_v + v AY)) as N2; pose proof (sq_nonneg (small_v + v AZ)) as N3.
    destruct (g3d g) eqn:E3; cbn [map csum fold_right]; destruct a; try (clear - N1 N2 N3; qlin). unfold flat in FA. rewrite E3 in FA. discriminate FA. }
  destruct (square_bound _ _ S0 C) as (C1 & C2). change (frac 1 10000000000) with small_v.
  assert (SV : (0 <= small_v)%Qc) by discriminate. set (w := (cfl * cell_width g b lo hi A e)%Qc) in *. clearbody w.
  assert (D1 : ((v a + small_v) * d <= s * d)%Qc) by (apply Qcmult_le_compat_r; [clear - C2; qlin|apply Qclt_le_weak, HD]).
  assert (D2 : (- s * d <= (v a + small_v) * d)%Qc) by (apply Qcmult_le_compat_r; [clear - C1; qlin|apply Qclt_le_weak, HD]).
  assert (D3 : (0 <= small_v * d)%Qc) by (apply Qcmult_nonneg; [exact SV|apply Qclt_le_weak, HD]).
  set (x := (v a * d)%Qc). set (y := (small_v * d)%Qc) in *. set (z := (s * d)%Qc) in *.
  replace ((v a + small_v) * d)%Qc with (x + y)%Qc in D1, D2 by (unfold x, y; ring). replace (- s * d)%Qc with (- z)%Qc in D2 by (unfold z; ring).
  replace (d * s)%Qc with z in B1 by (unfold z; ring). replace (d * v a)%Qc with x by (unfold x; ring). replace (d * small_v)%Qc with y by (unfold y; ring).
  clearbody x y z. clear - D1 D2 D3 B1. split; qlin.
Qed.

(** * Cases *)
Definition careful_root (x : Qc) : Qc := if Qc_eq_dec (fraction_root x * fraction_root x) x then fraction_root x else (x + 1)%Qc.
Lemma fraction_root_nonneg x : (0 <= fraction_root x)%Qc.
Proof. unfold fraction_root, Qcle. cbn [this Q2Qc]. rewrite !Qred_correct. unfold Qle. cbn. pose proof (Z.sqrt_nonneg (Qnum x)). lia. Qed.
Lemma careful_root_ok : upper_root careful_root.
Proof.
  split.
  - intros q HQ. unfold careful_root. rewrite (fraction_root_ok q HQ). destruct (Qc_eq_dec (q * q) (q * q)) as [_|N]; [reflexivity|contradiction].
  - intros x HX. unfold careful_root. destruct (Qc_eq_dec _ x) as [E|N].
    + split; [apply fraction_root_nonneg|]. rewrite E. apply Qcle_refl.
    + pose proof (sq_nonneg x) as S. split; [clear - HX; qlin|]. replace ((x + 1) * (x + 1))%Qc with (x * x + (x + x) + 1)%Qc by ring. set (y := (x * x)%Qc) in *. clearbody y. clear - HX S. qlin.
Qed.
Definition both (v : point) : list (list (point * point)) := [[(pt 9 7 0, v)]; [(pt 3 11 0, v)]].
Example moving v t : particle_dt (- 100)%Q careful_root cs_g cs_b box_lo box_hi (frac 1 2) cs_M (both v) = Some t ->
  limited (- 100)%Q careful_root cs_g 2 cs_M cs_b box_lo box_hi (frac 1 2) (both v) t 0 pl_R (mkOct 1 1 0 0) (mkoff 0 3 0) (pt 9 7 0) v.
Proof.
  intros E. split; [discriminate|]. split; [reflexivity|]. split; [exact careful_root_ok|]. split; [exact E|]. split; [exact inner_tracer|].
  exists [(pt 9 7 0, v)]. split; [reflexivity|left; reflexivity].
Qed.
Definition is_answer (o : option ext) (q : option Q) : bool := match o, q with Some (Fin x), Some y => Qeq_bool x y | Some Infinite, None => true | _, _ => false end.
(** Velocity (3, 4) less 1e-10: the limiter takes 5, cells of 1/8, so 0.5 * (1/8) / 5 = 1/80. *)
Definition quick : point := fun a => match a with AX => (frac 3 1 - small_v)%Qc | AY => (frac 4 1 - small_v)%Qc | AZ => 0%Qc end.
Example C97_example : exists t, particle_dt (- 100)%Q careful_root cs_g cs_b box_lo box_hi (frac 1 2) cs_M (both quick) = Some t /\ at_most (this (frac 1 80)) t /\
  goes_within cs_g cs_b box_lo box_hi (mkOct 1 1 0 0) (frac 1 2) (frac 1 80) quick.
Proof.
  destruct (particle_dt (- 100)%Q careful_root cs_g cs_b box_lo box_hi (frac 1 2) cs_M (both quick)) as [t|] eqn:E.
  - exists t. split; [reflexivity|]. assert (K : is_answer (Some t) (Some (1 # 80)) = true) by (rewrite <- E; vm_compute; reflexivity).
    assert (AM : at_most (this (frac 1 80)) t) by (destruct t as [x|]; [apply Qeq_bool_iff in K; cbn [at_most]; rewrite K; discriminate|exact I]).
    split; [exact AM|]. apply (C97_forward_partial _ _ _ _ _ _ _ _ _ _ _ _ _ _ _ _ _ _ (moving quick t E)); [reflexivity|exact AM|]. intros [] F; try discriminate F; discriminate.
  - exfalso. assert (K : is_answer None (Some (1 # 80)) = true) by (rewrite <- E; vm_compute; reflexivity). discriminate K.
Qed.
(** The full statement: no condition on the velocities. *)
Definition particles_go_within : Prop := forall lowest root g P M b lo hi cfl parts t r R A q p v d,
  limited lowest root g P M b lo hi cfl parts t r R A q p v -> (0 < d)%Qc -> at_most (this d) t -> goes_within g b lo hi A cfl d v.
(** [small_v] is added to signed components: it hides the velocity (-1e-10, -1e-10), and there is no
    limit at all. *)
Definition slow : point := fun a => match a with AZ => 0%Qc | _ => (- small_v)%Qc end.
Theorem C97_refuted : ~ particles_go_within.
Proof.
  intros H. destruct (particle_dt (- 100)%Q careful_root cs_g cs_b box_lo box_hi (frac 1 2) cs_M (both slow)) as [t|] eqn:E.
  - assert (K : is_answer (Some t) None = true) by (rewrite <- E; vm_compute; reflexivity).
    assert (AM : at_most (this (frac 10000000000 1)) t) by (destruct t; [discriminate K|exact I]).
    pose proof (H _ _ _ _ _ _ _ _ _ _ _ _ _ _ _ _ _ (frac 10000000000 1) (moving slow t E) eq_refl AM AX eq_refl) as G. apply G. vm_compute. reflexivity.
  - assert (K : is_answer None None = true) by (rewrite <- E; vm_compute; reflexivity). discriminate K.
Qed.

Print Assumptions C97_forward_partial.
Print Assumptions C97_close_partial.
Print Assumptions C97_refuted.
