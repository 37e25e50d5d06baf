(** The motion of tracers (C95). *)
From Coq Require Import QArith Qround Qcanon Lqa.
From Verif Require Import Base OctreeSpec OctreeGeom OctreeModel FindNeighbors MeshSpec GhostExchange LookupModel LookupSpec LookupProps
  CellModel CellSpec CellProofs CellProps RemapModel RemapSpec RemapProofs HydroModel HydroSpec HydroProps ConserveSpec BlockGhost ConserveProofs
  ParticleSpec ParticleModel ParticleProofs ParticleProps CloudProofs CloudProps HistorySpec HistoryProofs OctreeProps ConserveProps LocateProps RKProofs TracerModel.
Open Scope Z_scope.

(** A rank [R] of number [r], the cell [q] of its octant [A], and a position in it; the fields of the
    ranks hold [D]. *)
Definition tracer_in (g : geom) (P : nat) (M : mesh) (b : axis -> Z) (lo hi : point) (r : nat) (R : rank) (A : oct) (q : axis -> Z) (p : point) : Prop :=
  good_setup g P /\ reachable g P M /\ block_ok g b /\ (forall a, lo a < hi a)%Qc /\ in_box g lo hi p /\
  nth_error M r = Some R /\ In A (loc R) /\ in_block b q /\ in_cell g b lo hi A q p.
(** Velocity of a gas. *)
Definition speed (u : cons) (a : axis) : Qc := (mom u a / u_rho u)%Qc.

(** A tracer moves with the gas of the cell it is in. *)
Theorem C95_follows g P M b lo hi r R A q p dt D U :
  tracer_in g P M b lo hi r R A q p -> holds_field b M D U -> u_rho (D (cell_of b A q)) <> 0%Qc ->
  exists p', tracer g b lo hi dt R (U r) p = Some p' /\ forall a, p' a = (p a + dt * speed (D (cell_of b A q)) a)%Qc.
Proof.
  intros (GS & RC & BO & LH & IP & HR & IA & IQ & IC) HF NZ. pose proof (proj1 GS) as WF. pose proof (reachable_ok g P M GS RC) as OK.
  destruct (In_nth_error _ _ IA) as (i & HA). pose proof (nth_error_In _ _ HR) as IR.
  destruct (cell_found g WF M OK b BO lo hi p LH IP R IR i A q HA IQ IC) as (c & EC & C1 & C2 & C3 & C4).
  unfold tracer. rewrite EC. unfold in_array, is_valid. rewrite C3. cbv zeta. rewrite C1, C2.
  assert (E : U r i (flat_cell b (c_pos c)) = D (cell_of b A q)).
  { unfold flat_cell. rewrite !C4. apply (HF r R i A q HR); [rewrite nth_error_app1; [exact HA|apply nth_error_Some; congruence]|exact IQ]. }
  rewrite E. destruct (Qc_eq_dec (u_rho (D (cell_of b A q))) 0) as [K|_]; [contradiction|].
  eexists. split; [reflexivity|]. intros a. unfold speed, mom, Qcdiv. destruct a; ring.
Qed.
(** All the tracers of a rank. *)
Theorem C95_all g P M b lo hi r R ps dt D U :
  nth_error M r = Some R -> holds_field b M D U ->
  (forall p, In p ps -> exists A q, tracer_in g P M b lo hi r R A q p /\ u_rho (D (cell_of b A q)) <> 0%Qc) ->
  exists ps', tracers g b lo hi dt R (U r) ps = Some ps' /\
    Forall2 (fun p p' => exists A q, In A (leaves M) /\ in_block b q /\ in_cell g b lo hi A q p /\ forall a, p' a = (p a + dt * speed (D (cell_of b A q)) a)%Qc) ps ps'.
Proof.
  intros HR HF H. apply mapM_rel. intros p HP. destruct (H p HP) as (A & q & TI & NZ). destruct (C95_follows g P M b lo hi r R A q p dt D U TI HF NZ) as (p' & E & V).
  exists p'. split; [exact E|]. exists A, q. destruct TI as (_ & _ & _ & _ & _ & _ & IA & IQ & IC). split; [|auto].
  unfold leaves. apply in_concat. exists (loc R). split; [apply in_map, (nth_error_In _ _ HR)|exact IA].
Qed.

(** A tracer that is not in a cell along the boundary, and that moves by less than a cell, stays in
    the domain. *)
Definition away (g : geom) (b : axis -> Z) (A : oct) (q : axis -> Z) : Prop :=
  forall a, flat g a = false -> 1 <= gpos b A q a /\ gpos b A q a + 2 <= ncells g b (lev A) a.
Definition short (g : geom) (b : axis -> Z) (lo hi : point) (A : oct) (dt : Qc) (u : cons) : Prop :=
  forall a, if flat g a then mom u a = 0%Qc else
    (- ((hi a - lo a) / Q2Qc (inject_Z (ncells g b (lev A) a))) < dt * speed u a /\ dt * speed u a < (hi a - lo a) / Q2Qc (inject_Z (ncells g b (lev A) a)))%Qc.
Theorem C95_stays_partial g P M b lo hi r R A q p dt D U p' :
  tracer_in g P M b lo hi r R A q p -> holds_field b M D U -> u_rho (D (cell_of b A q)) <> 0%Qc ->
  away g b A q -> short g b lo hi A dt (D (cell_of b A q)) ->
  tracer g b lo hi dt R (U r) p = Some p' -> in_box g lo hi p'.
Proof.
  intros TI HF NZ AW SH E. destruct (C95_follows g P M b lo hi r R A q p dt D U TI HF NZ) as (p2 & E2 & V). rewrite E in E2. injection E2 as <-.
  destruct TI as (GS & RC & BO & LH & IP & HR & IA & IQ & IC). pose proof (proj1 GS) as WF. pose proof (reachable_ok g P M GS RC) as OK.
  destruct (In_nth_error _ _ IA) as (i & HA). pose proof (nth_error_In _ _ HR) as IR.
  intros a. rewrite V. specialize (IP a). specialize (SH a). specialize (AW a). destruct (flat g a) eqn:F.
  { unfold speed. rewrite SH, IP. unfold Qcdiv. ring. }
  specialize (AW eq_refl). destruct (IC a) as (I1 & I2). rewrite !(line_len g WF M OK b BO R IR i A HA lo hi) in *.
  pose proof (VA g WF M OK R IR i A HA) as VAA. pose proof (N_pos g WF b BO (lev A) a (proj1 (proj1 VAA))) as NP.
  fold (zq (ncells g b (lev A) a)) in SH. set (h := len g b lo hi (lev A) a) in *.
  assert (HH : ((hi a - lo a) / zq (ncells g b (lev A) a))%Qc = h) by reflexivity. rewrite HH in SH.
  assert (HT : (hi a = lo a + zq (2 * ncells g b (lev A) a) * (h / two))%Qc).
  { unfold h, len, extent. rewrite zq_mult, zq_2. field. split; [exact two_nz|apply Qc_pos_nz, zq_pos, NP] || (split; [apply Qc_pos_nz, zq_pos, NP|exact two_nz]). }
  assert (HP : (0 < h)%Qc) by (unfold h, len; apply Qcdiv_lt_0; [apply ext_pos, LH|apply zq_pos, NP]).
  assert (HK : h = (two * (h / two))%Qc) by (unfold two; field; exact two_nz). set (k := (h / two)%Qc) in *. clearbody k. rewrite HK in SH, HP.
  assert (KP : (0 < k)%Qc) by (unfold two in HP; qlin).
  destruct AW as (W1 & W2). destruct SH as (S1 & S2). set (m := (dt * speed (D (cell_of b A q)) a)%Qc) in *. clearbody m.
  assert (MON : forall y z, y <= z -> (zq y * k <= zq z * k)%Qc).
  { intros y z Hyz. apply Qcmult_le_compat_r; [apply (proj1 (zq_le _ _)), Hyz|apply Qclt_le_weak, KP]. }
  pose proof (MON 2 (2 * gpos b A q a) ltac:(lia)) as M1. pose proof (MON (2 * gpos b A q a + 2 + 2) (2 * ncells g b (lev A) a) ltac:(lia)) as M2.
  rewrite zq_2 in M1. replace (zq (2 * gpos b A q a + 2 + 2) * k)%Qc with (zq (2 * gpos b A q a + 2) * k + two * k)%Qc in M2 by (rewrite (zq_plus (2 * gpos b A q a + 2) 2), zq_2; ring).
  rewrite HT. set (u1 := (zq (2 * gpos b A q a) * k)%Qc) in *. set (u2 := (zq (2 * gpos b A q a + 2) * k)%Qc) in *. set (u3 := (zq (2 * ncells g b (lev A) a) * k)%Qc) in *.
  clear HT HK HH. clearbody u1 u2 u3. unfold two in *. set (l := lo a) in *. clearbody l. set (x := p a) in *. clearbody x. clear - I1 I2 S1 S2 M1 M2 KP. split; qlin.
Qed.

(** * Cases *)
(** A wind along the first axis. *)
Definition wind (x : oct) : cons := mkCons 1 1 1 0 0.
Definition edge_p : point := pt 15 7 0.
Lemma edge_box : in_box cs_g box_lo box_hi edge_p.
Proof. intros []; cbn; [split; reflexivity|split; reflexivity|apply Qc_is_canon; reflexivity]. Qed.
Lemma edge_inblock : in_block cs_b (mkoff 3 3 0). Proof. intros []; cbn; lia. Qed.
Lemma edge_cell : in_cell cs_g cs_b box_lo box_hi (mkOct 1 1 0 0) (mkoff 3 3 0) edge_p.
Proof. intros []; split; vm_compute; congruence. Qed.
Lemma pl_nth : nth_error cs_M 0 = Some pl_R. Proof. vm_compute. reflexivity. Qed.
Example edge_tracer : tracer_in cs_g 2 cs_M cs_b box_lo box_hi 0 pl_R (mkOct 1 1 0 0) (mkoff 3 3 0) edge_p.
Proof.
  split; [exact cs_setup|]. split; [exact cs_reach|]. split; [exact cs_block|]. split; [exact pt_unit|]. split; [exact edge_box|]. split; [exact pl_nth|].
  split; [exact (nth_error_In _ _ pl_at)|]. split; [exact edge_inblock|exact edge_cell].
Qed.
Example inner_tracer : tracer_in cs_g 2 cs_M cs_b box_lo box_hi 0 pl_R (mkOct 1 1 0 0) (mkoff 0 3 0) (pt 9 7 0).
Proof.
  split; [exact cs_setup|]. split; [exact cs_reach|]. split; [exact cs_block|]. split; [exact pt_unit|]. split; [exact pl_box|]. split; [exact pl_nth|].
  split; [exact (nth_error_In _ _ pl_at)|]. split; [exact pl_inblock|exact pl_cell].
Qed.
Example C95_follows_example : exists p', tracer cs_g cs_b box_lo box_hi (frac 1 10) pl_R (arrays cs_b cs_M wind 0) (pt 9 7 0) = Some p' /\ p' AX = frac 53 80 /\ p' AY = frac 7 16.
Proof.
  assert (NZ : u_rho (wind (cell_of cs_b (mkOct 1 1 0 0) (mkoff 0 3 0))) <> 0%Qc) by discriminate.
  destruct (C95_follows cs_g 2 cs_M cs_b box_lo box_hi 0 pl_R _ _ (pt 9 7 0) (frac 1 10) wind (arrays cs_b cs_M wind) inner_tracer (arrays_hold _ _ _) NZ) as (p' & E & V).
  exists p'. split; [exact E|]. rewrite !V. split; apply Qc_is_canon; vm_compute; reflexivity.
Qed.
Example C95_stays_example p' : tracer cs_g cs_b box_lo box_hi (frac 1 10) pl_R (arrays cs_b cs_M wind 0) (pt 9 7 0) = Some p' -> in_box cs_g box_lo box_hi p'.
Proof.
  apply (C95_stays_partial cs_g 2 cs_M cs_b box_lo box_hi 0 pl_R (mkOct 1 1 0 0) (mkoff 0 3 0) (pt 9 7 0) (frac 1 10) wind (arrays cs_b cs_M wind) p' inner_tracer (arrays_hold _ _ _)).
  - discriminate.
  - intros a F. destruct a; try discriminate F; vm_compute; split; congruence.
  - intros a. destruct a; cbn; [split; reflexivity|split; reflexivity|reflexivity].
Qed.

(** What a user of a periodic domain expects: the tracer stays in the domain, and some rank can move
    it again. *)
Definition tracers_stay : Prop := forall g P M b lo hi r R A q p dt D U p',
  tracer_in g P M b lo hi r R A q p -> periodic g -> holds_field b M D U -> u_rho (D (cell_of b A q)) <> 0%Qc -> short g b lo hi A dt (D (cell_of b A q)) ->
  tracer g b lo hi dt R (U r) p = Some p' -> forall a, (lo a <= p' a /\ p' a <= hi a)%Qc.
Definition tracers_go_on : Prop := forall g P M b lo hi r R A q p dt D U p',
  tracer_in g P M b lo hi r R A q p -> periodic g -> holds_field b M D U -> (forall x, u_rho (D x) <> 0%Qc) -> short g b lo hi A dt (D (cell_of b A q)) ->
  tracer g b lo hi dt R (U r) p = Some p' -> exists r' R' p2, nth_error M r' = Some R' /\ tracer g b lo hi dt R' (U r') p' = Some p2.
Lemma wind_short q : short cs_g cs_b box_lo box_hi (mkOct 1 1 0 0) (frac 1 10) (wind q).
Proof. intros a. destruct a; cbn; [split; reflexivity|split; reflexivity|reflexivity]. Qed.
Lemma edge_moves : exists p', tracer cs_g cs_b box_lo box_hi (frac 1 10) pl_R (arrays cs_b cs_M wind 0) edge_p = Some p' /\ p' AX = frac 83 80.
Proof.
  assert (NZ : u_rho (wind (cell_of cs_b (mkOct 1 1 0 0) (mkoff 3 3 0))) <> 0%Qc) by discriminate.
  destruct (C95_follows cs_g 2 cs_M cs_b box_lo box_hi 0 pl_R _ _ edge_p (frac 1 10) wind (arrays cs_b cs_M wind) edge_tracer (arrays_hold _ _ _) NZ) as (p' & E & V).
  exists p'. split; [exact E|]. rewrite V. apply Qc_is_canon. vm_compute. reflexivity.
Qed.
(** The position is not brought back into the domain. *)
Theorem C95_refuted_leaves : ~ tracers_stay.
Proof.
  intros H. destruct edge_moves as (p' & E & V). assert (NZ : u_rho (wind (cell_of cs_b (mkOct 1 1 0 0) (mkoff 3 3 0))) <> 0%Qc) by discriminate.
  destruct (H cs_g 2%nat cs_M cs_b box_lo box_hi 0%nat pl_R _ _ edge_p (frac 1 10) wind (arrays cs_b cs_M wind) p' edge_tracer cs_periodic (arrays_hold _ _ _) NZ (wind_short _) E AX) as (_ & K).
  rewrite V in K. apply K. reflexivity.
Qed.
Lemma outside_none g b lo hi dt R U p : (lo AX < hi AX)%Qc -> (hi AX <= p AX)%Qc -> tracer g b lo hi dt R U p = None.
Proof.
  intros LH K. unfold tracer, getCellFromPos.
  assert (X : ltb ((p AX - lo AX) / (hi AX - lo AX)) 1 = false).
  { apply ltb_false. pose proof (proj1 (Qclt_sub _ _) LH) as EP. replace 1%Qc with ((hi AX - lo AX) * / (hi AX - lo AX))%Qc by (apply Qcmult_inv_r, Qc_pos_nz, EP).
    unfold Qcdiv. apply Qcmult_le_compat_r; [clear - K; qlin|]. apply Qclt_le_weak. replace (/ (hi AX - lo AX))%Qc with (1 / (hi AX - lo AX))%Qc by (unfold Qcdiv; ring). apply Qcdiv_lt_0; [reflexivity|exact EP]. }
  rewrite X, Bool.andb_false_r. reflexivity.
Qed.
(** The next update then finds no cell: failed assertion. *)
Theorem C95_refuted_next : ~ tracers_go_on.
Proof.
  intros H. destruct edge_moves as (p' & E & V). assert (NZ : forall x, u_rho (wind x) <> 0%Qc) by (intros x; discriminate).
  destruct (H cs_g 2%nat cs_M cs_b box_lo box_hi 0%nat pl_R _ _ edge_p (frac 1 10) wind (arrays cs_b cs_M wind) p' edge_tracer cs_periodic (arrays_hold _ _ _) NZ (wind_short _) E) as (r' & R' & p2 & _ & K).
  rewrite outside_none in K; [discriminate K|reflexivity|]. rewrite V. discriminate.
Qed.

Print Assumptions C95_follows.
Print Assumptions C95_all.
Print Assumptions C95_stays_partial.
Print Assumptions C95_refuted_leaves.
Print Assumptions C95_refuted_next.
