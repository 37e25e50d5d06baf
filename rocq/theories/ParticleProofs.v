(** Positions of particles on the grid of cells (used for C48, C74, C75, C76). *)
From Coq Require Import QArith Qround Qcanon.
From Verif Require Import Base OctreeSpec OctreeGeom OctreeModel FindNeighbors MeshSpec GhostExchange LookupModel LookupSpec LookupProps
  CellModel CellSpec CellProofs CellProps RemapModel RemapSpec RemapProofs HydroModel HydroSpec HydroProps ConserveSpec BlockGhost ConserveProofs ParticleSpec ParticleModel.
Open Scope Z_scope.

(** * Integers in Qc *)
Lemma zq_this z : (this (zq z) == inject_Z z)%Q.
Proof. unfold zq. cbn [Q2Qc this]. apply Qred_correct. Qed.
Lemma zq_plus x y : zq (x + y) = (zq x + zq y)%Qc.
Proof. apply Qc_is_canon. unfold Qcplus. cbn [Q2Qc this]. rewrite Qred_correct, !zq_this, inject_Z_plus. reflexivity. Qed.
Lemma zq_le x y : x <= y <-> (zq x <= zq y)%Qc.
Proof. unfold Qcle. rewrite !zq_this, Zle_Qle. reflexivity. Qed.
Lemma zq_lt x y : x < y <-> (zq x < zq y)%Qc.
Proof. unfold Qclt. rewrite !zq_this, Zlt_Qlt. reflexivity. Qed.
Lemma frac_zq z : frac z 1 = zq z. Proof. reflexivity. Qed.
Lemma zq_0 : zq 0 = 0%Qc. Proof. reflexivity. Qed.
Lemma zq_1 : zq 1 = 1%Qc. Proof. reflexivity. Qed.
Lemma zq_2 : zq 2 = two. Proof. apply Qc_is_canon. reflexivity. Qed.
Lemma Q2Qc_div1 z : Q2Qc (1 / inject_Z z) = (1 / zq z)%Qc.
Proof. apply Qc_is_canon. unfold zq, Qcdiv, Qcinv, Qcmult. cbn [Q2Qc this]. rewrite !Qred_correct. reflexivity. Qed.
Lemma Q2Qc_div y z : Q2Qc (inject_Z y / inject_Z z) = (zq y / zq z)%Qc.
Proof. apply Qc_is_canon. unfold zq, Qcdiv, Qcinv, Qcmult. cbn [Q2Qc this]. rewrite !Qred_correct. reflexivity. Qed.
Lemma Qle_Qc u y : (u <= this y)%Q <-> (Q2Qc u <= y)%Qc.
Proof. unfold Qcle. cbn [Q2Qc this]. rewrite Qred_correct. reflexivity. Qed.
Lemma Qlt_Qc u y : (this y < u)%Q <-> (y < Q2Qc u)%Qc.
Proof. unfold Qclt. cbn [Q2Qc this]. rewrite Qred_correct. reflexivity. Qed.
Lemma floor_is x z : (zq z <= x)%Qc -> (x < zq (z + 1))%Qc -> Qfloor (this x) = z.
Proof.
  intros H1 H2. unfold Qcle in H1. unfold Qclt in H2. rewrite zq_this in H1, H2.
  apply Z.le_antisymm.
  - apply Z.lt_succ_r. rewrite Zlt_Qlt. eapply Qle_lt_trans; [apply Qfloor_le|exact H2].
  - rewrite <- (Qfloor_Z z). apply Qfloor_resp_le, H1.
Qed.
Lemma floor_bounds x : (zq (Qfloor (this x)) <= x)%Qc /\ (x < zq (Qfloor (this x) + 1))%Qc.
Proof. unfold Qcle, Qclt. rewrite !zq_this. split; [apply Qfloor_le|apply Qlt_floor]. Qed.
Lemma zq_pos z : 0 < z -> (0 < zq z)%Qc. Proof. intros H. rewrite <- zq_0. apply (proj1 (zq_lt 0 z)), H. Qed.

(** Dividing and multiplying an inequality by a positive number. *)
Lemma Qcdiv_le x y d : (0 < d)%Qc -> ((x / d <= y)%Qc <-> (x <= y * d)%Qc).
Proof.
  intros D. assert (N := Qc_pos_nz d D). split; intros H.
  - replace x with (x / d * d)%Qc by (field; exact N). apply Qcmult_le_compat_r; [exact H|apply Qclt_le_weak, D].
  - replace y with (y * d / d)%Qc by (field; exact N). unfold Qcdiv at 1 2. apply Qcmult_le_compat_r; [exact H|apply Qclt_le_weak, Qcinv_lt_0, D].
Qed.
Lemma Qclt_div x y d : (0 < d)%Qc -> ((y < x / d)%Qc <-> (y * d < x)%Qc).
Proof.
  intros D. assert (N := Qc_pos_nz d D). split; intros H.
  - replace x with (x / d * d)%Qc by (field; exact N). apply Qcmult_lt_compat_r; assumption.
  - replace y with (y * d / d)%Qc by (field; exact N). unfold Qcdiv at 1 2. apply Qcmult_lt_compat_r; [apply Qcinv_lt_0, D|exact H].
Qed.
Lemma Qclt_sub x y : (x < y)%Qc <-> (0 < y - x)%Qc.
Proof.
  split; intros H.
  - apply Qclt_minus_iff in H. replace (y - x)%Qc with (y + - x)%Qc by ring. exact H.
  - apply Qclt_minus_iff. replace (y + - x)%Qc with (y - x)%Qc by ring. exact H.
Qed.

Section Grid.
Context (g : geom) (WF : wf_geom g) (M : mesh) (OK : mesh_ok g M) (b : axis -> Z) (BO : block_ok g b).
Context (lo hi p : point) (LH : forall a, (lo a < hi a)%Qc).
Notation N l a := (ncells g b l a).

(** Position in the unit box. *)
Definition x01 (a : axis) : Qc := ((p a - lo a) / (hi a - lo a))%Qc.
Lemma ext_pos a : (0 < hi a - lo a)%Qc. Proof. rewrite <- Qclt_sub. apply LH. Qed.
Lemma p_x01 a : (p a = lo a + x01 a * (hi a - lo a))%Qc.
Proof. unfold x01. field. apply Qc_pos_nz, ext_pos. Qed.

(** A grid line compared with the position. *)
Lemma line_t l a z : lmin g <= l -> (grid_line g b lo hi l a z = lo a + zq z / zq (2 * N l a) * (hi a - lo a))%Qc.
Proof. reflexivity. Qed.
Lemma N2 l a : lmin g <= l -> (0 < zq (2 * N l a))%Qc.
Proof. intros H. apply zq_pos. pose proof (N_pos g WF b BO l a H). lia. Qed.
Lemma line_le l a z : lmin g <= l -> ((grid_line g b lo hi l a (2 * z) <= p a)%Qc <-> (zq z <= x01 a * zq (N l a))%Qc).
Proof.
  intros H. rewrite line_t by exact H. rewrite (p_x01 a) at 1. pose proof (ext_pos a) as E. pose proof (N2 l a H) as P.
  assert (P1 : (0 < zq (N l a))%Qc) by (apply zq_pos, (N_pos g WF b BO l a H)).
  rewrite <- (Qcdiv_le (zq z) (x01 a) (zq (N l a)) P1).
  assert (EQ : (zq (2 * z) / zq (2 * N l a) = zq z / zq (N l a))%Qc).
  { rewrite !zq_mult, zq_2. field. split; [apply Qc_pos_nz, P1|apply two_nz]. }
  rewrite EQ. set (t := (zq z / zq (N l a))%Qc).
  rewrite (Qcle_sub (lo a + t * (hi a - lo a)) _), (Qcle_sub t).
  replace (lo a + x01 a * (hi a - lo a) - (lo a + t * (hi a - lo a)))%Qc with ((x01 a - t) * (hi a - lo a))%Qc by ring.
  split; intros K.
  - replace (x01 a - t)%Qc with ((x01 a - t) * (hi a - lo a) / (hi a - lo a))%Qc by (field; apply Qc_pos_nz, E).
    unfold Qcdiv. apply Qcmult_nonneg; [exact K|apply Qclt_le_weak, Qcinv_lt_0, E].
  - apply Qcmult_nonneg; [exact K|apply Qclt_le_weak, E].
Qed.
Lemma line_lt l a z : lmin g <= l -> ((p a < grid_line g b lo hi l a (2 * z))%Qc <-> (x01 a * zq (N l a) < zq z)%Qc).
Proof.
  intros H. split; intros K.
  - apply Qcnot_le_lt. intros Q. apply (line_le l a z H) in Q. exact (Qclt_not_le _ _ K Q).
  - apply Qcnot_le_lt. intros Q. apply (line_le l a z H) in Q. exact (Qclt_not_le _ _ K Q).
Qed.
Lemma in_cell_iff A q : lmin g <= lev A ->
  (in_cell g b lo hi A q p <-> forall a, (zq (gpos b A q a) <= x01 a * zq (N (lev A) a))%Qc /\ (x01 a * zq (N (lev A) a) < zq (gpos b A q a + 1))%Qc).
Proof.
  intros H. unfold in_cell. split; intros K a; specialize (K a).
  - rewrite (line_le _ _ _ H) in K. replace (2 * gpos b A q a + 2) with (2 * (gpos b A q a + 1)) in K by lia. rewrite (line_lt _ _ _ H) in K. exact K.
  - rewrite (line_le _ _ _ H). replace (2 * gpos b A q a + 2) with (2 * (gpos b A q a + 1)) by lia. rewrite (line_lt _ _ _ H). exact K.
Qed.

Hypothesis (IP : in_box g lo hi p).
Lemma x01_in a : flat g a = false -> (0 < x01 a)%Qc /\ (x01 a < 1)%Qc.
Proof.
  intros F. pose proof (IP a) as K. rewrite F in K. destruct K as (K1 & K2). unfold x01. split.
  - apply Qcdiv_lt_0; [rewrite <- Qclt_sub; exact K1|apply ext_pos].
  - apply Qcnot_le_lt. intros Q. rewrite Qcle_sub in Q.
    assert (Q' : (0 <= (((p a - lo a) / (hi a - lo a)) - 1) * (hi a - lo a))%Qc) by (apply Qcmult_nonneg; [exact Q|apply Qclt_le_weak, ext_pos]).
    replace ((((p a - lo a) / (hi a - lo a)) - 1) * (hi a - lo a))%Qc with (p a - hi a)%Qc in Q' by (field; apply Qc_pos_nz, ext_pos).
    rewrite <- Qcle_sub in Q'. exact (Qclt_not_le _ _ K2 Q').
Qed.
Lemma x01_flat a : flat g a = true -> x01 a = 0%Qc.
Proof. intros F. pose proof (IP a) as K. rewrite F in K. unfold x01. rewrite K. field. apply Qc_pos_nz, ext_pos. Qed.
Lemma inside01 : inside_domain g (fun a => this (x01 a)).
Proof.
  split; intros a F.
  - destruct (x01_in a F) as (H1 & H2). split; [exact H1|exact H2].
  - rewrite (x01_flat a F). reflexivity.
Qed.
Lemma checks_ok : negb (ltb 0 (x01 AX) && ltb (x01 AX) 1 && (ltb 0 (x01 AY) && ltb (x01 AY) 1) && (leb 0 (x01 AZ) && ltb (x01 AZ) 1)) = false.
Proof.
  destruct (x01_in AX eq_refl) as (X1 & X2). destruct (x01_in AY eq_refl) as (Y1 & Y2).
  apply ltb_spec in X1, X2, Y1, Y2. rewrite X1, X2, Y1, Y2. destruct (flat g AZ) eqn:F.
  - rewrite (x01_flat AZ F). reflexivity.
  - destruct (x01_in AZ F) as (Z1 & Z2). apply ltb_spec in Z2. rewrite Z2.
    assert (L : leb 0 (x01 AZ) = true) by (apply leb_spec, Qclt_le_weak, Z1). rewrite L. reflexivity.
Qed.

(** The octant that contains the cell contains the position. *)
Lemma floor_N A a : valid g A -> contains g A (fun a => this (x01 a)) ->
  (zq (coord A a) <= x01 a * zq (ncell g a (lev A)))%Qc /\ (x01 a * zq (ncell g a (lev A)) < zq (coord A a + 1))%Qc.
Proof.
  intros V C. destruct (C a) as (C1 & C2). pose proof (ncell_pos g WF a (lev A) ltac:(apply V)) as NP.
  apply Qle_Qc in C1. apply Qlt_Qc in C2. rewrite Q2Qc_div in C1, C2. split.
  - apply (Qcdiv_le _ _ _ (zq_pos _ NP)), C1.
  - apply (Qclt_div _ _ _ (zq_pos _ NP)), C2.
Qed.
Lemma cell_contains A q : valid g A -> in_block b q -> in_cell g b lo hi A q p -> contains g A (fun a => this (x01 a)).
Proof.
  intros V IQ IC a. rewrite in_cell_iff in IC by apply V. destruct (IC a) as (H1 & H2). cbv zeta.
  pose proof (ncell_pos g WF a (lev A) ltac:(apply V)) as NP. pose proof (BO a) as (B1 & _). pose proof (IQ a) as Q.
  assert (BP : (0 < zq (b a))%Qc) by (apply zq_pos; lia).
  unfold ncells in H1, H2. rewrite zq_mult in H1, H2. unfold gpos in H1, H2.
  rewrite Qle_Qc, Qlt_Qc, !Q2Qc_div. rewrite (Qcdiv_le _ _ _ (zq_pos _ NP)), (Qclt_div _ _ _ (zq_pos _ NP)). split.
  - apply Qcnot_lt_le. intros K. refine (Qclt_not_le _ _ _ H1).
    apply Qclt_le_trans with (zq (coord A a) * zq (b a))%Qc.
    + rewrite Qcmult_assoc. apply Qcmult_lt_compat_r; assumption.
    + rewrite <- zq_mult. apply (proj1 (zq_le _ _)). lia.
  - apply Qcnot_le_lt. intros K. refine (Qcle_not_lt _ _ _ H2).
    apply Qcle_trans with (zq (coord A a + 1) * zq (b a))%Qc.
    + rewrite <- zq_mult. apply (proj1 (zq_le _ _)). nia.
    + rewrite Qcmult_assoc. apply Qcmult_le_compat_r; [exact K|apply Qclt_le_weak, BP].
Qed.

(** The index of the cell along an axis. *)
Lemma index_axis A a : valid g A -> contains g A (fun a => this (x01 a)) ->
  let corner := (lo a + Q2Qc (getCorner g A a) * (hi a - lo a))%Qc in
  let size := (Q2Qc (getSize g A a) * (hi a - lo a) / frac (b a) 1)%Qc in
  exists q, Qfloor (this ((p a - corner) / size)%Qc) = q /\ 0 <= q < b a /\
    (zq (coord A a * b a + q) <= x01 a * zq (N (lev A) a))%Qc /\ (x01 a * zq (N (lev A) a) < zq (coord A a * b a + q + 1))%Qc.
Proof.
  intros V C corner size. pose proof (BO a) as (B1 & BF). assert (BP : (0 < zq (b a))%Qc) by (apply zq_pos; lia).
  pose proof (ext_pos a) as EP. pose proof (ncell_pos g WF a (lev A) ltac:(apply V)) as NP. pose proof (zq_pos _ NP) as NP'.
  destruct (flat g a) eqn:F.
  - exists 0. pose proof (valid_flat g A a V F) as C0. rewrite (BF eq_refl), C0.
    assert (P0 : p a = lo a) by (pose proof (IP a) as K; rewrite F in K; exact K).
    assert (E0 : (p a - corner)%Qc = 0%Qc).
    { unfold corner, getCorner. rewrite C0, P0. rewrite Q2Qc_div, zq_0. unfold Qcdiv. ring. }
    rewrite E0. rewrite (x01_flat a F). split; [unfold Qcdiv; rewrite Qcmult_0_l; reflexivity|]. split; [lia|].
    rewrite Qcmult_0_l. cbn [Z.mul Z.add]. split; [apply Qcle_refl|reflexivity].
  - exists (Qfloor (this ((p a - corner) / size)%Qc)). split; [reflexivity|].
    destruct (floor_N A a V C) as (H1 & H2).
    assert (CC : cell_count g a (lev A) = ncell g a (lev A)) by (apply (cell_count_eq g WF); [destruct V as ((? & ?) & _); lia|exact F]).
    assert (ET : ((p a - corner) / size = x01 a * zq (N (lev A) a) - zq (coord A a * b a))%Qc).
    { unfold corner, size, getCorner, getSize. rewrite Q2Qc_div, Q2Qc_div1, CC, frac_zq. rewrite (p_x01 a) at 1. unfold ncells. rewrite !zq_mult.
      field. repeat split; try (apply Qc_pos_nz; assumption). }
    rewrite ET. set (t := (x01 a * zq (N (lev A) a))%Qc) in *.
    destruct (floor_bounds (t - zq (coord A a * b a))%Qc) as (L1 & L2). set (f := Qfloor _) in *. clearbody f.
    assert (T1 : (zq (coord A a * b a) <= t)%Qc).
    { unfold t, ncells. rewrite !zq_mult, Qcmult_assoc. apply Qcmult_le_compat_r; [exact H1|apply Qclt_le_weak, BP]. }
    assert (T2 : (t < zq ((coord A a + 1) * b a))%Qc).
    { unfold t, ncells. rewrite !zq_mult, Qcmult_assoc. apply Qcmult_lt_compat_r; assumption. }
    assert (K1 : (zq (coord A a * b a + f) <= t)%Qc).
    { rewrite zq_plus. rewrite Qcle_sub in *. replace (t - (zq (coord A a * b a) + zq f))%Qc with (t - zq (coord A a * b a) - zq f)%Qc by ring. exact L1. }
    assert (K2 : (t < zq (coord A a * b a + f + 1))%Qc).
    { rewrite <- Z.add_assoc, zq_plus. rewrite Qclt_sub in *. replace (zq (coord A a * b a) + zq (f + 1) - t)%Qc with (zq (f + 1) - (t - zq (coord A a * b a)))%Qc by ring. exact L2. }
    split; [|split; [exact K1|exact K2]].
    assert (coord A a * b a < coord A a * b a + f + 1) by (apply (proj2 (zq_lt _ _)); eapply Qcle_lt_trans; [exact T1|exact K2]).
    assert (coord A a * b a + f < (coord A a + 1) * b a) by (apply (proj2 (zq_lt _ _)); eapply Qcle_lt_trans; [exact K1|exact T2]). lia.
Qed.
End Grid.
