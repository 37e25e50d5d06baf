(** Proofs about the limit of the time step by the parabolic terms (C94). *)
From Coq Require Import QArith Qcanon Qround Permutation Lqa.
From Verif Require Import Base OctreeSpec OctreeGeom OctreeModel FindNeighbors MeshSpec HistorySpec
  LookupModel CellModel CellSpec CellProofs CellProps RemapModel RemapSpec RemapProofs RemapProps HydroModel HydroSpec HydroProps
  ConserveSpec BlockGhost ConserveFaces ConserveProofs OctreeProps HistoryProofs LookupProps SchemeSpec ConserveProps SchemeProps ParticleModel ParticleProofs
  GravitySpec GravityModel GravityProofs GravityLoop CloudProofs RKModel RKSpec RKProofs RKProps ParabolicModel ParabolicSpec ParabolicProofs ParabolicRun ParabolicProps.
From Verif Require TimeModel TimeStepProps.
From Verif Require Import LimiterModel LimiterSpec.
Open Scope Z_scope.

Lemma fmax_bound (d x y c : Qc) : (0 < d)%Qc -> (d * fmax x y <= c <-> d * x <= c /\ d * y <= c)%Qc.
Proof.
  intros D. assert (MON : forall u v : Qc, (u <= v -> d * u <= d * v)%Qc).
  { intros u v H. rewrite !(Qcmult_comm d). apply Qcmult_le_compat_r; [exact H|apply Qclt_le_weak, D]. }
  unfold fmax. destruct (ltb y x) eqn:E.
  - apply ltb_spec in E. split; [intros H|intros (H & _); exact H]. split; [exact H|]. eapply Qcle_trans; [apply MON, Qclt_le_weak, E|exact H].
  - apply ltb_false in E. split; [intros H|intros (_ & H); exact H]. split; [|exact H]. eapply Qcle_trans; [apply MON, E|exact H].
Qed.
Lemma over_square (d k s c : Qc) : (0 < s)%Qc -> (d * (k / (s * s)) <= c <-> d * k <= c * (s * s))%Qc.
Proof.
  intros S. assert (P : (0 < s * s)%Qc) by (apply Qcmult_lt_0; exact S).
  split; intros H.
  - replace (d * k)%Qc with (d * (k / (s * s)) * (s * s))%Qc by (field; apply Qc_pos_nz, S). apply Qcmult_le_compat_r; [exact H|apply Qclt_le_weak, P].
  - replace (d * (k / (s * s)))%Qc with (d * k * / (s * s))%Qc by (unfold Qcdiv; ring). replace c with (c * (s * s) * / (s * s))%Qc at 1 by (field; apply Qc_pos_nz, S).
    apply Qcmult_le_compat_r; [exact H|apply inv_nonneg, P].
Qed.

Section Rates.
Context (g : geom) (WF : wf_geom g) (M : mesh) (OK : mesh_ok g M) (b : axis -> Z) (BO : block_ok g b) (lo hi : point) (EXT : forall a, (lo a < hi a)%Qc).
Local Notation ext := (extent lo hi).
Local Notation side := (cell_side g b ext).

Definition term_ok (x : oct) (d cfl : Qc) (t : option (point -> Qc)) : Prop :=
  forall f e, t = Some f -> flat g e = false -> (d * f (middle g b lo ext x) <= cfl * (side (lev x) e * side (lev x) e))%Qc.

Lemma term_value R r i A c pos t : nth_error M r = Some R -> nth_error (loc R) i = Some A -> in_block b c ->
  (forall f, t = Some f -> of_position f) -> (forall a, pos a = middle g b lo ext (cell_of b A c) a) ->
  forall d cfl, (0 < d)%Qc -> (0 < cfl)%Qc -> (d * term_rate (g3d g) (cell_size g b ext A) pos t <= cfl)%Qc <-> term_ok (cell_of b A c) d cfl t.
Proof.
  intros HR HA IB PX HP d cfl HD HC. unfold term_rate, term_ok. destruct t as [f|].
  2:{ split; [intros _ f e K; discriminate K|]. intros _. replace (d * 0)%Qc with 0%Qc by ring. apply Qclt_le_weak, HC. }
  pose proof (A_leaf' M r R HR i A HA) as AL.
  assert (SZ : forall a, flat g a = false -> cell_size g b ext A a = side (lev A) a /\ (0 < cell_size g b ext A a)%Qc).
  { intros a FA. assert (E : cell_size g b ext A a = side (lev A) a) by (apply (cell_size_eq g WF M OK b BO no_gi eq_refl (fun _ _ => false) ext (fun a' => Qc_pos_nz _ (ext_pos lo hi EXT a'))); assumption).
    split; [exact E|]. rewrite E. apply (side_pos g WF b BO ext (ext_pos lo hi EXT)). apply (cell_lev g M OK b (cell_of b A c)). apply (own_in M b R (nth_error_In _ _ HR) i A HA c IB). }
  rewrite (PX f eq_refl _ _ HP). change (lev (cell_of b A c)) with (lev A).
  assert (FX : flat g AX = false) by reflexivity. assert (FY : flat g AY = false) by reflexivity.
  destruct (SZ AX FX) as (E1 & P1). destruct (SZ AY FY) as (E2 & P2). cbv zeta.
  destruct (g3d g) eqn:E3.
  - assert (FZ : flat g AZ = false) by (unfold flat; rewrite E3; reflexivity). destruct (SZ AZ FZ) as (E4 & P4).
    rewrite !fmax_bound, !over_square by assumption. rewrite E1, E2, E4. split.
    + intros ((H1 & H2) & H3) f' e K _. injection K as <-. destruct e; assumption.
    + intros H. repeat split; apply (H f _ eq_refl); assumption.
  - rewrite !fmax_bound, !over_square by assumption. rewrite E1, E2. split.
    + intros (H1 & H2) f' e K FE. injection K as <-. destruct e; try assumption. unfold flat in FE. rewrite E3 in FE. discriminate FE.
    + intros H. split; apply (H f _ eq_refl); assumption.
Qed.

Lemma rate_value R r i A c kappa mu : nth_error M r = Some R -> nth_error (loc R) i = Some A -> in_block b c ->
  (forall f, kappa = Some f \/ mu = Some f -> of_position f) ->
  exists o, parabolic_rate g (loc R ++ gho R) lo hi kappa mu (mkCell i c b LOCAL_TO_BLOCK) = Some o /\
    forall d cfl, (0 < d)%Qc -> (0 < cfl)%Qc -> (d * o <= cfl)%Qc <-> term_ok (cell_of b A c) d cfl kappa /\ term_ok (cell_of b A c) d cfl mu.
Proof.
  intros HR HA IB PX.
  destruct (center_self g WF M OK b BO 0%Qc lo hi EXT (fun _ => None) (fun _ _ => false) (fun f _ _ _ _ _ => f) r R HR i A HA c) as (pos & EP & HP).
  unfold parabolic_rate. cbn [c_oct c_blk]. rewrite (A_st R i A HA).
  assert (EP' : getCellCenter g (loc R ++ gho R) lo hi (mkCell i c b LOCAL_TO_BLOCK) = Some pos) by exact EP.
  rewrite EP'. eexists. split; [reflexivity|]. intros d cfl HD HC. rewrite fmax_bound by exact HD.
  rewrite (term_value R r i A c pos kappa HR HA IB (fun f K => PX f (or_introl K)) HP d cfl HD HC).
  rewrite (term_value R r i A c pos mu HR HA IB (fun f K => PX f (or_intror K)) HP d cfl HD HC). reflexivity.
Qed.
End Rates.
