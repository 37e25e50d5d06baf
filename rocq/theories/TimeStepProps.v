(** C63: the time step satisfies every limiter on every process, is the largest that does, and
    is defined however the cells and particles are distributed (refuted: a process without any
    particle aborts the run). *)
From Coq Require Import QArith Qminmax Lqa.
From Verif Require Import Base OctreeModel FindNeighbors TimeModel TimeProps.
Open Scope Z_scope.

(** Independent vocabulary: a step [d] is allowed by a kernel (CFL number and the rates of the
    cells or particles of each process) when no rate is exceeded. *)
Definition allowed (d : Q) (k : Q * list (list Q)) : Prop :=
  forall rates r, In rates (snd k) -> In r rates -> (d * r <= fst k)%Q.

Lemma fold_max_ge l : forall x, (x <= fold_left Qmax l x)%Q /\ forall y, In y l -> (y <= fold_left Qmax l x)%Q.
Proof.
  induction l as [|z l IH]; intros x; cbn [fold_left]; [split; [apply Qle_refl|contradiction]|]. destruct (IH (Qmax x z)) as (I1 & I2).
  pose proof (Q.le_max_l x z). pose proof (Q.le_max_r x z). split; [lra|]. intros y [<-|Hy]; [lra|apply I2, Hy].
Qed.
Lemma fold_max_lub l : forall x b, (x <= b)%Q -> (forall y, In y l -> (y <= b)%Q) -> (fold_left Qmax l x <= b)%Q.
Proof.
  induction l as [|z l IH]; intros x b X H; cbn [fold_left]; [exact X|]. apply IH; [apply Q.max_lub; [exact X|apply H; left; reflexivity]|intros y Hy; apply H; right; exact Hy].
Qed.
Definition ext_le (a b : ext) : Prop := match a, b with _, Infinite => True | Fin x, Fin y => (x <= y)%Q | Infinite, Fin _ => False end.
Lemma ext_refl a : ext_le a a. Proof. destruct a; cbn; auto. lra. Qed.
Lemma ext_trans a b c : ext_le a b -> ext_le b c -> ext_le a c.
Proof. destruct a, b, c; cbn; auto; try contradiction; intros; lra. Qed.
Lemma ext_min_glb a b d : ext_le d (ext_min a b) <-> ext_le d a /\ ext_le d b.
Proof. destruct a, b, d; cbn; try tauto. rewrite Q.min_glb_iff. tauto. Qed.
Lemma fold_min_glb l : forall x d, ext_le d (fold_left ext_min l x) <-> ext_le d x /\ forall y, In y l -> ext_le d y.
Proof.
  induction l as [|z l IH]; intros x d; cbn [fold_left]; [split; [intros H; split; [exact H|contradiction]|tauto]|]. rewrite IH, ext_min_glb. split.
  - intros ((A & B) & C). split; [exact A|]. intros y [<-|Hy]; auto.
  - intros (A & C). split; [split; [exact A|apply C; left; reflexivity]|intros y Hy; apply C; right; exact Hy].
Qed.
Definition ext_pos (a : ext) : Prop := match a with Fin x => (0 < x)%Q | Infinite => True end.
Lemma fold_min_pos l : forall x, ext_pos x -> (forall y, In y l -> ext_pos y) -> ext_pos (fold_left ext_min l x).
Proof.
  induction l as [|z l IH]; intros x X H; cbn [fold_left]; [exact X|]. apply IH; [|intros y Hy; apply H; right; exact Hy].
  assert (Z : ext_pos z) by (apply H; left; reflexivity). destruct x, z; cbn in *; auto. apply Q.min_glb_lt; assumption.
Qed.
Lemma fold_min_fin l : forall x, exists q, fold_left ext_min l (Fin x) = Fin q.
Proof. induction l as [|z l IH]; intros x; cbn [fold_left]; [eauto|]. destruct z; cbn; apply IH. Qed.

Lemma div_pos a b : (0 < a)%Q -> (0 < a / b)%Q -> (0 < b)%Q.
Proof.
  intros A H. destruct (Qlt_le_dec 0 b) as [B|B]; [exact B|exfalso]. unfold Qdiv in H. destruct (Qeq_dec b 0) as [E|E].
  - rewrite E in H. change (/ 0)%Q with 0%Q in H. lra.
  - assert (X : (a * / b * b == a)%Q) by (field; exact E). nra.
Qed.
(** One process: the result is positive, and a positive step is below it exactly when it exceeds no rate. *)
Lemma local_spec lowest cfl rates e : (lowest <= 0)%Q -> (0 < cfl)%Q -> local_dt lowest cfl rates = Some e ->
  ext_pos e /\ forall d, (0 < d)%Q -> (ext_le (Fin d) e <-> forall r, In r rates -> (d * r <= cfl)%Q).
Proof.
  intros L C. unfold local_dt. set (inv := fold_left Qmax rates lowest). pose proof (proj2 (fold_max_ge rates lowest)) as GE. fold inv in GE.
  destruct (Qeq_bool inv 0) eqn:E0.
  - apply Qeq_bool_iff in E0. destruct (Qlt_bool 0 cfl); [|discriminate]. intros E. injection E as <-. split; [exact I|]. intros d D. split; [|intros _; exact I].
    intros _ r Hr. pose proof (GE r Hr). nra.
  - destruct (Qlt_bool 0 (cfl / inv)) eqn:EP; [|discriminate]. apply Qlt_bool_iff in EP. intros E. injection E as <-. pose proof (div_pos _ _ C EP) as IP.
    split; [exact EP|]. intros d D. cbn [ext_le]. assert (W : (cfl / inv * inv == cfl)%Q) by (field; lra). split.
    + intros DL r Hr. pose proof (GE r Hr). assert (d * inv <= cfl / inv * inv)%Q by (apply Qmult_le_compat_r; lra). nra.
    + intros H. apply Qle_shift_div_l; [exact IP|]. assert (X : (inv <= cfl / d)%Q).
      { apply fold_max_lub; [assert (0 < cfl / d)%Q by (apply Qlt_shift_div_l; lra); lra|]. intros y Hy. apply Qle_shift_div_l; [exact D|]. rewrite Qmult_comm. apply H, Hy. }
      assert (V : (cfl / d * d == cfl)%Q) by (field; lra). nra.
Qed.

(** * C63: the step is positive, at most the largest number, allowed by every kernel, and the
    largest such step. *)
Theorem C63_limit lowest dmax kernels dt : (lowest <= 0)%Q -> (0 < dmax)%Q -> (forall k, In k kernels -> (0 < fst k)%Q) ->
  compute_dt lowest dmax kernels = Some dt ->
  (0 < dt <= dmax)%Q /\ (forall k, In k kernels -> allowed dt k) /\
  (forall d, (0 < d <= dmax)%Q -> (forall k, In k kernels -> allowed d k) -> (d <= dt)%Q).
Proof.
  intros L DM CF. unfold compute_dt. destruct (mapM (kernel_dt lowest) kernels) as [es|] eqn:EM; [|discriminate].
  destruct (fold_left ext_min es (Fin dmax)) as [q|] eqn:EF; [|discriminate]. intros E. injection E as <-.
  assert (K : forall k e, In k kernels -> kernel_dt lowest k = Some e -> ext_pos e /\ forall d, (0 < d)%Q -> (ext_le (Fin d) e <-> allowed d k)).
  { intros k e Hk. unfold kernel_dt. destruct (mapM (local_dt lowest (fst k)) (snd k)) as [l|] eqn:EL; [|discriminate]. intros E. injection E as <-.
    assert (P : forall y, In y l -> exists rates, In rates (snd k) /\ local_dt lowest (fst k) rates = Some y) by (intros y; apply (mapM_In _ _ _ _ EL)).
    split.
    - apply fold_min_pos; [exact I|]. intros y Hy. destruct (P y Hy) as (rates & _ & E). apply (local_spec _ _ _ _ L (CF k Hk) E).
    - intros d D. rewrite fold_min_glb. split.
      + intros (_ & H) rates r HR Hr. destruct (mapM_In_fwd _ _ _ _ EL HR) as (y & Hy & Ey). apply (proj1 (proj2 (local_spec _ _ _ _ L (CF k Hk) Ey) d D) (H y Hy)), Hr.
      + intros H. split; [exact I|]. intros y Hy. destruct (P y Hy) as (rates & HR & Ey). apply (proj2 (local_spec _ _ _ _ L (CF k Hk) Ey) d D). intros r Hr. apply (H rates r HR Hr). }
  assert (POS : (0 < q)%Q).
  { change (ext_pos (Fin q)). rewrite <- EF. apply fold_min_pos; [exact DM|]. intros y Hy. destruct (mapM_In _ _ _ _ EM Hy) as (k & Hk & Ek). apply (K k y Hk Ek). }
  pose proof (proj1 (fold_min_glb es (Fin dmax) (Fin q))) as G. rewrite EF in G. destruct (G (ext_refl _)) as (G1 & G2). cbn [ext_le] in G1.
  split; [split; assumption|]. split.
  - intros k Hk. destruct (mapM_In_fwd _ _ _ _ EM Hk) as (e & He & Ek). apply (K k e Hk Ek); [exact POS|apply G2, He].
  - intros d (D0 & D1) H. change (ext_le (Fin d) (Fin q)). rewrite <- EF. apply fold_min_glb. split; [exact D1|]. intros y Hy.
    destruct (mapM_In _ _ _ _ EM Hy) as (k & Hk & Ek). apply (K k y Hk Ek); [exact D0|apply H, Hk].
Qed.

(** * The step exists when every process has something to look at. Missing from the full claim:
    processes without a cell or particle, see [C63_refuted]. *)
Theorem C63_defined_partial lowest dmax kernels : (lowest <= 0)%Q -> (0 < dmax)%Q ->
  (forall k, In k kernels -> (0 < fst k)%Q /\ forall rates, In rates (snd k) -> rates <> [] /\ forall r, In r rates -> (0 <= r)%Q) ->
  exists dt, compute_dt lowest dmax kernels = Some dt.
Proof.
  intros L DM H.
  assert (LD : forall cfl rates, (0 < cfl)%Q -> rates <> [] -> (forall r, In r rates -> (0 <= r)%Q) -> exists e, local_dt lowest cfl rates = Some e).
  { intros cfl rates C NE R. unfold local_dt. set (inv := fold_left Qmax rates lowest). assert (IP : (0 <= inv)%Q).
    { destruct rates as [|r0 rates]; [contradiction|]. pose proof (proj2 (fold_max_ge (r0 :: rates) lowest) r0 (or_introl eq_refl)) as GE. fold inv in GE.
      pose proof (R r0 (or_introl eq_refl)). lra. }
    destruct (Qeq_bool inv 0) eqn:E0.
    - assert (X : Qlt_bool 0 cfl = true) by (apply Qlt_bool_iff; exact C). rewrite X. eauto.
    - assert (X : Qlt_bool 0 (cfl / inv) = true).
      { apply Qlt_bool_iff. apply Qlt_shift_div_l; [|lra]. apply Qeq_bool_neq in E0. destruct (Qlt_le_dec 0 inv); [assumption|]. exfalso. apply E0. lra. }
      rewrite X. eauto. }
  assert (MS : forall (A B : Type) (f : A -> option B) l, (forall a, In a l -> exists b, f a = Some b) -> exists bs, mapM f l = Some bs).
  { intros A B f l. induction l as [|a l IH]; intros X; [exists []; reflexivity|]. destruct (X a (or_introl eq_refl)) as (b & Eb). destruct IH as (bs & Ebs); [intros a' Ha; apply X; right; exact Ha|].
    exists (b :: bs). cbn [mapM]. rewrite Eb, Ebs. reflexivity. }
  unfold compute_dt. destruct (MS _ _ (kernel_dt lowest) kernels) as (es & ->).
  { intros k Hk. destruct (H k Hk) as (C & R). unfold kernel_dt. destruct (MS _ _ (local_dt lowest (fst k)) (snd k)) as (l & ->); [|eauto].
    intros rates HR. destruct (R rates HR) as (NE & NN). apply LD; assumption. }
  destruct (fold_min_fin es dmax) as (q & ->). eauto.
Qed.

(** * Any process without a cell or particle for some kernel aborts the whole run. *)
Theorem C63_empty_aborts lowest dmax kernels k : (lowest < 0)%Q -> In k kernels -> (0 < fst k)%Q -> In [] (snd k) ->
  compute_dt lowest dmax kernels = None.
Proof.
  intros L Hk C HE. unfold compute_dt. destruct (mapM (kernel_dt lowest) kernels) as [es|] eqn:EM; [|reflexivity]. exfalso.
  destruct (mapM_In_fwd _ _ _ _ EM Hk) as (e & _ & Ek). unfold kernel_dt in Ek. destruct (mapM (local_dt lowest (fst k)) (snd k)) as [l|] eqn:EL; [|discriminate].
  destruct (mapM_In_fwd _ _ _ _ EL HE) as (y & _ & Ey). unfold local_dt in Ey. cbn [fold_left] in Ey.
  destruct (Qeq_bool lowest 0) eqn:E0; [apply Qeq_bool_iff in E0; lra|]. destruct (Qlt_bool 0 (fst k / lowest)) eqn:EP; [|discriminate].
  apply Qlt_bool_iff in EP. pose proof (div_pos _ _ C EP). lra.
Qed.
(** The same particles on two processes: one each is fine, both on the first is not. *)
Theorem C63_refuted : ~ (forall lowest dmax kernels, (lowest < 0)%Q -> (0 < dmax)%Q ->
  (forall k, In k kernels -> (0 < fst k)%Q /\ forall rates r, In rates (snd k) -> In r rates -> (0 <= r)%Q) -> exists dt, compute_dt lowest dmax kernels = Some dt).
Proof.
  intros H. destruct (H (-1000)%Q 1000%Q [((1#2)%Q, [[3%Q; 4%Q]; []])]) as (dt & E); [reflexivity|reflexivity| |vm_compute in E; discriminate].
  intros k [<-|[]]. cbn [fst snd]. split; [reflexivity|]. intros rates r [<-|[<-|[]]] Hr; [|destruct Hr]. destruct Hr as [<-|[<-|[]]]; vm_compute; discriminate.
Qed.
Example ex_dt_spread : option_map Qred (compute_dt (-1000) 1000 [((1#2)%Q, [[3%Q]; [4%Q]])]) = Some (1#8)%Q.
Proof. reflexivity. Qed.
(** Two kernels, two processes, one process at rest for the second kernel. *)
Example ex_dt : option_map Qred (compute_dt (-1000) 1000 [((1#2)%Q, [[3%Q; 1%Q]; [2%Q]]); ((1#10)%Q, [[0%Q]; [1#5; 2#5]])]%Q) = Some (1#6)%Q.
Proof. reflexivity. Qed.

Print Assumptions C63_limit.
Print Assumptions C63_defined_partial.
Print Assumptions C63_empty_aborts.
Print Assumptions C63_refuted.
