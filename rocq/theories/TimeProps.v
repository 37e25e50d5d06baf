(** C31-C33, C61-C63: triggers, end of the run, outputs, time step. *)
From Coq Require Import QArith Qround Qminmax Lqa.
From Verif Require Import Base OctreeModel FindNeighbors TimeModel TimeSpec.
Open Scope Z_scope.

Lemma Qlt_bool_iff x y : Qlt_bool x y = true <-> (x < y)%Q.
Proof. unfold Qlt_bool. rewrite negb_true_iff, <- not_true_iff_false, Qle_bool_iff. split; intros H; lra. Qed.

(** * C31 *)
Lemma div_le I a n : (0 < I)%Q -> ((inject_Z n <= a / I)%Q <-> (inject_Z n * I <= a)%Q).
Proof.
  intros H. split; intros E.
  - assert (X : (a == a / I * I)%Q) by (field; lra). rewrite X. apply Qmult_le_compat_r; [exact E|lra].
  - apply Qle_shift_div_l; assumption.
Qed.
Lemma floor_div_iff I a n : (0 < I)%Q -> (n <= Qfloor (a / I) <-> (inject_Z n * I <= a)%Q).
Proof.
  intros H. rewrite <- div_le by exact H. split; intros E.
  - apply Qle_trans with (inject_Z (Qfloor (a / I))); [rewrite <- Zle_Qle; exact E|apply Qfloor_le].
  - rewrite Zle_Qle. destruct (Z_le_gt_dec n (Qfloor (a / I))) as [L|G]; [rewrite <- Zle_Qle; exact L|exfalso].
    pose proof (Qlt_floor (a / I)) as F. assert (inject_Z (Qfloor (a / I) + 1) <= inject_Z n)%Q by (rewrite <- Zle_Qle; lia). lra.
Qed.
Lemma crosses_floor I a b : (0 < I)%Q -> (crosses I a b <-> Qfloor (a / I) < Qfloor (b / I)).
Proof.
  intros H. split.
  - intros (n & A & B). apply (floor_div_iff I b n H) in B. assert (~ n <= Qfloor (a / I)); [|lia].
    intros C. apply (floor_div_iff I a n H) in C. lra.
  - intros L. exists (Qfloor (b / I)). split; [|apply (floor_div_iff I b _ H); lia].
    apply Qnot_le_lt. intros C. apply (floor_div_iff I a _ H) in C. lia.
Qed.
Lemma qfire I a b : (0 < I)%Q -> (a <= b)%Q ->
  snd (qtrigger_fire (qtrigger_new I a) b) = qtrigger_new I b /\ (fst (qtrigger_fire (qtrigger_new I a) b) = true <-> crosses I a b).
Proof.
  intros H AB. unfold qtrigger_fire, qtrigger_new. cbn [qt_enabled qt_interval qt_last].
  assert (E : Qlt_bool 0 I = true) by (apply Qlt_bool_iff; exact H). rewrite E. cbn [negb].
  rewrite (crosses_floor I a b H). set (fa := Qfloor (a / I)). set (fb := Qfloor (b / I)).
  assert (FF : fa <= fb).
  { apply (floor_div_iff I b fa H). apply Qle_trans with a; [|exact AB]. apply (floor_div_iff I a fa H). unfold fa. lia. }
  assert (X : (I <= b - inject_Z fa * I)%Q <-> fa < fb).
  { assert (EQ : (inject_Z (fa + 1) * I == inject_Z fa * I + I)%Q) by (rewrite inject_Z_plus; change (inject_Z 1) with 1%Q; ring).
    split; intros Y.
    - assert (fa + 1 <= fb); [|lia]. apply (floor_div_iff I b _ H). rewrite EQ. lra.
    - assert (Z : fa + 1 <= fb) by lia. apply (floor_div_iff I b _ H) in Z. rewrite EQ in Z. lra. }
  destruct (Qle_bool I (b - inject_Z fa * I)) eqn:EB; cbn [fst snd].
  - apply Qle_bool_iff in EB. split; [reflexivity|]. tauto.
  - assert (NB : ~ (I <= b - inject_Z fa * I)%Q) by (rewrite <- Qle_bool_iff; congruence).
    assert (fa = fb) by (rewrite X in NB; lia). split; [f_equal; congruence|]. split; [discriminate|lia].
Qed.

(** Over any non-decreasing sequence of observed values starting at the value of the
    construction, the trigger fires exactly when a multiple of the interval has been
    reached since the previous observation... *)
Theorem C31_fires I v0 vs : (0 < I)%Q -> increasing v0 vs ->
  forall k a b, nth_error (v0 :: vs) k = Some a -> nth_error vs k = Some b ->
  exists f, nth_error (fst (qobserve (qtrigger_new I v0) vs)) k = Some f /\ (f = true <-> crosses I a b).
Proof.
  intros H. revert v0. induction vs as [|v vs IH]; intros v0 INC k a b HA HB; [destruct k; discriminate|].
  destruct INC as [L INC]. destruct (qfire I v0 v H L) as (E & F). cbn [qobserve].
  destruct (qtrigger_fire (qtrigger_new I v0) v) as [f t]. cbn [fst snd] in E, F. subst t.
  destruct (qobserve (qtrigger_new I v) vs) as [fs t'] eqn:EO. cbn [fst]. destruct k as [|k].
  - cbn [nth_error] in *. injection HA as <-. injection HB as <-. exists f. split; [reflexivity|exact F].
  - cbn [nth_error] in *. specialize (IH v INC k a b HA HB). rewrite EO in IH. exact IH.
Qed.
(** ... and constructing a new trigger at the last observed value (restart) gives the same
    trigger as going on with the old one. *)
Theorem C31_restart I v0 vs : (0 < I)%Q -> increasing v0 vs -> snd (qobserve (qtrigger_new I v0) vs) = qtrigger_new I (last vs v0).
Proof.
  intros H. revert v0. induction vs as [|v vs IH]; intros v0 INC; [reflexivity|]. destruct INC as [L INC].
  destruct (qfire I v0 v H L) as (E & _). cbn [qobserve]. destruct (qtrigger_fire (qtrigger_new I v0) v) as [f t]. cbn [snd] in E. subst t.
  specialize (IH v INC). destruct (qobserve (qtrigger_new I v) vs) as [fs t']. cbn [snd] in *. rewrite IH.
  destruct vs as [|w vs]; [reflexivity|]. f_equal. clear. cbn [last]. revert w. induction vs as [|x vs IH]; intros w; [reflexivity|]. exact (IH x).
Qed.

Lemma zcrosses_div I a b : 0 < I -> (zcrosses I a b <-> a / I < b / I).
Proof.
  intros H. split.
  - intros (n & A & B). assert (n <= b / I) by (apply Z.div_le_lower_bound; lia). assert (a / I < n) by (apply Z.div_lt_upper_bound; lia). lia.
  - intros L. exists (b / I). pose proof (Z.div_mod a I ltac:(lia)). pose proof (Z.div_mod b I ltac:(lia)).
    pose proof (Z.mod_pos_bound a I H). pose proof (Z.mod_pos_bound b I H). nia.
Qed.
Lemma ifire I t a b : 0 < I -> 0 <= a -> a <= b -> itrigger_new I a = Some t ->
  itrigger_new I b = Some (snd (itrigger_fire t b)) /\ (fst (itrigger_fire t b) = true <-> zcrosses I a b).
Proof.
  intros H A0 AB E. unfold itrigger_new in *. rewrite (proj2 (Z.eqb_neq I 0)) in * by lia. injection E as <-.
  unfold itrigger_fire. cbn [it_enabled it_interval it_last]. rewrite (proj2 (Z.gtb_lt I 0) H). cbn [negb].
  rewrite (zcrosses_div I a b H). rewrite !Z.quot_div_nonneg by lia. set (fa := a / I). set (fb := b / I).
  assert (FF : fa <= fb) by (apply Z.div_le_mono; lia).
  assert (X : I <= b - fa * I <-> fa < fb).
  { pose proof (Z.div_mod b I ltac:(lia)) as D. fold fb in D. pose proof (Z.mod_pos_bound b I H). clearbody fb fa. split; intros; nia. }
  destruct (b - fa * I >=? I) eqn:EB; cbn [fst snd].
  - split; [reflexivity|]. split; [intros _; apply X; lia|reflexivity].
  - assert (fa = fb) by (clearbody fa fb; lia). split; [congruence|]. split; [discriminate|lia].
Qed.
(** The same for counters (non-negative iterations). *)
Theorem C31_fires_counter I v0 vs t : 0 < I -> 0 <= v0 -> zincreasing v0 vs -> itrigger_new I v0 = Some t ->
  (forall k a b, nth_error (v0 :: vs) k = Some a -> nth_error vs k = Some b ->
    exists f, nth_error (fst (iobserve t vs)) k = Some f /\ (f = true <-> zcrosses I a b)) /\
  itrigger_new I (last vs v0) = Some (snd (iobserve t vs)).
Proof.
  intros H. revert v0 t. induction vs as [|v vs IH]; intros v0 t V0 INC ET.
  - split; [intros k a b _ HB; destruct k; discriminate|exact ET].
  - destruct INC as [L INC]. destruct (ifire I t v0 v H V0 L ET) as (E & F). cbn [iobserve].
    destruct (itrigger_fire t v) as [f t1]. cbn [fst snd] in E, F.
    destruct (IH v t1 ltac:(lia) INC E) as (IH1 & IH2). destruct (iobserve t1 vs) as [fs t'] eqn:EO. cbn [fst snd] in *. split.
    + intros k a b HA HB. destruct k as [|k]; cbn [nth_error] in *.
      * injection HA as <-. injection HB as <-. exists f. split; [reflexivity|exact F].
      * exact (IH1 k a b HA HB).
    + rewrite <- IH2. destruct vs as [|w vs]; [reflexivity|]. f_equal. clear. cbn [last]. revert w. induction vs as [|x vs IH]; intros w; [reflexivity|]. exact (IH x).
Qed.
(** With a negative first iteration (run/iter_start) multiples are missed: started at -5,
    interval 10, iteration 0 is not reported. *)
Theorem C31_refuted_negative : ~ (forall I v0 vs t, 0 < I -> zincreasing v0 vs -> itrigger_new I v0 = Some t ->
  forall k a b, nth_error (v0 :: vs) k = Some a -> nth_error vs k = Some b ->
    exists f, nth_error (fst (iobserve t vs)) k = Some f /\ (f = true <-> zcrosses I a b)).
Proof.
  intros H. destruct (H 10 (-5) [0] (mkIT true 10 0) ltac:(lia) ltac:(cbn; lia) eq_refl 0%nat (-5) 0 eq_refl eq_refl) as (f & E & F).
  vm_compute in E. injection E as <-. assert (false = true) by (apply F; exists 0; lia). discriminate.
Qed.
Example ex_trigger : fst (qobserve (qtrigger_new (1#2) (1#4)) [1#3; 1#2; 3#4; 2; 2; 9#4; 5#2]%Q) = [false; true; false; true; false; false; true].
Proof. reflexivity. Qed.
Example ex_trigger_increasing : increasing (1#4) [1#3; 1#2; 3#4; 2; 2; 9#4; 5#2]%Q.
Proof. cbn. repeat split; lra. Qed.
Example ex_counter : option_map (fun t => fst (iobserve t [4; 5; 6; 7; 8; 9; 10; 25])) (itrigger_new 5 3) = Some [false; true; false; false; false; false; true; true].
Proof. reflexivity. Qed.

(** * C61: a non-positive interval disables the trigger *)
Theorem C61_disabled_partial :
  (forall I v0 vs, (I <= 0)%Q -> fst (qobserve (qtrigger_new I v0) vs) = map (fun _ => false) vs) /\
  (forall I v0 vs, I < 0 -> exists t, itrigger_new I v0 = Some t /\ fst (iobserve t vs) = map (fun _ => false) vs).
Proof.
  split.
  - intros I v0 vs H. assert (E : qt_enabled (qtrigger_new I v0) = false).
    { cbn. apply not_true_iff_false. rewrite Qlt_bool_iff. lra. }
    revert E. generalize (qtrigger_new I v0). induction vs as [|v vs IH]; intros t E; [reflexivity|]. cbn [qobserve map].
    unfold qtrigger_fire. rewrite E. cbn [negb]. specialize (IH t E). destruct (qobserve t vs) as [fs t']. cbn [fst] in *. congruence.
  - intros I v0 vs H. unfold itrigger_new. rewrite (proj2 (Z.eqb_neq I 0)) by lia. eexists. split; [reflexivity|].
    assert (E : it_enabled (mkIT (I >? 0) I (Z.quot v0 I * I)) = false) by (cbn; lia).
    revert E. generalize (mkIT (I >? 0) I (Z.quot v0 I * I)). induction vs as [|v vs IH]; intros t E; [reflexivity|]. cbn [iobserve map].
    unfold itrigger_fire. rewrite E. cbn [negb]. specialize (IH t E). destruct (iobserve t vs) as [fs t']. cbn [fst] in *. congruence.
Qed.
(** An iteration interval of 0 divides by zero, whatever the other settings. *)
Theorem C61_refuted : ~ (forall I v0 vs, I <= 0 -> exists t, itrigger_new I v0 = Some t /\ fst (iobserve t vs) = map (fun _ => false) vs).
Proof. intros H. destruct (H 0 0 [] ltac:(lia)) as (t & E & _). discriminate. Qed.
Theorem C61_refuted_run fuel c u dts intr s : c_out_freq c = 0 \/ c_chk_freq c = 0 \/ c_lb_freq c = 0 \/ c_amr_freq c = 0 -> run fuel c u dts intr s = None.
Proof.
  intros H. unfold run, handler_new. assert (Z0 : forall v, itrigger_new 0 v = None) by reflexivity.
  destruct H as [E|[E|[E|E]]]; rewrite E, Z0; repeat (destruct (itrigger_new _ _)); reflexivity.
Qed.

Print Assumptions C31_fires.
Print Assumptions C31_restart.
Print Assumptions C31_fires_counter.
Print Assumptions C31_refuted_negative.
Print Assumptions C61_disabled_partial.
Print Assumptions C61_refuted.
Print Assumptions C61_refuted_run.
