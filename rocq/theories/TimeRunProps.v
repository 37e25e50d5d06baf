(** C32, C33, C62: end of the run; snapshots, checkpoints, AMR cycles and load balancing. *)
From Coq Require Import QArith Qround Qminmax Lqa.
From Verif Require Import Base OctreeModel FindNeighbors TimeModel TimeSpec TimeProps.
Open Scope Z_scope.

(** * One step *)
Definition same_settings (c : config) (h : handler) : Prop :=
  h_iter_end h = c_nstepmax c /\ h_end_var h = c_end_var c /\ h_t_end h = c_t_end c /\ h_use_t_end h = c_use_t_end c /\
  h_eps h = (match c_end_var c with Aexp => 2 # 100000000 | Time => 0 end)%Q /\ h_slice_var h = c_slice_var c.
Definition with_aexp (u : universe) (s : scalars) : scalars :=
  match u_expansion u with Some f => mkSD (s_iter s) (s_time s) (f (s_time s)) (s_dt s) | None => s end.
Definition after (u : universe) (dt : Q) (h : handler) (s : scalars) : scalars :=
  let s1 := with_aexp u s in next_iter (correct_dt_end (u_cosmo_dt u) h (mkSD (s_iter s1) (s_time s1) (s_aexp s1) dt)).

Lemma handler_settings c s h : handler_new c s = Some h -> same_settings c h /\ h_first h = true.
Proof.
  unfold handler_new. destruct (itrigger_new (c_out_freq c) _); [|discriminate]. destruct (itrigger_new (c_chk_freq c) _); [|discriminate].
  destruct (itrigger_new (c_lb_freq c) _); [|discriminate]. destruct (itrigger_new (c_amr_freq c) _); [|discriminate].
  intros E. injection E as <-. repeat split.
Qed.
Lemma correct_ext d h h' s : h_use_t_end h = h_use_t_end h' -> h_end_var h = h_end_var h' -> h_t_end h = h_t_end h' -> correct_dt_end d h s = correct_dt_end d h' s.
Proof. unfold correct_dt_end. intros -> -> ->. reflexivity. Qed.
Lemma step_state c u dt h s ev h' s' : step c u dt h s = (ev, (h', s')) -> same_settings c h -> same_settings c h' /\ s' = after u dt h s.
Proof.
  unfold step, output_trigger, checkpoint_trigger, amr_cycle_trigger, loadbalance_trigger. intros E C.
  destruct (itrigger_fire (h_out_freq h) (s_iter s)) as [f1 o1]. destruct (qtrigger_fire (h_out_slice h) _) as [f2 o2].
  destruct (c_enable_out c), (c_enable_chk c); cbn in E;
    try (destruct (itrigger_fire (h_chk_freq h) (s_iter s)) as [f3 o3]; destruct (qtrigger_fire (h_chk_slice h) _) as [f4 o4]); cbn in E;
    repeat match type of E with context[itrigger_fire ?a ?b] => destruct (itrigger_fire a b) as [? ?] end;
    injection E as _ <- <-; (split; [exact C|]); unfold after, with_aexp; f_equal; apply correct_ext; reflexivity.
Qed.

(** * C32 *)
Section End.
Variables (c : config) (u : universe) (dts : nat -> Q) (intr : nat -> bool).
Hypothesis DT : forall k, (0 < dts k)%Q.

Lemma after_time h s k : same_settings c h -> c_end_var c = Time -> (c_use_t_end c = true -> (s_time s <= c_t_end c)%Q) ->
  (s_time s <= s_time (after u (dts k) h s))%Q /\ (c_use_t_end c = true -> (s_time (after u (dts k) h s) <= c_t_end c)%Q) /\
  s_iter (after u (dts k) h s) = s_iter s + 1 /\
  (~ (s_time (after u (dts k) h s) == c_t_end c)%Q \/ c_use_t_end c = false -> (s_time (after u (dts k) h s) == s_time s + dts k)%Q).
Proof.
  intros (_ & E2 & E3 & E4 & _) ET B. specialize (DT k). unfold after, correct_dt_end. rewrite E2, E3, E4, ET.
  assert (W : s_time (with_aexp u s) = s_time s /\ s_iter (with_aexp u s) = s_iter s) by (unfold with_aexp; destruct (u_expansion u); split; reflexivity).
  cbn [s_time s_dt s_iter s_aexp]. rewrite (proj1 W), (proj2 W). destruct (c_use_t_end c).
  - specialize (B eq_refl). destruct (Qlt_bool (c_t_end c) (s_time s + dts k)) eqn:Q; cbn [next_iter s_time s_iter s_dt].
    + apply Qlt_bool_iff in Q. repeat split; try (intros; lra).
    + assert (~ (c_t_end c < s_time s + dts k)%Q) by (rewrite <- Qlt_bool_iff; congruence). repeat split; intros; lra.
  - cbn [next_iter s_time s_iter s_dt]. repeat split; try lra; discriminate.
Qed.
Lemma after_iter h s k : s_iter (after u (dts k) h s) = s_iter s + 1.
Proof.
  clear DT intr c.
  unfold after, correct_dt_end. assert (W : s_iter (with_aexp u s) = s_iter s) by (unfold with_aexp; destruct (u_expansion u); reflexivity).
  destruct (h_use_t_end h); [destruct (h_end_var h); [destruct (Qlt_bool _ _)|]|]; cbn [next_iter s_iter]; lia.
Qed.

Lemma loop_cons fuel k h s evs ss : run_loop fuel c u dts intr k h s = Some (evs, ss) -> exists t, ss = s :: t /\ t <> [].
Proof.
  clear DT.
  destruct fuel as [|fuel]; [discriminate|]. cbn [run_loop]. destruct (step c u (dts k) h s) as [ev [h' s']].
  destruct (_ || _); [intros E; injection E as _ <-; eexists; split; [reflexivity|discriminate]|].
  destruct (run_loop fuel c u dts intr (S k) h' s') as [[evs' ss']|] eqn:E; [|discriminate]. intros X. injection X as _ <-. exists ss'. split; [reflexivity|].
  intros ->. destruct fuel; [discriminate|]. cbn [run_loop] in E. destruct (step c u (dts (S k)) h' s') as [ev2 [h2 s2]].
  destruct (_ || _); [discriminate|]. destruct (run_loop _ _ _ _ _ _ _ _) as [[? ?]|]; discriminate.
Qed.
Lemma loop_times fuel k h s evs ss : same_settings c h -> c_end_var c = Time -> (c_use_t_end c = true -> (s_time s <= c_t_end c)%Q) ->
  run_loop fuel c u dts intr k h s = Some (evs, ss) ->
  increasing (s_time s) (map s_time (tl ss)) /\ (c_use_t_end c = true -> forall x, In x ss -> (s_time x <= c_t_end c)%Q).
Proof.
  revert k h s evs ss. induction fuel as [|fuel IH]; intros k h s evs ss C ET B E; [discriminate|]. cbn [run_loop] in E.
  destruct (step c u (dts k) h s) as [ev [h' s']] eqn:ES. destruct (step_state _ _ _ _ _ _ _ _ ES C) as (C' & ->).
  destruct (after_time h s k C ET B) as (T1 & T2 & T3 & _).
  destruct (_ || _).
  - injection E as _ <-. cbn [tl map increasing]. split; [split; [exact T1|exact I]|]. intros U x [<-|[<-|[]]]; [apply B, U|apply T2, U].
  - destruct (run_loop fuel c u dts intr (S k) h' (after u (dts k) h s)) as [[evs' ss']|] eqn:E2; [|discriminate]. injection E as _ <-.
    destruct (loop_cons _ _ _ _ _ _ E2) as (t & -> & _). destruct (IH _ _ _ _ _ C' ET T2 E2) as (I1 & I2). cbn [tl map increasing] in *.
    split; [split; [exact T1|exact I1]|]. intros U x [<-|Hx]; [apply B, U|apply I2; assumption].
Qed.
Lemma NoDup_glue {X} (a b : list X) : NoDup a -> NoDup b -> (forall x, In x a -> In x b -> False) -> NoDup (a ++ b).
Proof.
  induction a as [|x a IH]; [tauto|]. intros HA HB H. inversion HA; subst. cbn [app]. constructor.
  - rewrite in_app_iff. intros [K|K]; [contradiction|exact (H x (or_introl eq_refl) K)].
  - apply IH; [assumption|assumption|]. intros y Hy. apply H. right. exact Hy.
Qed.
Lemma last_cons {X} (x d : X) l : l <> [] -> last (x :: l) d = last l d.
Proof. destruct l; [intros H; exfalso; apply H; reflexivity|reflexivity]. Qed.
(** How the loop ends. *)
Lemma loop_end fuel k h s evs ss : same_settings c h -> run_loop fuel c u dts intr k h s = Some (evs, ss) ->
  let e := last ss s in
  (c_nstepmax c > 0 /\ s_iter e >= c_nstepmax c) \/
  (c_use_t_end c = true /\ (c_t_end c - match c_end_var c with Aexp => 2 # 100000000 | Time => 0 end <= get_var (c_end_var c) e)%Q) \/
  (exists j, intr j = true).
Proof.
  clear DT.
  revert k h s evs ss. induction fuel as [|fuel IH]; intros k h s evs ss C E; [discriminate|]. cbn [run_loop] in E.
  destruct (step c u (dts k) h s) as [ev [h' s']] eqn:ES. destruct (step_state _ _ _ _ _ _ _ _ ES C) as (C' & _).
  destruct (stop_criterion h' s' || intr k) eqn:EF.
  - injection E as _ <-. cbn [last]. apply orb_prop in EF. destruct EF as [EF|EF]; [|right; right; exists k; exact EF].
    unfold stop_criterion in EF. destruct C' as (C1 & C2 & C3 & C4 & C5 & _). rewrite C1, C2, C3, C4, C5 in EF.
    apply orb_prop in EF. destruct EF as [EF|EF]; apply andb_prop in EF; destruct EF as [F1 F2]; [left; lia|right; left].
    apply Qle_bool_iff in F2. tauto.
  - destruct (run_loop fuel c u dts intr (S k) h' s') as [[evs' ss']|] eqn:E2; [|discriminate]. injection E as _ <-.
    destruct (loop_cons _ _ _ _ _ _ E2) as (t & -> & Ht). specialize (IH _ _ _ _ _ C' E2). cbv zeta in *. rewrite last_cons by discriminate.
    replace (last (s' :: t) s) with (last (s' :: t) s'); [exact IH|]. rewrite !last_cons by exact Ht. clear -Ht. induction t as [|x t IHt]; [contradiction|].
    destruct t; [reflexivity|]. rewrite !(last_cons x) by discriminate. apply IHt. discriminate.
Qed.
(** Iterations are numbered one after the other; the limit stops the loop. *)
Lemma loop_iters fuel k h s evs ss : run_loop fuel c u dts intr k h s = Some (evs, ss) ->
  forall j x, nth_error ss j = Some x -> s_iter x = s_iter s + Z.of_nat j.
Proof.
  clear DT.
  revert k h s evs ss. induction fuel as [|fuel IH]; intros k h s evs ss E j x Hx; [discriminate|]. cbn [run_loop] in E.
  destruct (step c u (dts k) h s) as [ev [h' s']] eqn:ES.
  assert (IT : s_iter s' = s_iter s + 1).
  { unfold step in ES. destruct (if c_enable_out c then _ else _) as [e1 h1]. destruct (if c_enable_chk c then _ else _) as [e2 h2].
    destruct (amr_cycle_trigger _ _) as [f3 h3]. destruct (loadbalance_trigger _ _) as [f4 h4]. injection ES as _ _ <-.
    exact (after_iter h2 s k). }
  destruct (_ || _).
  - injection E as _ <-. destruct j as [|[|j]]; [injection Hx as <-; lia|injection Hx as <-; lia|destruct j; discriminate].
  - destruct (run_loop fuel c u dts intr (S k) h' s') as [[evs' ss']|] eqn:E2; [|discriminate]. injection E as _ <-.
    destruct j as [|j]; [injection Hx as <-; lia|]. pose proof (IH _ _ _ _ _ E2 j x Hx). lia.
Qed.
Lemma loop_stops fuel k h s : same_settings c h -> c_nstepmax c > 0 -> (Z.to_nat (c_nstepmax c - s_iter s) <= fuel)%nat -> (0 < fuel)%nat ->
  exists r, run_loop fuel c u dts intr k h s = Some r.
Proof.
  clear DT.
  revert k h s. induction fuel as [|fuel IH]; intros k h s C N L P; [lia|]. cbn [run_loop].
  destruct (step c u (dts k) h s) as [ev [h' s']] eqn:ES. destruct (step_state _ _ _ _ _ _ _ _ ES C) as (C' & ->).
  destruct (stop_criterion h' (after u (dts k) h s) || intr k) eqn:EF; [eexists; reflexivity|].
  apply orb_false_elim in EF. destruct EF as [EF _]. unfold stop_criterion in EF. apply orb_false_elim in EF. destruct EF as [EF _].
  destruct C' as (C1 & C'). rewrite C1 in EF. rewrite after_iter in EF.
  assert (s_iter s + 1 < c_nstepmax c) by lia.
  destruct (IH (S k) h' (after u (dts k) h s)) as ([evs ss] & E); [split; [exact C1|exact C']|exact N|rewrite after_iter; lia|lia|].
  rewrite E. eexists. reflexivity.
Qed.
(** Not too many steps: every boundary but the last one is below the limit. *)
Lemma loop_below fuel k h s evs ss : same_settings c h -> c_nstepmax c > 0 -> run_loop fuel c u dts intr k h s = Some (evs, ss) ->
  forall j x, nth_error ss j = Some x -> (0 < j)%nat -> (S j < length ss)%nat -> s_iter x < c_nstepmax c.
Proof.
  clear DT.
  revert k h s evs ss. induction fuel as [|fuel IH]; intros k h s evs ss C N E j x Hx J1 J2; [discriminate|]. cbn [run_loop] in E.
  destruct (step c u (dts k) h s) as [ev [h' s']] eqn:ES. destruct (step_state _ _ _ _ _ _ _ _ ES C) as (C' & _).
  destruct (stop_criterion h' s' || intr k) eqn:EF.
  - injection E as _ <-. cbn [length] in J2. lia.
  - destruct (run_loop fuel c u dts intr (S k) h' s') as [[evs' ss']|] eqn:E2; [|discriminate]. injection E as _ <-.
    destruct j as [|j]; [lia|]. cbn [nth_error length] in *. destruct j as [|j]; [|apply (IH _ _ _ _ _ C' N E2 (S j) x Hx); lia].
    destruct (loop_cons _ _ _ _ _ _ E2) as (t & -> & _). injection Hx as <-.
    apply orb_false_elim in EF. destruct EF as [EF _]. unfold stop_criterion in EF. apply orb_false_elim in EF. destruct EF as [EF _].
    rewrite (proj1 C') in EF. lia.
Qed.
(** With time steps bounded from below the end time is reached. *)
Lemma loop_reaches d fuel k h s : same_settings c h -> c_end_var c = Time -> c_use_t_end c = true -> (0 < d)%Q -> (forall j, d <= dts j)%Q ->
  (s_time s <= c_t_end c)%Q -> (c_t_end c - s_time s <= inject_Z (Z.of_nat fuel) * d)%Q -> (0 < fuel)%nat ->
  exists r, run_loop fuel c u dts intr k h s = Some r.
Proof.
  revert k h s. induction fuel as [|fuel IH]; intros k h s C ET U D HD B L P; [lia|]. cbn [run_loop].
  destruct (step c u (dts k) h s) as [ev [h' s']] eqn:ES. destruct (step_state _ _ _ _ _ _ _ _ ES C) as (C' & ->).
  destruct (after_time h s k C ET (fun _ => B)) as (T1 & T2 & T3 & T4). specialize (T2 U).
  destruct (stop_criterion h' (after u (dts k) h s) || intr k) eqn:EF; [eexists; reflexivity|].
  apply orb_false_elim in EF. destruct EF as [EF _]. unfold stop_criterion in EF. apply orb_false_elim in EF. destruct EF as [_ EF].
  destruct C' as (C1 & C2 & C3 & C4 & C5 & C6). rewrite C2, C3, C4, C5, U, ET in EF. cbn [andb get_var] in EF.
  assert (NE : ~ (c_t_end c - 0 <= s_time (after u (dts k) h s))%Q) by (rewrite <- Qle_bool_iff; congruence).
  assert (T5 : (s_time (after u (dts k) h s) == s_time s + dts k)%Q) by (apply T4; left; intros X; apply NE; rewrite X; lra).
  specialize (HD k) as HDk. rewrite Nat2Z.inj_succ in L. unfold Z.succ in L. rewrite inject_Z_plus in L. change (inject_Z 1) with 1%Q in L.
  destruct (IH (S k) h' (after u (dts k) h s)) as ([evs ss] & E); try assumption; [repeat split; assumption| |destruct fuel; [exfalso|lia]|].
  - lra.
  - change (inject_Z (Z.of_nat 0)) with 0%Q in L. lra.
  - rewrite E. eexists. reflexivity.
Qed.
End End.

(** The simulated time never decreases; when the run starts at or before the end time it
    never goes past it, and unless the iteration limit or an interruption stops the run it
    ends exactly there. The limit on the iterations is respected, and makes the run end.
    Missing: runs started after the end time or at the iteration limit (refuted below). *)
Theorem C32_end_partial c u dts intr s : (forall k, 0 < dts k)%Q -> c_end_var c = Time -> (c_use_t_end c = true -> (s_time s <= c_t_end c)%Q) ->
  forall fuel evs ss, run fuel c u dts intr s = Some (evs, ss) ->
  exists e t, ss = s :: t /\ t <> [] /\ last t s = e /\
    increasing (s_time s) (map s_time t) /\
    (c_use_t_end c = true -> forall x, In x ss -> (s_time x <= c_t_end c)%Q) /\
    (c_nstepmax c > 0 -> s_iter s < c_nstepmax c -> forall x, In x ss -> s_iter x <= c_nstepmax c) /\
    ((c_nstepmax c > 0 /\ s_iter e >= c_nstepmax c) \/ (exists k, intr k = true) \/ (c_use_t_end c = true /\ (s_time e == c_t_end c)%Q)).
Proof.
  intros DT ET B fuel evs ss E. unfold run in E. destruct (handler_new c s) as [h|] eqn:EH; [|discriminate]. destruct (handler_settings _ _ _ EH) as (C & _).
  destruct (loop_cons _ _ _ _ _ _ _ _ _ _ E) as (t & -> & Ht). exists (last t s), t. split; [reflexivity|]. split; [exact Ht|]. split; [reflexivity|].
  destruct (loop_times _ _ _ _ DT _ _ _ _ _ _ C ET B E) as (I1 & I2). split; [exact I1|]. split; [exact I2|]. split.
  - intros N L x Hx. apply In_nth_error in Hx. destruct Hx as (j & Hj). pose proof (loop_iters _ _ _ _ _ _ _ _ _ _ E j x Hj) as IT.
    destruct j as [|j]; [lia|]. destruct j as [|j]; [lia|].
    assert (Hp : exists y, nth_error (s :: t) (S j) = Some y).
    { destruct (nth_error (s :: t) (S j)) eqn:EE; [eauto|]. apply nth_error_None in EE. assert (S (S j) < length (s :: t))%nat by (apply nth_error_Some; congruence). lia. }
    destruct Hp as (y & Hy). pose proof (loop_iters _ _ _ _ _ _ _ _ _ _ E (S j) y Hy) as IY.
    assert (S (S j) < length (s :: t))%nat by (apply nth_error_Some; congruence).
    pose proof (loop_below _ _ _ _ _ _ _ _ _ _ C N E (S j) y Hy ltac:(lia) ltac:(lia)). lia.
  - pose proof (loop_end _ _ _ _ _ _ _ _ _ _ C E) as LE. cbv zeta in LE. rewrite last_cons in LE by exact Ht.
    destruct LE as [LE|[(U & LE)|LE]]; [left; exact LE| |right; left; exact LE]. right. right. split; [exact U|]. rewrite ET in LE. cbn [get_var] in LE.
    assert (In (last t s) (s :: t)).
    { right. clear -Ht. induction t as [|x t IH]; [contradiction|]. destruct t as [|y t]; [left; reflexivity|right; apply IH; discriminate]. }
    specialize (I2 U _ H). lra.
Qed.
(** The run ends: after the allowed number of iterations, or when the steps have a positive
    lower bound. *)
Theorem C32_terminates c u dts intr s h : handler_new c s = Some h ->
  (c_nstepmax c > 0 -> s_iter s < c_nstepmax c -> exists r, run (Z.to_nat (c_nstepmax c - s_iter s)) c u dts intr s = Some r) /\
  (forall d, c_end_var c = Time -> c_use_t_end c = true -> (s_time s <= c_t_end c)%Q -> (0 < d)%Q -> (forall k, d <= dts k)%Q -> exists fuel r, run fuel c u dts intr s = Some r).
Proof.
  intros EH. destruct (handler_settings _ _ _ EH) as (C & _). unfold run. rewrite EH. split.
  - intros N L. apply loop_stops; [exact C|exact N|lia|lia].
  - intros d ET U B D HD. set (q := ((c_t_end c - s_time s) / d)%Q). exists (S (Z.to_nat (Qceiling q))).
    apply (loop_reaches c u dts intr (fun k => Qlt_le_trans _ _ _ D (HD k)) d); try assumption; [|lia].
    assert (Q0 : (0 <= q)%Q) by (apply Qle_shift_div_l; [exact D|lra]).
    assert (C0 : 0 <= Qceiling q) by (change 0 with (Qceiling 0); apply Qceiling_resp_le; exact Q0).
    rewrite Nat2Z.inj_succ, Z2Nat.id by exact C0. unfold Z.succ. rewrite inject_Z_plus. change (inject_Z 1) with 1%Q.
    pose proof (Qle_ceiling q). assert (E : (c_t_end c - s_time s == q * d)%Q) by (unfold q; field; lra). rewrite E.
    apply Qle_trans with (inject_Z (Qceiling q) * d)%Q; [apply Qmult_le_compat_r; lra|]. 
    assert ((inject_Z (Qceiling q) + 1) * d == inject_Z (Qceiling q) * d + d)%Q by ring. lra.
Qed.

Definition plain : universe := mkU None (fun _ _ => 0%Q).
Definition cfg_end (n : Z) (tend : Q) : config := mkCfg (-1) (-1) (-1) 1 Time (-1) (-1) n Time tend true true true.
(** A run started at the limit makes one more iteration; a run started after the end time
    goes back in time. *)
Theorem C32_refuted_limit : ~ (forall c u dts intr s fuel evs ss, (forall k, 0 < dts k)%Q -> c_end_var c = Time -> (s_time s <= c_t_end c)%Q ->
  c_nstepmax c > 0 -> s_iter s <= c_nstepmax c -> run fuel c u dts intr s = Some (evs, ss) -> forall x, In x ss -> s_iter x <= c_nstepmax c).
Proof.
  intros H. pose proof (H (cfg_end 10 100) plain (fun _ => 1%Q) (fun _ => false) (mkSD 10 5 0 0) 1%nat) as X.
  destruct (run 1 (cfg_end 10 100) plain (fun _ => 1%Q) (fun _ => false) (mkSD 10 5 0 0)) as [[evs ss]|] eqn:E; [|vm_compute in E; discriminate].
  specialize (X evs ss). vm_compute in E. injection E as <- <-.
  specialize (X (fun _ => eq_refl) eq_refl ltac:(cbn; lra) ltac:(cbn; lia) ltac:(cbn; lia) eq_refl (mkSD 11 6 0 1) (or_intror (or_introl eq_refl))).
  cbn in X. lia.
Qed.
Theorem C32_refuted_backward : ~ (forall c u dts intr s fuel evs ss, (forall k, 0 < dts k)%Q -> c_end_var c = Time ->
  run fuel c u dts intr s = Some (evs, ss) -> increasing (s_time s) (map s_time (tl ss))).
Proof.
  intros H. pose proof (H (cfg_end 0 3) plain (fun _ => 1%Q) (fun _ => false) (mkSD 0 5 0 0) 1%nat) as X.
  destruct (run 1 (cfg_end 0 3) plain (fun _ => 1%Q) (fun _ => false) (mkSD 0 5 0 0)) as [[evs ss]|] eqn:E; [|vm_compute in E; discriminate].
  specialize (X evs ss (fun _ => eq_refl) eq_refl eq_refl). vm_compute in E. injection E as <- <-. cbn in X. lra.
Qed.

(** * C33, C62 *)
(** State of the triggers: [I], [a]: interval and last observed value. *)
Definition qtracks (I a : Q) (t : qtrigger) : Prop := if Qlt_bool 0 I then t = qtrigger_new I a else qt_enabled t = false.
Definition itracks (I a : Z) (t : itrigger) : Prop := if 0 <? I then itrigger_new I a = Some t else it_enabled t = false.
Lemma qtracks_new I a : qtracks I a (qtrigger_new I a).
Proof. unfold qtracks. destruct (Qlt_bool 0 I) eqn:E; [reflexivity|exact E]. Qed.
Lemma itracks_new I a t : itrigger_new I a = Some t -> itracks I a t.
Proof.
  intros E. unfold itracks. destruct (0 <? I) eqn:P; [exact E|]. unfold itrigger_new in E. destruct (I =? 0); [discriminate|]. injection E as <-. cbn. lia.
Qed.
Lemma qtracks_fire I a b t : qtracks I a t -> (a <= b)%Q ->
  qtracks I b (snd (qtrigger_fire t b)) /\ (fst (qtrigger_fire t b) = true <-> (0 < I)%Q /\ crosses I a b).
Proof.
  unfold qtracks. destruct (Qlt_bool 0 I) eqn:P; intros H L.
  - apply Qlt_bool_iff in P. subst t. destruct (qfire I a b P L) as (E & F). split; [exact E|]. tauto.
  - unfold qtrigger_fire. rewrite H. cbn. split; [exact H|]. split; [discriminate|]. intros [Q _]. apply Qlt_bool_iff in Q. congruence.
Qed.
Lemma itracks_fire I a b t : itracks I a t -> 0 <= a <= b ->
  itracks I b (snd (itrigger_fire t b)) /\ (fst (itrigger_fire t b) = true <-> 0 < I /\ zcrosses I a b).
Proof.
  unfold itracks. destruct (0 <? I) eqn:P; intros H L.
  - destruct (ifire I t a b ltac:(lia) ltac:(lia) ltac:(lia) H) as (E & F). split; [exact E|]. rewrite F. split; [intros X; split; [lia|exact X]|tauto].
  - unfold itrigger_fire. rewrite H. cbn. split; [exact H|]. split; [discriminate|lia].
Qed.

Section Outputs.
Variables (c : config) (u : universe) (dts : nat -> Q) (intr : nat -> bool).
Definition slice (s : scalars) : Q := get_var (c_slice_var c) s.
(** Something is due between two observations. *)
Definition due (freq : Z) (I : Q) (p q : scalars) : Prop :=
  (0 < freq /\ zcrosses freq (s_iter p) (s_iter q)) \/ ((0 < I)%Q /\ crosses I (slice p) (slice q)).
(** [p]: last observation by the output and checkpoint triggers; [s]: by the others. *)
Definition ready (h : handler) (p s : scalars) : Prop :=
  same_settings c h /\
  (c_enable_out c = true -> itracks (c_out_freq c) (s_iter p) (h_out_freq h) /\ qtracks (c_out_slice c) (slice p) (h_out_slice h)) /\
  (c_enable_chk c = true -> itracks (c_chk_freq c) (s_iter p) (h_chk_freq h) /\ qtracks (c_chk_slice c) (slice p) (h_chk_slice h)) /\
  itracks (c_amr_freq c) (s_iter s) (h_amr_freq h) /\ itracks (c_lb_freq c) (s_iter s) (h_lb_freq h).

Lemma step_events dt h p s ev h' s' : ready h p s -> 0 <= s_iter p <= s_iter s -> (slice p <= slice s)%Q -> step c u dt h s = (ev, (h', s')) ->
  ready h' s s' /\ h_first h' = (if c_enable_out c then false else h_first h) /\ s_iter s' = s_iter s + 1 /\ NoDup ev /\
  (forall i, In (Output i) ev <-> c_enable_out c = true /\ i = s_iter s /\ (h_first h = true \/ due (c_out_freq c) (c_out_slice c) p s)) /\
  (forall i, In (Checkpoint i) ev <-> c_enable_chk c = true /\ i = s_iter s /\ due (c_chk_freq c) (c_chk_slice c) p s) /\
  (forall i, In (AmrCycle i) ev <-> i = s_iter s' /\ 0 < c_amr_freq c /\ zcrosses (c_amr_freq c) (s_iter s) (s_iter s')) /\
  (forall i, In (LoadBalance i) ev <-> i = s_iter s' /\ 0 < c_lb_freq c /\ zcrosses (c_lb_freq c) (s_iter s) (s_iter s')).
Proof.
  intros (C & RO & RC & RA & RL) I0 TS ES. unfold slice in *.
  destruct (step_state _ _ _ _ _ _ _ _ ES C) as (C' & E'). assert (IT : s_iter s' = s_iter s + 1) by (rewrite E'; apply (after_iter u (fun _ => dt) h s 0%nat)).
  unfold step in ES. unfold due, slice.
  pose proof (proj2 (proj2 (proj2 (proj2 (proj2 C))))) as SV.
  set (x1 := if c_enable_out c then _ else _) in ES.
  assert (X1 : exists e1 h1, x1 = (e1, h1) /\ h_chk_freq h1 = h_chk_freq h /\ h_chk_slice h1 = h_chk_slice h /\ h_amr_freq h1 = h_amr_freq h /\ h_lb_freq h1 = h_lb_freq h /\ h_slice_var h1 = c_slice_var c /\
     h_first h1 = (if c_enable_out c then false else h_first h) /\
     (c_enable_out c = true -> itracks (c_out_freq c) (s_iter s) (h_out_freq h1) /\ qtracks (c_out_slice c) (get_var (c_slice_var c) s) (h_out_slice h1)) /\
     (e1 = [] \/ e1 = [Output (s_iter s)]) /\
     (In (Output (s_iter s)) e1 <-> c_enable_out c = true /\ (h_first h = true \/ (0 < c_out_freq c /\ zcrosses (c_out_freq c) (s_iter p) (s_iter s)) \/ ((0 < c_out_slice c)%Q /\ crosses (c_out_slice c) (get_var (c_slice_var c) p) (get_var (c_slice_var c) s))))).
  { unfold x1. destruct (c_enable_out c).
    - destruct (RO eq_refl) as (R1 & R2). unfold output_trigger. rewrite SV.
      destruct (itracks_fire _ _ (s_iter s) _ R1 I0) as (F1 & F2). destruct (qtracks_fire _ _ _ _ R2 TS) as (F3 & F4).
      destruct (itrigger_fire (h_out_freq h) (s_iter s)) as [f o]. destruct (qtrigger_fire (h_out_slice h) _) as [t q]. cbn [fst snd] in *.
      eexists _, _. split; [reflexivity|]. cbn [h_chk_freq h_chk_slice h_amr_freq h_lb_freq h_slice_var h_out_freq h_out_slice h_first].
      repeat (split; [solve [reflexivity|exact SV|intros _; split; assumption|destruct (h_first h || f || t); [right|left]; reflexivity]|]).
      rewrite <- F2, <- F4. clear. destruct (h_first h), f, t; cbn; intuition discriminate.
    - eexists _, _. split; [reflexivity|]. repeat (split; [solve [reflexivity|exact SV|discriminate|left; reflexivity]|]). cbn. clear. intuition discriminate. }
  destruct X1 as (e1 & h1 & E1 & A1 & A2 & A3 & A4 & A5 & A6 & A7 & A8 & A9). rewrite E1 in ES. clear x1 E1.
  set (x2 := if c_enable_chk c then _ else _) in ES.
  assert (X2 : exists e2 h2, x2 = (e2, h2) /\ h_out_freq h2 = h_out_freq h1 /\ h_out_slice h2 = h_out_slice h1 /\ h_amr_freq h2 = h_amr_freq h /\ h_lb_freq h2 = h_lb_freq h /\
     h_first h2 = h_first h1 /\
     (c_enable_chk c = true -> itracks (c_chk_freq c) (s_iter s) (h_chk_freq h2) /\ qtracks (c_chk_slice c) (get_var (c_slice_var c) s) (h_chk_slice h2)) /\
     (e2 = [] \/ e2 = [Checkpoint (s_iter s)]) /\
     (In (Checkpoint (s_iter s)) e2 <-> c_enable_chk c = true /\ ((0 < c_chk_freq c /\ zcrosses (c_chk_freq c) (s_iter p) (s_iter s)) \/ ((0 < c_chk_slice c)%Q /\ crosses (c_chk_slice c) (get_var (c_slice_var c) p) (get_var (c_slice_var c) s))))).
  { unfold x2. destruct (c_enable_chk c).
    - destruct (RC eq_refl) as (R1 & R2). unfold checkpoint_trigger. rewrite A1, A2, A5.
      destruct (itracks_fire _ _ (s_iter s) _ R1 I0) as (F1 & F2). destruct (qtracks_fire _ _ _ _ R2 TS) as (F3 & F4).
      destruct (itrigger_fire (h_chk_freq h) (s_iter s)) as [f o]. destruct (qtrigger_fire (h_chk_slice h) _) as [t q]. cbn [fst snd] in *.
      eexists _, _. split; [reflexivity|]. cbn [h_chk_freq h_chk_slice h_amr_freq h_lb_freq h_slice_var h_out_freq h_out_slice h_first].
      repeat (split; [solve [reflexivity|assumption|intros _; split; assumption|destruct (f || t); [right|left]; reflexivity]|]).
      rewrite <- F2, <- F4. clear. destruct f, t; cbn; intuition discriminate.
    - eexists _, _. split; [reflexivity|]. repeat (split; [solve [reflexivity|assumption|discriminate|left; reflexivity]|]). cbn. clear. intuition discriminate. }
  destruct X2 as (e2 & h2 & E2 & B1 & B2 & B3 & B4 & B5 & B6 & B7 & B8). rewrite E2 in ES. clear x2 E2.
  set (sn := next_iter _) in ES. unfold amr_cycle_trigger, loadbalance_trigger in ES. rewrite B3 in ES.
  assert (SN : sn = s').
  { destruct (itrigger_fire (h_amr_freq h) (s_iter sn)). cbn [h_lb_freq] in ES. destruct (itrigger_fire (h_lb_freq h2) (s_iter sn)). injection ES as _ _ <-. reflexivity. }
  clearbody sn. subst sn.
  destruct (itracks_fire _ _ (s_iter s') _ RA ltac:(lia)) as (F1 & F2). destruct (itracks_fire _ _ (s_iter s') _ RL ltac:(lia)) as (F3 & F4).
  destruct (itrigger_fire (h_amr_freq h) (s_iter s')) as [f3 o3]. cbn [h_lb_freq] in ES. rewrite B4 in ES.
  destruct (itrigger_fire (h_lb_freq h) (s_iter s')) as [f4 o4]. cbn [fst snd] in *. injection ES as <- <-.
  split; [|split; [|split; [exact IT|split; [|split; [|split; [|split]]]]]].
  - split; [exact C'|]. cbn [h_out_freq h_out_slice h_chk_freq h_chk_slice h_amr_freq h_lb_freq]. rewrite B1, B2. split; [exact A7|]. split; [exact B6|]. split; assumption.
  - cbn [h_first]. congruence.
  - clear -A8 B7. destruct A8 as [-> | ->], B7 as [-> | ->], f3, f4; cbn; repeat constructor; cbn; intuition discriminate.
  - intros i. rewrite !in_app_iff. split.
    + intros [H|H]; [|exfalso; clear -H B7; destruct B7 as [-> | ->], f3, f4; cbn in H; intuition discriminate].
      assert (i = s_iter s) by (clear -H A8; destruct A8 as [-> | ->]; cbn in H; intuition congruence). subst i. apply A9 in H. clear -H. tauto.
    + intros (H1 & -> & H2). left. apply A9. clear -H1 H2. tauto.
  - intros i. rewrite !in_app_iff. split.
    + intros [H|[H|H]]; [exfalso; clear -H A8; destruct A8 as [-> | ->]; cbn in H; intuition discriminate| |exfalso; clear -H; destruct f3, f4; cbn in H; intuition discriminate].
      assert (i = s_iter s) by (clear -H B7; destruct B7 as [-> | ->]; cbn in H; intuition congruence). subst i. apply B8 in H. clear -H. tauto.
    + intros (H1 & -> & H2). right. left. apply B8. clear -H1 H2. tauto.
  - intros i. rewrite !in_app_iff, <- F2. clear -A8 B7. destruct A8 as [-> | ->], B7 as [-> | ->], f3, f4; cbn; intuition congruence.
  - intros i. rewrite !in_app_iff, <- F4. clear -A8 B7. destruct A8 as [-> | ->], B7 as [-> | ->], f3, f4; cbn; intuition congruence.
Qed.

Lemma loop_events fuel k h p s evs ss : ready h p s -> 0 <= s_iter p <= s_iter s -> run_loop fuel c u dts intr k h s = Some (evs, ss) ->
  increasing (slice p) (map slice ss) ->
  (forall i, In (Output i) evs <-> c_enable_out c = true /\ exists j a b, nth_error (p :: ss) j = Some a /\ nth_error ss j = Some b /\ i = s_iter b /\
     (S j = length ss \/ (j = O /\ h_first h = true) \/ due (c_out_freq c) (c_out_slice c) a b)) /\
  (forall i, In (Checkpoint i) evs <-> c_enable_chk c = true /\ exists j a b, nth_error (p :: ss) j = Some a /\ nth_error ss j = Some b /\ i = s_iter b /\
     (S j = length ss \/ due (c_chk_freq c) (c_chk_slice c) a b)) /\
  (forall i, In (AmrCycle i) evs <-> exists j a b, nth_error ss j = Some a /\ nth_error ss (S j) = Some b /\ i = s_iter b /\ 0 < c_amr_freq c /\ zcrosses (c_amr_freq c) (s_iter a) (s_iter b)) /\
  (forall i, In (LoadBalance i) evs <-> exists j a b, nth_error ss j = Some a /\ nth_error ss (S j) = Some b /\ i = s_iter b /\ 0 < c_lb_freq c /\ zcrosses (c_lb_freq c) (s_iter a) (s_iter b)) /\
  NoDup evs.
Proof.
  revert k h p s evs ss. induction fuel as [|fuel IH]; intros k h p s evs ss R I0 E INC; [discriminate|].
  destruct (loop_cons _ _ _ _ _ _ _ _ _ _ E) as (t0 & ET & _). assert (TS : (slice p <= slice s)%Q) by (rewrite ET in INC; exact (proj1 INC)).
  pose proof (loop_iters _ _ _ _ _ _ _ _ _ _ E) as ITS. cbn [run_loop] in E.
  destruct (step c u (dts k) h s) as [ev [h' s']] eqn:ES. destruct (step_events _ _ _ _ _ _ _ R I0 TS ES) as (R' & F' & IT & ND & EO & EC & EA & EL).
  destruct (stop_criterion h' s' || intr k).
  - clear IH. injection E as <- <-. clear t0 ET.
    assert (OC : forall e, In e ((if c_enable_out c then [Output (s_iter s')] else []) ++ (if c_enable_chk c then [Checkpoint (s_iter s')] else [])) <->
       (c_enable_out c = true /\ e = Output (s_iter s')) \/ (c_enable_chk c = true /\ e = Checkpoint (s_iter s'))).
    { intros e. clear. rewrite in_app_iff. destruct (c_enable_out c), (c_enable_chk c); cbn; intuition congruence. }
    split; [|split; [|split; [|split]]].
    + intros i. rewrite in_app_iff, OC, EO. split.
      * intros [(H1 & -> & H2)|[(H1 & H2)|(_ & H2)]]; [| |discriminate].
        { split; [exact H1|]. exists O, p, s. cbn [nth_error]. repeat split. clear -H2. tauto. }
        { split; [exact H1|]. injection H2 as ->. exists 1%nat, s, s'. cbn. repeat split. left. reflexivity. }
      * intros (H1 & j & a & b & HA & HB & -> & H2). destruct j as [|[|j]]; [| |destruct j; discriminate].
        { cbn [nth_error] in HA, HB. injection HA as <-. injection HB as <-. left. split; [exact H1|]. split; [reflexivity|]. cbn [length] in H2. destruct H2 as [H2|H2]; [discriminate|]. clear -H2. tauto. }
        { cbn [nth_error] in HB. injection HB as <-. right. left. split; [exact H1|reflexivity]. }
    + intros i. rewrite in_app_iff, OC, EC. split.
      * intros [(H1 & -> & H2)|[(_ & H2)|(H1 & H2)]]; [|discriminate|].
        { split; [exact H1|]. exists O, p, s. cbn [nth_error]. repeat split. right. exact H2. }
        { split; [exact H1|]. injection H2 as ->. exists 1%nat, s, s'. cbn. repeat split. left. reflexivity. }
      * intros (H1 & j & a & b & HA & HB & -> & H2). destruct j as [|[|j]]; [| |destruct j; discriminate].
        { cbn [nth_error] in HA, HB. injection HA as <-. injection HB as <-. left. split; [exact H1|]. split; [reflexivity|]. cbn [length] in H2. destruct H2 as [H2|H2]; [discriminate|exact H2]. }
        { cbn [nth_error] in HB. injection HB as <-. right. right. split; [exact H1|reflexivity]. }
    + intros i. rewrite in_app_iff, OC, EA. split.
      * intros [(-> & H2)|[(_ & H2)|(H1 & H2)]]; [|discriminate|discriminate]. exists O, s, s'. cbn [nth_error]. repeat split; apply H2.
      * intros (j & a & b & HA & HB & -> & H2). destruct j as [|j]; [|destruct j; discriminate]. cbn [nth_error] in HA, HB. injection HA as <-. injection HB as <-. left. split; [reflexivity|exact H2].
    + intros i. rewrite in_app_iff, OC, EL. split.
      * intros [(-> & H2)|[(_ & H2)|(H1 & H2)]]; [|discriminate|discriminate]. exists O, s, s'. cbn [nth_error]. repeat split; apply H2.
      * intros (j & a & b & HA & HB & -> & H2). destruct j as [|j]; [|destruct j; discriminate]. cbn [nth_error] in HA, HB. injection HA as <-. injection HB as <-. left. split; [reflexivity|exact H2].
    + apply NoDup_glue; [exact ND| |].
      * destruct (c_enable_out c), (c_enable_chk c); cbn; repeat constructor; cbn; intuition discriminate.
      * intros e H1 H2. apply OC in H2. destruct H2 as [(_ & ->)|(_ & ->)]; [apply EO in H1|apply EC in H1]; lia.
  - destruct (run_loop fuel c u dts intr (S k) h' s') as [[evs' ss']|] eqn:E2; [|discriminate]. injection E as <- <-.
    destruct (loop_cons _ _ _ _ _ _ _ _ _ _ E2) as (t & ES' & Ht). cbn [map increasing] in INC. destruct INC as [_ INC].
    destruct (IH (S k) h' s s' evs' ss' R' ltac:(lia) E2 INC) as (IO & IC & IA & IL & IN).
    pose proof (loop_iters _ _ _ _ _ _ _ _ _ _ E2) as ITS'.
    assert (L1 : length (s :: ss') <> 1%nat) by (rewrite ES'; discriminate).
    split; [|split; [|split; [|split]]].
    + intros i. rewrite in_app_iff, EO, IO, F'. split.
      * intros [(H1 & -> & H2)|(H1 & j & a & b & HA & HB & -> & H2)]; (split; [exact H1|]).
        { exists O, p, s. cbn [nth_error]. repeat split. clear -H2. tauto. }
        { exists (S j), a, b. cbn [nth_error length]. split; [exact HA|]. split; [exact HB|]. split; [reflexivity|]. destruct H2 as [H2|[(_ & H2)|H2]]; [left; lia|rewrite H1 in H2; discriminate|right; right; exact H2]. }
      * intros (H1 & j & a & b & HA & HB & -> & H2). destruct j as [|j]; cbn [nth_error] in HA, HB.
        { injection HA as <-. injection HB as <-. left. split; [exact H1|]. split; [reflexivity|]. destruct H2 as [H2|H2]; [congruence|]. clear -H2. tauto. }
        { right. split; [exact H1|]. exists j, a, b. split; [exact HA|]. split; [exact HB|]. split; [reflexivity|]. cbn [length] in H2. destruct H2 as [H2|[(H2 & _)|H2]]; [left; lia|discriminate|right; right; exact H2]. }
    + intros i. rewrite in_app_iff, EC, IC. split.
      * intros [(H1 & -> & H2)|(H1 & j & a & b & HA & HB & -> & H2)]; (split; [exact H1|]).
        { exists O, p, s. cbn [nth_error]. repeat split. right. exact H2. }
        { exists (S j), a, b. cbn [nth_error length]. split; [exact HA|]. split; [exact HB|]. split; [reflexivity|]. destruct H2 as [H2|H2]; [left; lia|right; exact H2]. }
      * intros (H1 & j & a & b & HA & HB & -> & H2). destruct j as [|j]; cbn [nth_error] in HA, HB.
        { injection HA as <-. injection HB as <-. left. split; [exact H1|]. split; [reflexivity|]. destruct H2 as [H2|H2]; [congruence|exact H2]. }
        { right. split; [exact H1|]. exists j, a, b. split; [exact HA|]. split; [exact HB|]. split; [reflexivity|]. cbn [length] in H2. destruct H2 as [H2|H2]; [left; lia|right; exact H2]. }
    + intros i. rewrite in_app_iff, EA, IA. split.
      * intros [(-> & H2)|(j & a & b & HA & HB & -> & H2)].
        { exists O, s, s'. rewrite ES'. cbn [nth_error]. repeat split; apply H2. }
        { exists (S j), a, b. cbn [nth_error]. repeat split; [exact HA|exact HB|apply H2|apply H2]. }
      * intros (j & a & b & HA & HB & -> & H2). destruct j as [|j].
        { rewrite ES' in HB. cbn [nth_error] in HA, HB. injection HA as <-. injection HB as <-. left. split; [reflexivity|exact H2]. }
        { right. exists j, a, b. repeat split; [exact HA|exact HB|apply H2|apply H2]. }
    + intros i. rewrite in_app_iff, EL, IL. split.
      * intros [(-> & H2)|(j & a & b & HA & HB & -> & H2)].
        { exists O, s, s'. rewrite ES'. cbn [nth_error]. repeat split; apply H2. }
        { exists (S j), a, b. cbn [nth_error]. repeat split; [exact HA|exact HB|apply H2|apply H2]. }
      * intros (j & a & b & HA & HB & -> & H2). destruct j as [|j].
        { rewrite ES' in HB. cbn [nth_error] in HA, HB. injection HA as <-. injection HB as <-. left. split; [reflexivity|exact H2]. }
        { right. exists j, a, b. repeat split; [exact HA|exact HB|apply H2|apply H2]. }
    + apply NoDup_glue; [exact ND|exact IN|]. intros e H1 H2. destruct e as [i|i|i|i].
      * apply EO in H1. apply IO in H2. destruct H1 as (_ & -> & _). destruct H2 as (_ & j & a & b & _ & HB & E & _). specialize (ITS' j b HB). lia.
      * apply EC in H1. apply IC in H2. destruct H1 as (_ & -> & _). destruct H2 as (_ & j & a & b & _ & HB & E & _). specialize (ITS' j b HB). lia.
      * apply EA in H1. apply IA in H2. destruct H1 as (-> & _). destruct H2 as (j & a & b & _ & HB & E & _). specialize (ITS' (S j) b HB). lia.
      * apply EL in H1. apply IL in H2. destruct H1 as (-> & _). destruct H2 as (j & a & b & _ & HB & E & _). specialize (ITS' (S j) b HB). lia.
Qed.
End Outputs.

Lemma ready_new c s h : handler_new c s = Some h -> ready c h s s.
Proof.
  intros E. pose proof (proj1 (handler_settings _ _ _ E)) as C. split; [exact C|]. unfold handler_new in E.
  destruct (itrigger_new (c_out_freq c) _) eqn:E1; [|discriminate]. destruct (itrigger_new (c_chk_freq c) _) eqn:E2; [|discriminate].
  destruct (itrigger_new (c_lb_freq c) _) eqn:E3; [|discriminate]. destruct (itrigger_new (c_amr_freq c) _) eqn:E4; [|discriminate].
  injection E as <-. cbn [h_out_freq h_out_slice h_chk_freq h_chk_slice h_amr_freq h_lb_freq].
  split; [intros _|split; [intros _|split]]; try split; try (apply itracks_new; assumption); apply qtracks_new.
Qed.
Lemma zcrosses_next f i : 0 < f -> (zcrosses f i (i + 1) <-> (f | i + 1)).
Proof. intros F. split; [intros (n & H); exists n; lia|intros (n & H); exists n; lia]. Qed.

(** The iterations at which a snapshot is written: the first, the last, the multiples of the
    frequency and those by which a multiple of the interval has been reached since the
    previous iteration; each once. Likewise for checkpoints, except the first iteration.
    Time (or the expansion factor) is the one of the scalar data at the iteration. *)
Theorem C33_outputs c u dts intr s fuel evs ss : run fuel c u dts intr s = Some (evs, ss) -> 0 <= s_iter s ->
  increasing (get_var (c_slice_var c) s) (map (get_var (c_slice_var c)) (tl ss)) ->
  let due freq I k := (exists b, nth_error ss k = Some b /\ 0 < freq /\ (freq | s_iter b)) \/
                      (exists a b, nth_error ss (k - 1) = Some a /\ nth_error ss k = Some b /\ (0 < I)%Q /\ crosses I (get_var (c_slice_var c) a) (get_var (c_slice_var c) b)) in
  (forall i, In (Output i) evs <-> c_enable_out c = true /\ exists k b, nth_error ss k = Some b /\ i = s_iter b /\
     (k = O \/ S k = length ss \/ due (c_out_freq c) (c_out_slice c) k)) /\
  (forall i, In (Checkpoint i) evs <-> c_enable_chk c = true /\ exists k b, nth_error ss k = Some b /\ i = s_iter b /\
     (S k = length ss \/ (0 < k)%nat /\ due (c_chk_freq c) (c_chk_slice c) k)) /\
  NoDup evs.
Proof.
  intros E I0 INC due'. unfold run in E. destruct (handler_new c s) as [h|] eqn:EH; [|discriminate].
  pose proof (ready_new _ _ _ EH) as R. destruct (handler_settings _ _ _ EH) as (_ & HF).
  destruct (loop_cons _ _ _ _ _ _ _ _ _ _ E) as (t & -> & Ht). pose proof (loop_iters _ _ _ _ _ _ _ _ _ _ E) as ITS. cbn [tl] in INC.
  destruct (loop_events c u dts intr fuel 0 h s s evs (s :: t) R ltac:(lia) E ltac:(split; [apply Qle_refl|exact INC])) as (IO & IC & _ & _ & IN).
  assert (DUE : forall freq I k a b, nth_error (s :: s :: t) k = Some a -> nth_error (s :: t) k = Some b -> (0 < k)%nat -> (due c freq I a b <-> due' freq I k)).
  { intros freq I k a b HA HB K. destruct k as [|k]; [lia|]. change (nth_error (s :: t) k = Some a) in HA.
    pose proof (ITS k a HA) as IA. pose proof (ITS (S k) b HB) as IB. assert (EI : s_iter b = s_iter a + 1) by lia. unfold due, due', slice.
    replace (S k - 1)%nat with k by lia. split.
    - intros [(F & H)|(F & H)].
      + left. exists b. split; [exact HB|]. split; [exact F|]. rewrite EI in H |- *. apply (zcrosses_next freq _ F), H.
      + right. exists a, b. tauto.
    - intros [(b' & HB' & F & H)|(a' & b' & HA' & HB' & F & H)].
      + left. split; [exact F|]. assert (b' = b) by congruence. subst b'. rewrite EI in H |- *. apply (zcrosses_next freq _ F), H.
      + right. assert (b' = b) by congruence. assert (a' = a) by congruence. subst. tauto. }
  assert (NS : forall freq I, ~ due c freq I s s).
  { intros freq I [(_ & n & H)|(_ & n & H1 & H2)]; [lia|lra]. }
  assert (PREV : forall k b, nth_error (s :: t) k = Some b -> exists a, nth_error (s :: s :: t) k = Some a).
  { intros k b HB. destruct (nth_error (s :: s :: t) k) eqn:EE; [eauto|]. apply nth_error_None in EE. assert (k < length (s :: t))%nat by (apply nth_error_Some; congruence). cbn [length] in *. lia. }
  split; [|split; [|exact IN]].
  - intros i. rewrite IO. split; (intros (H1 & H); split; [exact H1|]).
    + destruct H as (k & a & b & HA & HB & -> & H). exists k, b. split; [exact HB|]. split; [reflexivity|].
      destruct (Nat.eq_dec k 0) as [K|K]; [left; exact K|]. right. destruct H as [H|[(H & _)|H]]; [left; exact H|contradiction|right].
      apply (DUE _ _ k a b HA HB); [lia|exact H].
    + destruct H as (k & b & HB & -> & H). destruct (PREV k b HB) as (a & HA). exists k, a, b. split; [exact HA|]. split; [exact HB|]. split; [reflexivity|].
      destruct (Nat.eq_dec k 0) as [K|K]; [right; left; split; [exact K|exact HF]|]. destruct H as [H|[H|H]]; [contradiction|left; exact H|]. right. right.
      apply (DUE _ _ k a b HA HB); [lia|exact H].
  - intros i. rewrite IC. split; (intros (H1 & H); split; [exact H1|]).
    + destruct H as (k & a & b & HA & HB & -> & H). exists k, b. split; [exact HB|]. split; [reflexivity|]. destruct H as [H|H]; [left; exact H|right].
      destruct k as [|k]; [cbn [nth_error] in HA, HB; injection HA as <-; injection HB as <-; exfalso; exact (NS _ _ H)|].
      split; [lia|]. apply (DUE _ _ (S k) a b HA HB); [lia|exact H].
    + destruct H as (k & b & HB & -> & H). destruct (PREV k b HB) as (a & HA). exists k, a, b. split; [exact HA|]. split; [exact HB|]. split; [reflexivity|].
      destruct H as [H|(K & H)]; [left; exact H|right]. apply (DUE _ _ k a b HA HB K), H.
Qed.

(** Every multiple of the time interval passed during the run has its snapshot, at the first
    iteration that has reached it. *)
Lemma first_reached (v : scalars -> Q) (x : Q) s t : (v s < x)%Q -> (x <= v (last t s))%Q ->
  exists k a b, nth_error (s :: t) k = Some a /\ nth_error (s :: t) (S k) = Some b /\ (v a < x)%Q /\ (x <= v b)%Q.
Proof.
  revert s. induction t as [|y t IH]; intros s L U; [cbn in U; lra|].
  destruct (Qlt_le_dec (v y) x) as [Y|Y].
  - assert (EL : last (y :: t) s = last t y).
    { clear. revert s y. induction t as [|z t IH]; intros s y; [reflexivity|]. rewrite last_cons by discriminate. rewrite (IH s z). symmetry. apply (IH y z). }
    rewrite EL in U. destruct (IH y Y U) as (k & a & b & HA & HB & H). exists (S k), a, b. split; [exact HA|]. split; [exact HB|exact H].
  - exists O, s, y. repeat split; assumption.
Qed.
Theorem C33_multiples c u dts intr s fuel evs ss n : (forall k, 0 < dts k)%Q -> c_end_var c = Time -> (c_use_t_end c = true -> (s_time s <= c_t_end c)%Q) ->
  0 <= s_iter s -> c_slice_var c = Time -> run fuel c u dts intr s = Some (evs, ss) -> 
  (forall I, (s_time s < inject_Z n * I)%Q -> (inject_Z n * I <= s_time (last ss s))%Q -> (0 < I)%Q ->
   exists k a b, nth_error ss k = Some a /\ nth_error ss (S k) = Some b /\ (s_time a < inject_Z n * I)%Q /\ (inject_Z n * I <= s_time b)%Q /\
     (c_enable_out c = true -> c_out_slice c = I -> In (Output (s_iter b)) evs) /\ (c_enable_chk c = true -> c_chk_slice c = I -> In (Checkpoint (s_iter b)) evs)).
Proof.
  intros DT ET B I0 SV E I N1 N2 IP. destruct (C32_end_partial c u dts intr s DT ET B fuel evs ss E) as (e & t & -> & Ht & _ & INC & _).
  rewrite last_cons in N2 by exact Ht. destruct (first_reached s_time _ s t N1 N2) as (k & a & b & HA & HB & H1 & H2).
  destruct (C33_outputs c u dts intr s fuel evs (s :: t) E I0 ltac:(rewrite SV; exact INC)) as (IO & IC & _).
  exists k, a, b. split; [exact HA|]. split; [exact HB|]. split; [exact H1|]. split; [exact H2|].
  assert (X : exists a0 b0, nth_error (s :: t) (S k - 1) = Some a0 /\ nth_error (s :: t) (S k) = Some b0 /\ (0 < I)%Q /\ crosses I (get_var (c_slice_var c) a0) (get_var (c_slice_var c) b0)).
  { exists a, b. replace (S k - 1)%nat with k by lia. rewrite SV. cbn [get_var]. repeat split; try assumption. exists n. split; assumption. }
  split; intros EN EI.
  - apply IO. split; [exact EN|]. exists (S k), b. split; [exact HB|]. split; [reflexivity|]. right. right. right. rewrite EI. exact X.
  - apply IC. split; [exact EN|]. exists (S k), b. split; [exact HB|]. split; [reflexivity|]. right. split; [lia|]. right. rewrite EI. exact X.
Qed.

(** With run/output_slice_var = aexp the trigger sees the expansion factor of the previous
    iteration: snapshots are one iteration late. *)
Theorem C33_refuted_aexp : ~ (forall c f d dts intr s fuel evs ss n, (forall k, 0 < dts k)%Q -> (forall x y, x <= y -> f x <= f y)%Q -> s_aexp s = f (s_time s) ->
  c_end_var c = Time -> c_use_t_end c = false -> 0 <= s_iter s -> c_slice_var c = Aexp -> (0 < c_out_slice c)%Q -> c_enable_out c = true ->
  run fuel c (mkU (Some f) d) dts intr s = Some (evs, ss) ->
  (f (s_time s) < inject_Z n * c_out_slice c)%Q -> (inject_Z n * c_out_slice c <= f (s_time (last ss s)))%Q ->
  exists k a b, nth_error ss k = Some a /\ nth_error ss (S k) = Some b /\ (f (s_time a) < inject_Z n * c_out_slice c)%Q /\ (inject_Z n * c_out_slice c <= f (s_time b))%Q /\
     In (Output (s_iter b)) evs).
Proof.
  intros H. set (c := mkCfg (-1) (-1) (-1) (-1) Aexp 1 (-1) 4 Time 0 false true false).
  specialize (H c (fun x => x) (fun _ _ => 0%Q) (fun _ => 1%Q) (fun _ => false) (mkSD 0 (1#2) (1#2) 0) 4%nat).
  destruct (run 4 c (mkU (Some (fun x => x)) (fun _ _ => 0%Q)) (fun _ => 1%Q) (fun _ => false) (mkSD 0 (1#2) (1#2) 0)) as [[evs ss]|] eqn:E; [|vm_compute in E; discriminate].
  specialize (H evs ss 1 (fun _ => eq_refl) (fun x y L => L) eq_refl eq_refl eq_refl ltac:(cbn; lia) eq_refl eq_refl eq_refl eq_refl). vm_compute in E. injection E as <- <-.
  destruct H as (k & a & b & HA & HB & L & U & IN); [reflexivity|vm_compute; discriminate|].
  destruct k as [|[|[|[|[|k]]]]]; cbn [nth_error] in HA, HB; try discriminate; injection HA as <-; injection HB as <-; vm_compute in L; try discriminate L;
    vm_compute in U; try (exfalso; exact (U eq_refl)). cbn in IN. intuition discriminate.
Qed.

Lemma nth_last (t : list scalars) s d : t <> [] -> nth_error (s :: t) (length t) = Some (last t d).
Proof.
  revert s. induction t as [|x t IH]; intros s Ht; [contradiction|]. destruct t as [|y t]; [reflexivity|].
  rewrite last_cons by discriminate. apply (IH x). discriminate.
Qed.

Lemma last_indep {A} (t : list A) d d' : t <> [] -> last t d = last t d'.
Proof. induction t as [|x t IH]; intros H; [contradiction|]. destruct t as [|y t]; [reflexivity|]. apply IH. discriminate. Qed.

(** * C62: AMR cycles and load balancing happen at the multiples of their frequencies *)
Lemma step_cycles c u dt h s ev h' s' : itracks (c_amr_freq c) (s_iter s) (h_amr_freq h) -> itracks (c_lb_freq c) (s_iter s) (h_lb_freq h) -> 0 <= s_iter s ->
  step c u dt h s = (ev, (h', s')) ->
  s_iter s' = s_iter s + 1 /\ itracks (c_amr_freq c) (s_iter s') (h_amr_freq h') /\ itracks (c_lb_freq c) (s_iter s') (h_lb_freq h') /\
  (forall i, In (AmrCycle i) ev <-> i = s_iter s' /\ 0 < c_amr_freq c /\ (c_amr_freq c | i)) /\
  (forall i, In (LoadBalance i) ev <-> i = s_iter s' /\ 0 < c_lb_freq c /\ (c_lb_freq c | i)).
Proof.
  intros RA RL I0 ES. unfold step in ES. set (x1 := if c_enable_out c then _ else _) in ES.
  assert (X1 : exists e1 h1, x1 = (e1, h1) /\ h_amr_freq h1 = h_amr_freq h /\ h_lb_freq h1 = h_lb_freq h /\ (e1 = [] \/ e1 = [Output (s_iter s)])).
  { unfold x1. destruct (c_enable_out c); [|eexists _, _; repeat split; left; reflexivity]. unfold output_trigger. destruct (itrigger_fire _ _) as [f o]. destruct (qtrigger_fire _ _) as [t q].
    eexists _, _. repeat split. destruct (h_first h || f || t); [right|left]; reflexivity. }
  destruct X1 as (e1 & h1 & E1 & A1 & A2 & A3). rewrite E1 in ES. clear x1 E1. set (x2 := if c_enable_chk c then _ else _) in ES.
  assert (X2 : exists e2 h2, x2 = (e2, h2) /\ h_amr_freq h2 = h_amr_freq h /\ h_lb_freq h2 = h_lb_freq h /\ (e2 = [] \/ e2 = [Checkpoint (s_iter s)])).
  { unfold x2. destruct (c_enable_chk c); [|eexists _, _; repeat split; try assumption; left; reflexivity]. unfold checkpoint_trigger. destruct (itrigger_fire _ _) as [f o]. destruct (qtrigger_fire _ _) as [t q].
    eexists _, _. split; [reflexivity|]. split; [exact A1|]. split; [exact A2|]. destruct (f || t); [right|left]; reflexivity. }
  destruct X2 as (e2 & h2 & E2 & B1 & B2 & B3). rewrite E2 in ES. clear x2 E2.
  set (sn := next_iter _) in ES. assert (IT : s_iter sn = s_iter s + 1).
  { unfold sn, next_iter, correct_dt_end. cbn [s_iter]. destruct (h_use_t_end h2), (h_end_var h2), (u_expansion u); cbn [s_iter]; try reflexivity; destruct (Qlt_bool _ _); reflexivity. }
  clearbody sn. unfold amr_cycle_trigger, loadbalance_trigger in ES. rewrite B1 in ES.
  destruct (itracks_fire _ _ (s_iter sn) _ RA ltac:(lia)) as (F1 & F2). destruct (itracks_fire _ _ (s_iter sn) _ RL ltac:(lia)) as (F3 & F4).
  destruct (itrigger_fire (h_amr_freq h) (s_iter sn)) as [f3 o3]. cbn [h_lb_freq] in ES. rewrite B2 in ES.
  destruct (itrigger_fire (h_lb_freq h) (s_iter sn)) as [f4 o4]. cbn [fst snd] in *. injection ES as <- <- <-. cbn [h_amr_freq h_lb_freq].
  split; [exact IT|]. split; [exact F1|]. split; [exact F3|].
  assert (Z : forall f, 0 < f /\ zcrosses f (s_iter s) (s_iter sn) <-> 0 < f /\ (f | s_iter sn)).
  { intros f. rewrite IT. split; intros (P & H); (split; [exact P|]); apply (zcrosses_next f _ P); exact H. }
  rewrite Z in F2, F4. split; intros i.
  - transitivity (i = s_iter sn /\ f3 = true); [|rewrite F2; split; intros (-> & H); split; auto].
    rewrite !in_app_iff. clear -A3 B3. destruct A3 as [-> | ->], B3 as [-> | ->], f3, f4; cbn; intuition congruence.
  - transitivity (i = s_iter sn /\ f4 = true); [|rewrite F4; split; intros (-> & H); split; auto].
    rewrite !in_app_iff. clear -A3 B3. destruct A3 as [-> | ->], B3 as [-> | ->], f3, f4; cbn; intuition congruence.
Qed.
Lemma loop_cycles c u dts intr fuel : forall k h s evs ss, itracks (c_amr_freq c) (s_iter s) (h_amr_freq h) -> itracks (c_lb_freq c) (s_iter s) (h_lb_freq h) -> 0 <= s_iter s ->
  run_loop fuel c u dts intr k h s = Some (evs, ss) ->
  s_iter s <= s_iter (last ss s) /\
  (forall i, In (AmrCycle i) evs <-> 0 < c_amr_freq c /\ (c_amr_freq c | i) /\ s_iter s < i <= s_iter (last ss s)) /\
  (forall i, In (LoadBalance i) evs <-> 0 < c_lb_freq c /\ (c_lb_freq c | i) /\ s_iter s < i <= s_iter (last ss s)).
Proof.
  induction fuel as [|fuel IH]; intros k h s evs ss RA RL I0 E; [discriminate|]. cbn [run_loop] in E. destruct (step c u (dts k) h s) as [ev [h' s']] eqn:ES.
  destruct (step_cycles _ _ _ _ _ _ _ _ RA RL I0 ES) as (IT & RA' & RL' & EA & EL). destruct (stop_criterion h' s' || intr k).
  - injection E as <- <-. cbn [last]. split; [lia|]. split; intros i; rewrite in_app_iff; [rewrite EA|rewrite EL];
    (split; [intros [(-> & P & D)|H]; [repeat split; auto; lia|exfalso; clear -H; destruct (c_enable_out c), (c_enable_chk c); cbn in H; intuition discriminate]|
             intros (P & D & L); left; split; [lia|split; assumption]]).
  - destruct (run_loop fuel c u dts intr (S k) h' s') as [[evs' ss']|] eqn:E2; [|discriminate]. injection E as <- <-.
    destruct (loop_cons _ _ _ _ _ _ _ _ _ _ E2) as (t & -> & Ht). destruct (IH (S k) h' s' evs' _ RA' RL' ltac:(lia) E2) as (L & IA & IL).
    rewrite (last_cons s) by discriminate. rewrite (last_cons s') in * by exact Ht. rewrite (last_indep t s s') by exact Ht.
    split; [lia|]. split; intros i; rewrite in_app_iff; [rewrite EA, IA|rewrite EL, IL];
    (split; [intros [(-> & P & D)|(P & D & H)]; repeat split; auto; lia|
             intros (P & D & H); destruct (Z.eq_dec i (s_iter s')) as [->|N]; [left; auto|right; repeat split; auto; lia]]).
Qed.
Theorem C62_cycles c u dts intr s fuel evs ss : run fuel c u dts intr s = Some (evs, ss) -> 0 <= s_iter s ->
  (forall i, In (AmrCycle i) evs <-> 0 < c_amr_freq c /\ (c_amr_freq c | i) /\ s_iter s < i <= s_iter (last ss s)) /\
  (forall i, In (LoadBalance i) evs <-> 0 < c_lb_freq c /\ (c_lb_freq c | i) /\ s_iter s < i <= s_iter (last ss s)).
Proof.
  intros E I0. unfold run in E. destruct (handler_new c s) as [h|] eqn:EH; [|discriminate]. destruct (ready_new _ _ _ EH) as (_ & _ & _ & RA & RL).
  apply (loop_cycles _ _ _ _ _ _ _ _ _ _ RA RL I0 E).
Qed.

(** * Example: 7 steps, end time 3, snapshots every 2 iterations and every 1/2, checkpoints
    every unit of time, AMR every 2 iterations, load balancing every 3. *)
Definition ex_cfg : config := mkCfg 2 (-1) 3 2 Time (1#2) 1 100 Time 3 true true true.
Definition ex_dts (k : nat) : Q := match k with 0%nat => 3#10 | 1%nat => 1#10 | 2%nat => 6#10 | 3%nat => 1#10 | 4%nat => 1 | _ => 8#10 end%Q.
Example ex_run : option_map (fun r => (fst r, map (fun s => (s_iter s, Qred (s_time s))) (snd r))) (run 20 ex_cfg plain ex_dts (fun _ => false) (mkSD 0 0 0 0)) =
  Some ([Output 0; AmrCycle 2; Output 2; LoadBalance 3; Output 3; Checkpoint 3; AmrCycle 4; Output 4; Output 5; Checkpoint 5; AmrCycle 6; LoadBalance 6; Output 6;
         Output 7; Checkpoint 7],
        [(0, 0%Q); (1, 3#10); (2, 2#5); (3, 1%Q); (4, 11#10); (5, 21#10); (6, 29#10); (7, 3%Q)]).
Proof. vm_compute. reflexivity. Qed.

Print Assumptions C32_end_partial.
Print Assumptions C32_terminates.
Print Assumptions C32_refuted_limit.
Print Assumptions C32_refuted_backward.
Print Assumptions C33_outputs.
Print Assumptions C33_multiples.
Print Assumptions C33_refuted_aexp.
Print Assumptions C62_cycles.
