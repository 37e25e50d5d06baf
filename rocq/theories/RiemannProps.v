(** The Riemann solver between different states (C70). *)
From Coq Require Import QArith Qcanon Field.
From Verif Require Import Base OctreeSpec HydroModel HydroSpec HydroProps.
Open Scope Qc_scope.

(** Fastest sound speed of the two gases, as the solver sees it ([sq] is the square root). *)
Definition sound (sq : Qc -> Qc) (P : rparams) (q : prim) : Qc := sq (fmax (gamma0 P * q_p q / q_rho q) (smallc P * smallc P)).
Definition fastest (sq : Qc -> Qc) (P : rparams) (ql qr : prim) : Qc := fmax (sound sq P ql) (sound sq P qr).
(** What is needed of the square root: positive, and not below the exact value. *)
Definition root (sq : Qc -> Qc) : Prop := forall x, 0 < x -> 0 < sq x /\ x <= sq x * sq x.

(** Total energy per volume, conserved variables. *)
Definition energy (gamma : Qc) (q : prim) : Qc := q_p q / (gamma - 1) + q_rho q * sqnorm (vel q) / two.
(** A wave of speed [s] separates the states [U1] and [U2] whose fluxes are [F1] and [F2]: what
    crosses the wave is conserved. *)
Definition jump (s : Qc) (U1 F1 U2 F2 : cons) : Prop := forall v, cv v F2 - cv v F1 = s * (cv v U2 - cv v U1).
(** [U] moves along x with speed [s], under the pressure [p], with the transverse velocities of
    [q]; its flux is [F]. *)
Definition moving (s p : Qc) (q : prim) (U F : cons) : Prop :=
  0 < u_rho U /\ u_x U = u_rho U * s /\ u_y U = u_rho U * q_y q /\ u_z U = u_rho U * q_z q /\
  u_rho F = u_rho U * s /\ u_e F = (u_e U + p) * s /\ u_x F = u_x U * s + p /\ u_y F = u_y U * s /\ u_z F = u_z U * s.
(** The same gas seen in a mirror across the face. *)
Definition mirror (q : prim) : prim := mkPrim (q_rho q) (q_p q) (- q_x q) (q_y q) (q_z q).
Definition mirror_flux (f : cons) : cons := mkCons (- u_rho f) (- u_e f) (u_x f) (- u_y f) (- u_z f).

(** * Arithmetic *)
Lemma Qclt_sub x y : x < y <-> 0 < y - x.
Proof. unfold Qclt. cbn [Qcminus Qcplus Qcopp Q2Qc this]. rewrite !Qred_correct. split; intro H; [apply -> Qlt_minus_iff in H|apply <- Qlt_minus_iff]; exact H. Qed.
Lemma fmin_le_l x y : fmin x y <= x.
Proof. unfold fmin. destruct (ltb x y) eqn:E; [apply Qcle_refl|apply ltb_false, E]. Qed.
Lemma fmin_le_r x y : fmin x y <= y.
Proof. unfold fmin. destruct (ltb x y) eqn:E; [apply Qclt_le_weak, ltb_spec, E|apply Qcle_refl]. Qed.
Lemma fmin_case x y : fmin x y = x \/ fmin x y = y.
Proof. unfold fmin. destruct (ltb x y); auto. Qed.
Lemma fmax_case x y : fmax x y = x \/ fmax x y = y.
Proof. unfold fmax. destruct (ltb y x); auto. Qed.
Lemma fmax_comm x y : fmax x y = fmax y x.
Proof.
  unfold fmax. destruct (ltb y x) eqn:E1, (ltb x y) eqn:E2; try reflexivity.
  - apply ltb_spec in E1, E2. exfalso. exact (Qclt_not_le _ _ E1 (Qclt_le_weak _ _ E2)).
  - apply ltb_false in E1, E2. apply Qcle_antisym; assumption.
Qed.
Lemma fmin_comm x y : fmin x y = fmin y x.
Proof.
  unfold fmin. destruct (ltb y x) eqn:E1, (ltb x y) eqn:E2; try reflexivity.
  - apply ltb_spec in E1, E2. exfalso. exact (Qclt_not_le _ _ E1 (Qclt_le_weak _ _ E2)).
  - apply ltb_false in E1, E2. apply Qcle_antisym; assumption.
Qed.
Lemma ltb_opp x y : ltb (- x) (- y) = ltb y x.
Proof.
  destruct (ltb y x) eqn:E.
  - apply ltb_spec. apply ltb_spec in E. apply Qclt_sub. apply Qclt_sub in E. replace (- y - - x) with (x - y) by ring. exact E.
  - apply ltb_false. apply ltb_false in E. apply Qcopp_le_compat. exact E.
Qed.
Lemma fmin_opp x y : fmin (- x) (- y) = - fmax x y.
Proof. unfold fmin, fmax. rewrite ltb_opp. destruct (ltb y x); reflexivity. Qed.
Lemma fmax_opp x y : fmax (- x) (- y) = - fmin x y.
Proof. unfold fmin, fmax. rewrite ltb_opp. destruct (ltb x y); reflexivity. Qed.
Lemma ltb_true x y : x < y -> ltb x y = true. Proof. apply ltb_spec. Qed.
Lemma ltb_no x y : y <= x -> ltb x y = false. Proof. apply ltb_false. Qed.
Lemma Qcplus_pos x y : 0 < x -> 0 < y -> 0 < x + y.
Proof. intros H K. rewrite <- (Qcplus_0_l 0). eapply Qclt_le_trans; [|apply Qcplus_le_compat; [apply Qclt_le_weak; exact H|apply Qcle_refl]]. 
  rewrite Qcplus_0_l. apply Qclt_sub. replace (0 + y - 0) with y by ring. exact K. Qed.
Lemma Qcplus_pos_nonneg x y : 0 < x -> 0 <= y -> 0 < x + y.
Proof. intros H K. eapply Qclt_le_trans; [exact H|]. apply Qcle_sub. replace (x + y - x) with y by ring. exact K. Qed.
Lemma sub_nz x y : x < y -> y - x <> 0. Proof. intros H. apply Qc_pos_nz. apply Qclt_sub in H. exact H. Qed.
Lemma sub_nz' x y : x < y -> x - y <> 0. Proof. intros H K. apply (sub_nz x y H). replace (y - x) with (- (x - y)) by ring. rewrite K. ring. Qed.

(** * The solver on states that need no floor *)
Section Hllc.
Context (gamma : Qc) (G1 : 1 < gamma).
Definition etot (q : prim) : Qc := q_p q * (1 / (gamma - 1)) + half_f * q_rho q * (q_x q * q_x q + q_y q * q_y q + q_z q * q_z q).
Context (ql qr : prim) (c : Qc).
Let rl := q_rho ql. Let rr := q_rho qr. Let pl := q_p ql. Let pr := q_p qr. Let ul := q_x ql. Let ur := q_x qr.
Let SL := fmin ul ur - c. Let SR := fmax ul ur + c.
Let rcl := rl * (ul - SL). Let rcr := rr * (SR - ur).
Let us := (rcr * ur + rcl * ul + (pl - pr)) / (rcr + rcl).
Let ps := (rcr * pl + rcl * pr + rcl * rcr * (ul - ur)) / (rcr + rcl).
Definition out (ro uo ptoto etoto : Qc) : cons * Qc :=
    let f := ro * uo in
    let q := if ltb 0 f then ql else qr in
    (mkCons f ((etoto + ptoto) * uo) (ro * uo * uo + ptoto) (f * q_y q) (f * q_z q), ptoto).
Definition core : cons * Qc :=
  if ltb 0 SL then out rl ul pl (etot ql)
  else if ltb 0 us then out (rl * (SL - ul) / (SL - us)) us ps (((SL - ul) * etot ql - pl * ul + ps * us) / (SL - us))
  else if ltb 0 SR then out (rr * (SR - ur) / (SR - us)) us ps (((SR - ur) * etot qr - pr * ur + ps * us) / (SR - us))
  else out rr ur pr (etot qr).
Context (RL : 0 < rl) (RR : 0 < rr) (PL : 0 < pl) (PR : 0 < pr) (C0 : 0 < c) (CL : gamma * pl <= rl * (c * c)) (CR : gamma * pr <= rr * (c * c)).

Lemma ul_SL : c <= ul - SL.
Proof. unfold SL. apply Qcle_sub. replace (ul - (fmin ul ur - c) - c) with (ul - fmin ul ur) by ring. apply -> Qcle_sub. apply fmin_le_l. Qed.
Lemma ur_SL : c <= ur - SL.
Proof. unfold SL. apply Qcle_sub. replace (ur - (fmin ul ur - c) - c) with (ur - fmin ul ur) by ring. apply -> Qcle_sub. apply fmin_le_r. Qed.
Lemma SR_ul : c <= SR - ul.
Proof. unfold SR. apply Qcle_sub. replace (fmax ul ur + c - ul - c) with (fmax ul ur - ul) by ring. apply -> Qcle_sub. apply fmax_ge_l. Qed.
Lemma SR_ur : c <= SR - ur.
Proof. unfold SR. apply Qcle_sub. replace (fmax ul ur + c - ur - c) with (fmax ul ur - ur) by ring. apply -> Qcle_sub. apply fmax_ge_r. Qed.
Lemma rcl_pos : 0 < rcl. Proof. unfold rcl. apply Qcmult_lt_0; [exact RL|]. eapply Qclt_le_trans; [exact C0|apply ul_SL]. Qed.
Lemma rcr_pos : 0 < rcr. Proof. unfold rcr. apply Qcmult_lt_0; [exact RR|]. eapply Qclt_le_trans; [exact C0|apply SR_ur]. Qed.
Lemma rc_nz : rcr + rcl <> 0. Proof. apply Qc_pos_nz, Qcplus_pos; [apply rcr_pos|apply rcl_pos]. Qed.
Lemma rc_pos : 0 < rcr + rcl. Proof. apply Qcplus_pos; [apply rcr_pos|apply rcl_pos]. Qed.
(** A pressure is less than density * speed of sound squared. *)
Lemma p_less r p : 0 < p -> gamma * p <= r * (c * c) -> p < r * (c * c).
Proof. intros HP H. eapply Qclt_le_trans; [|exact H]. apply Qclt_sub. replace (gamma * p - p) with ((gamma - 1) * p) by ring. apply Qcmult_lt_0; [apply -> Qclt_sub; exact G1|exact HP]. Qed.
Lemma sq_le a d : c <= a -> c <= d -> c * c <= a * d.
Proof.
  intros H K. apply Qcle_sub. replace (a * d - c * c) with ((a - c) * d + c * (d - c)) by ring.
  apply Qcplus_nonneg; apply Qcmult_nonneg; try (apply -> Qcle_sub; assumption); [eapply Qcle_trans; [apply Qclt_le_weak, C0|exact K]|apply Qclt_le_weak, C0].
Qed.
(** The contact lies strictly between the waves. *)
Lemma SL_us : SL < us.
Proof.
  apply Qclt_sub. replace (us - SL) with ((rcl * (ul - SL) + pl + (rcr * (ur - SL) - pr)) / (rcr + rcl)) by (unfold us; field; apply rc_nz).
  apply Qcdiv_lt_0; [|apply rc_pos]. apply Qcplus_pos.
  - apply Qcplus_pos; [apply Qcmult_lt_0; [apply rcl_pos|eapply Qclt_le_trans; [exact C0|apply ul_SL]]|exact PL].
  - apply -> Qclt_sub. eapply Qclt_le_trans; [apply (p_less rr pr PR CR)|]. unfold rcr. rewrite <- Qcmult_assoc. rewrite (Qcmult_comm rr), (Qcmult_comm rr). apply Qcmult_le_compat_r; [apply sq_le; [apply SR_ur|apply ur_SL]|apply Qclt_le_weak, RR].
Qed.
Lemma us_SR : us < SR.
Proof.
  apply Qclt_sub. replace (SR - us) with ((rcr * (SR - ur) + pr + (rcl * (SR - ul) - pl)) / (rcr + rcl)) by (unfold us; field; apply rc_nz).
  apply Qcdiv_lt_0; [|apply rc_pos]. apply Qcplus_pos.
  - apply Qcplus_pos; [apply Qcmult_lt_0; [apply rcr_pos|eapply Qclt_le_trans; [exact C0|apply SR_ur]]|exact PR].
  - apply -> Qclt_sub. eapply Qclt_le_trans; [apply (p_less rl pl PL CL)|]. unfold rcl. rewrite <- Qcmult_assoc. rewrite (Qcmult_comm rl), (Qcmult_comm rl). apply Qcmult_le_compat_r; [apply sq_le; [apply ul_SL|apply SR_ul]|apply Qclt_le_weak, RL].
Qed.
(** The pressure of the contact, from either side. *)
Lemma ps_left : ps = pl + rcl * (ul - us). Proof. unfold ps, us. field. apply rc_nz. Qed.
Lemma ps_right : ps = pr + rcr * (us - ur). Proof. unfold ps, us. field. apply rc_nz. Qed.
Lemma rstarl_pos : 0 < rl * (SL - ul) / (SL - us).
Proof.
  replace (rl * (SL - ul) / (SL - us)) with (rcl / (us - SL)).
  - apply Qcdiv_lt_0; [apply rcl_pos|apply -> Qclt_sub; apply SL_us].
  - unfold rcl. field. split; [apply sub_nz'|apply sub_nz]; apply SL_us.
Qed.
Lemma rstarr_pos : 0 < rr * (SR - ur) / (SR - us).
Proof. apply Qcdiv_lt_0; [apply rcr_pos|apply -> Qclt_sub; apply us_SR]. Qed.
Definition star (r s e : Qc) (q : prim) : cons := mkCons r e (r * s) (r * q_y q) (r * q_z q).
Definition starflux (r s p e : Qc) (q : prim) : cons := mkCons (r * s) ((e + p) * s) (r * s * s + p) (r * s * q_y q) (r * s * q_z q).
Let rsl := rl * (SL - ul) / (SL - us). Let rsr := rr * (SR - ur) / (SR - us).
Let esl := ((SL - ul) * etot ql - pl * ul + ps * us) / (SL - us). Let esr := ((SR - ur) * etot qr - pr * ur + ps * us) / (SR - us).
Lemma star_moving r s p e q : 0 < r -> moving s p q (star r s e q) (starflux r s p e q).
Proof. intros H. unfold moving, star, starflux. cbn. repeat split; try exact H; ring. Qed.
Lemma jump_left : jump SL (star rl ul (etot ql) ql) (starflux rl ul pl (etot ql) ql) (star rsl us esl ql) (starflux rsl us ps esl ql).
Proof.
  assert (N := sub_nz' _ _ SL_us). pose proof ps_left as PS. unfold rcl in PS.
  intros [| |[]]; cbn [cv mom star starflux u_rho u_e u_x u_y u_z]; unfold rsl, esl; try (rewrite PS; clear PS); clearbody us ps SL; field; exact N.
Qed.
Lemma jump_right : jump SR (star rr ur (etot qr) qr) (starflux rr ur pr (etot qr) qr) (star rsr us esr qr) (starflux rsr us ps esr qr).
Proof.
  assert (N := sub_nz _ _ us_SR). pose proof ps_right as PS. unfold rcr in PS.
  intros [| |[]]; cbn [cv mom star starflux u_rho u_e u_x u_y u_z]; unfold rsr, esr; try (rewrite PS; clear PS); clearbody us ps SR; field; exact N.
Qed.
(** The sampled flux. *)
Lemma core_eq : core =
  if ltb 0 SL then (starflux rl ul pl (etot ql) ql, pl)
  else if ltb 0 us then (starflux rsl us ps esl ql, ps)
  else if ltb 0 SR then (starflux rsr us ps esr qr, ps)
  else (starflux rr ur pr (etot qr) qr, pr).
Proof.
  unfold core. fold rsl rsr esl esr.
  pose proof ul_SL as K1. pose proof SR_ur as K2. pose proof rstarl_pos as K3. pose proof rstarr_pos as K4. fold rsl in K3. fold rsr in K4.
  destruct (ltb 0 SL) eqn:E1; [|destruct (ltb 0 us) eqn:E2; [|destruct (ltb 0 SR) eqn:E3]]; unfold out, starflux.
  - rewrite ltb_true; [reflexivity|]. apply Qcmult_lt_0; [exact RL|]. apply ltb_spec in E1.
    replace ul with (ul - SL + SL) by ring. apply Qcplus_pos; [eapply Qclt_le_trans; [exact C0|exact K1]|exact E1].
  - rewrite ltb_true; [reflexivity|]. apply Qcmult_lt_0; [exact K3|apply ltb_spec; exact E2].
  - rewrite ltb_no; [reflexivity|]. apply ltb_false in E2. rewrite <- (Qcmult_0_l rsr), (Qcmult_comm rsr). apply Qcmult_le_compat_r; [exact E2|apply Qclt_le_weak, K4].
  - rewrite ltb_no; [reflexivity|]. apply ltb_false in E3. rewrite <- (Qcmult_0_l rr), (Qcmult_comm rr). apply Qcmult_le_compat_r; [|apply Qclt_le_weak, RR].
    replace ur with (SR - (SR - ur)) by ring. eapply Qcle_trans; [|exact E3]. apply Qcle_sub. replace (SR - (SR - (SR - ur))) with (SR - ur) by ring.
    eapply Qcle_trans; [apply Qclt_le_weak, C0|exact K2].
Qed.
(** With the left wave on the face both sides of it have the same flux. *)
Lemma wave_left : SL = 0 -> starflux rl ul pl (etot ql) ql = starflux rsl us ps esl ql.
Proof.
  intros H. pose proof jump_left as J. rewrite H in J. apply cons_ext. intros v. specialize (J v).
  replace (cv v (starflux rl ul pl (etot ql) ql)) with (cv v (starflux rsl us ps esl ql) - (cv v (starflux rsl us ps esl ql) - cv v (starflux rl ul pl (etot ql) ql))) by ring.
  rewrite J. ring.
Qed.
Lemma wave_right : SR = 0 -> starflux rr ur pr (etot qr) qr = starflux rsr us ps esr qr.
Proof.
  intros H. pose proof jump_right as J. rewrite H in J. apply cons_ext. intros v. specialize (J v).
  replace (cv v (starflux rr ur pr (etot qr) qr)) with (cv v (starflux rsr us ps esr qr) - (cv v (starflux rsr us ps esr qr) - cv v (starflux rr ur pr (etot qr) qr))) by ring.
  rewrite J. ring.
Qed.
End Hllc.

(** * The solver *)

Lemma fastest_ok sq P ql qr : root sq -> 1 < gamma0 P -> physical P ql -> physical P qr ->
  0 < fastest sq P ql qr /\ gamma0 P * q_p ql <= q_rho ql * (fastest sq P ql qr * fastest sq P ql qr) /\
  gamma0 P * q_p qr <= q_rho qr * (fastest sq P ql qr * fastest sq P ql qr).
Proof.
  intros RT G1 PL PR.
  assert (A : forall q, physical P q -> 0 < sound sq P q /\ forall c, sound sq P q <= c -> gamma0 P * q_p q <= q_rho q * (c * c)).
  { intros q (_ & R2 & _ & P2). assert (X : 0 < gamma0 P * q_p q / q_rho q).
    { apply Qcdiv_lt_0; [|exact R2]. apply Qcmult_lt_0; [|exact P2]. eapply Qclt_trans; [|exact G1]. reflexivity. }
    assert (Y := Qclt_le_trans _ _ _ X (fmax_ge_l _ (smallc P * smallc P))).
    destruct (RT _ Y) as (S0 & S1). split; [exact S0|]. intros c HC.
    replace (gamma0 P * q_p q) with (q_rho q * (gamma0 P * q_p q / q_rho q)) by (field; apply Qc_pos_nz, R2).
    rewrite !(Qcmult_comm (q_rho q)). apply Qcmult_le_compat_r; [|apply Qclt_le_weak, R2].
    eapply Qcle_trans; [apply (fmax_ge_l _ (smallc P * smallc P))|]. eapply Qcle_trans; [exact S1|]. fold (sound sq P q).
    apply (sq_le _ S0); exact HC. }
  destruct (A _ PL) as (L0 & L1), (A _ PR) as (R0 & R1). unfold fastest. split; [eapply Qclt_le_trans; [exact L0|apply fmax_ge_l]|].
  split; [apply L1, fmax_ge_l|apply R1, fmax_ge_r].
Qed.
Lemma hllc_core sq P ql qr : physical P ql -> physical P qr -> riemann_hllc sq P ql qr = core (gamma0 P) ql qr (fastest sq P ql qr).
Proof. intros (L1 & _ & L2 & _) (R1 & _ & R2 & _). unfold riemann_hllc. rewrite (fmax_l _ _ L1), (fmax_l _ _ L2), (fmax_l _ _ R1), (fmax_l _ _ R2). reflexivity. Qed.
Lemma etot_energy gamma q : 1 < gamma -> etot gamma q = energy gamma q.
Proof. intros G. unfold etot, energy, sqnorm. cbn [vel]. rewrite half_two. field. split; [apply two_nz|apply sub_nz, G]. Qed.
Lemma star_physical gamma q : 1 < gamma -> physical_flux gamma q AX (starflux (q_rho q) (q_x q) (q_p q) (etot gamma q) q).
Proof.
  intros G. unfold physical_flux. rewrite (etot_energy _ _ G). cbn [starflux u_rho u_e vel]. split; [reflexivity|]. split; [reflexivity|].
  intros []; cbn; ring.
Qed.
Lemma star_gas gamma q : 1 < gamma -> 0 < q_rho q -> same_gas gamma (star (q_rho q) (q_x q) (etot gamma q) q) q.
Proof.
  intros G R. assert (N := sub_nz _ _ G). assert (RN := Qc_pos_nz _ R). assert (T := two_nz). unfold same_gas. rewrite (etot_energy _ _ G). cbn [star u_rho]. split; [reflexivity|]. split; [intros []; reflexivity|].
  unfold internal, energy, sqnorm. cbn [star u_rho u_e mom u_x u_y u_z vel]. field. auto.
Qed.

(** C70: the flux through a face is that of three waves: the two outer waves are at least as
    fast as sound in both gases, the contact lies strictly between them; everything is conserved
    across each wave; between the outer waves speed and pressure are the same on both sides of
    the contact, densities are positive and the transverse velocities are those of the gas on
    that side. The flux returned is that of the region where the face is. *)
Theorem C70_waves sq P ql qr : root sq -> 1 < gamma0 P -> physical P ql -> physical P qr ->
  exists SL s SR p UL FL UL' FL' UR' FR' UR FR,
    same_gas (gamma0 P) UL ql /\ physical_flux (gamma0 P) ql AX FL /\ same_gas (gamma0 P) UR qr /\ physical_flux (gamma0 P) qr AX FR /\
    moving s p ql UL' FL' /\ moving s p qr UR' FR' /\
    SL < s /\ s < SR /\
    (forall q, q = ql \/ q = qr -> SL <= q_x q - sound sq P q /\ q_x q + sound sq P q <= SR) /\
    jump SL UL FL UL' FL' /\ jump s UL' FL' UR' FR' /\ jump SR UR' FR' UR FR /\
    let (f, pf) := riemann_hllc sq P ql qr in
    (0 < SL -> f = FL /\ pf = q_p ql) /\
    (SL <= 0 /\ 0 < s -> f = FL' /\ pf = p) /\
    (s <= 0 /\ 0 < SR -> f = FR' /\ pf = p) /\
    (SR <= 0 -> f = FR /\ pf = q_p qr).
Proof.
  intros RT G1 PL PR. destruct (fastest_ok sq P ql qr RT G1 PL PR) as (C0 & CL & CR).
  rewrite (hllc_core _ _ _ _ PL PR). set (c := fastest sq P ql qr) in *.
  assert (HC : sound sq P ql <= c /\ sound sq P qr <= c) by (split; [apply fmax_ge_l|apply fmax_ge_r]).
  clearbody c. destruct PL as (_ & RL & _ & PL), PR as (_ & RR & _ & PR).
  rewrite core_eq by assumption.
  pose proof (SL_us (gamma0 P) G1 ql qr c RL RR PL PR C0 CR) as K1. pose proof (us_SR (gamma0 P) G1 ql qr c RL RR PL PR C0 CL) as K2.
  pose proof (ul_SL ql qr c) as A1. pose proof (ur_SL ql qr c) as A2. pose proof (SR_ul ql qr c) as A3. pose proof (SR_ur ql qr c) as A4.
  do 4 eexists.
  exists (star (q_rho ql) (q_x ql) (etot (gamma0 P) ql) ql), (starflux (q_rho ql) (q_x ql) (q_p ql) (etot (gamma0 P) ql) ql). do 4 eexists.
  exists (star (q_rho qr) (q_x qr) (etot (gamma0 P) qr) qr), (starflux (q_rho qr) (q_x qr) (q_p qr) (etot (gamma0 P) qr) qr).
  split; [apply star_gas; assumption|]. split; [apply star_physical; assumption|]. split; [apply star_gas; assumption|]. split; [apply star_physical; assumption|].
  split; [apply star_moving; eapply (rstarl_pos (gamma0 P) G1 ql qr c); assumption|].
  split; [apply star_moving; eapply (rstarr_pos (gamma0 P) G1 ql qr c); assumption|].
  split; [exact K1|]. split; [exact K2|]. split.
  { assert (B : forall x S s', c <= x - S -> s' <= c -> S <= x - s').
    { intros x S s' H K. apply Qcle_sub. replace (x - s' - S) with ((x - S - c) + (c - s')) by ring. apply Qcplus_nonneg; apply -> Qcle_sub; assumption. }
    assert (B' : forall x S s', c <= S - x -> s' <= c -> x + s' <= S).
    { intros x S s' H K. apply Qcle_sub. replace (S - (x + s')) with ((S - x - c) + (c - s')) by ring. apply Qcplus_nonneg; apply -> Qcle_sub; assumption. }
    destruct HC as (H1 & H2). intros q [->| ->]; (split; [apply B|apply B']); assumption. }
  split; [apply (jump_left (gamma0 P) G1); assumption|]. split.
  { intros [| |[]]; cbn [cv mom star starflux u_rho u_e u_x u_y u_z]; ring. }
  split.
  { intros v. pose proof (jump_right (gamma0 P) G1 ql qr c RL RR PL PR C0 CL v) as J.
    match type of J with ?a - ?b = ?s * (?d - ?e) => replace (b - a) with (- (a - b)) by ring; rewrite J; ring end. }
  match goal with |- let (_, _) := (if ltb 0 ?a then _ else if ltb 0 ?b then _ else if ltb 0 ?d then _ else _) in _ => set (us := b) in *; set (SL := a) in *; set (SR := d) in * end.
  clearbody us. clearbody SL SR.
  destruct (ltb 0 SL) eqn:E1; [|destruct (ltb 0 us) eqn:E2; [|destruct (ltb 0 SR) eqn:E3]].
  all: repeat match goal with H : ltb _ _ = true |- _ => apply ltb_spec in H | H : ltb _ _ = false |- _ => apply ltb_false in H end.
  all: cbv beta iota.
  all: split; [|split; [|split]].
  all: try (intros; split; reflexivity).
  all: intros; exfalso; try match goal with H : _ /\ _ |- _ => destruct H end.
  all: repeat match goal with H : 0 < ?x, H' : ?x <= 0 |- _ => exact (Qclt_not_le _ _ H H') end.
  all: try (apply (Qclt_not_le 0 us); [apply (Qclt_trans _ SL)|]; assumption).
  all: match goal with
       | K2 : ?u < ?S, H : ?S <= _, E : _ < ?u |- _ => exact (Qclt_not_le _ _ (Qclt_trans _ _ _ E K2) H)
       | K1 : ?T < ?u, K2 : ?u < ?S, H : ?S <= _, E : _ < ?T |- _ => exact (Qclt_not_le _ _ (Qclt_trans _ _ _ (Qclt_trans _ _ _ E K1) K2) H)
       end.
Qed.

(** Every wave moving away from one gas: the flux is the physical flux of that gas. *)
Theorem C70_supersonic sq P ql qr : root sq -> 1 < gamma0 P -> physical P ql -> physical P qr ->
  (fastest sq P ql qr < q_x ql -> fastest sq P ql qr < q_x qr -> physical_flux (gamma0 P) ql AX (fst (riemann_hllc sq P ql qr))) /\
  (q_x ql < - fastest sq P ql qr -> q_x qr < - fastest sq P ql qr -> physical_flux (gamma0 P) qr AX (fst (riemann_hllc sq P ql qr))).
Proof.
  intros RT G1 PL PR. destruct (fastest_ok sq P ql qr RT G1 PL PR) as (C0 & CL & CR).
  rewrite (hllc_core _ _ _ _ PL PR). set (c := fastest sq P ql qr) in *. clearbody c.
  destruct PL as (_ & RL & _ & PL), PR as (_ & RR & _ & PR). rewrite core_eq by assumption.
  pose proof (SL_us (gamma0 P) G1 ql qr c RL RR PL PR C0 CR) as K1. pose proof (us_SR (gamma0 P) G1 ql qr c RL RR PL PR C0 CL) as K2.
  split; intros H1 H2.
  - rewrite (ltb_true 0 (fmin _ _ - c)); [apply star_physical; exact G1|].
    apply -> Qclt_sub. destruct (fmin_case (q_x ql) (q_x qr)) as [-> | ->]; assumption.
  - assert (S : fmax (q_x ql) (q_x qr) + c < 0).
    { apply Qclt_sub. replace (0 - (fmax (q_x ql) (q_x qr) + c)) with (- c - fmax (q_x ql) (q_x qr)) by ring. apply -> Qclt_sub.
      destruct (fmax_case (q_x ql) (q_x qr)) as [-> | ->]; assumption. }
    rewrite (ltb_no 0 (fmin _ _ - c)) by (apply Qclt_le_weak; eapply Qclt_trans; [exact K1|]; eapply Qclt_trans; [exact K2|exact S]).
    rewrite (ltb_no 0 (_ / _)) by (apply Qclt_le_weak; eapply Qclt_trans; [exact K2|exact S]).
    rewrite (ltb_no 0 (fmax _ _ + c)) by (apply Qclt_le_weak, S). apply star_physical, G1.
Qed.

(** A contact (same pressure, same speed along the face's axis) moves with the gas: the flux is
    the physical flux of the gas it comes from; at rest nothing but the pressure crosses. *)
Theorem C70_contact sq P ql qr : root sq -> 1 < gamma0 P -> physical P ql -> physical P qr ->
  q_x ql = q_x qr -> q_p ql = q_p qr ->
  (0 < q_x ql -> physical_flux (gamma0 P) ql AX (fst (riemann_hllc sq P ql qr))) /\
  (q_x ql < 0 -> physical_flux (gamma0 P) qr AX (fst (riemann_hllc sq P ql qr))) /\
  (q_x ql = 0 -> fst (riemann_hllc sq P ql qr) = mkCons 0 0 (q_p ql) 0 0).
Proof.
  intros RT G1 PL PR EU EP. destruct (fastest_ok sq P ql qr RT G1 PL PR) as (C0 & CL & CR).
  rewrite (hllc_core _ _ _ _ PL PR). set (c := fastest sq P ql qr) in *. clearbody c.
  destruct PL as (_ & RL & _ & PL), PR as (_ & RR & _ & PR). rewrite core_eq by assumption.
  pose proof (rc_nz ql qr c RL RR C0) as NZ. pose proof (sub_nz _ _ G1) as NG. 
  assert (M : fmax (q_x ql) (q_x qr) = q_x ql /\ fmin (q_x ql) (q_x qr) = q_x ql) by (rewrite <- EU, fmax_same, fmin_same; auto).
  destruct M as (M1 & M2). rewrite M1, M2 in *.
  set (us := _ / _) in *. 
  match goal with |- context [ starflux _ us ?p _ ql] => set (ps := p) in * end.
  assert (US : us = q_x ql) by (unfold us; rewrite <- EU, EP in *; field; exact NZ).
  assert (PS : ps = q_p ql) by (unfold ps; rewrite <- EU, <- EP in *; field; exact NZ).
  clearbody us ps. subst us ps. rewrite <- !EU, <- !EP.
  assert (CN := Qc_pos_nz _ C0).
  assert (C1 : q_x ql - c - q_x ql <> 0) by (intro H; apply CN; transitivity (- (q_x ql - c - q_x ql)); [ring|rewrite H; ring]).
  assert (C2 : q_x ql + c - q_x ql <> 0) by (intro H; apply CN; transitivity (q_x ql + c - q_x ql); [ring|exact H]).
  replace (q_rho ql * (q_x ql - c - q_x ql) / (q_x ql - c - q_x ql)) with (q_rho ql) by (field; exact C1).
  replace (q_rho qr * (q_x ql + c - q_x ql) / (q_x ql + c - q_x ql)) with (q_rho qr) by (field; exact C2).
  match goal with |- context [ starflux (q_rho ql) _ _ (?a / ?b) ql] => replace (a / b) with (etot (gamma0 P) ql) by (field; exact C1) end.
  match goal with |- context [ starflux (q_rho qr) _ _ (?a / ?b) qr] => replace (a / b) with (etot (gamma0 P) qr) by (field; exact C2) end.
  pose proof (star_physical (gamma0 P) ql G1) as FL. pose proof (star_physical (gamma0 P) qr G1) as FR. rewrite <- EU, <- EP in FR.
  split; [|split]; intros H.
  - rewrite (ltb_true _ _ H). destruct (ltb 0 (q_x ql - c)); exact FL.
  - rewrite (ltb_no 0 (q_x ql)) by (apply Qclt_le_weak, H).
    rewrite (ltb_no 0 (q_x ql - c)); [destruct (ltb 0 (q_x ql + c)); exact FR|].
    apply Qcle_sub. replace (0 - (q_x ql - c)) with ((0 - q_x ql) + c) by ring. apply Qcplus_nonneg; [apply -> Qcle_sub; apply Qclt_le_weak, H|apply Qclt_le_weak, C0].
  - rewrite !H. rewrite (ltb_no 0 0) by apply Qcle_refl. rewrite (ltb_no 0 (0 - c)) by (apply Qcle_sub; replace (0 - (0 - c)) with c by ring; apply Qclt_le_weak, C0).
    destruct (ltb 0 (0 + c)); cbn [fst]; unfold starflux; f_equal; ring.
Qed.

(** Seen in a mirror, the flux is the mirrored flux: no direction is preferred. *)
Theorem C70_mirror sq P ql qr : root sq -> 1 < gamma0 P -> physical P ql -> physical P qr ->
  fst (riemann_hllc sq P (mirror qr) (mirror ql)) = mirror_flux (fst (riemann_hllc sq P ql qr)).
Proof.
  intros RT G1 PL PR. destruct (fastest_ok sq P ql qr RT G1 PL PR) as (C0 & CL & CR).
  rewrite (hllc_core _ _ _ _ PL PR), (hllc_core sq P (mirror qr) (mirror ql) PR PL).
  replace (fastest sq P (mirror qr) (mirror ql)) with (fastest sq P ql qr) by apply fmax_comm.
  set (c := fastest sq P ql qr) in *. clearbody c.
  destruct PL as (_ & RL & _ & PL), PR as (_ & RR & _ & PR). rewrite (core_eq _ G1 ql qr c) by assumption. rewrite (core_eq _ G1 (mirror qr) (mirror ql) c) by assumption.
  pose proof (SL_us (gamma0 P) G1 ql qr c RL RR PL PR C0 CR) as K1. pose proof (us_SR (gamma0 P) G1 ql qr c RL RR PL PR C0 CL) as K2.
  pose proof (wave_left (gamma0 P) G1 ql qr c RL RR PL PR C0 CR) as WL. pose proof (wave_right (gamma0 P) G1 ql qr c RL RR PL PR C0 CL) as WR.
  pose proof (rc_nz ql qr c RL RR C0) as NZ.
  cbn [mirror q_rho q_p q_x q_y q_z]. rewrite fmin_opp, fmax_opp, (fmax_comm (q_x qr)), (fmin_comm (q_x qr)).
  assert (ETL : etot (gamma0 P) (mirror ql) = etot (gamma0 P) ql) by (unfold etot; cbn [mirror q_rho q_p q_x q_y q_z]; ring).
  assert (ETR : etot (gamma0 P) (mirror qr) = etot (gamma0 P) qr) by (unfold etot; cbn [mirror q_rho q_p q_x q_y q_z]; ring).
  rewrite ETL, ETR.
  set (SL := fmin (q_x ql) (q_x qr) - c) in *. set (SR := fmax (q_x ql) (q_x qr) + c) in *.
  replace (- fmax (q_x ql) (q_x qr) - c) with (- SR) by (unfold SR; ring). replace (- fmin (q_x ql) (q_x qr) + c) with (- SL) by (unfold SL; ring).
  clearbody SL SR.
  replace (q_rho qr * (- q_x qr - - SR)) with (q_rho qr * (SR - q_x qr)) by ring.
  replace (q_rho ql * (- SL - - q_x ql)) with (q_rho ql * (q_x ql - SL)) by ring.
  match type of K1 with _ < ?x => set (us := x) in * end.
  match type of WL with _ -> _ = starflux _ _ ?x _ _ => set (ps := x) in * end.
  match goal with |- context [ltb 0 (?a / ?b)] => replace (a / b) with (- us) by (unfold us; field; repeat split; first [exact NZ|rewrite Qcplus_comm; exact NZ]) end.
  match goal with |- context [starflux _ (- us) ?x _ _] => replace x with ps by (unfold ps; field; repeat split; first [exact NZ|rewrite Qcplus_comm; exact NZ]) end.
  clearbody us ps.
  assert (N1 := sub_nz' _ _ K1). assert (N2 := sub_nz _ _ K2).
  assert (N1' : us - SL <> 0) by (apply sub_nz, K1). assert (N2' : us - SR <> 0) by (apply sub_nz', K2).
  replace (q_rho qr * (- SR - - q_x qr) / (- SR - - us)) with (q_rho qr * (SR - q_x qr) / (SR - us)) by (field; repeat split; first [assumption|intro HH; apply N1'; rewrite <- HH; ring|intro HH; apply N2'; rewrite <- HH; ring|intro HH; apply N1; rewrite <- HH; ring|intro HH; apply N2; rewrite <- HH; ring]).
  replace (((- SR - - q_x qr) * etot (gamma0 P) qr - q_p qr * - q_x qr + ps * - us) / (- SR - - us)) with (((SR - q_x qr) * etot (gamma0 P) qr - q_p qr * q_x qr + ps * us) / (SR - us)) by (field; repeat split; first [assumption|intro HH; apply N1'; rewrite <- HH; ring|intro HH; apply N2'; rewrite <- HH; ring|intro HH; apply N1; rewrite <- HH; ring|intro HH; apply N2; rewrite <- HH; ring]).
  replace (q_rho ql * (q_x ql - SL) / (- SL - - us)) with (q_rho ql * (SL - q_x ql) / (SL - us)) by (field; repeat split; first [assumption|intro HH; apply N1'; rewrite <- HH; ring|intro HH; apply N2'; rewrite <- HH; ring|intro HH; apply N1; rewrite <- HH; ring|intro HH; apply N2; rewrite <- HH; ring]).
  replace (((- SL - - q_x ql) * etot (gamma0 P) ql - q_p ql * - q_x ql + ps * - us) / (- SL - - us)) with (((SL - q_x ql) * etot (gamma0 P) ql - q_p ql * q_x ql + ps * us) / (SL - us)) by (field; repeat split; first [assumption|intro HH; apply N1'; rewrite <- HH; ring|intro HH; apply N2'; rewrite <- HH; ring|intro HH; apply N1; rewrite <- HH; ring|intro HH; apply N2; rewrite <- HH; ring]).
  assert (MF : forall r s p e q, starflux r (- s) p e (mirror q) = mirror_flux (starflux r s p e q)).
  { intros. unfold starflux, mirror_flux. cbn [u_rho u_e u_x u_y u_z mirror q_y q_z]. f_equal; ring. }
  rewrite !MF.
  pose proof (MF 0 0 0 0 ql) as _.
  set (AL := starflux (q_rho ql) (q_x ql) (q_p ql) _ ql) in *. set (AR := starflux (q_rho qr) (q_x qr) (q_p qr) _ qr) in *.
  set (BL := starflux _ us ps _ ql) in *. 
  assert (Z0 : us = 0 -> forall r e q, starflux r us ps e q = mkCons 0 0 ps 0 0) by (intros -> *; unfold starflux; f_equal; ring).
  assert (BZ : us = 0 -> BL = mkCons 0 0 ps 0 0) by (intros Z; apply Z0, Z).
  set (BR := starflux _ us ps _ qr) in *. assert (BZ' : us = 0 -> BR = mkCons 0 0 ps 0 0) by (intros Z; apply Z0, Z).
  clearbody AL AR BL BR. clear - K1 K2 WL WR BZ BZ'.
  assert (OPP : forall x, ltb 0 (- x) = ltb x 0) by (intros x; rewrite <- (ltb_opp 0 x); f_equal; ring).
  rewrite !OPP.
  assert (TRI : forall x y, {x < y} + {x = y} + {y < x}).
  { intros x y. destruct (Qc_dec x y) as [[H|H]|H]; auto. }
  assert (LT : forall x y, x < y -> ltb x y = true /\ ltb y x = false).
  { intros x y H. split; [apply ltb_true, H|apply ltb_no, Qclt_le_weak, H]. }
  assert (EQ : ltb 0 0 = false) by (apply ltb_no, Qcle_refl).
  destruct (TRI 0 us) as [[H|H]|H].
  - destruct (LT _ _ H) as (X & Y); rewrite ?X, ?Y; clear X Y. destruct (LT _ _ (Qclt_trans _ _ _ H K2)) as (X & Y); rewrite ?X, ?Y; clear X Y.
    destruct (TRI 0 SL) as [[K|K]|K].
    + destruct (LT _ _ K) as (X & Y); rewrite ?X, ?Y; clear X Y. reflexivity.
    + rewrite <- K, EQ. cbn [fst]. rewrite (WL (eq_sym K)). reflexivity.
    + destruct (LT _ _ K) as (X & Y); rewrite ?X, ?Y; clear X Y. reflexivity.
  - subst us. rewrite EQ. destruct (LT _ _ K1) as (X & Y); rewrite ?X, ?Y; clear X Y. destruct (LT _ _ K2) as (X & Y); rewrite ?X, ?Y; clear X Y. cbn [fst].
    rewrite (BZ eq_refl), (BZ' eq_refl). reflexivity.
  - destruct (LT _ _ H) as (X & Y); rewrite ?X, ?Y; clear X Y. destruct (LT _ _ (Qclt_trans _ _ _ K1 H)) as (X & Y); rewrite ?X, ?Y; clear X Y.
    destruct (TRI 0 SR) as [[K|K]|K].
    + destruct (LT _ _ K) as (X & Y); rewrite ?X, ?Y; clear X Y. reflexivity.
    + rewrite <- K, EQ. cbn [fst]. rewrite (WR (eq_sym K)). reflexivity.
    + destruct (LT _ _ K) as (X & Y); rewrite ?X, ?Y; clear X Y. reflexivity.
Qed.

(** * Examples: hypotheses hold for different gases; the four regions. *)
Definition up (x : Qc) : Qc := x + 1.
Example root_example : root up.
Proof.
  intros x H. unfold up. split; [apply Qcplus_pos; [exact H|reflexivity]|].
  apply Qcle_sub. replace ((x + 1) * (x + 1) - x) with (x * x + x + 1) by ring.
  apply Qclt_le_weak, Qcplus_pos; [apply Qcplus_pos; [apply Qcmult_lt_0; exact H|exact H]|reflexivity].
Qed.
Definition tube_left (u : Qc) : prim := mkPrim 1 1 u (frac 1 3) 0.
Definition tube_right (u : Qc) : prim := mkPrim (frac 1 8) (frac 1 10) u (frac (-1) 2) 0.
Example C70_example :
  root up /\ 1 < gamma0 ex_P /\ (forall u, physical ex_P (tube_left u)) /\ (forall u, physical ex_P (tube_right u)) /\
  fastest up ex_P (tube_left 0) (tube_right 0) = frac 12 5 /\
  (* Sod's tube: the face lies between the left wave and the contact *)
  u_rho (fst (riemann_hllc up ex_P (tube_left 0) (tube_right 0))) = frac 12 41 /\
  (* everything moves right, then left *)
  u_rho (fst (riemann_hllc up ex_P (tube_left (frac 3 1)) (tube_right (frac 3 1)))) = frac 3 1 /\
  u_rho (fst (riemann_hllc up ex_P (tube_left (frac (-3) 1)) (tube_right (frac (-3) 1)))) = frac (-3) 8.
Proof.
  split; [exact root_example|]. split; [reflexivity|].
  split; [intros u; unfold physical; cbn; unfold Qcle, Qclt, Qle, Qlt; repeat split; try reflexivity; vm_compute; discriminate|].
  split; [intros u; unfold physical; cbn; unfold Qcle, Qclt, Qle, Qlt; repeat split; try reflexivity; vm_compute; discriminate|].
  repeat split; qceq.
Qed.

Print Assumptions C70_waves. Print Assumptions C70_supersonic. Print Assumptions C70_contact. Print Assumptions C70_mirror.
