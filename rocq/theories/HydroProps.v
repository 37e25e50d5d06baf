(** States (C40), Riemann solver (C41), slopes (C42), gravity correction (C51). *)
From Coq Require Import QArith Qcanon Field.
From Verif Require Import Base OctreeSpec CellModel HydroModel HydroSpec.
Open Scope Qc_scope.

(** * Arithmetic *)

Lemma two_nz : two <> 0. Proof. intros H. apply (f_equal this) in H. vm_compute in H. discriminate. Qed.
Lemma half_two : half_f = / two. Proof. apply Qc_is_canon. reflexivity. Qed.
Lemma ltb_spec x y : ltb x y = true <-> x < y.
Proof. unfold ltb. destruct (x ?= y) eqn:E; rewrite <- ?Qclt_alt in *; split; intro H; try discriminate; try reflexivity; rewrite ?Qclt_alt in *; congruence. Qed.
Lemma ltb_false x y : ltb x y = false <-> y <= x.
Proof. split; intro H.
  - apply Qcnot_lt_le. intro K. apply ltb_spec in K. congruence.
  - destruct (ltb x y) eqn:E; [|reflexivity]. apply ltb_spec in E. exfalso. apply (Qclt_not_le _ _ E H).
Qed.
Lemma leb_spec x y : leb x y = true <-> x <= y.
Proof. unfold leb. rewrite Qcle_alt. destruct (x ?= y); split; intro H; congruence. Qed.
Lemma leb_false x y : leb x y = false <-> y < x.
Proof. split; intro H.
  - apply Qcnot_le_lt. intro K. apply leb_spec in K. congruence.
  - destruct (leb x y) eqn:E; [|reflexivity]. apply leb_spec in E. exfalso. apply (Qclt_not_le _ _ H E).
Qed.
Lemma fmax_l x y : y <= x -> fmax x y = x.
Proof. intros H. unfold fmax. destruct (ltb y x) eqn:E; [reflexivity|]. apply ltb_false in E. apply Qcle_antisym; assumption. Qed.
Lemma fmax_same x : fmax x x = x. Proof. apply fmax_l, Qcle_refl. Qed.
Lemma fmin_same x : fmin x x = x. Proof. unfold fmin. destruct (ltb x x); reflexivity. Qed.

Lemma prim_ext q q' : (forall v, pv v q = pv v q') -> q = q'.
Proof. intros H. destruct q, q'. pose proof (H Vrho); pose proof (H Vp); pose proof (H Vx); pose proof (H Vy); pose proof (H Vz). cbn in *. congruence. Qed.
Lemma cons_ext u u' : (forall v, cv v u = cv v u') -> u = u'.
Proof. intros H. destruct u, u'. pose proof (H Mass); pose proof (H Energy); pose proof (H (Mom AX)); pose proof (H (Mom AY)); pose proof (H (Mom AZ)). cbn in *. congruence. Qed.
(** Equality and comparison of concrete numbers. *)
Ltac qceq := apply Qc_is_canon; vm_compute; reflexivity.
Ltac qcne := let H := fresh in intro H; apply (f_equal this) in H; vm_compute in H; discriminate.

(** * C40: conversions *)

Theorem C40_meaning d3 gamma u : u_rho u <> 0 -> planar d3 (u_z u) -> same_gas gamma u (consToPrim d3 gamma u).
Proof.
  intros R Z. unfold same_gas, internal, sqnorm, consToPrim. cbn [q_rho q_p u_rho].
  split; [reflexivity|]. split.
  - intros []; cbn [mom vel q_x q_y q_z]; [field; exact R..|]. destruct d3; [field; exact R|]. rewrite (Z eq_refl). ring.
  - cbn [mom]. rewrite half_two. field; auto using two_nz.
Qed.
Theorem C40_meaning_back d3 gamma q : q_rho q <> 0 -> gamma <> 1 -> planar d3 (q_z q) -> same_gas gamma (primToCons d3 gamma q) q.
Proof.
  intros R G Z. assert (G1 : gamma - 1 <> 0) by (intro H; apply G; rewrite <- (Qcplus_0_r 1), <- H; ring).
  unfold same_gas, internal, sqnorm, primToCons. cbn [q_rho q_p u_rho u_e mom u_x u_y u_z].
  split; [reflexivity|]. split.
  - intros []; cbn [mom vel u_x u_y u_z]; try reflexivity. destruct d3; [reflexivity|]. rewrite (Z eq_refl). ring.
  - rewrite half_two. destruct d3; [|rewrite (Z eq_refl)]; field; auto using two_nz.
Qed.
(** Two descriptions of the same gas determine each other. *)
Lemma same_gas_prim gamma u q q' : u_rho u <> 0 -> same_gas gamma u q -> same_gas gamma u q' -> q = q'.
Proof.
  intros R (H1 & H2 & H3) (K1 & K2 & K3).
  assert (V : forall a, vel q a = vel q' a).
  { intros a. specialize (H2 a). specialize (K2 a). rewrite H2, <- H1, <- K1 in K2. rewrite <- (Qcmult_1_l (vel q a)), <- (Qcmult_1_l (vel q' a)).
    rewrite <- (Qcmult_inv_l _ R), <- !Qcmult_assoc, K2. reflexivity. }
  destruct q, q'. cbn in *. pose proof (V AX) as VX. pose proof (V AY) as VY. pose proof (V AZ) as VZ. cbn in VX, VY, VZ. congruence.
Qed.
Lemma same_gas_cons gamma u u' q : u_rho u <> 0 -> gamma <> 1 -> same_gas gamma u q -> same_gas gamma u' q -> u = u'.
Proof.
  intros R G (H1 & H2 & H3) (K1 & K2 & K3).
  assert (G1 : gamma - 1 <> 0) by (intro H; apply G; rewrite <- (Qcplus_0_r 1), <- H; ring).
  assert (RR : u_rho u' = u_rho u) by congruence.
  assert (V : forall a, mom u a = mom u' a) by (intros a; rewrite H2, K2; reflexivity).
  assert (EI : internal u = internal u').
  { rewrite H3 in K3. rewrite <- (Qcmult_1_l (internal u)), <- (Qcmult_1_l (internal u')), <- (Qcmult_inv_l _ G1), <- !Qcmult_assoc, K3. reflexivity. }
  unfold internal, sqnorm in EI. rewrite RR, <- !V in EI.
  assert (EE : u_e u = u_e u').
  { set (k := _ / _) in EI. rewrite <- (Qcplus_0_r (u_e u)), <- (Qcplus_0_r (u_e u')), <- (Qcplus_opp_r k), (Qcplus_comm k), !Qcplus_assoc.
    fold (Qcminus (u_e u) k). fold (Qcminus (u_e u') k). rewrite EI. reflexivity. }
  destruct u, u'. cbn in *. pose proof (V AX) as VX. pose proof (V AY) as VY. pose proof (V AZ) as VZ. cbn in VX, VY, VZ. congruence.
Qed.

Theorem C40_cons_roundtrip d3 gamma u : u_rho u <> 0 -> gamma <> 1 -> planar d3 (u_z u) ->
  primToCons d3 gamma (consToPrim d3 gamma u) = u.
Proof.
  intros R G Z. symmetry. apply (same_gas_cons gamma _ _ (consToPrim d3 gamma u) R G); [apply C40_meaning; assumption|].
  apply C40_meaning_back; [exact R|exact G|]. intros D. unfold consToPrim. rewrite D. reflexivity.
Qed.
Theorem C40_prim_roundtrip d3 gamma q : q_rho q <> 0 -> gamma <> 1 -> planar d3 (q_z q) ->
  consToPrim d3 gamma (primToCons d3 gamma q) = q.
Proof.
  intros R G Z. apply (same_gas_prim gamma (primToCons d3 gamma q)); [exact R| |apply C40_meaning_back; assumption].
  apply C40_meaning; [exact R|]. intros D. unfold primToCons. rewrite D. reflexivity.
Qed.
(** Values stored in an array: converting what is read and storing the result changes nothing. *)
Theorem C40_stored_roundtrip d3 gamma stored : u_rho stored <> 0 -> gamma <> 1 ->
  setCons d3 stored (primToCons d3 gamma (consToPrim d3 gamma (getCons d3 stored))) = stored.
Proof.
  intros R G. rewrite C40_cons_roundtrip; [|exact R|exact G|intros ->; reflexivity]. destruct stored, d3; reflexivity.
Qed.
Example C40_example : consToPrim true (frac 7 5) (mkCons (frac 2 1) (frac 10 1) (frac 2 1) 0 (frac 4 1)) = mkPrim (frac 2 1) (frac 2 1) 1 0 (frac 2 1).
Proof. apply prim_ext. intros []; qceq. Qed.

(** * C51: gravity correction *)

Theorem C51_gravity d3 dt rhoOld ga u : u_rho u <> 0 ->
  let u' := gravity_correction d3 dt rhoOld ga u in
  u_rho u' = u_rho u /\
  (forall a, mom u' a = if (if axis_eq_dec a AZ then negb d3 else false) then mom u a
                        else mom u a + dt * ((rhoOld + u_rho u) / two) * ga a) /\
  internal u' = internal u.
Proof.
  intros R u'. split; [reflexivity|]. split.
  - intros []; unfold u', gravity_correction; cbn [mom u_x u_y u_z]; destruct (axis_eq_dec _ AZ) as [E|E]; try discriminate E; try congruence; cbn [negb];
      try (destruct d3; cbn [negb]; [|reflexivity]); rewrite half_two; field; exact two_nz.
  - unfold u', internal, gravity_correction, sqnorm. cbn [u_e u_rho mom u_x u_y u_z]. rewrite half_two. destruct d3; field; auto using two_nz.
Qed.
(** The pressure does not change. *)
Corollary C51_pressure d3 gamma dt rhoOld ga u : u_rho u <> 0 ->
  q_p (consToPrim d3 gamma (getCons d3 (gravity_correction d3 dt rhoOld ga u))) = q_p (consToPrim d3 gamma (getCons d3 u)).
Proof.
  intros R. unfold gravity_correction, consToPrim, getCons. cbn [u_rho u_e u_x u_y u_z q_p]. rewrite half_two. destruct d3; field; auto using two_nz.
Qed.
Example C51_example : u_rho (mkCons (frac 2 1) (frac 10 1) (frac 2 1) 0 (frac 4 1)) <> 0 /\
  gravity_correction true (frac 1 2) (frac 2 1) (fun a => match a with AX => frac 1 1 | _ => 0 end) (mkCons (frac 2 1) (frac 10 1) (frac 2 1) 0 (frac 4 1))
  = mkCons (frac 2 1) (frac 45 4) (frac 3 1) 0 (frac 4 1).
Proof. split; [qcne|]. apply cons_ext. intros [| |[]]; qceq. Qed.

(** * C41: the Riemann flux of equal states is the physical flux *)

Lemma Qc_pos_nz x : 0 < x -> x <> 0. Proof. intros H ->. exact (Qclt_not_eq _ _ H eq_refl). Qed.
Lemma fmax_ge_l x y : x <= fmax x y.
Proof. unfold fmax. destruct (ltb y x) eqn:E; [apply Qcle_refl|apply ltb_false, E]. Qed.
Lemma fmax_ge_r x y : y <= fmax x y.
Proof. unfold fmax. destruct (ltb y x) eqn:E; [apply Qclt_le_weak, ltb_spec, E|apply Qcle_refl]. Qed.
Lemma Qcmult_lt_0 x y : 0 < x -> 0 < y -> 0 < x * y.
Proof. intros H K. rewrite <- (Qcmult_0_l y). apply Qcmult_lt_compat_r; assumption. Qed.
Lemma Qcinv_lt_0 x : 0 < x -> 0 < / x.
Proof. intros H. unfold Qclt in *. change (this 0) with 0%Q in *. change (this (/ x)) with (Qred (/ x)%Q). rewrite Qred_correct. apply Qinv_lt_0_compat, H. Qed.
Lemma Qcdiv_lt_0 x y : 0 < x -> 0 < y -> 0 < x / y.
Proof. intros H K. apply Qcmult_lt_0; [exact H|apply Qcinv_lt_0, K]. Qed.

(** Gas that the solver takes as it is (no floor applies). *)
Definition physical (P : rparams) (q : prim) : Prop :=
  smallr P <= q_rho q /\ 0 < q_rho q /\ q_rho q * smallp P <= q_p q /\ 0 < q_p q.

Lemma hllc_equal sq P q : (forall x, 0 < x -> 0 < sq x) -> 1 < gamma0 P -> physical P q ->
  physical_flux (gamma0 P) q AX (fst (riemann_hllc sq P q q)) /\ snd (riemann_hllc sq P q q) = q_p q.
Proof.
  intros SQ G1 (R1 & R2 & P1 & P2).
  unfold riemann_hllc. rewrite !(fmax_l _ _ R1), !(fmax_l _ _ P1), !fmax_same, fmin_same.
  set (c := sq (fmax (gamma0 P * q_p q / q_rho q) (smallc P * smallc P))).
  assert (C0 : 0 < c).
  { apply SQ. eapply Qclt_le_trans; [|apply fmax_ge_l]. apply Qcdiv_lt_0; [|exact R2]. apply Qcmult_lt_0; [|exact P2].
    eapply Qclt_trans; [|exact G1]. reflexivity. }
  clearbody c. destruct q as [r p u v w]. cbn [q_rho q_p q_x q_y q_z] in *.
  assert (CN := Qc_pos_nz _ C0). assert (RN := Qc_pos_nz _ R2).
  assert (GN : gamma0 P - 1 <> 0) by (intro H; apply (Qclt_not_eq _ _ G1); rewrite <- (Qcplus_0_r 1), <- H; ring).
  assert (TN := two_nz).
  replace (r * (u - (u - c))) with (r * c) by ring. replace (r * (u + c - u)) with (r * c) by ring.
  assert (US : (r * c * u + r * c * u + (p - p)) / (r * c + r * c) = u).
  { replace (r * c + r * c) with (two * (r * c)) by (unfold two; ring). unfold two in *. field. auto. }
  assert (PS : (r * c * p + r * c * p + r * c * (r * c) * (u - u)) / (r * c + r * c) = p).
  { replace (r * c + r * c) with (two * (r * c)) by (unfold two; ring). unfold two in *. field. auto. }
  rewrite US, PS.
  assert (SLN : u - c - u <> 0) by (intro H; apply CN; replace c with (- (u - c - u)) by ring; rewrite H; reflexivity).
  assert (SRN : u + c - u <> 0) by (intro H; apply CN; replace c with (u + c - u) by ring; exact H).
  assert (A1 : r * (u - c - u) / (u - c - u) = r) by (field; exact SLN).
  assert (A2 : forall e, ((u - c - u) * e - p * u + p * u) / (u - c - u) = e) by (intros e; field; exact SLN).
  assert (A3 : r * c / (u + c - u) = r) by (field; exact SRN).
  assert (A4 : forall e, ((u + c - u) * e - p * u + p * u) / (u + c - u) = e) by (intros e; field; exact SRN).
  rewrite A1, A2, A3, A4.
  set (L := ltb 0 (r * u)). set (q := if L then mkPrim r p u v w else mkPrim r p u v w).
  assert (Q : q = mkPrim r p u v w) by (unfold q; destruct L; reflexivity).
  assert (F : physical_flux (gamma0 P) (mkPrim r p u v w) AX
       (mkCons (r * u) ((p * (1 / (gamma0 P - 1)) + half_f * r * (u * u + v * v + w * w) + p) * u) (r * u * u + p) (r * u * q_y q) (r * u * q_z q))).
  { rewrite Q. unfold physical_flux, sqnorm. cbn [q_rho q_p vel q_x q_y q_z u_rho u_e]. split; [reflexivity|]. split.
    - rewrite half_two. field. auto.
    - intros []; cbn [mom u_x u_y u_z vel q_x q_y q_z]; destruct (axis_eq_dec _ AX) as [E|E]; try discriminate E; try congruence; ring. }
  destruct (ltb 0 (u - c)), (ltb 0 u), (ltb 0 (u + c)); cbn [fst snd]; (split; [exact F|reflexivity]).
Qed.

(** Exchanging components turns a flux along x into a flux along the other axes. *)
Lemma physical_flux_swap gamma q d f : physical_flux gamma (swapPrim q d) AX f -> physical_flux gamma q d (swapCons f d).
Proof.
  intros (H1 & H2 & H3). unfold physical_flux in *. destruct d.
  - auto.
  - pose proof (H3 AX) as KX. pose proof (H3 AY) as KY. pose proof (H3 AZ) as KZ. cbn in *. unfold sqnorm in *. cbn in *.
    split; [exact H1|]. split; [rewrite H2; unfold sqnorm; cbn; rewrite (Qcplus_comm (q_y q * q_y q)); reflexivity|].
    intros []; cbn; assumption.
  - pose proof (H3 AX) as KX. pose proof (H3 AY) as KY. pose proof (H3 AZ) as KZ. cbn in *. unfold sqnorm in *. cbn in *.
    split; [exact H1|]. split; [rewrite H2; unfold sqnorm; cbn; f_equal; f_equal; f_equal; f_equal; ring|].
    intros []; cbn; assumption.
Qed.

(** Flux through a face between two cells in the same state, along any axis, with the
    reconstruction of the update (slopes are 0 there, see C42). *)
Definition flat_slope : prim := mkPrim 0 0 0 0 0.
Theorem C41_flux sq P gi q d dL dR size : (forall x, 0 < x -> 0 < sq x) -> 1 < gamma0 P -> physical P q -> well_balanced gi = false ->
  physical_flux (gamma0 P) q d (fst (compute_euler_flux (riemann_hllc sq P) (smallr P) gi q q flat_slope flat_slope d dL dR size)).
Proof.
  intros SQ G1 PH WB. unfold compute_euler_flux. rewrite WB.
  assert (E : forall s dd, reconstruct q flat_slope s (smallr P) dd = q).
  { intros s dd. apply prim_ext. intros []; unfold reconstruct; cbn; try ring. rewrite fmax_l; [ring|].
    replace (q_rho q + s * dd * 0) with (q_rho q) by ring. apply PH. }
  rewrite !E.
  assert (PH' : physical P (swapPrim q d)) by (destruct d; exact PH).
  destruct (hllc_equal sq P (swapPrim q d) SQ G1 PH') as (F & _).
  destruct (riemann_hllc sq P (swapPrim q d) (swapPrim q d)) as (f & p). cbn [fst] in *. apply physical_flux_swap, F.
Qed.
(** The square root satisfies the hypothesis on [sq]; here the identity. *)
Definition ex_P : rparams := mkRP (frac 7 5) (frac 1 100) (frac 1 100) (frac 1 10).
Example C41_example : (forall x, 0 < x -> 0 < (fun x : Qc => x) x) /\ 1 < gamma0 ex_P /\
  physical ex_P (mkPrim 1 (frac 2 1) (frac (-1) 2) (frac 1 3) 0) /\
  fst (riemann_hllc (fun x => x) ex_P (mkPrim 1 (frac 2 1) (frac (-1) 2) (frac 1 3) 0) (mkPrim 1 (frac 2 1) (frac (-1) 2) (frac 1 3) 0))
  = mkCons (frac (-1) 2) (frac (-517) 144) (frac 9 4) (frac (-1) 6) 0.
Proof.
  split; [auto|]. split; [reflexivity|]. split; [unfold physical; cbn; unfold Qcle, Qclt, Qle, Qlt; repeat split; try reflexivity; vm_compute; discriminate|].
  apply cons_ext. intros [| |[]]; qceq.
Qed.

(** * C42: slopes and reconstruction *)

Lemma Qcle_sub x y : x <= y <-> 0 <= y - x.
Proof.
  split; intro H.
  - rewrite <- (Qcplus_opp_r x). apply Qcplus_le_compat; [exact H|apply Qcle_refl].
  - replace x with (0 + x) by ring. replace y with (y - x + x) by ring. apply Qcplus_le_compat; [exact H|apply Qcle_refl].
Qed.
Lemma Qcmult_nonneg x y : 0 <= x -> 0 <= y -> 0 <= x * y.
Proof. intros H K. rewrite <- (Qcmult_0_l y). apply Qcmult_le_compat_r; assumption. Qed.
Lemma Qcplus_nonneg x y : 0 <= x -> 0 <= y -> 0 <= x + y.
Proof. intros H K. rewrite <- (Qcplus_0_l 0). apply Qcplus_le_compat; assumption. Qed.
Lemma Qc_sign x : x < 0 \/ 0 <= x.
Proof. destruct (Qclt_le_dec x 0); auto. Qed.
Lemma Qc_neg_mul x y : x < 0 -> 0 <= y -> x * y <= 0.
Proof. intros H K. apply Qcle_sub. replace (0 - x * y) with ((0 - x) * y) by ring. apply Qcmult_nonneg; [|exact K]. apply -> Qcle_sub. apply Qclt_le_weak, H. Qed.

Lemma fabs_pos x : 0 <= x -> fabs x = x.
Proof. intros H. unfold fabs. destruct (ltb x 0) eqn:E; [|reflexivity]. apply ltb_spec in E. exfalso. apply (Qclt_not_le _ _ E H). Qed.
Lemma fabs_neg x : x < 0 -> fabs x = - x.
Proof. intros H. unfold fabs. apply ltb_spec in H. rewrite H. reflexivity. Qed.

(** The limiter on one variable. *)
Lemma limit_cases p m : (p * m <= 0 /\ limit p m = 0) \/
  (0 < p * m /\ 0 <= p /\ 0 <= m /\ ((limit p m = p /\ p <= m) \/ (limit p m = m /\ m <= p))) \/
  (0 < p * m /\ p <= 0 /\ m <= 0 /\ ((limit p m = p /\ m <= p) \/ (limit p m = m /\ p <= m))).
Proof.
  unfold limit. destruct (leb (p * m) 0) eqn:E; [left; apply leb_spec in E; auto|right]. apply leb_false in E.
  destruct (Qc_sign p) as [Hp|Hp], (Qc_sign m) as [Hm|Hm].
  - right. split; [exact E|]. split; [apply Qclt_le_weak, Hp|]. split; [apply Qclt_le_weak, Hm|]. rewrite !fabs_neg by assumption.
    destruct (ltb (- m) (- p)) eqn:L; [apply ltb_spec, Qclt_le_weak in L; right|apply ltb_false in L; left]; (split; [reflexivity|]); apply Qcopp_le_compat in L; rewrite !Qcopp_involutive in L; exact L.
  - exfalso. apply (Qclt_not_le _ _ E), Qc_neg_mul; assumption.
  - exfalso. apply (Qclt_not_le _ _ E). rewrite Qcmult_comm. apply Qc_neg_mul; assumption.
  - left. split; [exact E|]. split; [exact Hp|]. split; [exact Hm|]. rewrite !fabs_pos by assumption.
    destruct (ltb m p) eqn:L; [apply ltb_spec, Qclt_le_weak in L; right|apply ltb_false in L; left]; (split; [reflexivity|]); exact L.
Qed.
(** The slope lies between 0 and both one-sided slopes. *)
Lemma limit_between p m : (0 <= limit p m /\ limit p m <= p /\ limit p m <= m) \/ (limit p m <= 0 /\ p <= limit p m /\ m <= limit p m) \/ limit p m = 0.
Proof.
  destruct (limit_cases p m) as [(_ & ->)|[(_ & P & M & [(-> & H)|(-> & H)])|(_ & P & M & [(-> & H)|(-> & H)])]].
  - auto.
  - left. split; [|split]; auto using Qcle_refl.
  - left. split; [|split]; auto using Qcle_refl.
  - right. left. split; [|split]; auto using Qcle_refl.
  - right. left. split; [|split]; auto using Qcle_refl.
Qed.

Lemma slope_v v qm q qp dL dR : pv v (compute_slope qm q qp dL dR) = limit ((pv v qp - pv v q) / dR) ((pv v q - pv v qm) / dL).
Proof. destruct v; reflexivity. Qed.

Lemma div_mul_pos x y dL dR : 0 < dL -> 0 < dR -> (0 < (x / dR) * (y / dL) <-> 0 < y * x).
Proof.
  intros HL HR. assert (NL := Qc_pos_nz _ HL). assert (NR := Qc_pos_nz _ HR). split; intro H.
  - replace (y * x) with (x / dR * (y / dL) * (dL * dR)) by (field; auto). apply Qcmult_lt_0; [exact H|apply Qcmult_lt_0; assumption].
  - replace (x / dR * (y / dL)) with (y * x / (dL * dR)) by (field; auto). apply Qcdiv_lt_0; [exact H|apply Qcmult_lt_0; assumption].
Qed.

(** The slope is 0 at an extremum, and elsewhere the one-sided slope of least magnitude. *)
Theorem C42_slope v qm q qp dL dR : 0 < dL -> 0 < dR ->
  let s := pv v (compute_slope qm q qp dL dR) in
  let left := pv v q - pv v qm in let right := pv v qp - pv v q in
  (left * right <= 0 -> s = 0) /\
  (0 < left * right -> (s = left / dL /\ s * s <= (right / dR) * (right / dR)) \/ (s = right / dR /\ s * s <= (left / dL) * (left / dL))).
Proof.
  intros HL HR s l r. unfold s. rewrite slope_v. fold l r.
  pose proof (div_mul_pos r l dL dR HL HR) as K.
  destruct (limit_cases (r / dR) (l / dL)) as [(E & ->)|C].
  - split; [reflexivity|]. intros H. exfalso. apply K in H. apply (Qclt_not_le _ _ H E).
  - assert (P : 0 < r / dR * (l / dL)) by (destruct C as [C|C]; apply C).
    split; [intros H; exfalso; apply (proj1 K) in P; exact (Qclt_not_le _ _ P H)|]. intros _.
    assert (SQ : forall x y, 0 <= x -> x <= y -> x * x <= y * y).
    { intros x y Hx Hy. apply Qcle_sub. replace (y * y - x * x) with ((y - x) * (x + y)) by ring.
      apply Qcmult_nonneg; [apply -> Qcle_sub; exact Hy|]. apply Qcplus_nonneg; [exact Hx|eapply Qcle_trans; eassumption]. }
    assert (SQ' : forall x y, y <= 0 -> x <= y -> y * y <= x * x).
    { intros x y Hy Hx. apply Qcle_sub. replace (x * x - y * y) with ((y - x) * ((0 - x) + (0 - y))) by ring.
      apply Qcmult_nonneg; [apply -> Qcle_sub; exact Hx|]. apply Qcplus_nonneg; apply -> Qcle_sub; [eapply Qcle_trans; eassumption|exact Hy]. }
    destruct C as [(_ & P1 & M1 & [(-> & H)|(-> & H)])|(_ & P1 & M1 & [(-> & H)|(-> & H)])]; [right|left|right|left]; (split; [reflexivity|auto]).
Qed.

(** Moving from a value [a] toward [b], with a slope limited by the difference. *)
Lemma move_between a b D f s : 0 < D -> 0 <= f -> f <= D ->
  (0 <= s /\ s <= (b - a) / D) \/ (s <= 0 /\ (b - a) / D <= s) \/ s = 0 -> between a (a + f * s) b.
Proof.
  intros HD F1 F2 H. assert (ND := Qc_pos_nz _ HD).
  set (t := (b - a) / D) in *. assert (EB : b = a + D * t) by (unfold t; field; exact ND). clearbody t. subst b.
  destruct H as [(S1 & S2)|[(S1 & S2)| ->]].
  - left. split; apply Qcle_sub; [replace (a + f * s - a) with (f * s) by ring; apply Qcmult_nonneg; assumption|].
    replace (a + D * t - (a + f * s)) with ((D - f) * s + D * (t - s)) by ring.
    apply Qcplus_nonneg; apply Qcmult_nonneg; try (apply -> Qcle_sub; assumption); [exact S1|apply Qclt_le_weak, HD].
  - right. split; apply Qcle_sub; [|replace (a - (a + f * s)) with (f * (0 - s)) by ring; apply Qcmult_nonneg; [assumption|apply -> Qcle_sub; assumption]].
    replace (a + f * s - (a + D * t)) with ((D - f) * (0 - s) + D * (s - t)) by ring.
    apply Qcplus_nonneg; apply Qcmult_nonneg; try (apply -> Qcle_sub; assumption). apply Qclt_le_weak, HD.
  - replace (a + f * 0) with a by ring. destruct (Qc_sign t) as [T|T].
    + right. split; [|apply Qcle_refl]. apply Qcle_sub. replace (a - (a + D * t)) with (D * (0 - t)) by ring.
      apply Qcmult_nonneg; [apply Qclt_le_weak, HD|]. apply -> Qcle_sub. apply Qclt_le_weak, T.
    + left. split; [apply Qcle_refl|]. apply Qcle_sub. replace (a + D * t - a) with (D * t) by ring.
      apply Qcmult_nonneg; [apply Qclt_le_weak, HD|exact T].
Qed.

(** Value of a variable after reconstruction; the density is at least [smallr]. *)
Definition floored (v : pvar) (smallr x : Qc) : Qc := match v with Vrho => fmax x smallr | _ => x end.
Lemma reconstruct_v v q slope sign smallr size : pv v (reconstruct q slope sign smallr size) = floored v smallr (pv v q + sign * size * pv v slope).
Proof. destruct v; reflexivity. Qed.
(** The floor does not apply when both cell values are above it. *)
Definition no_floor (v : pvar) (smallr : Qc) (a b : prim) : Prop := v = Vrho -> smallr <= q_rho a /\ smallr <= q_rho b.
Lemma floored_between v smallr a b x : no_floor v smallr a b -> between (pv v a) x (pv v b) -> floored v smallr x = x.
Proof.
  intros NF H. destruct v; try reflexivity. cbn [floored pv] in *. destruct (NF eq_refl) as [N1 N2]. apply fmax_l.
  destruct H as [(H & _)|(H & _)]; (eapply Qcle_trans; [|exact H]; assumption).
Qed.

(** Values reconstructed on both faces of a cell stay between the cell and its neighbours. *)
Theorem C42_faces v qm q qp dL dR fL fR smallr : 0 < dL -> 0 < dR -> 0 <= fL -> fL <= dL -> 0 <= fR -> fR <= dR ->
  let s := compute_slope qm q qp dL dR in
  (no_floor v smallr q qp -> between (pv v q) (pv v (reconstruct q s 1 smallr fR)) (pv v qp)) /\
  (no_floor v smallr q qm -> between (pv v q) (pv v (reconstruct q s (- (1)) smallr fL)) (pv v qm)).
Proof.
  intros HL HR L1 L2 R1 R2 s.
  assert (B1 : between (pv v q) (pv v q + 1 * fR * pv v s) (pv v qp)).
  { replace (1 * fR * pv v s) with (fR * pv v s) by ring. apply (move_between _ _ dR); try assumption. unfold s. rewrite slope_v.
    destruct (limit_between ((pv v qp - pv v q) / dR) ((pv v q - pv v qm) / dL)) as [(H1 & H2 & _)|[(H1 & H2 & _)|H]]; auto. }
  assert (B2 : between (pv v q) (pv v q + - (1) * fL * pv v s) (pv v qm)).
  { replace (- (1) * fL * pv v s) with (fL * (0 - pv v s)) by ring. apply (move_between _ _ dL); try assumption. unfold s. rewrite slope_v.
    assert (NL := Qc_pos_nz _ HL).
    assert (O : (pv v qm - pv v q) / dL = 0 - (pv v q - pv v qm) / dL) by (field; exact NL). rewrite O.
    set (m := (pv v q - pv v qm) / dL). set (k := limit _ m).
    assert (OP : forall x y, x <= y -> 0 - y <= 0 - x) by (intros x y H; apply Qcle_sub; replace (0 - x - (0 - y)) with (y - x) by ring; apply -> Qcle_sub; exact H).
    pose proof (limit_between ((pv v qp - pv v q) / dR) m) as LB. fold k in LB. destruct LB as [(H1 & _ & H2)|[(H1 & _ & H2)|H]].
    - right. left. split; [apply OP in H1; exact H1|apply OP, H2].
    - left. split; [apply OP in H1; exact H1|apply OP, H2].
    - right. right. rewrite H. ring. }
  split; intros NF; rewrite reconstruct_v; rewrite (floored_between _ _ _ _ _ NF); assumption.
Qed.

(** From [a] to [b] through [x] then [y], without turning back. *)
Definition monotone (a x y b : Qc) : Prop := (a <= x /\ x <= y /\ y <= b) \/ (b <= y /\ y <= x /\ x <= a).

Lemma monotone_core a b D f g s t : 0 < D -> 0 <= f -> 0 <= g -> f + g = D ->
  (0 <= s /\ s <= (b - a) / D) \/ (s <= 0 /\ (b - a) / D <= s) \/ s = 0 ->
  (0 <= t /\ t <= (b - a) / D) \/ (t <= 0 /\ (b - a) / D <= t) \/ t = 0 ->
  monotone a (a + 1 * f * s) (b + - (1) * g * t) b.
Proof.
  intros HD F G E HS HT. assert (ND := Qc_pos_nz _ HD). assert (D0 := Qclt_le_weak _ _ HD).
  assert (FD : f <= D) by (apply Qcle_sub; rewrite <- E; replace (f + g - f) with g by ring; exact G).
  assert (GD : g <= D) by (apply Qcle_sub; rewrite <- E; replace (f + g - g) with f by ring; exact F).
  set (w := (b - a) / D) in *. assert (EB : b = a + D * w) by (unfold w; field; exact ND). clearbody w. subst b.
  replace (a + 1 * f * s) with (a + f * s) by ring. replace (a + D * w + - (1) * g * t) with (a + D * w - g * t) by ring.
  assert (NS : forall z, (0 <= z /\ z <= w) \/ (z <= 0 /\ w <= z) \/ z = 0 -> (0 <= w /\ 0 <= z /\ z <= w) \/ (w <= 0 /\ z <= 0 /\ w <= z)).
  { intros z [(H1 & H2)|[(H1 & H2)| ->]].
    - left. split; [eapply Qcle_trans; eassumption|auto].
    - right. split; [eapply Qcle_trans; eassumption|auto].
    - destruct (Qc_sign w) as [W|W]; [right; apply Qclt_le_weak in W|left]; (split; [exact W|split; [apply Qcle_refl|exact W]]). }
  destruct (NS s HS) as [(W & S1 & S2)|(W & S1 & S2)], (NS t HT) as [(W' & T1 & T2)|(W' & T1 & T2)].
  - left. split; [|split]; apply Qcle_sub.
    + replace (a + f * s - a) with (f * s) by ring. apply Qcmult_nonneg; assumption.
    + rewrite <- E. replace (a + (f + g) * w - g * t - (a + f * s)) with (f * (w - s) + g * (w - t)) by ring.
      apply Qcplus_nonneg; apply Qcmult_nonneg; try assumption; apply -> Qcle_sub; assumption.
    + replace (a + D * w - (a + D * w - g * t)) with (g * t) by ring. apply Qcmult_nonneg; assumption.
  - assert (w = 0) by (apply Qcle_antisym; assumption). subst w. assert (s = 0) by (apply Qcle_antisym; assumption). assert (t = 0) by (apply Qcle_antisym; assumption).
    subst s t. left. split; [|split]; apply Qcle_sub; match goal with |- 0 <= ?e => replace e with 0 by ring end; apply Qcle_refl.
  - assert (w = 0) by (apply Qcle_antisym; assumption). subst w. assert (s = 0) by (apply Qcle_antisym; assumption). assert (t = 0) by (apply Qcle_antisym; assumption).
    subst s t. left. split; [|split]; apply Qcle_sub; match goal with |- 0 <= ?e => replace e with 0 by ring end; apply Qcle_refl.
  - right. split; [|split]; apply Qcle_sub.
    + replace (a + D * w - g * t - (a + D * w)) with (g * (0 - t)) by ring. apply Qcmult_nonneg; [assumption|apply -> Qcle_sub; assumption].
    + rewrite <- E. replace (a + f * s - (a + (f + g) * w - g * t)) with (f * (s - w) + g * (t - w)) by ring.
      apply Qcplus_nonneg; apply Qcmult_nonneg; try assumption; apply -> Qcle_sub; assumption.
    + replace (a - (a + f * s)) with (f * (0 - s)) by ring. apply Qcmult_nonneg; [assumption|apply -> Qcle_sub; assumption].
Qed.
Lemma monotone_between a x y b : monotone a x y b -> between a x b /\ between a y b.
Proof. intros [(H1 & H2 & H3)|(H1 & H2 & H3)]; split; [left|left|right|right]; (split; first [assumption|exact (Qcle_trans _ _ _ H1 H2)|exact (Qcle_trans _ _ _ H2 H3)]). Qed.

(** The values that the update gives to the Riemann solver on both sides of a face: [ld] is
    the level of the cell minus the level of its neighbour beyond the face (0: same size). *)
Theorem C42_interface v ld qLL qL qR qRR d d' smallr : In ld [-1; 0; 1]%Z -> 0 < d -> 0 < d' -> no_floor v smallr qL qR ->
  (* through the lower face of the cell qR *)
  monotone (pv v qL) (pv v (reconstruct qL (compute_slope qLL qL qR d (ds1 ld)) 1 smallr (df0 ld)))
                     (pv v (reconstruct qR (compute_slope qL qR qRR (ds1 ld) d') (- (1)) smallr (df1 ld))) (pv v qR) /\
  (* through the upper face of the cell qL *)
  monotone (pv v qL) (pv v (reconstruct qL (compute_slope qLL qL qR d (ds1 ld)) 1 smallr (df1 ld)))
                     (pv v (reconstruct qR (compute_slope qL qR qRR (ds1 ld) d') (- (1)) smallr (df0 ld))) (pv v qR).
Proof.
  intros LD D D' NF.
  assert (T : 0 < ds1 ld /\ 0 <= df0 ld /\ 0 <= df1 ld /\ df0 ld + df1 ld = ds1 ld).
  { destruct LD as [<-|[<-|[<-|[]]]]; (split; [reflexivity|]); (split; [vm_compute; discriminate|]); (split; [vm_compute; discriminate|]); qceq. }
  destruct T as (T1 & T2 & T3 & T4).
  assert (H : forall f g, 0 <= f -> 0 <= g -> f + g = ds1 ld ->
    monotone (pv v qL) (pv v (reconstruct qL (compute_slope qLL qL qR d (ds1 ld)) 1 smallr f))
                       (pv v (reconstruct qR (compute_slope qL qR qRR (ds1 ld) d') (- (1)) smallr g)) (pv v qR)).
  { intros f g F G E. rewrite !reconstruct_v, !slope_v.
    assert (M : monotone (pv v qL) (pv v qL + 1 * f * limit ((pv v qR - pv v qL) / ds1 ld) ((pv v qL - pv v qLL) / d))
       (pv v qR + - (1) * g * limit ((pv v qRR - pv v qR) / d') ((pv v qR - pv v qL) / ds1 ld)) (pv v qR)).
    { apply (monotone_core _ _ (ds1 ld)); try assumption.
      - destruct (limit_between ((pv v qR - pv v qL) / ds1 ld) ((pv v qL - pv v qLL) / d)) as [(H1 & H2 & _)|[(H1 & H2 & _)|H]]; auto.
      - destruct (limit_between ((pv v qRR - pv v qR) / d') ((pv v qR - pv v qL) / ds1 ld)) as [(H1 & _ & H2)|[(H1 & _ & H2)|H]]; auto. }
    destruct (monotone_between _ _ _ _ M) as (B1 & B2). rewrite (floored_between _ _ _ _ _ NF B1), (floored_between _ _ _ _ _ NF B2). exact M. }
  split; apply H; try assumption. rewrite Qcplus_comm. exact T4.
Qed.
(** The reconstructed density is never below the floor. *)
Theorem C42_floor q slope sign smallr size : smallr <= q_rho (reconstruct q slope sign smallr size).
Proof. unfold reconstruct. cbn [q_rho]. apply fmax_ge_r. Qed.
Example C42_example :
  let q x := mkPrim x 1 0 0 0 in
  compute_slope (q 1) (q (frac 2 1)) (q (frac 5 1)) 1 (frac 3 2) = mkPrim 1 0 0 0 0 /\
  no_floor Vrho (frac 1 10) (q (frac 2 1)) (q (frac 5 1)) /\
  q_rho (reconstruct (q (frac 2 1)) (mkPrim 1 0 0 0 0) 1 (frac 1 10) (frac 1 2)) = frac 5 2.
Proof.
  cbv zeta. split; [apply prim_ext; intros []; qceq|]. split; [intros _; split; vm_compute; discriminate|qceq].
Qed.

Print Assumptions C40_meaning. Print Assumptions C40_meaning_back. Print Assumptions C40_cons_roundtrip.
Print Assumptions C40_prim_roundtrip. Print Assumptions C40_stored_roundtrip.
Print Assumptions C51_gravity. Print Assumptions C51_pressure. Print Assumptions C41_flux.
Print Assumptions C42_slope. Print Assumptions C42_faces. Print Assumptions C42_interface. Print Assumptions C42_floor.
