(** The pass that repairs negative densities and pressures (C72). *)
From Coq Require Import QArith Qcanon Field.
From Verif Require Import Base OctreeSpec HydroModel HydroSpec HydroProps.
Open Scope Qc_scope.

(** [x'] is [x], or [floor] if [x] is negative. *)
Definition repaired (floor x x' : Qc) : Prop := (x < 0 -> x' = floor) /\ (0 <= x -> x' = x).

Lemma repaired_if floor x : repaired floor x (if ltb x 0 then floor else x).
Proof.
  destruct (ltb x 0) eqn:E.
  - split; [reflexivity|]. intros H. apply ltb_false in H. congruence.
  - apply ltb_false in E. split; [|reflexivity]. intros H. exfalso. apply (Qclt_not_le _ _ H E).
Qed.
Lemma repaired_same floor x : 0 <= x -> repaired floor x x.
Proof. intros H. split; [|reflexivity]. intros H'. exfalso. apply (Qclt_not_le _ _ H' H). Qed.
Lemma getCons_planar d3 u : planar d3 (u_z (getCons d3 u)).
Proof. intros ->. reflexivity. Qed.
Lemma get_set d3 old u : planar d3 (u_z u) -> getCons d3 (setCons d3 old u) = u.
Proof. destruct d3, u; cbn; intros H; [reflexivity|]. rewrite (H eq_refl). reflexivity. Qed.

(** C72: the gas held by a cell keeps its velocity, a negative density becomes [smallr] and a
    negative pressure [smallp]; each is left alone if it was not negative. In two dimensions the
    third component of the stored momentum is not touched. *)
Theorem C72_clean d3 gamma smallr smallp u q : 0 < smallr -> gamma <> 1 -> u_rho u <> 0 -> same_gas gamma (getCons d3 u) q ->
  exists q', same_gas gamma (getCons d3 (clean_negative d3 gamma smallr smallp u)) q' /\
    repaired smallr (q_rho q) (q_rho q') /\ repaired smallp (q_p q) (q_p q') /\
    (forall a, vel q' a = vel q a) /\ (d3 = false -> u_z (clean_negative d3 gamma smallr smallp u) = u_z u).
Proof.
  intros HS HG HR SG. set (u0 := getCons d3 u) in *. assert (HR0 : u_rho u0 <> 0) by exact HR.
  pose proof (C40_meaning d3 gamma u0 HR0 (getCons_planar d3 u)) as SG0. pose proof (same_gas_prim gamma u0 q _ HR0 SG SG0) as ->.
  unfold clean_negative. cbv zeta. fold u0. set (q := consToPrim d3 gamma u0).
  assert (ZP : planar d3 (q_z q)) by (intros ->; reflexivity). assert (QR : q_rho q <> 0) by exact HR0.
  destruct (ltb (q_rho q) 0 || ltb (q_p q) 0) eqn:E.
  - set (q' := mkPrim _ _ _ _ _). assert (QR' : q_rho q' <> 0).
    { unfold q'. cbn [q_rho]. destruct (ltb (q_rho q) 0); [|exact QR]. intro H. rewrite H in HS. discriminate HS. }
    exists q'. assert (PZ : planar d3 (u_z (primToCons d3 gamma q'))) by (intros ->; reflexivity).
    split; [rewrite get_set by exact PZ; apply C40_meaning_back; [exact QR'|exact HG|exact ZP]|].
    split; [apply repaired_if|]. split; [apply repaired_if|]. split; [intros []; reflexivity|]. intros ->. reflexivity.
  - apply orb_false_iff in E. destruct E as (E1 & E2). apply ltb_false in E1, E2. exists q. split; [exact SG0|].
    split; [apply repaired_same, E1|]. split; [apply repaired_same, E2|]. split; [reflexivity|]. intros _. reflexivity.
Qed.
(** So afterwards neither is negative. *)
Corollary C72_not_negative d3 gamma smallr smallp u q' : 0 < smallr -> 0 <= smallp -> gamma <> 1 -> u_rho u <> 0 ->
  same_gas gamma (getCons d3 (clean_negative d3 gamma smallr smallp u)) q' -> 0 < q_rho q' /\ 0 <= q_p q'.
Proof.
  intros HS HP HG HR SG'. pose proof (C40_meaning d3 gamma (getCons d3 u) HR (getCons_planar d3 u)) as SG.
  destruct (C72_clean d3 gamma smallr smallp u _ HS HG HR SG) as (q2 & SG2 & (R1 & R2) & (P1 & P2) & _).
  set (q := consToPrim d3 gamma (getCons d3 u)) in *.
  assert (D2 : 0 < q_rho q2).
  { destruct (Qclt_le_dec (q_rho q) 0) as [H|H]; [rewrite (R1 H); exact HS|]. rewrite (R2 H). destruct (Qcle_lt_or_eq _ _ H) as [K|K]; [exact K|]. exfalso. apply HR. symmetry. exact K. }
  assert (NZ : u_rho (getCons d3 (clean_negative d3 gamma smallr smallp u)) <> 0).
  { destruct SG2 as (-> & _). intro H. rewrite H in D2. discriminate D2. }
  rewrite (same_gas_prim gamma _ q' q2 NZ SG' SG2). split; [exact D2|].
  destruct (Qclt_le_dec (q_p q) 0) as [H|H]; [rewrite (P1 H); exact HP|rewrite (P2 H); exact H].
Qed.

(** Negative pressure with density 2 and velocity (1, 0): only the pressure changes. *)
Example C72_example : let u := mkCons (frac 2 1) 0 (frac 2 1) 0 (frac 7 1) in
  let u' := clean_negative false (frac 3 1) (frac 1 100) (frac 1 10) u in
  q_p (consToPrim false (frac 3 1) (getCons false u)) = frac (-2) 1 /\
  u_rho u' = frac 2 1 /\ u_x u' = frac 2 1 /\ u_z u' = frac 7 1 /\ q_p (consToPrim false (frac 3 1) (getCons false u')) = frac 1 10.
Proof. cbv zeta. repeat split; qceq. Qed.
Print Assumptions C72_clean. Print Assumptions C72_not_negative.
