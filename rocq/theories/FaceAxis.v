(** One-axis arithmetic for C56: the octant found at a given offset is adjacent to the octant
    that asks, on the side where the cell lies. *)
From Verif Require Import Base.

(** What has to hold along one axis: points [p] of the octant found (position [cA], size
    [wA]) and [q] of the octant that asks ([cB], [wB]) that are one step [d] apart, the step
    leaving the octant found on the side where its cell [y] lies. *)
Definition axis_link (per : bool) (n wA cA wB cB b gc y : Z) : Prop :=
  exists p q d, 0 <= p < n /\ 0 <= q < n /\ p / wA = cA /\ q / wB = cB /\
    (per = true \/ 0 <= p + d < n) /\ q = (p + d) mod n /\ -1 <= d <= 1 /\
    (d <> 0 -> (p + d) / wA <> cA) /\ (d = -1 -> y < gc) /\ (d = 1 -> b - gc <= y).

Lemma div_in w c u : 0 < w -> c * w <= u < (c + 1) * w -> u / w = c.
Proof. intros W H. symmetry. apply (Z.div_unique u w c (u - c * w)); lia. Qed.

Lemma link_same_point per n wA cA wB cB b gc y u : 0 <= u < n -> u / wA = cA -> u / wB = cB -> axis_link per n wA cA wB cB b gc y.
Proof.
  intros. exists u, u, 0. rewrite Z.add_0_r. repeat split; try lia; try assumption. rewrite Z.mod_small; lia.
Qed.
Lemma link_up per n wA cA wB cB b gc y nc : 0 < wA -> 0 < wB -> n = nc * wB -> 0 <= cB < nc -> 0 <= cA -> y < gc ->
  (per = true \/ cB + 1 < nc) -> (((cB + 1) mod nc) * wB) / wA = cA -> axis_link per n wA cA wB cB b gc y.
Proof.
  intros WA WB -> HB HA Y PER E. set (q := (cB + 1) * wB - 1). assert (QB : q / wB = cB) by (apply div_in; unfold q; nia).
  assert (Q : 0 <= q < nc * wB) by (unfold q; nia).
  destruct (Z.eq_dec (q / wA) cA) as [EQ|NQ]; [apply (link_same_point _ _ _ _ _ _ _ _ _ q); assumption|].
  exists ((cB + 1) mod nc * wB), q, (-1). destruct (Z.eq_dec (cB + 1) nc) as [EN|NN].
  - rewrite EN in *. rewrite Z.mod_same in * by lia. cbn [Z.mul Z.add] in *. repeat split; try lia.
    apply (Z.mod_unique _ _ (-1)); unfold q; lia.
  - rewrite (Z.mod_small (cB + 1)) in * by lia. replace ((cB + 1) * wB + -1) with q by (unfold q; lia). repeat split; try lia; try nia.
    rewrite Z.mod_small; lia.
Qed.
Lemma link_down per n wA cA wB cB b gc y nc : 0 < wA -> 0 < wB -> n = nc * wB -> 0 <= cB < nc -> 0 <= cA -> cA * wA < n -> (exists k, n = k * wA) -> b - gc <= y ->
  (per = true \/ 0 < cB) -> (((cB - 1) mod nc) * wB + wB - 1) / wA = cA -> axis_link per n wA cA wB cB b gc y.
Proof.
  intros WA WB -> HB HA HA' (k & EK) Y PER E. set (q := cB * wB). assert (QB : q / wB = cB) by (unfold q; apply Z.div_mul; lia).
  assert (Q : 0 <= q < nc * wB) by (unfold q; nia).
  destruct (Z.eq_dec (q / wA) cA) as [EQ|NQ]; [apply (link_same_point _ _ _ _ _ _ _ _ _ q); assumption|].
  exists ((cB - 1) mod nc * wB + wB - 1), q, 1. destruct (Z.eq_dec cB 0) as [EN|NN].
  - rewrite EN in *. assert (M : (0 - 1) mod nc = nc - 1) by (symmetry; apply (Z.mod_unique _ _ (-1)); lia). rewrite M in *.
    replace ((nc - 1) * wB + wB - 1 + 1) with (nc * wB) by ring. replace ((nc - 1) * wB + wB - 1) with (nc * wB - 1) in * by ring. unfold q in *. cbn [Z.mul] in *. repeat split; try lia.
    + rewrite Z.mod_same; lia.
    + intros _. rewrite EK, Z.div_mul by lia. assert (cA < k) by nia. lia.
  - rewrite (Z.mod_small (cB - 1)) in * by lia. replace ((cB - 1) * wB + wB - 1 + 1) with q by (unfold q; ring). replace ((cB - 1) * wB + wB - 1) with (q - 1) in * by (unfold q; ring).
    assert (0 < q) by (unfold q; nia). repeat split; try lia. rewrite Z.mod_small; lia.
Qed.

(** Decomposition of the requested position. *)
Lemma request_split nc b cB x o : 0 < nc -> 0 <= cB < nc -> 0 <= x < b -> Z.abs o <= b ->
  exists k j, -1 <= k <= 1 /\ x + o = k * b + j /\ 0 <= j < b /\
    (cB * b + x + o) mod (nc * b) = ((cB + k) mod nc) * b + j.
Proof.
  intros N HB HX HO. exists ((x + o) / b), ((x + o) mod b). pose proof (Z.div_mod (x + o) b ltac:(lia)). pose proof (Z.mod_pos_bound (x + o) b ltac:(lia)).
  split; [split; [apply Z.div_le_lower_bound; lia|assert ((x + o) / b < 2) by (apply Z.div_lt_upper_bound; lia); lia]|]. split; [lia|]. split; [lia|].
  set (k := (x + o) / b) in *. set (j := (x + o) mod b) in *. symmetry. apply (Z.mod_unique _ _ ((cB + k) / nc)).
  - left. pose proof (Z.mod_pos_bound (cB + k) nc N). nia.
  - pose proof (Z.div_mod (cB + k) nc ltac:(lia)). nia.
Qed.

Section Axis.
Variables (per : bool) (w nc b cB x o gc : Z).
Hypothesis W : 0 < w.
Hypothesis NC : 0 < nc.
Hypothesis HB : 0 <= cB < nc.
Hypothesis HX : 0 <= x < b.
Hypothesis HO : Z.abs o <= b.
Hypothesis HG : Z.abs o <= gc.
Hypothesis ST : per = true \/ 0 <= cB * b + x + o < nc * b.
Notation T := ((cB * b + x + o) mod (nc * b)).

Lemma per_up k j : x + o = k * b + j -> 0 <= j < b -> k = 1 -> per = true \/ cB + 1 < nc.
Proof. intros E J ->. destruct ST as [S|S]; [auto|]. right. nia. Qed.
Lemma per_down k j : x + o = k * b + j -> 0 <= j < b -> k = -1 -> per = true \/ 0 < cB.
Proof. intros E J ->. destruct ST as [S|S]; [auto|]. right. nia. Qed.
Lemma split_unique b0 c y c' y' : 0 <= y < b0 -> 0 <= y' < b0 -> c * b0 + y = c' * b0 + y' -> c = c' /\ y = y'.
Proof. intros H H' E. assert (c = c') by nia. subst. lia. Qed.

Lemma link_same cA y : 0 <= y < b -> cA * b + y = T -> axis_link per (nc * w) w cA w cB b gc y.
Proof.
  intros HY E. destruct (request_split nc b cB x o NC HB HX HO) as (k & j & K & EJ & J & EM). rewrite EM in E. clear EM.
  apply split_unique in E; [|assumption..]. destruct E as [EA EY]. subst y. pose proof (Z.mod_pos_bound (cB + k) nc NC).
  assert (k = 0 \/ k = 1 \/ k = -1) as [-> | [-> | ->]] by lia.
  - rewrite Z.add_0_r, Z.mod_small in EA by lia. apply (link_same_point _ _ _ _ _ _ _ _ _ (cB * w)); [nia|subst; apply Z.div_mul; lia|apply Z.div_mul; lia].
  - apply (link_up per _ w cA w cB b gc j nc); [lia|lia|reflexivity|lia|lia|lia|eapply per_up; eauto|]. rewrite Z.div_mul by lia. auto.
  - apply (link_down per _ w cA w cB b gc j nc); [lia|lia|reflexivity|lia|lia|rewrite EA; nia|eauto|lia|eapply per_down; eauto|]. 
    change (cB - 1) with (cB + -1). rewrite EA. apply div_in; [lia|]. lia.
Qed.
Lemma halves z : exists h r, z = 2 * h + r /\ (r = 0 \/ r = 1).
Proof. exists (z / 2), (z mod 2). pose proof (Z.div_mod z 2). pose proof (Z.mod_pos_bound z 2). lia. Qed.
Lemma wrap_cases k : -1 <= k <= 1 -> exists t, (cB + k) mod nc = t /\ 0 <= t < nc /\
  (t = cB + k \/ k = 1 /\ cB + 1 = nc /\ t = 0 \/ k = -1 /\ cB = 0 /\ t = nc - 1).
Proof.
  intros K. exists ((cB + k) mod nc). split; [reflexivity|]. split; [apply Z.mod_pos_bound; exact NC|].
  destruct (Z.eq_dec (cB + k) nc) as [E|N1].
  - right. left. rewrite E, Z.mod_same by (clear -NC; lia). clear -E HB K. lia.
  - destruct (Z.eq_dec (cB + k) (-1)) as [E|N2].
    + right. right. rewrite E. split; [clear -E HB K; lia|]. split; [clear -E HB K; lia|]. symmetry. apply (Z.mod_unique _ _ (-1)); clear -NC; lia.
    + left. apply Z.mod_small. clear -HB K N1 N2. lia.
Qed.
Lemma half_of e r j : 0 <= j -> (r = 0 \/ r = 1) -> ((2 * e + r) * b + j) / 2 = e * b + (r * b + j) / 2.
Proof. intros J R. replace ((2 * e + r) * b + j) with (r * b + j + (e * b) * 2) by ring. rewrite Z.div_add by (clear; lia). ring. Qed.
Lemma coarse_first c h r : c = 2 * h + r -> r = 0 \/ r = 1 -> 0 <= h -> c * w / (2 * w) = h.
Proof. intros -> R H. apply div_in; [clear -W; lia|]. clear -W R H. nia. Qed.
Lemma coarse_last c h r : c = 2 * h + r -> r = 0 \/ r = 1 -> 0 <= h -> (c * w + w - 1) / (2 * w) = h.
Proof. intros -> R H. apply div_in; [clear -W; lia|]. clear -W R H. nia. Qed.

Lemma link_bigger cA y : (exists h, nc = 2 * h) -> 0 <= y < b -> cA * b + y = T / 2 -> axis_link per (nc * w) (2 * w) cA w cB b gc y.
Proof.
  intros (h & EH) HY E. destruct (request_split nc b cB x o NC HB HX HO) as (k & j & K & EJ & J & EM). rewrite EM in E. clear EM.
  destruct (wrap_cases k K) as (t & ET & TR & TC). rewrite ET in E. destruct (halves t) as (e & r & Er & R). destruct (halves cB) as (f & s & Es & S).
  rewrite Er, half_of in E by (auto; clear -J; lia).
  assert (YR : 0 <= (r * b + j) / 2 < b) by (split; [apply Z.div_pos; [clear -R J HX; destruct R; subst; lia|clear; lia]|apply Z.div_lt_upper_bound; [clear; lia|clear -R J; destruct R; subst; lia]]).
  apply split_unique in E; [|assumption..]. destruct E as [EA EY]. subst cA.
  assert (F0 : 0 <= f) by (clear -Es S HB; lia). assert (E0 : 0 <= e) by (clear -Er R TR; lia).
  assert (SAME : e = f -> axis_link per (nc * w) (2 * w) e w cB b gc y).
  { intros ->. apply (link_same_point _ _ _ _ _ _ _ _ _ (cB * w)); [clear -HB W; nia|apply (coarse_first cB f s); assumption|apply Z.div_mul; clear -W; lia]. }
  assert (k = 0 \/ k = 1 \/ k = -1) as [-> | [-> | ->]] by (clear -K; lia).
  - apply SAME. clear -TC Er Es R S. lia.
  - destruct (Z.eq_dec e f) as [EF|NF]; [exact (SAME EF)|].
    assert (R0 : r = 0) by (clear -TC Er Es R S NF; lia). rewrite R0 in EY. cbn [Z.mul Z.add] in EY.
    apply (link_up per _ (2 * w) e w cB b gc y nc); [clear -W; lia|exact W|reflexivity|exact HB|exact E0| |eapply per_up; eauto|].
    + rewrite EY. assert (j / 2 <= j) by (apply Z.div_le_upper_bound; clear -J; lia). clear -H EJ HX HG. lia.
    + rewrite ET. apply (coarse_first t e r); assumption.
  - destruct (Z.eq_dec e f) as [EF|NF]; [exact (SAME EF)|].
    assert (R1 : r = 1) by (clear -TC Er Es R S NF EH; lia). rewrite R1 in EY.
    apply (link_down per _ (2 * w) e w cB b gc y nc); [clear -W; lia|exact W|reflexivity|exact HB|exact E0| | | |eapply per_down; eauto|].
    + clear -Er R TR W. nia.
    + exists h. rewrite EH. ring.
    + rewrite EY. apply Z.div_le_lower_bound; [clear; lia|]. clear -EJ HX HG J. lia.
    + change (cB - 1) with (cB + -1). rewrite ET. apply (coarse_last t e r); assumption.
Qed.
Lemma link_smaller v cA y : w = 2 * v -> 2 * Z.abs o - 1 <= gc -> 2 * Z.abs o - 1 <= b -> 0 <= y < b -> cA * b + y = 2 * T + (if x + o <? 0 then 1 else 0) ->
  axis_link per (nc * w) v cA w cB b gc y.
Proof.
  intros EW G2 B2 HY E. destruct (request_split nc b cB x o NC HB HX HO) as (k & j & K & EJ & J & EM). rewrite EM in E. clear EM.
  pose proof (Z.mod_pos_bound (cB + k) nc NC) as TB. set (tB := (cB + k) mod nc) in *.
  assert (k = 0 \/ k = 1 \/ k = -1) as [-> | [-> | ->]] by lia.
  - replace (x + o <? 0) with false in E by lia. unfold tB in *. rewrite Z.add_0_r, Z.mod_small in E by lia.
    assert (CA : cA = 2 * cB \/ cA = 2 * cB + 1) by nia.
    apply (link_same_point _ _ _ _ _ _ _ _ _ (cA * v)); [nia|apply Z.div_mul; lia|apply div_in; nia].
  - replace (x + o <? 0) with false in E by lia.
    assert (Q : cA = 2 * tB /\ y = 2 * j) by (apply (split_unique b); lia). destruct Q as [QA QY].
    apply (link_up per _ v cA w cB b gc y nc); [lia|lia|reflexivity|lia|lia|lia|eapply per_up; eauto|].
    fold tB. rewrite EW. replace (tB * (2 * v)) with (cA * v) by (rewrite QA; ring). apply Z.div_mul. lia.
  - replace (x + o <? 0) with true in E by lia.
    assert (Q : cA = 2 * tB + 1 /\ y = 2 * j + 1 - b) by (apply (split_unique b); lia). destruct Q as [QA QY].
    apply (link_down per _ v cA w cB b gc y nc); [lia|lia|reflexivity|lia|lia| | |lia|eapply per_down; eauto|].
    + rewrite QA, EW. nia.
    + exists (2 * nc). rewrite EW. ring.
    + change (cB - 1) with (cB + -1). fold tB. rewrite EW. replace (tB * (2 * v) + 2 * v - 1) with (cA * v + v - 1) by (rewrite QA; ring). apply div_in; lia.
Qed.
End Axis.
