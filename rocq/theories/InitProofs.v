(** Construction of the coarse mesh: every rank gets a contiguous non-empty range of the
    coarse cells in Z-order, and the result is a consistent mesh. *)
From Verif Require Import Base MortonModel MortonProofs OctreeSpec OctreeGeom OctreeModel FindNeighbors
  MarkerProofs MarkerLoop ApplyProofs MeshSpec GhostProofs GhostExchange AdaptProofs BalanceLists BalanceProofs BalanceMain LevelShift.

(** * Bit interleaving and order *)
Fixpoint inter (b : Z) (n : nat) (x y : Z) : Z :=
  match n with O => 0 | S n => x mod 2 + 2 * (y mod 2) + b * inter b n (x / 2) (y / 2) end.
Lemma inter8 n x y : interleave n x y 0 = inter 8 n x y.
Proof. revert x y. induction n as [|n IH]; intros x y; [reflexivity|]. cbn [interleave inter]. rewrite Zmod_0_l, Zdiv_0_l, IH. lia. Qed.
Lemma mod2 x : 0 <= x mod 2 <= 1.
Proof. pose proof (Z.mod_pos_bound x 2 ltac:(lia)). lia. Qed.
Lemma inter_order b b' : 4 <= b -> 4 <= b' -> forall n x y x' y', inter b n x y < inter b n x' y' <-> inter b' n x y < inter b' n x' y'.
Proof.
  intros Hb Hb'. induction n as [|n IH]; intros x y x' y'; [cbn; lia|]. cbn [inter].
  pose proof (IH (x/2) (y/2) (x'/2) (y'/2)) as I1. pose proof (IH (x'/2) (y'/2) (x/2) (y/2)) as I2.
  pose proof (mod2 x). pose proof (mod2 y). pose proof (mod2 x'). pose proof (mod2 y').
  set (q := inter b n (x/2) (y/2)) in *. set (q' := inter b n (x'/2) (y'/2)) in *.
  set (r := inter b' n (x/2) (y/2)) in *. set (r' := inter b' n (x'/2) (y'/2)) in *.
  set (u := x mod 2 + 2 * (y mod 2)). set (u' := x' mod 2 + 2 * (y' mod 2)).
  assert (0 <= u <= 3) by lia. assert (0 <= u' <= 3) by lia. clearbody q q' r r' u u'.
  destruct (Z.lt_trichotomy q q') as [T|[T|T]].
  - pose proof (proj1 I1 T). nia.
  - assert (r = r') by lia. subst. lia.
  - pose proof (proj1 I2 T). nia.
Qed.

Fixpoint sp (n : nat) (x : Z) : Z := match n with O => 0 | S n => x mod 2 + 8 * sp n (x / 2) end.
Lemma interleave_sp n : forall x y z, interleave n x y z = sp n x + 2 * sp n y + 4 * sp n z.
Proof. induction n as [|n IH]; intros x y z; [reflexivity|]. cbn [interleave sp]. rewrite IH. lia. Qed.
Lemma sp_mono n : forall x x', 0 <= x -> x' < 2^Z.of_nat n -> (x < x' -> sp n x < sp n x') .
Proof.
  induction n as [|n IH]; intros x x' H0 H1 H; [cbn in H1; lia|]. cbn [sp].
  rewrite Nat2Z.inj_succ, Z.pow_succ_r in H1 by lia.
  pose proof (mod2 x). pose proof (mod2 x'). pose proof (Z.div_mod x 2 ltac:(lia)). pose proof (Z.div_mod x' 2 ltac:(lia)).
  destruct (Z.eq_dec (x/2) (x'/2)) as [E|E]; [rewrite E; lia|].
  specialize (IH (x/2) (x'/2) ltac:(apply Z.div_pos; lia)). assert (x'/2 < 2^Z.of_nat n) by (apply Z.div_lt_upper_bound; lia). lia.
Qed.
Lemma interleave_mono n x y z x' y' z' : 0 <= x <= x' -> 0 <= y <= y' -> 0 <= z <= z' ->
  x' < 2^Z.of_nat n -> y' < 2^Z.of_nat n -> z' < 2^Z.of_nat n -> interleave n x y z <= interleave n x' y' z'.
Proof.
  intros Hx Hy Hz Bx By Bz. rewrite !interleave_sp.
  assert (W : forall u u', 0 <= u <= u' -> u' < 2^Z.of_nat n -> sp n u <= sp n u').
  { intros u u' Hu Hu'. destruct (Z.eq_dec u u') as [->|]; [lia|]. pose proof (sp_mono n u u'). lia. }
  pose proof (W x x' Hx Bx). pose proof (W y y' Hy By). pose proof (W z z' Hz Bz). lia.
Qed.

(** 2D keys *)
Lemma morton2_div x y : 0 <= x < 2^32 -> 0 <= y < 2^32 -> morton2 x y / 4 = morton2 (x/2) (y/2).
Proof.
  intros Hx Hy. change 4 with (2^2). rewrite <- Z.shiftr_div_pow2 by lia. apply Z.bits_inj'. intros n Hn.
  assert (forall u, 0 <= u < 2^32 -> 0 <= u/2 < 2^32) as Hh.
  { intros u Hu. split; [apply Z.div_pos; lia|]. apply Z.div_lt_upper_bound; lia. }
  rewrite Z.shiftr_spec by lia. rewrite !morton2_testbit by (auto; lia).
  replace ((n + 2) mod 2) with (n mod 2) by (rewrite <- (Z.mod_add n 1 2) by lia; f_equal; lia).
  replace ((n + 2) / 2) with (n / 2 + 1) by (rewrite <- (Z.div_add n 1 2) by lia; f_equal; lia).
  assert (0 <= n / 2) by (apply Z.div_pos; lia).
  assert (E : forall u, 0 <= u < 2^32 -> Z.testbit (u/2) (n/2) = Z.testbit u (n/2+1)).
  { intros u Hu. change (u/2) with (u/2^1). rewrite <- Z.shiftr_div_pow2, Z.shiftr_spec by lia. reflexivity. }
  unfold sel2. destruct (Z.ltb_spec (n+2) 64); destruct (Z.ltb_spec n 64); try lia.
  - destruct (n mod 2 =? 0); rewrite E; auto.
  - pose proof (Z.div_mod n 2 ltac:(lia)). pose proof (mod2 n).
    assert (n/2 + 1 = 32 \/ n / 2 + 1 = 31) by lia.
    destruct (n mod 2 =? 0); rewrite E by auto; symmetry; apply (testbit_small _ 32); lia.
Qed.
Lemma morton2_mod x y : 0 <= x < 2^32 -> 0 <= y < 2^32 -> morton2 x y mod 4 = x mod 2 + 2 * (y mod 2).
Proof.
  intros Hx Hy. pose proof (morton2_testbit x y 0 Hx Hy ltac:(lia)) as B0. pose proof (morton2_testbit x y 1 Hx Hy ltac:(lia)) as B1.
  change (0 <? 64) with true in B0. change (1 <? 64) with true in B1. change (0 mod 2) with 0 in B0. change (0/2) with 0 in B0.
  change (1 mod 2) with 1 in B1. change (1/2) with 0 in B1. unfold sel2 in *. cbn [Z.eqb] in B0, B1.
  set (m := morton2 x y) in *. clearbody m.
  assert (Em : m mod 4 = m mod 2 + 2 * ((m / 2) mod 2)).
  { change 4 with (2*2). rewrite Z.rem_mul_r by lia. reflexivity. }
  rewrite Em. rewrite <- !Z.bit0_mod. replace (Z.testbit (m/2) 0) with (Z.testbit m 1).
  - rewrite B0, B1. reflexivity.
  - change (m/2) with (m/2^1). rewrite <- Z.shiftr_div_pow2, Z.shiftr_spec by lia. reflexivity.
Qed.
Lemma inter4 n : forall x y, 0 <= x < 2^Z.of_nat n -> 0 <= y < 2^Z.of_nat n -> (n <= 32)%nat -> inter 4 n x y = morton2 x y.
Proof.
  induction n as [|n IH]; intros x y Hx Hy Hn; [cbn in Hx, Hy; assert (x = 0) as -> by lia; assert (y = 0) as -> by lia; reflexivity|].
  cbn [inter]. assert (H32 : 2^Z.of_nat (S n) <= 2^32) by (apply Z.pow_le_mono_r; lia).
  rewrite Nat2Z.inj_succ, Z.pow_succ_r in Hx, Hy by lia.
  rewrite IH; [|split; [apply Z.div_pos; lia|apply Z.div_lt_upper_bound; lia]..|lia].
  rewrite Nat2Z.inj_succ, Z.pow_succ_r in H32 by lia.
  rewrite <- morton2_div, <- morton2_mod by lia. pose proof (Z.div_mod (morton2 x y) 4 ltac:(lia)). lia.
Qed.
Lemma morton2_bound x y k : 0 <= k <= 32 -> 0 <= x < 2^k -> 0 <= y < 2^k -> 0 <= morton2 x y < 2^(2*k).
Proof.
  intros Hk Hx Hy. pose proof (Z.pow_le_mono_r 2 k 32 ltac:(lia) ltac:(lia)) as HP.
  split; [apply morton2_nonneg|]. apply bits_lt_pow2; [apply morton2_nonneg|lia|]. intros n Hn.
  rewrite morton2_testbit by lia. destruct (n <? 64); [|reflexivity]. assert (k <= n/2) by (apply Z.div_le_lower_bound; lia).
  unfold sel2. destruct (n mod 2 =? 0); apply (testbit_small _ k); lia.
Qed.
Lemma extract2_range c m k : 0 <= c < 2 -> 0 <= k <= 32 -> 0 <= m < 2^(2*k) -> 0 <= extract2 c m < 2^k.
Proof.
  intros Hc Hk Hm. assert (0 <= extract2 c m) by (unfold extract2; apply Z.land_nonneg; right; lia). split; [assumption|].
  pose proof (Z.pow_le_mono_r 2 (2*k) 64 ltac:(lia) ltac:(lia)).
  apply bits_lt_pow2; [assumption|lia|]. intros n Hn. rewrite extract2_testbit by lia. destruct (n <? 32); [|reflexivity].
  apply (testbit_small m (2*k)); lia.
Qed.
Lemma extract3_range c m k : 0 <= c < 3 -> 0 <= k <= 21 -> 0 <= m < 2^(3*k) -> 0 <= extract3 c m < 2^k.
Proof.
  intros Hc Hk Hm. assert (0 <= extract3 c m) by (unfold extract3; apply Z.land_nonneg; right; lia). split; [assumption|].
  pose proof (Z.pow_le_mono_r 2 (3*k) 63 ltac:(lia) ltac:(lia)). change (2^63) with 9223372036854775808 in *.
  apply bits_lt_pow2; [assumption|lia|]. intros n Hn. rewrite extract3_testbit; [|lia| |lia]. 2:{ change (2^64) with 18446744073709551616. lia. } destruct (n <? 21); [|reflexivity].
  apply (testbit_small m (3*k)); lia.
Qed.
Lemma morton3_extract m : 0 <= m < 2^63 -> morton3 (extract3 0 m) (extract3 1 m) (extract3 2 m) = m.
Proof.
  intros Hm. assert (Hm' : 0 <= m < 2^(3*21)) by exact Hm.
  pose proof (extract3_range 0 m 21 ltac:(lia) ltac:(lia) Hm'). pose proof (extract3_range 1 m 21 ltac:(lia) ltac:(lia) Hm').
  pose proof (extract3_range 2 m 21 ltac:(lia) ltac:(lia) Hm').
  assert (Hm64 : 0 <= m < 2^64) by (change (2^64) with 18446744073709551616; change (2^63) with 9223372036854775808 in Hm; lia).
  apply Z.bits_inj'. intros n Hn. rewrite morton3_testbit by assumption. unfold sel3.
  pose proof (Z.div_mod n 3 ltac:(lia)). pose proof (Z.mod_pos_bound n 3 ltac:(lia)). assert (0 <= n / 3) by (apply Z.div_pos; lia).
  destruct (Z.ltb_spec n 63) as [H63|H63].
  - destruct (Z.eqb_spec (n mod 3) 0); [|destruct (Z.eqb_spec (n mod 3) 1)];
      rewrite extract3_testbit by lia; (destruct (Z.ltb_spec (n/3) 21); [f_equal; lia|lia]).
  - rewrite (testbit_small m 63) by lia.
    destruct (Z.eqb_spec (n mod 3) 0); [|destruct (Z.eqb_spec (n mod 3) 1)];
      rewrite extract3_testbit by lia; (destruct (Z.ltb_spec (n/3) 21); [lia|reflexivity]).
Qed.
Lemma morton2_extract m : 0 <= m < 2^64 -> morton2 (extract2 0 m) (extract2 1 m) = m.
Proof.
  intros Hm. assert (Hm' : 0 <= m < 2^(2*32)) by exact Hm.
  pose proof (extract2_range 0 m 32 ltac:(lia) ltac:(lia) Hm'). pose proof (extract2_range 1 m 32 ltac:(lia) ltac:(lia) Hm').
  apply Z.bits_inj'. intros n Hn. rewrite morton2_testbit by assumption. unfold sel2.
  pose proof (Z.div_mod n 2 ltac:(lia)). pose proof (mod2 n). assert (0 <= n / 2) by (apply Z.div_pos; lia).
  destruct (Z.ltb_spec n 64) as [H64|H64].
  - destruct (Z.eqb_spec (n mod 2) 0); rewrite extract2_testbit by lia; (destruct (Z.ltb_spec (n/2) 32); [f_equal; lia|lia]).
  - symmetry. apply (testbit_small m 64); lia.
Qed.

Lemma order_2D_3D n x y x' y' : (n <= 21)%nat -> 0 <= x < 2^Z.of_nat n -> 0 <= y < 2^Z.of_nat n -> 0 <= x' < 2^Z.of_nat n -> 0 <= y' < 2^Z.of_nat n ->
  morton2 x y < morton2 x' y' -> morton3 x y 0 < morton3 x' y' 0.
Proof.
  intros Hn Hx Hy Hx' Hy' H. assert (0 < 2^Z.of_nat n) by (apply pow2_pos; lia).
  rewrite <- !(interleave_morton3 n) by (assumption || lia). rewrite !inter8.
  apply (inter_order 4 8); [lia|lia|]. rewrite !inter4 by (assumption || lia). exact H.
Qed.

(** * Lists of integers *)
Lemma zrange_split a b c : a <= b <= c -> zrange a c = zrange a b ++ zrange b c.
Proof.
  intros H. unfold zrange. replace (Z.to_nat (c - a)) with (Z.to_nat (b - a) + Z.to_nat (c - b))%nat by lia.
  rewrite seq_app, map_app. f_equal. cbn [Nat.add].
  assert (G : forall n s, map (fun i => a + Z.of_nat i) (seq (Z.to_nat (b - a) + s) n) = map (fun i => b + Z.of_nat i) (seq s n)).
  { induction n as [|n IH]; intros s; [reflexivity|]. cbn [seq map]. f_equal; [lia|]. rewrite <- IH. f_equal. f_equal. lia. }
  specialize (G (Z.to_nat (c - b)) O). rewrite Nat.add_0_r in G. exact G.
Qed.
Lemma zrange_sorted a b : StronglySorted Z.lt (zrange a b).
Proof.
  unfold zrange. generalize (Z.to_nat (b - a)) as n. intros n. generalize O as s. induction n as [|n IH]; intros s; [constructor|].
  cbn [seq map]. constructor; [apply IH|]. rewrite Forall_forall. intros y Hy. apply in_map_iff in Hy. destruct Hy as (i & <- & Hi). apply in_seq in Hi. lia.
Qed.
Lemma SS_filter {A} (R : A -> A -> Prop) f l : StronglySorted R l -> StronglySorted R (filter f l).
Proof.
  induction 1 as [|x l S IH F]; [constructor|]. cbn [filter]. destruct (f x); [|exact IH]. constructor; [exact IH|].
  rewrite Forall_forall in *. intros y Hy. apply filter_In in Hy. apply F, Hy.
Qed.
Lemma zrange_length a b : a <= b -> Z.of_nat (length (zrange a b)) = b - a.
Proof. intros H. unfold zrange. rewrite map_length, seq_length. lia. Qed.

Section Cells.
Variables (f : Z -> bool) (B : Z).
Hypothesis HB : 0 <= B.
Let cells := filter f (zrange 0 B).
Lemma cells_pos a x : nth_error cells a = Some x -> 0 <= x < B /\ length (filter f (zrange 0 x)) = a.
Proof.
  intros H. pose proof (nth_error_In _ _ H) as Hin. unfold cells in Hin. apply filter_In in Hin. destruct Hin as [Hin Hf]. apply in_zrange in Hin.
  split; [exact Hin|]. pose proof H as H'. unfold cells in H'.
  rewrite (zrange_split 0 x B) in H' by lia. rewrite filter_app in H'.
  set (l1 := filter f (zrange 0 x)) in *. destruct (Nat.lt_trichotomy a (length l1)) as [C|[C|C]]; [|auto|].
  - exfalso. rewrite nth_error_app1 in H' by exact C. apply nth_error_In in H'. unfold l1 in H'. apply filter_In in H'. destruct H' as [H' _]. apply in_zrange in H'. lia.
  - exfalso. rewrite nth_error_app2 in H' by lia. rewrite (zrange_split x (x+1) B) in H' by lia. rewrite filter_app in H'.
    assert (E1 : zrange x (x+1) = [x]) by (unfold zrange; replace (Z.to_nat (x+1-x)) with 1%nat by lia; cbn; f_equal; lia).
    rewrite E1 in H'. cbn [filter] in H'. rewrite Hf in H'. destruct (a - length l1)%nat as [|k] eqn:E; [lia|]. cbn [app nth_error] in H'.
    apply nth_error_In, filter_In in H'. destruct H' as [H' _]. apply in_zrange in H'. lia.
Qed.
Lemma cells_slice a b x y : (a <= b)%nat -> nth_error cells a = Some x -> (nth_error cells b = Some y \/ (b = length cells /\ y = B)) ->
  x <= y /\ filter f (zrange x y) = sl a b cells.
Proof.
  intros Hab Hx Hy. destruct (cells_pos a x Hx) as [Rx Lx].
  assert (Ly : 0 <= y <= B /\ length (filter f (zrange 0 y)) = b).
  { destruct Hy as [Hy|[-> ->]]; [destruct (cells_pos b y Hy); split; [lia|assumption]|]. split; [lia|reflexivity]. }
  destruct Ly as [Ry Ly].
  assert (Hxy : x <= y).
  { destruct (Z.le_gt_cases x y); [assumption|]. exfalso. rewrite (zrange_split 0 y x) in Lx by lia. rewrite filter_app, app_length in Lx.
    assert (Eab : a = b) by lia. destruct Hy as [Hy|[Hy _]]; [rewrite <- Eab, Hx in Hy; injection Hy; lia|].
    assert (a < length cells)%nat by (apply nth_error_Some; congruence). lia. }
  split; [exact Hxy|].
  unfold sl, cells. rewrite (zrange_split 0 x B), (zrange_split x y B), !filter_app by lia.
  rewrite (zrange_split 0 x y), filter_app, app_length in Ly by lia.
  rewrite skipn_app, Lx, Nat.sub_diag. rewrite skipn_all2 by lia. cbn [skipn app].
  rewrite firstn_app. replace (b - a)%nat with (length (filter f (zrange x y))) by lia. rewrite Nat.sub_diag, firstn_all. cbn [firstn]. rewrite app_nil_r. reflexivity.
Qed.
End Cells.

(** * The coarse mesh *)
Section Init.
Variable g : geom.
Hypothesis WF : wf_geom g.
Variable P : nat.
Hypothesis HP1 : (1 <= P)%nat.
Hypothesis HPN : Z.of_nat P <= gsx g * gsy g * gsz g.
Hypothesis H32 : gsx g * gsy g * gsz g < 2^32.

Let T := gsx g * gsy g * gsz g.
Let l := lmin g.

Lemma gs_facts : 1 <= gsx g <= 2^l /\ 1 <= gsy g <= 2^l /\ 1 <= gsz g <= 2^l /\ 0 <= l <= 20 /\ (g3d g = false -> gsz g = 1).
Proof. destruct WF as (A & B & C & D & E). pose proof (D AX). pose proof (D AY). pose proof (D AZ). cbn [gsize] in *. unfold l. repeat split; auto; lia. Qed.
Lemma total_eq : coarse_total g = T.
Proof.
  pose proof gs_facts as (X & Y & Z' & _). unfold coarse_total.
  rewrite (u32_small (gsx g * gsy g)) by (split; nia). apply u32_small. unfold T in *. nia.
Qed.

Definition dimbits : Z := if g3d g then 3 else 2.
(** Coarse key of a coarse cell, in the order of the dimension. *)
Definition ck (o : oct) : Z := if g3d g then morton3 (cx o) (cy o) (cz o) else morton2 (cx o) (cy o).

Lemma decode m : 0 <= m < 2^(dimbits * 21) -> ck (coarse_oct g m) = m /\ lev (coarse_oct g m) = l /\
  (forall a, 0 <= coord (coarse_oct g m) a < 2^21) /\ to_3D g m = mk (coarse_oct g m) /\ (g3d g = false -> cz (coarse_oct g m) = 0).
Proof.
  unfold dimbits, ck, coarse_oct, to_3D, mk. destruct (g3d g); intros Hm; cbn [cx cy cz lev].
  - rewrite morton3_extract by exact Hm. repeat split; try reflexivity; try discriminate.
    all: destruct a; cbn [coord cx cy cz]; apply (extract3_range _ m 21); lia.
  - assert (Hm' : 0 <= m < 2^64) by (change (2^(2*21)) with 4398046511104 in Hm; change (2^64) with 18446744073709551616; lia).
    rewrite morton2_extract by exact Hm'. repeat split; try reflexivity.
    all: destruct a; cbn [coord cx cy cz]; try lia; apply (extract2_range _ m 21); lia.
Qed.

Definition in_grid (o : oct) : Prop := lev o = l /\ forall a, 0 <= coord o a < gsize g a.
Lemma grid_bits o : in_grid o -> forall a, 0 <= coord o a < 2^l.
Proof. intros [_ H] a. specialize (H a). pose proof (wf_gs g WF a). unfold l. lia. Qed.
Lemma pow_l32 : 2^l <= 2^20.
Proof. pose proof gs_facts as (_ & _ & _ & Hl & _). apply Z.pow_le_mono_r; lia. Qed.
Lemma grid_small o : in_grid o -> forall a, 0 <= coord o a < 2^20.
Proof. intros H a. pose proof (grid_bits o H a). pose proof pow_l32. lia. Qed.
Lemma encode o : in_grid o -> coarse_oct g (ck o) = o.
Proof.
  intros H. pose proof (grid_small o H) as S. pose proof (S AX) as SX. pose proof (S AY) as SY. pose proof (S AZ) as SZ.
  cbn [coord] in SX, SY, SZ. change (2^20) with 1048576 in *.
  destruct o as [lv x y z]. destruct H as [Hl Hc]. cbn [lev cx cy cz] in *. unfold coarse_oct, ck. cbn [cx cy cz]. fold l.
  destruct (g3d g) eqn:D.
  - rewrite !extract3_key by lia. unfold sel3. cbn [Z.eqb Pos.eqb]. rewrite !Z.mod_small by lia. congruence.
  - rewrite !extract2_key by lia. unfold sel2. cbn [Z.eqb Pos.eqb]. specialize (Hc AZ). cbn [coord cz gsize] in Hc.
    assert (gsz g = 1) by (apply gs_facts, D). assert (z = 0) by lia. congruence.
Qed.
Lemma ck_bound o : in_grid o -> 0 <= ck o < 2^(dimbits * l).
Proof.
  intros H. pose proof (grid_bits o H) as S. pose proof (S AX) as SX. pose proof (S AY) as SY. pose proof (S AZ) as SZ. cbn [coord] in *.
  pose proof gs_facts as (_ & _ & _ & Hl & _). unfold ck, dimbits. destruct (g3d g).
  - apply morton3_bound; lia.
  - apply morton2_bound; lia.
Qed.
Lemma in_coarse_spec m : 0 <= m < 2^(dimbits * 21) -> (in_coarse g (coarse_oct g m) = true <-> in_grid (coarse_oct g m)).
Proof.
  intros Hm. destruct (decode m Hm) as (_ & Hl & Hc & _). unfold in_coarse, in_grid.
  pose proof (Hc AX) as CX. pose proof (Hc AY) as CY. pose proof (Hc AZ) as CZ. cbn [coord] in *. split.
  - intros H. split; [exact Hl|]. intros a. destruct a; cbn [coord gsize]; lia.
  - intros [_ H]. pose proof (H AX) as A1. pose proof (H AY) as A2. pose proof (H AZ) as A3. cbn [coord gsize] in *. lia.
Qed.

Lemma pow_dim : 2^(dimbits * l) < 2^(dimbits * 21).
Proof. pose proof gs_facts as (_ & _ & _ & Hl & _). apply Z.pow_lt_mono_r; unfold dimbits; destruct (g3d g); lia. Qed.
Lemma full_total : is_full_cube g = true -> T = 2^(dimbits * l).
Proof.
  intros H. unfold is_full_cube in H. pose proof gs_facts as (_ & _ & _ & Hl & Hz). fold l in H. unfold T, dimbits. destruct (g3d g).
  - cbn [negb] in H. rewrite orb_false_r in H. assert (gsx g = 2^l) as -> by lia. assert (gsy g = 2^l) as -> by lia. assert (gsz g = 2^l) as -> by lia.
    rewrite <- !Z.pow_add_r by lia. f_equal. lia.
  - assert (gsx g = 2^l) as -> by lia. assert (gsy g = 2^l) as -> by lia. rewrite Hz by reflexivity. rewrite Z.mul_1_r, <- Z.pow_add_r by lia. f_equal. lia.
Qed.
Lemma top_cell : in_grid (mkOct l (gsx g - 1) (gsy g - 1) (gsz g - 1)).
Proof. pose proof gs_facts as (X & Y & Z' & _). split; [reflexivity|]. intros [| |]; cbn [coord gsize cx cy cz]; lia. Qed.
Lemma cmm_eq : coarse_morton_max g = ck (mkOct l (gsx g - 1) (gsy g - 1) (gsz g - 1)) + 1.
Proof. unfold coarse_morton_max, ck. cbn [cx cy cz]. destruct (g3d g); reflexivity. Qed.
Let B := if is_full_cube g then T else coarse_morton_max g.
Lemma B_bound : 0 < B <= 2^(dimbits * l).
Proof.
  unfold B. case_eq (is_full_cube g); intros E.
  - rewrite full_total by exact E. split; [|lia]. apply pow2_pos. pose proof gs_facts as (_ & _ & _ & Hl & _). unfold dimbits; destruct (g3d g); lia.
  - rewrite cmm_eq. pose proof (ck_bound _ top_cell). lia.
Qed.
Lemma pow2_21 : 2^Z.of_nat 21 = 2^21. Proof. reflexivity. Qed.
Lemma ck_B o : in_grid o -> 0 <= ck o < B.
Proof.
  intros H. pose proof (ck_bound o H) as Hb. unfold B. case_eq (is_full_cube g); intros E; [rewrite full_total by exact E; exact Hb|].
  split; [lia|]. rewrite cmm_eq. enough (ck o <= ck (mkOct l (gsx g - 1) (gsy g - 1) (gsz g - 1))) by lia.
  pose proof (grid_small o H) as S. pose proof (S AX) as SX. pose proof (S AY) as SY. pose proof (S AZ) as SZ.
  pose proof (grid_small _ top_cell) as U. pose proof (U AX) as UX. pose proof (U AY) as UY. pose proof (U AZ) as UZ.
  destruct H as [_ H]. pose proof (H AX) as HX. pose proof (H AY) as HY. pose proof (H AZ) as HZ. cbn [coord gsize cx cy cz] in *.
  change (2^20) with 1048576 in *. unfold ck. cbn [cx cy cz]. destruct (g3d g) eqn:D.
  - rewrite <- !(interleave_morton3 21) by (rewrite ?pow2_21; lia || (change (2^21) with 2097152; lia)).
    apply interleave_mono; rewrite ?pow2_21; try lia; change (2^21) with 2097152; lia.
  - rewrite <- !(inter4 21) by (rewrite ?pow2_21; lia || (change (2^21) with 2097152; lia)).
    destruct (Z.le_gt_cases (inter 4 21 (cx o) (cy o)) (inter 4 21 (gsx g - 1) (gsy g - 1))) as [Q|Q]; [exact Q|exfalso].
    apply (inter_order 4 8) in Q; [|lia|lia]. rewrite <- !inter8 in Q.
    pose proof (interleave_mono 21 (cx o) (cy o) 0 (gsx g - 1) (gsy g - 1) 0) as M.
    rewrite pow2_21 in M. change (2^21) with 2097152 in M. lia.
Qed.

Let f := fun m => in_coarse g (coarse_oct g m).
Let cells := filter f (zrange 0 B).
Let C := map (coarse_oct g) cells.

Lemma in_cells m : In m cells <-> 0 <= m < B /\ in_grid (coarse_oct g m).
Proof.
  unfold cells. rewrite filter_In, in_zrange. pose proof B_bound. pose proof pow_dim. unfold f. split.
  - intros [Hm Hf]. split; [exact Hm|]. apply in_coarse_spec; [lia|exact Hf].
  - intros [Hm Hg]. split; [exact Hm|]. apply in_coarse_spec; [lia|exact Hg].
Qed.
Lemma in_C o : In o C <-> in_grid o.
Proof.
  unfold C. rewrite in_map_iff. split.
  - intros (m & <- & Hm). apply in_cells in Hm. apply Hm.
  - intros H. exists (ck o). split; [apply encode, H|]. apply in_cells. rewrite encode by exact H. split; [apply ck_B, H|exact H].
Qed.
Lemma decode_B m : 0 <= m < B -> 0 <= m < 2^(dimbits * 21).
Proof. pose proof B_bound. pose proof pow_dim. lia. Qed.
(** Keys of the dimension and 3D keys are in the same order. *)
Lemma to3D_lt m m' : 0 <= m -> m < m' -> m' < 2^(dimbits * 21) -> to_3D g m < to_3D g m'.
Proof.
  intros H0 H1 H2. destruct (decode m ltac:(lia)) as (E1 & _ & R1 & _). destruct (decode m' ltac:(lia)) as (E2 & _ & R2 & _).
  unfold to_3D. unfold ck, coarse_oct in *. destruct (g3d g) eqn:D; [exact H1|].
  pose proof (R1 AX) as X1. pose proof (R1 AY) as Y1. pose proof (R2 AX) as X2. pose proof (R2 AY) as Y2. cbn [coord cx cy cz] in *.
  clear - H1 E1 E2 X1 Y1 X2 Y2. rewrite <- pow2_21 in *. rewrite <- E1, <- E2 in H1. revert X1 Y1 X2 Y2 H1.
  generalize (extract2 0 m) (extract2 1 m) (extract2 0 m') (extract2 1 m'). intros. apply (order_2D_3D 21); auto.
Qed.
Lemma cells_sorted : StronglySorted Z.lt cells.
Proof. apply SS_filter, zrange_sorted. Qed.

Let gk := with_lmax g l.
Lemma HK : lmin g <= l <= lmax g. Proof. pose proof (wf_minmax g WF). unfold l. lia. Qed.
Lemma WFk : wf_geom gk. Proof. apply wf_with; [exact WF|apply HK]. Qed.
Lemma grid_valid o : in_grid o <-> valid gk o.
Proof.
  unfold in_grid, valid. cbn [lmin lmax gk with_lmax]. fold l.
  assert (E : lev o = l -> forall a, ncell gk a (lev o) = gsize g a).
  { intros -> a. unfold ncell. cbn [lmin gk with_lmax]. fold l. rewrite Z.sub_diag. change (2^0) with 1. rewrite Z.mul_1_r.
    change (flat gk a) with (flat g a). change (gsize gk a) with (gsize g a). destruct (flat g a) eqn:F; [|reflexivity].
    destruct a; try discriminate. cbn [flat] in F. cbn [gsize]. symmetry. apply gs_facts. destruct (g3d g); [discriminate|reflexivity]. }
  split.
  - intros [Hl Hc]. split; [lia|]. intros a. rewrite E by exact Hl. apply Hc.
  - intros [Hl Hc]. assert (Hl' : lev o = l) by lia. split; [exact Hl'|]. intros a. rewrite <- E by exact Hl'. apply Hc.
Qed.
Lemma C_key m : In m cells -> zkey gk (coarse_oct g m) = to_3D g m.
Proof.
  intros Hm. apply in_cells in Hm. destruct Hm as [Hm Hg]. pose proof (proj1 (grid_valid _) Hg) as HV.
  rewrite (zkey_mk gk WFk _ HV). destruct (decode m (decode_B m Hm)) as (_ & Hl & _ & E & _). rewrite Hl, E. cbn [lmax gk with_lmax].
  rewrite Z.sub_diag. change (2^(3*0)) with 1. apply Z.mul_1_r.
Qed.
Lemma C_tiles : tiles gk C.
Proof.
  apply tiles_intro.
  - unfold C. assert (ND : NoDup cells) by (apply (SS_NoDup (fun x => x)), cells_sorted).
    apply NoDup_nth_error. intros i j Hi E. rewrite !nth_error_map in E. rewrite map_length in Hi.
    destruct (nth_error cells i) as [m|] eqn:Ei; [|apply nth_error_None in Ei; lia].
    destruct (nth_error cells j) as [m'|] eqn:Ej; [|discriminate]. cbn in E. injection E as E.
    apply (proj1 (NoDup_nth_error cells) ND i j Hi). rewrite Ei, Ej. f_equal.
    apply nth_error_In in Ei, Ej. apply in_cells in Ei, Ej.
    destruct (decode m (decode_B m (proj1 Ei))) as (<- & _). destruct (decode m' (decode_B m' (proj1 Ej))) as (<- & _). rewrite E. reflexivity.
  - intros o Ho. apply grid_valid, in_C, Ho.
  - intros p Hp. exists (cell_at gk l p). split; [|apply cell_at_covers]. apply in_C, grid_valid. apply cell_at_valid; [cbn; pose proof HK; lia|exact Hp].
  - intros p o o' Hp Ho Ho' Hc Hc'. apply in_C in Ho, Ho'. apply (covers_same_level gk o o' p Hc Hc'). destruct Ho, Ho'. congruence.
Qed.
Lemma C_balanced : balanced gk C.
Proof. intros A B' HA HB _. apply in_C in HA, HB. destruct HA as [-> _], HB as [-> _]. lia. Qed.
Lemma C_sorted : zsorted gk C.
Proof.
  unfold zsorted, C. assert (G : forall ms, StronglySorted Z.lt ms -> (forall m, In m ms -> In m cells) -> StronglySorted (fun a b => zkey gk a < zkey gk b) (map (coarse_oct g) ms)).
  { induction 1 as [|m ms S IH F]; intros HI; [constructor|]. cbn [map]. constructor; [apply IH; intros; apply HI; right; assumption|].
    rewrite Forall_forall in *. intros o Ho. apply in_map_iff in Ho. destruct Ho as (m' & <- & Hm'). specialize (F m' Hm').
    pose proof (HI m (or_introl eq_refl)) as I1. pose proof (HI m' (or_intror Hm')) as I2. rewrite !C_key by assumption.
    apply in_cells in I1, I2. apply to3D_lt; [lia|exact F|]. apply decode_B; lia. }
  apply G; [apply cells_sorted|auto].
Qed.
Lemma cells_length : Z.of_nat (length cells) = T.
Proof.
  rewrite <- (map_length (coarse_oct g)). fold C.
  set (G := flat_map (fun z => flat_map (fun y => map (fun x => mkOct l x y z) (zrange 0 (gsx g))) (zrange 0 (gsy g))) (zrange 0 (gsz g))).
  pose proof gs_facts as (X & Y & Z' & _).
  assert (PM : Permutation C G).
  { assert (IG : forall o, In o G <-> in_grid o).
    { intros [lv x y z]. unfold G, in_grid. cbn [lev]. split.
      - intros H. apply in_flat_map in H. destruct H as (z0 & Hz & H). apply in_flat_map in H. destruct H as (y0 & Hy & H).
        apply in_map_iff in H. destruct H as (x0 & E & Hx). apply in_zrange in Hx, Hy, Hz. injection E as <- <- <- <-.
        split; [reflexivity|]. intros [| |]; cbn [coord gsize cx cy cz]; assumption.
      - intros [-> H]. pose proof (H AX) as A1. pose proof (H AY) as A2. pose proof (H AZ) as A3. cbn [coord gsize cx cy cz] in *.
        apply in_flat_map. exists z. split; [apply in_zrange, A3|]. apply in_flat_map. exists y. split; [apply in_zrange, A2|].
        apply in_map_iff. exists x. split; [reflexivity|apply in_zrange, A1]. }
    assert (ZN : forall n, NoDup (zrange 0 n)) by (intros n; apply (SS_NoDup (fun x => x)), zrange_sorted).
    assert (FM : forall (A D : Type) (h : A -> list D) ls, NoDup ls -> (forall x, In x ls -> NoDup (h x)) ->
       (forall x y d, In x ls -> In y ls -> In d (h x) -> In d (h y) -> x = y) -> NoDup (flat_map h ls)).
    { clear. induction ls as [|x ls IH]; intros ND H1 H2; [constructor|]. cbn [flat_map]. inversion ND; subst.
      assert (N1 : NoDup (flat_map h ls)) by (apply IH; [assumption|intros; apply H1; right; assumption|intros x0 y d ? ?; apply H2; right; assumption]).
      assert (N2 : NoDup (h x)) by (apply H1; left; reflexivity).
      assert (N3 : forall d, In d (h x) -> ~ In d (flat_map h ls)).
      { intros d Hd Hd2. apply in_flat_map in Hd2. destruct Hd2 as (y & Hy & Hd2). assert (x = y) by (apply (H2 x y d); [left; reflexivity|right; assumption|assumption|assumption]). subst. contradiction. }
      revert N2 N3. generalize (h x) as k. induction k as [|d k IHk]; intros N2 N3; [exact N1|]. cbn [app]. inversion N2; subst. constructor.
      - rewrite in_app_iff. intros [Q|Q]; [contradiction|]. apply (N3 d); [left; reflexivity|exact Q].
      - apply IHk; [assumption|]. intros d' Hd'. apply N3. right. exact Hd'. }
    apply NoDup_Permutation.
    - apply (tiles_NoDup gk), C_tiles.
    - unfold G. apply FM; [apply ZN| |].
      + intros z _. apply FM; [apply ZN| |].
        * intros y _. apply FinFun.Injective_map_NoDup; [|apply ZN]. intros a b E. injection E. auto.
        * intros y y' d _ _ H1 H2. apply in_map_iff in H1, H2. destruct H1 as (a & <- & _), H2 as (b & E & _). injection E. auto.
      + intros z z' d _ _ H1 H2. apply in_flat_map in H1, H2. destruct H1 as (y & _ & H1), H2 as (y' & _ & H2).
        apply in_map_iff in H1, H2. destruct H1 as (a & <- & _), H2 as (b & E & _). injection E. auto.
    - intros o. rewrite in_C, IG. reflexivity. }
  apply Permutation_length in PM. rewrite PM. unfold G.
  assert (FL : forall (A D : Type) (h : A -> list D) ls n, (forall x, In x ls -> length (h x) = n) -> length (flat_map h ls) = (length ls * n)%nat).
  { clear. induction ls as [|x ls IH]; intros n H; [reflexivity|]. cbn [flat_map length]. rewrite app_length, (H x) by (left; reflexivity). rewrite (IH n); [lia|]. intros; apply H; right; assumption. }
  rewrite (FL _ _ _ _ (length (zrange 0 (gsy g)) * length (zrange 0 (gsx g)))%nat).
  - rewrite !Nat2Z.inj_mul, !zrange_length by lia. unfold T. ring.
  - intros z _. apply FL. intros y _. apply map_length.
Qed.

(** Ideal cut positions. *)
Let fi (r : nat) : nat := Z.to_nat (T * Z.of_nat r / Z.of_nat P).
Lemma fi_Z r : init_first g P r = Z.of_nat (fi r).
Proof.
  unfold init_first, fi. rewrite total_eq. rewrite Z2Nat.id; [f_equal; lia|]. apply Z.div_pos; [|lia].
  assert (0 <= T) by (unfold T; lia). apply Z.mul_nonneg_nonneg; lia.
Qed.
Lemma fi_step r : T / Z.of_nat P <= Z.of_nat (fi (S r)) - Z.of_nat (fi r) <= T / Z.of_nat P + 1.
Proof.
  unfold fi. assert (HT : 0 <= T) by (assert (Z.of_nat P <= T) by exact HPN; lia). clearbody T.
  assert (Hp : 0 < Z.of_nat P) by lia.
  rewrite !Z2Nat.id by (apply Z.div_pos; [apply Z.mul_nonneg_nonneg; lia|lia]).
  replace (T * Z.of_nat (S r)) with (T * Z.of_nat r + T) by lia.
  set (x := T * Z.of_nat r). set (d := Z.of_nat P) in *. clearbody x d. clear -Hp.
  pose proof (Z.div_mod x d ltac:(lia)). pose proof (Z.mod_pos_bound x d ltac:(lia)).
  pose proof (Z.div_mod T d ltac:(lia)). pose proof (Z.mod_pos_bound T d ltac:(lia)).
  pose proof (Z.div_mod (x + T) d ltac:(lia)). pose proof (Z.mod_pos_bound (x + T) d ltac:(lia)). nia.
Qed.
Lemma fi_lt r : (fi r < fi (S r))%nat.
Proof.
  unfold fi. assert (HT : Z.of_nat P <= T) by exact HPN. clearbody T.
  assert (0 <= T * Z.of_nat r / Z.of_nat P) by (apply Z.div_pos; [apply Z.mul_nonneg_nonneg; lia|lia]).
  assert (T * Z.of_nat r / Z.of_nat P < T * Z.of_nat (S r) / Z.of_nat P); [|lia].
  apply Z.lt_le_trans with ((T * Z.of_nat r + 1 * Z.of_nat P) / Z.of_nat P).
  - rewrite Z.div_add by lia. lia.
  - apply Z.div_le_mono; lia.
Qed.
Lemma fi_mono r s : (r <= s)%nat -> (fi r <= fi s)%nat.
Proof. induction 1 as [|s H IH]; [lia|]. pose proof (fi_lt s). lia. Qed.
Lemma fi_strict r s : (r < s)%nat -> (fi r < fi s)%nat.
Proof. intros H. pose proof (fi_lt r). pose proof (fi_mono (S r) s H). lia. Qed.
Lemma fi_P : fi P = length cells.
Proof. unfold fi. rewrite Z.div_mul by lia. pose proof cells_length. lia. Qed.
Lemma fi_0 : fi 0 = O.
Proof. unfold fi. rewrite Z.mul_0_r, Zdiv_0_l. reflexivity. Qed.

Let I := init_intervals g P.
Lemma cells_full : is_full_cube g = true -> cells = zrange 0 T.
Proof.
  intros E. unfold cells, B. rewrite E. apply filter_all. intros m Hm. apply in_zrange in Hm. pose proof (full_total E) as HT. rewrite HT in Hm.
  pose proof pow_dim. unfold f. apply in_coarse_spec; [lia|]. destruct (decode m ltac:(lia)) as (_ & Hl & _ & _ & Hz). split; [exact Hl|].
  pose proof gs_facts as (_ & _ & _ & Hll & Hgz). unfold is_full_cube in E. fold l in E. unfold dimbits, coarse_oct in *.
  intros a. destruct (g3d g) eqn:D.
  - cbn [negb] in E. rewrite orb_false_r in E.
    destruct a; cbn [coord gsize cx cy cz]; [assert (gsx g = 2^l) as -> by lia|assert (gsy g = 2^l) as -> by lia|assert (gsz g = 2^l) as -> by lia];
      apply extract3_range; lia.
  - destruct a; cbn [coord gsize cx cy cz]; [assert (gsx g = 2^l) as -> by lia|assert (gsy g = 2^l) as -> by lia|rewrite Hgz by reflexivity; lia];
      apply extract2_range; lia.
Qed.
Lemma I_nth r : (r < P)%nat -> exists m, nth_error cells (fi r) = Some m /\ nth_error I r = Some m.
Proof.
  intros Hr. pose proof (fi_strict r P Hr) as Hf. rewrite fi_P in Hf.
  destruct (nth_error cells (fi r)) as [m|] eqn:E; [|apply nth_error_None in E; lia]. exists m. split; [reflexivity|].
  unfold I, init_intervals. case_eq (is_full_cube g); intros F.
  - rewrite nth_error_map, (nth_error_nth' _ O) by (rewrite seq_length; lia). rewrite seq_nth by lia. cbn [option_map Nat.add].
    fold (init_first g P r). rewrite fi_Z. f_equal. rewrite (cells_full F) in E. unfold zrange in E.
    rewrite nth_error_map, (nth_error_nth' _ O) in E.
    + rewrite seq_nth in E; [cbn in E; injection E; lia|]. rewrite (cells_full F) in Hf. pose proof (zrange_length 0 T). unfold zrange in Hf. rewrite map_length, seq_length in Hf. lia.
    + rewrite (cells_full F) in Hf. unfold zrange in Hf. rewrite map_length in Hf. exact Hf.
  - assert (EB : coarse_morton_max g = B) by (unfold B; rewrite F; reflexivity). rewrite EB. fold f. change (filter _ (zrange 0 B)) with cells.
    rewrite nth_error_app1 by (rewrite map_length, seq_length; exact Hr).
    rewrite nth_error_map, (nth_error_nth' _ O) by (rewrite seq_length; lia). rewrite seq_nth by lia. cbn [option_map Nat.add].
    rewrite fi_Z, Nat2Z.id, E. reflexivity.
Qed.
Lemma I_P : nth_error I P = Some B.
Proof.
  unfold I, init_intervals, B. case_eq (is_full_cube g); intros F.
  - rewrite nth_error_map, (nth_error_nth' _ O) by (rewrite seq_length; lia). rewrite seq_nth by lia. cbn [option_map Nat.add].
    rewrite total_eq. f_equal. rewrite Z.mul_comm. apply Z.div_mul. lia.
  - rewrite nth_error_app2; rewrite map_length, seq_length; [|lia]. rewrite Nat.sub_diag. reflexivity.
Qed.
Lemma I_len : length I = S P.
Proof.
  unfold I, init_intervals. destruct (is_full_cube g); rewrite ?app_length, map_length, seq_length; cbn; lia.
Qed.
Let octs r := map (coarse_oct g) (sl (fi r) (fi (S r)) cells).
Lemma range_slice r : (r < P)%nat -> exists b e, nth_error I r = Some b /\ nth_error I (S r) = Some e /\ b <= e /\ filter f (zrange b e) = sl (fi r) (fi (S r)) cells.
Proof.
  intros Hr. destruct (I_nth r Hr) as (b & Hb1 & Hb2). destruct (Nat.eq_dec (S r) P) as [E|E].
  - exists b, B. split; [exact Hb2|]. rewrite E. split; [apply I_P|].
    apply cells_slice; [pose proof B_bound; lia|rewrite <- E; apply Nat.lt_le_incl, fi_lt|exact Hb1|]. right. split; [apply fi_P|reflexivity].
  - destruct (I_nth (S r) ltac:(lia)) as (e & He1 & He2). exists b, e. split; [exact Hb2|]. split; [exact He2|].
    apply cells_slice; [pose proof B_bound; lia|apply Nat.lt_le_incl, fi_lt|exact Hb1|]. left. exact He1.
Qed.
Lemma fi_le r : (r <= P)%nat -> (fi r <= length cells)%nat.
Proof. intros H. rewrite <- fi_P. apply fi_mono, H. Qed.
Lemma init_local_eq r : (r < P)%nat -> init_local g P I r = Some (octs r).
Proof.
  intros Hr. destruct (range_slice r Hr) as (b & e & Hb & He & _ & E). unfold init_local. rewrite Hb, He. change (filter _ (zrange b e)) with (filter f (zrange b e)).
  rewrite E. fold (octs r). rewrite !fi_Z. unfold octs at 1. rewrite map_length, sl_length by (apply fi_le; lia).
  pose proof (fi_lt r). replace (Z.of_nat (fi (S r) - fi r) =? Z.of_nat (fi (S r)) - Z.of_nat (fi r)) with true by lia. reflexivity.
Qed.
Let locs := map octs (seq 0 P).
Lemma locs_eq : mapM (init_local g P I) (seq 0 P) = Some locs.
Proof. apply mapM_pure. intros r Hr. apply in_seq in Hr. apply init_local_eq. lia. Qed.
Lemma locs_prefix n : (n <= P)%nat -> concat (map octs (seq 0 n)) = map (coarse_oct g) (sl 0 (fi n) cells).
Proof.
  induction n as [|n IH]; intros Hn; [rewrite fi_0; reflexivity|]. rewrite seq_S, map_app, concat_app, IH by lia. cbn [map concat Nat.add]. rewrite app_nil_r.
  unfold octs. rewrite <- map_app. f_equal. apply sl_split; [lia|apply Nat.lt_le_incl, fi_lt].
Qed.
Lemma locs_concat : concat locs = C.
Proof. unfold locs. rewrite locs_prefix by lia. rewrite fi_P. unfold sl, C. cbn [skipn]. rewrite Nat.sub_0_r, firstn_all. reflexivity. Qed.
Lemma locs_len : length locs = P.
Proof. unfold locs. rewrite map_length, seq_length. reflexivity. Qed.
Lemma locs_nth r : (r < P)%nat -> nth_error locs r = Some (octs r).
Proof. intros H. unfold locs. rewrite nth_error_map, (nth_error_nth' _ O) by (rewrite seq_length; lia). rewrite seq_nth by lia. reflexivity. Qed.
Lemma I_sorted : forall i j a b, (i < j)%nat -> nth_error I i = Some a -> nth_error I j = Some b -> 0 <= a < b /\ b <= B.
Proof.
  intros i j a b Hij Ha Hb. assert (Hj : (j < S P)%nat) by (rewrite <- I_len; apply nth_error_Some; congruence).
  destruct (I_nth i ltac:(lia)) as (m & Hm & Hm'). rewrite Ha in Hm'. injection Hm' as <-.
  pose proof (nth_error_In _ _ Hm) as Im. apply in_cells in Im.
  destruct (Nat.eq_dec j P) as [->|Hn]; [rewrite I_P in Hb; injection Hb as <-; lia|].
  destruct (I_nth j ltac:(lia)) as (m' & Hm2 & Hm2'). rewrite Hb in Hm2'. injection Hm2' as <-.
  pose proof (nth_error_In _ _ Hm2) as Im2. apply in_cells in Im2.
  pose proof (SS_nth _ _ cells_sorted _ _ _ _ (fi_strict i j Hij) Hm Hm2). lia.
Qed.
Lemma intervals : intervals_ok gk locs (map (to_3D g) I).
Proof.
  split; [rewrite map_length, I_len, locs_len; reflexivity|]. split.
  - intros i j a b Hij Ha Hb. destruct (Nat.eq_dec i j) as [->|Hn]; [rewrite Ha in Hb; injection Hb as ->; lia|].
    rewrite nth_error_map in Ha, Hb. destruct (nth_error I i) as [m|] eqn:Em; [|discriminate]. destruct (nth_error I j) as [m'|] eqn:Em'; [|discriminate].
    injection Ha as <-. injection Hb as <-. destruct (I_sorted i j m m' ltac:(lia) Em Em') as [H1 H2]. apply Z.lt_le_incl, to3D_lt; [lia|lia|].
    pose proof B_bound. pose proof pow_dim. lia.
  - intros r lo A b e Hl HA Hb He. assert (Hr : (r < P)%nat) by (rewrite <- locs_len; apply nth_error_Some; congruence).
    rewrite locs_nth in Hl by exact Hr. injection Hl as <-. rewrite nth_error_map in Hb, He.
    destruct (range_slice r Hr) as (x & y & Hx & Hy & Hxy & E). rewrite Hx in Hb. rewrite Hy in He. injection Hb as <-. injection He as <-.
    unfold octs in HA. apply in_map_iff in HA. destruct HA as (m & <- & Hm). rewrite <- E in Hm. apply filter_In in Hm. destruct Hm as [Hm Hf]. apply in_zrange in Hm.
    destruct (I_sorted r (S r) x y ltac:(lia) Hx Hy) as [R1 R2]. pose proof B_bound. pose proof pow_dim.
    assert (Hc : In m cells) by (unfold cells; apply filter_In; split; [apply in_zrange; lia|exact Hf]).
    rewrite C_key by exact Hc. destruct (decode m ltac:(lia)) as (_ & -> & _). cbn [lmax gk with_lmax]. rewrite Z.sub_diag. change (2^(3*0)) with 1.
    assert (to_3D g m < to_3D g y) by (apply to3D_lt; lia).
    assert (to_3D g x <= to_3D g m). { destruct (Z.eq_dec x m) as [->|]; [lia|]. apply Z.lt_le_incl, to3D_lt; lia. }
    lia.
Qed.

Variable ord : order.
Hypothesis Hord : ord_ok ord.

Theorem private_init_ok : exists M, private_init ord g P = Some M /\ mesh_ok g M /\ length M = P /\
  (forall o, In o (leaves M) <-> lev o = lmin g /\ forall a, 0 <= coord o a < gsize g a) /\
  (forall R, In R M -> T / Z.of_nat P <= Z.of_nat (length (loc R)) <= T / Z.of_nat P + 1).
Proof.
  unfold private_init. fold I. rewrite locs_eq.
  assert (HT : tiles gk (concat locs)) by (rewrite locs_concat; apply C_tiles).
  assert (HB : balanced gk (concat locs)) by (rewrite locs_concat; apply C_balanced).
  destruct (with_ghosts_spec gk WFk locs (map (to_3D g) I) intervals HT HB ord Hord (map (init_first g P) (seq 0 P)) (coarse_total g))
    as (M & EM & Eloc & Efst & Etot & Hsn & Hmap & Hgh).
  { rewrite map_length, seq_length, locs_len. reflexivity. }
  exists M. split; [exact EM|]. assert (EL : leaves M = C) by (unfold leaves; rewrite Eloc; apply locs_concat).
  assert (HT2 : tiles g C) by (apply (tiles_with g l HK), C_tiles).
  assert (HV : forall o, In o C -> valid gk o) by (intros o Ho; apply grid_valid, in_C, Ho).
  split; [|split; [|split]].
  - constructor; rewrite ?EL.
    + exact HT2.
    + intros X Y HX HY _. apply in_C in HX, HY. destruct HX as [-> _], HY as [-> _]. lia.
    + assert (ZK : forall o, In o C -> zkey g o = zkey gk o * 8^(lmax g - l)).
      { intros o Ho. apply in_C in Ho. destruct Ho as [Hl _]. unfold zkey. rewrite Hl. cbn [lmax gk with_lmax]. rewrite Z.sub_diag. change (8^0) with 1. rewrite Z.mul_1_r. reflexivity. }
      assert (0 < 8^(lmax g - l)) by (pose proof HK; apply Z.pow_pos_nonneg; lia).
      pose proof C_sorted as CS. unfold zsorted in *. revert ZK CS. generalize C as D. clear -H. induction D as [|o D IH]; intros ZK CS; [constructor|].
      inversion CS as [|? ? S1 F1]; subst. constructor; [apply IH; [intros; apply ZK; right; assumption|exact S1]|].
      rewrite Forall_forall in *. intros o' Ho'. rewrite !ZK by (cbn; auto). specialize (F1 o' Ho'). nia.
    + intros R HR. assert (Hin : In (loc R) locs) by (rewrite <- Eloc; apply in_map, HR). unfold locs in Hin. apply in_map_iff in Hin.
      destruct Hin as (r & Er & Hr). apply in_seq in Hr. rewrite <- Er. intros Q. apply (f_equal (@length oct)) in Q. unfold octs in Q.
      rewrite map_length, sl_length in Q by (apply fi_le; lia). cbn in Q. pose proof (fi_lt r). lia.
    + intros R HR. specialize (Hgh R HR). rewrite locs_concat in Hgh. destruct Hgh as [G1 G2]. split; [exact G1|]. intros Y. rewrite G2.
      assert (HinR : forall X, In X (loc R) -> In X C).
      { intros X HX. rewrite <- EL. unfold leaves. apply in_concat. exists (loc R). split; [apply in_map, HR|exact HX]. }
      split; intros (Y1 & Y2 & X & X1 & X2); (split; [exact Y1|split; [exact Y2|exists X; split; [exact X1|]]]).
      * apply (touch_with g WF l HK); [apply HV, HinR, X1|apply HV, Y1|exact X2].
      * apply (touch_with g WF l HK); [apply HV, HinR, X1|apply HV, Y1|exact X2].
    + exact Hsn.
    + exact Hmap.
    + apply numbered_intro; rewrite Eloc.
      * intros R HR. rewrite (Etot R HR), total_eq. unfold total_of. rewrite locs_concat. unfold C. rewrite map_length. symmetry. apply cells_length.
      * rewrite Efst. apply nth_error_ext'. intros i. destruct (Nat.lt_ge_cases i P) as [Hi|Hi].
        -- rewrite nth_error_map, (nth_error_nth' _ O) by (rewrite seq_length; lia). rewrite seq_nth by lia. cbn [option_map Nat.add].
           rewrite (firsts_from_nth _ _ _ _ (locs_nth i Hi)), fi_Z. f_equal. cbn [Z.add]. f_equal.
           unfold locs. rewrite firstn_map. assert (ES : firstn i (seq 0 P) = seq 0 i).
           { replace P with (i + (P - i))%nat by lia. rewrite seq_app, firstn_app, seq_length, Nat.sub_diag. cbn [firstn]. rewrite app_nil_r.
             apply firstn_all2. rewrite seq_length. lia. }
           rewrite ES, locs_prefix by lia. rewrite map_length, sl_length by (apply fi_le; lia). lia.
        -- transitivity (@None Z); [|symmetry]; apply nth_error_None; [rewrite map_length, seq_length; exact Hi|rewrite firsts_from_length, locs_len; exact Hi].
  - rewrite <- (map_length loc), Eloc. apply locs_len.
  - intros o. rewrite EL, in_C. reflexivity.
  - intros R HR. assert (Hin : In (loc R) locs) by (rewrite <- Eloc; apply in_map, HR). unfold locs in Hin. apply in_map_iff in Hin.
    destruct Hin as (r & <- & Hr). apply in_seq in Hr. unfold octs.
    rewrite map_length, sl_length by (apply fi_le; lia). pose proof (fi_lt r). pose proof (fi_step r). lia.
Qed.
End Init.
