(** Tabulated expansion of the universe (C49) and integration (C73). *)
From Coq Require Import QArith Qcanon Field.
From Verif Require Import Base OctreeModel HydroModel HydroSpec HydroProps CosmoModel.
Open Scope Qc_scope.

(** A table of increasing values. *)
Definition increasing (l : list Qc) : Prop :=
  forall i j x y, (i < j)%nat -> nth_error l i = Some x -> nth_error l j = Some y -> x < y.
(** Two neighbouring nodes of the tables [xs], [ys]. *)
Definition segment (xs ys : list Qc) (k : nat) (x0 x1 y0 y1 : Qc) : Prop :=
  nth_error xs k = Some x0 /\ nth_error xs (S k) = Some x1 /\ nth_error ys k = Some y0 /\ nth_error ys (S k) = Some y1.
(** The point (x, y) is on the straight line through two points. *)
Definition on_line (x0 y0 x1 y1 x y : Qc) : Prop := (y - y0) * (x1 - x0) = (x - x0) * (y1 - y0).

(** * The search *)
Section Search.
Variables (l : list Qc) (x : Qc).
Hypothesis INC : increasing l.
Lemma inc_le i j : (i <= j)%nat -> (j < length l)%nat -> nth i l 0 <= nth j l 0.
Proof.
  intros H1 H2. destruct (Nat.eq_dec i j) as [->|H]; [apply Qcle_refl|]. apply Qclt_le_weak.
  apply (INC i j); [lia|apply nth_error_nth'; lia|apply nth_error_nth'; lia].
Qed.
Lemma loop_spec : forall fuel first len, (len <= fuel)%nat -> (first + len <= length l)%nat ->
  (forall k, (k < first)%nat -> nth k l 0 < x) -> (forall k, (first + len <= k)%nat -> (k < length l)%nat -> x <= nth k l 0) ->
  let r := lower_bound_loop fuel l x first len in
  (r <= length l)%nat /\ (forall k, (k < r)%nat -> nth k l 0 < x) /\ (forall k, (r <= k)%nat -> (k < length l)%nat -> x <= nth k l 0).
Proof.
  induction fuel as [|fuel IH]; intros first len H1 H2 LO HI; cbn [lower_bound_loop].
  - assert (len = 0)%nat as -> by lia. rewrite Nat.add_0_r in HI. split; [lia|split; assumption].
  - destruct (Nat.eqb_spec len 0) as [->|NZ]; [rewrite Nat.add_0_r in HI; split; [lia|split; assumption]|].
    assert (HH : (Nat.div2 len < len)%nat) by (apply Nat.lt_div2; lia). set (half := Nat.div2 len) in *.
    destruct (ltb (nth (first + half) l 0) x) eqn:E.
    + apply ltb_spec in E. apply IH; [lia|lia| |intros k K1 K2; apply HI; lia].
      intros k Hk. apply (Qcle_lt_trans _ (nth (first + half) l 0)); [apply inc_le; lia|exact E].
    + apply ltb_false in E. apply IH; [lia|lia|exact LO|]. intros k K1 K2. apply (Qcle_trans _ (nth (first + half) l 0)); [exact E|apply inc_le; lia].
Qed.
Lemma lower_bound_spec : (lower_bound l x <= length l)%nat /\ (forall k, (k < lower_bound l x)%nat -> nth k l 0 < x) /\
  (forall k, (lower_bound l x <= k)%nat -> (k < length l)%nat -> x <= nth k l 0).
Proof. apply loop_spec; [lia|lia|intros k Hk; lia|intros k K1 K2; lia]. Qed.
End Search.

Lemma nth_err {X} (l : list X) k d x : nth_error l k = Some x -> nth k l d = x /\ (k < length l)%nat.
Proof. intros H. split; [apply nth_error_nth; exact H|]. apply nth_error_Some. congruence. Qed.
Lemma lt_contra (x y : Qc) : x < y -> y <= x -> False.
Proof. intros H1 H2. apply (Qclt_not_le _ _ H1 H2). Qed.
Lemma sub_nz' (x y : Qc) : x < y -> y - x <> 0.
Proof. intros H E. assert (y = x) by (rewrite <- (Qcplus_0_l x), <- E; ring). subst. apply (lt_contra x x H), Qcle_refl. Qed.

(** The value of the interpolation in the segment that holds [x]. *)
Lemma lookup_at xs ys k x x0 x1 y0 y1 : increasing xs -> segment xs ys k x0 x1 y0 y1 -> x0 < x -> x <= x1 ->
  lookup_interpolate xs ys x = Some (y0 + (x - x0) / (x1 - x0) * (y1 - y0)).
Proof.
  intros INC (A & B & C & D) H0 H1. destruct (lower_bound_spec xs x INC) as (L1 & L2 & L3).
  destruct (nth_err _ _ 0 _ A) as (A1 & A2). destruct (nth_err _ _ 0 _ B) as (B1 & B2).
  assert (E : lower_bound xs x = S k).
  { destruct (lt_eq_lt_dec (lower_bound xs x) (S k)) as [[H|H]|H]; [|exact H|].
    - exfalso. apply (lt_contra _ _ H0). rewrite <- A1. apply L3; lia.
    - exfalso. apply (lt_contra (nth (S k) xs 0) x); [apply L2; exact H|rewrite B1; exact H1]. }
  unfold lookup_interpolate. rewrite E. unfold vec. replace (Z.of_nat (S k) - 1)%Z with (Z.of_nat k) by lia.
  replace (Z.of_nat k <? 0)%Z with false by (symmetry; apply Z.ltb_ge; lia). replace (Z.of_nat (S k) <? 0)%Z with false by (symmetry; apply Z.ltb_ge; lia).
  rewrite !Nat2Z.id, A, B, C, D. reflexivity.
Qed.
(** Every argument above the first node and not above the last is in a segment. *)
Lemma segment_of xs ys x xf xl : increasing xs -> length ys = length xs -> hd_error xs = Some xf -> nth_error xs (length xs - 1) = Some xl ->
  xf < x -> x <= xl -> exists k x0 x1 y0 y1, segment xs ys k x0 x1 y0 y1 /\ x0 < x /\ x <= x1.
Proof.
  intros INC LEN HF HL H0 H1. destruct (lower_bound_spec xs x INC) as (L1 & L2 & L3). destruct (nth_err _ _ 0 _ HL) as (E1 & E2).
  assert (N0 : nth_error xs 0 = Some xf) by (destruct xs; exact HF). destruct (nth_err _ _ 0 _ N0) as (F1 & F2).
  assert (P0 : lower_bound xs x <> 0%nat). { intro K. apply (lt_contra _ _ H0). rewrite <- F1. apply L3; lia. }
  assert (PL : (lower_bound xs x < length xs)%nat).
  { destruct (Nat.eq_dec (lower_bound xs x) (length xs)) as [K|K]; [|lia]. exfalso. apply (lt_contra (nth (length xs - 1) xs 0) x); [apply L2; lia|rewrite E1; exact H1]. }
  destruct (lower_bound xs x) as [|k] eqn:E; [congruence|].
  exists k, (nth k xs 0), (nth (S k) xs 0), (nth k ys 0), (nth (S k) ys 0).
  split; [repeat split; apply nth_error_nth'; lia|]. split; [apply L2; lia|apply L3; lia].
Qed.
Lemma Qcdiv_le_one (x y : Qc) : 0 < y -> x <= y -> x / y <= 1.
Proof. intros H K. replace 1 with (y / y) by (field; apply Qc_pos_nz; exact H). unfold Qcdiv. apply Qcmult_le_compat_r; [exact K|]. apply Qclt_le_weak. replace (/ y) with (1 / y) by (field; apply Qc_pos_nz; exact H). apply Qcdiv_lt_0; [reflexivity|exact H]. Qed.
Lemma Qclt_sub' (x y : Qc) : x < y -> 0 < y - x.
Proof. intros H. apply Qclt_minus_iff in H. exact H. Qed.
Lemma mix_between t y0 y1 : 0 <= t -> t <= 1 -> between y0 (y0 + t * (y1 - y0)) y1.
Proof.
  intros H0 H1. destruct (Qclt_le_dec y1 y0) as [H|H]; [right|left]; split.
  - apply Qcle_sub. replace (_ - _) with ((1 - t) * (y0 - y1)) by ring. replace 0 with (0 * (y0 - y1)) by ring. apply Qcmult_le_compat_r; [apply Qcle_minus_iff in H1; exact H1|]. apply Qclt_le_weak, Qclt_sub', H.
  - apply Qcle_sub. replace (_ - _) with (t * (y0 - y1)) by ring. replace 0 with (0 * (y0 - y1)) by ring. apply Qcmult_le_compat_r; [exact H0|]. apply Qclt_le_weak, Qclt_sub', H.
  - apply Qcle_sub. replace (_ - _) with (t * (y1 - y0)) by ring. replace 0 with (0 * (y1 - y0)) by ring. apply Qcmult_le_compat_r; [exact H0|]. apply Qcle_minus_iff in H. exact H.
  - apply Qcle_sub. replace (_ - _) with ((1 - t) * (y1 - y0)) by ring. replace 0 with (0 * (y1 - y0)) by ring. apply Qcmult_le_compat_r; [apply Qcle_minus_iff in H1; exact H1|]. apply Qcle_minus_iff in H. exact H.
Qed.

(** C49: above the first node and up to the last, the interpolation gives the point on the line
    between the neighbouring nodes, hence a value between theirs, and the value of the table at
    a node. Missing: the first node. *)
Theorem C49_interpolate_partial xs ys x xf xl : increasing xs -> length ys = length xs ->
  hd_error xs = Some xf -> nth_error xs (length xs - 1) = Some xl -> xf < x -> x <= xl ->
  exists y, lookup_interpolate xs ys x = Some y /\
    (exists k x0 x1 y0 y1, segment xs ys k x0 x1 y0 y1 /\ x0 < x /\ x <= x1 /\ on_line x0 y0 x1 y1 x y /\ between y0 y y1) /\
    (forall k, nth_error xs k = Some x -> nth_error ys k = Some y).
Proof.
  intros INC LEN HF HL H0 H1. destruct (segment_of xs ys x xf xl INC LEN HF HL H0 H1) as (k & x0 & x1 & y0 & y1 & S & A & B).
  assert (D : x0 < x1) by (apply (Qclt_le_trans _ x); assumption). assert (NZ : x1 - x0 <> 0) by (apply sub_nz'; exact D). pose proof (Qclt_sub' _ _ D) as DP.
  eexists. split; [apply (lookup_at xs ys k x x0 x1 y0 y1 INC S A B)|]. split.
  - exists k, x0, x1, y0, y1. split; [exact S|]. split; [exact A|]. split; [exact B|]. split; [unfold on_line; field; exact NZ|].
    apply mix_between; [apply Qclt_le_weak, Qcdiv_lt_0; [apply Qclt_sub', A|exact DP]|apply Qcdiv_le_one; [exact DP|]]. apply Qcle_sub. replace (x1 - x0 - (x - x0)) with (x1 - x) by ring. apply Qcle_minus_iff in B. exact B.
  - intros j Hj. destruct S as (S1 & S2 & S3 & S4). assert (j = Datatypes.S k) as ->.
    { destruct (lt_eq_lt_dec j (Datatypes.S k)) as [[K|K]|K]; [|exact K|].
      - exfalso. destruct (Nat.eq_dec j k) as [->|K']; [rewrite S1 in Hj; injection Hj as ->; apply (lt_contra _ _ A), Qcle_refl|].
        apply (lt_contra _ _ A). apply Qclt_le_weak. apply (INC j k); [lia|exact Hj|exact S1].
      - exfalso. apply (lt_contra x1 x); [apply (INC _ _ _ _ K S2 Hj)|exact B]. }
    rewrite S2 in Hj. injection Hj as ->. rewrite S4. f_equal. field. exact NZ.
Qed.
(** Converting an expansion factor to a time and back gives the same expansion factor. *)
Theorem C49_roundtrip_partial xs ys x xf xl : increasing xs -> increasing ys -> length ys = length xs ->
  hd_error xs = Some xf -> nth_error xs (length xs - 1) = Some xl -> xf < x -> x <= xl ->
  exists y, expansionToTime xs ys x = Some y /\ timeToExpansion xs ys y = Some x.
Proof.
  intros INC INCY LEN HF HL H0 H1. destruct (segment_of xs ys x xf xl INC LEN HF HL H0 H1) as (k & x0 & x1 & y0 & y1 & S & A & B).
  assert (D : x0 < x1) by (apply (Qclt_le_trans _ x); assumption). assert (NZ : x1 - x0 <> 0) by (apply sub_nz'; exact D). pose proof (Qclt_sub' _ _ D) as DP.
  eexists. split; [apply (lookup_at xs ys k x x0 x1 y0 y1 INC S A B)|]. destruct S as (S1 & S2 & S3 & S4).
  assert (DY : y0 < y1) by (apply (INCY k (Datatypes.S k)); [lia|exact S3|exact S4]). assert (NY : y1 - y0 <> 0) by (apply sub_nz'; exact DY). pose proof (Qclt_sub' _ _ DY) as DPY.
  assert (TP : 0 < (x - x0) / (x1 - x0)) by (apply Qcdiv_lt_0; [apply Qclt_sub', A|exact DP]).
  assert (T1 : (x - x0) / (x1 - x0) <= 1). { apply Qcdiv_le_one; [exact DP|]. apply Qcle_sub. replace (x1 - x0 - (x - x0)) with (x1 - x) by ring. apply Qcle_minus_iff in B. exact B. }
  unfold timeToExpansion. rewrite (lookup_at ys xs k _ y0 y1 x0 x1 INCY).
  - f_equal. field. split; assumption.
  - repeat split; assumption.
  - apply Qclt_minus_iff. replace (_ + - y0) with ((x - x0) / (x1 - x0) * (y1 - y0)) by ring. apply Qcmult_lt_0; assumption.
  - apply Qcle_sub. replace (_ - _) with ((1 - (x - x0) / (x1 - x0)) * (y1 - y0)) by ring. replace 0 with (0 * (y1 - y0)) by ring.
    apply Qcmult_le_compat_r; [apply Qcle_minus_iff in T1; exact T1|apply Qclt_le_weak; exact DPY].
Qed.

(** * The first node *)
Lemma below_none xs ys x xf : increasing xs -> hd_error xs = Some xf -> x <= xf -> lookup_interpolate xs ys x = None.
Proof.
  intros INC HF H. destruct (lower_bound_spec xs x INC) as (L1 & L2 & L3). assert (N0 : nth_error xs 0 = Some xf) by (destruct xs; exact HF). destruct (nth_err _ _ 0 _ N0) as (F1 & F2).
  assert (E : lower_bound xs x = 0%nat). { destruct (lower_bound xs x) as [|k]; [reflexivity|]. exfalso. apply (lt_contra (nth 0 xs 0) x); [apply L2; lia|rewrite F1; exact H]. }
  unfold lookup_interpolate. rewrite E. reflexivity.
Qed.
Lemma above_none xs ys x : increasing xs -> (forall z, In z xs -> z < x) -> lookup_interpolate xs ys x = None.
Proof.
  intros INC H. destruct (lower_bound_spec xs x INC) as (L1 & L2 & L3).
  assert (E : lower_bound xs x = length xs). { destruct (Nat.eq_dec (lower_bound xs x) (length xs)) as [K|K]; [exact K|]. exfalso. apply (lt_contra (nth (lower_bound xs x) xs 0) x); [apply H, nth_In; lia|apply L3; lia]. }
  unfold lookup_interpolate. rewrite E. unfold vec. replace (Z.of_nat (length xs) <? 0)%Z with false by (symmetry; apply Z.ltb_ge; lia).
  rewrite Nat2Z.id, (proj2 (nth_error_None xs (length xs))) by lia. destruct (if (_ <? 0)%Z then _ else _); reflexivity.
Qed.

Lemma of_nat_S k : of_nat (S k) = of_nat k + 1.
Proof. apply Qc_is_canon. unfold of_nat. cbn [this Q2Qc Qcplus]. rewrite !Qred_correct. rewrite Nat2Z.inj_succ. unfold Z.succ. rewrite inject_Z_plus. reflexivity. Qed.
Lemma of_nat_lt i j : (i < j)%nat -> of_nat i < of_nat j.
Proof.
  induction 1 as [|j H IH]; rewrite of_nat_S; [|apply (Qclt_trans _ (of_nat j)); [exact IH|]]; apply Qclt_minus_iff;
  [replace (of_nat i + 1 + - of_nat i) with 1 by ring|replace (of_nat j + 1 + - of_nat j) with 1 by ring]; reflexivity.
Qed.
(** The table of expansion factors of a run increases, from [a_start] to a tenth beyond [a_end]. *)
Theorem C49_table a_start a_end size : (2 <= size)%nat -> a_start < a_end * frac11 ->
  increasing (lookup_a a_start a_end size) /\ hd_error (lookup_a a_start a_end size) = Some a_start /\
  length (lookup_a a_start a_end size) = size /\ nth_error (lookup_a a_start a_end size) (size - 1) = Some (a_end * frac11).
Proof.
  intros HS HA. assert (NP : 0 < of_nat (size - 1)) by (apply (of_nat_lt 0 (size - 1)); lia). assert (NZ := Qc_pos_nz _ NP). apply Qclt_sub' in HA.
  unfold lookup_a. cbv zeta. set (d := a_end * frac11 - a_start) in *.
  assert (NE : forall i y, nth_error (map (fun i => a_start + of_nat i * d / of_nat (size - 1)) (seq 0 size)) i = Some y -> y = a_start + of_nat i * d / of_nat (size - 1) /\ (i < size)%nat).
  { intros i y E. assert (Hi : (i < size)%nat) by (rewrite <- (seq_length size 0), <- (map_length (fun i => a_start + of_nat i * d / of_nat (size - 1))); apply nth_error_Some; congruence).
    split; [|exact Hi]. rewrite nth_error_map in E. rewrite (nth_error_nth' _ O) in E by (rewrite seq_length; exact Hi). rewrite seq_nth in E by exact Hi. cbn in E. congruence. }
  split; [|split; [|split]].
  - intros i j x y Hij Hx Hy. apply NE in Hx, Hy. destruct Hx as (-> & _). destruct Hy as (-> & _). apply Qclt_minus_iff.
    replace (_ + - _) with ((of_nat j - of_nat i) * d / of_nat (size - 1)) by (field; exact NZ). apply Qcdiv_lt_0; [|exact NP]. apply Qcmult_lt_0; [apply Qclt_sub', of_nat_lt, Hij|exact HA].
  - destruct size as [|n]; [lia|]. cbn [seq map hd_error]. f_equal. replace (of_nat 0) with 0 by (apply Qc_is_canon; reflexivity). field. exact NZ.
  - rewrite map_length, seq_length. reflexivity.
  - rewrite nth_error_map, (nth_error_nth' _ O) by (rewrite seq_length; lia). rewrite seq_nth by lia. cbn [option_map]. rewrite Nat.add_0_l. f_equal. replace (of_nat (size - 1) * d / of_nat (size - 1)) with d by (field; exact NZ). unfold d. ring.
Qed.
(** A cosmological run starts by converting [a_start], the first node (DyabloTimeLoop.h:281): the
    element before the first is read, whatever the parameters. *)
Theorem C49_refuted_start a_start a_end size lt : (2 <= size)%nat -> a_start < a_end * frac11 ->
  expansionToTime (lookup_a a_start a_end size) lt a_start = None.
Proof. intros HS HA. destruct (C49_table a_start a_end size HS HA) as (INC & HF & _). apply (below_none _ _ _ a_start INC HF), Qcle_refl. Qed.
(** Outside of its range, beyond the last node, the table is not defined either. *)
Theorem C49_beyond_table la lt t : increasing lt -> (forall z, In z lt -> z < t) -> timeToExpansion la lt t = None.
Proof. intros INC H. apply above_none; assumption. Qed.

(** * Integration *)

(** Cubic polynomial and its integral. *)
Definition cubic (c0 c1 c2 c3 x : Qc) : Qc := c0 + c1 * x + c2 * x * x + c3 * x * x * x.
Definition antiderivative (c0 c1 c2 c3 x : Qc) : Qc :=
  c0 * x + c1 * x * x / two + c2 * x * x * x / (two + 1) + c3 * x * x * x * x / (two * two).

Lemma n4 : Qcpower (of_nat 4) 1 = two * two. Proof. apply Qc_is_canon. reflexivity. Qed.
Lemma n16 : Qcpower (of_nat 4) 2 = two * two * two * two. Proof. apply Qc_is_canon. reflexivity. Qed.
Lemma o1 : of_nat (2 * 1 - 1) = 1. Proof. apply Qc_is_canon. reflexivity. Qed.
Lemma o3 : of_nat (2 * 2 - 1) = two + 1. Proof. apply Qc_is_canon. reflexivity. Qed.
Lemma three_nz : two + 1 <> 0. Proof. discriminate. Qed.
Lemma fifteen_nz : two * two * two * two - 1 <> 0. Proof. discriminate. Qed.
Lemma four1_nz : two * two - 1 <> 0. Proof. discriminate. Qed.

Lemma row1 f a h p : next_row f a h 1 [p] =
  let r := h * f (a + h) + p / two in [r; (two * two * r - p) / (two * two - 1)].
Proof.
  unfold next_row, new_points. change (2 ^ (1 - 1))%nat with 1%nat. change (seq 1 1) with [1%nat]. cbn [fold_left nth extrapolate]. rewrite n4, o1, half_two.
  replace (h * (0 + f (a + 1 * h)) + / two * p) with (h * f (a + h) + p / two); [reflexivity|].
  replace (a + 1 * h) with (a + h) by ring. field. exact two_nz.
Qed.
Lemma row2 f a h p q : next_row f a h 2 [p; q] =
  let r := h * (f (a + h) + f (a + (two + 1) * h)) + p / two in let s := (two * two * r - p) / (two * two - 1) in
  [r; s; (two * two * two * two * s - q) / (two * two * two * two - 1)].
Proof.
  unfold next_row, new_points. change (2 ^ (2 - 1))%nat with 2%nat. change (seq 1 2) with [1%nat; 2%nat]. cbn [fold_left nth extrapolate]. rewrite n4, n16, o1, o3, half_two.
  replace (h * (0 + f (a + 1 * h) + f (a + (two + 1) * h)) + / two * p) with (h * (f (a + h) + f (a + (two + 1) * h)) + p / two); [reflexivity|].
  replace (a + 1 * h) with (a + h) by ring. field. exact two_nz.
Qed.

(** C73: the integral of any polynomial of degree up to three is exact, whatever the bounds, the
    tolerance and the number of steps (three at least). Missing: an error bound for other
    functions. *)
Theorem C73_cubic_partial c0 c1 c2 c3 a b n acc : (3 <= n)%nat -> 0 < acc ->
  romberg (cubic c0 c1 c2 c3) a b n acc = Some (antiderivative c0 c1 c2 c3 b - antiderivative c0 c1 c2 c3 a).
Proof.
  intros Hn HA. destruct n as [|[|[|n]]]; [lia|lia|lia|]. set (I := _ - antiderivative _ _ _ _ a).
  unfold romberg. cbn [romberg_loop]. change (1 <? 1)%nat with false. change (1 <? 2)%nat with true. cbn [andb]. rewrite row1. cbv zeta. rewrite row2. cbv zeta. cbn [nth Nat.sub].
  rewrite half_two. change (1 + 1) with two.
  set (f := cubic c0 c1 c2 c3). set (h := (b - a) / two). set (p := (f a + f b) * (b - a) * / two).
  set (r1 := h * f (a + h) + p / two). set (s1 := (two * two * r1 - p) / (two * two - 1)).
  set (r2 := h / two * (f (a + h / two) + f (a + (two + 1) * (h / two))) + r1 / two). set (s2 := (two * two * r2 - r1) / (two * two - 1)).
  assert (E1 : s1 = I).
  { unfold s1, r1, p, h, I, f, cubic, antiderivative. unfold two. field. repeat split; discriminate. }
  assert (E2 : s2 = I).
  { unfold s2, r2, r1, p, h, I, f, cubic, antiderivative. unfold two. field. repeat split; discriminate. }
  rewrite E1, E2. replace ((two * two * two * two * I - I) / (two * two * two * two - 1)) with I by (field; exact fifteen_nz).
  replace (I - I) with 0 by ring. change (fabs 0) with 0. apply ltb_spec in HA. rewrite HA. reflexivity.
Qed.
(** Without convergence the last line reads one element too many: a function that is large at one
    end only, with the 16 steps and the tolerance of the tables. *)
Definition spike (x : Qc) : Qc := if Qc_eq_bool x 0 then Q2Qc (10^12) else 0.
(* the same loop when the function is zero at every new point *)
Fixpoint quiet_loop (steps i : nat) (acc : Qc) (Rp : list Qc) : bool :=
  match steps with
  | O => true
  | S s => let c0 := half_f * nth 0 Rp 0 in let Rc := c0 :: extrapolate 1 c0 Rp in
           if (1 <? i)%nat && ltb (fabs (nth (i - 1) Rp 0 - nth i Rc 0)) acc then false else quiet_loop s (S i) acc Rc
  end.
Lemma spike_points h n : 0 < h -> new_points spike 0 h n = 0.
Proof.
  intros H. unfold new_points. assert (K : forall l c, (forall j, In j l -> (1 <= j)%nat) -> fold_left (fun c j => c + spike (0 + of_nat (2 * j - 1) * h)) l c = c).
  { induction l as [|j l IH]; intros c HL; [reflexivity|]. cbn [fold_left]. rewrite IH by (intros; apply HL; right; assumption).
    assert (E : spike (0 + of_nat (2 * j - 1) * h) = 0); [|rewrite E; ring]. unfold spike.
    assert (J : 0 < of_nat (2 * j - 1)).
    { specialize (HL j (or_introl eq_refl)). unfold of_nat, Qclt. cbn [Q2Qc this]. rewrite !Qred_correct. unfold Qlt. cbn. lia. }
    destruct (Qc_eq_bool (0 + of_nat (2 * j - 1) * h) 0) eqn:Q; [|reflexivity]. apply Qc_eq_bool_correct in Q. exfalso.
    rewrite Qcplus_0_l in Q. pose proof (Qcmult_lt_0 _ _ J H) as P. rewrite Q in P. exact (Qclt_not_eq _ _ P eq_refl). }
  apply K. intros j Hj. apply in_seq in Hj. lia.
Qed.
Lemma spike_loop steps : forall i h acc Rp, 0 < h -> quiet_loop steps i acc Rp = true -> exists r, romberg_loop steps i spike 0 h acc Rp = inr r.
Proof.
  induction steps as [|s IH]; intros i h acc Rp H Q; [eexists; reflexivity|]. cbn [romberg_loop quiet_loop] in *. change (1 + 1) with two.
  assert (H2 : 0 < h / two) by (apply Qcdiv_lt_0; [exact H|reflexivity]).
  unfold next_row. rewrite spike_points by exact H2. replace (h / two * 0 + half_f * nth 0 Rp 0) with (half_f * nth 0 Rp 0) by ring. cbv zeta in *.
  destruct ((1 <? i)%nat && _); [discriminate|]. apply IH; assumption.
Qed.
Lemma romberg_fails f a b acc s : (exists r, romberg_loop s 1 f a (b - a) acc [(f a + f b) * (b - a) * half_f] = inr r) -> romberg f a b (S s) acc = None.
Proof. intros (r & E). unfold romberg. rewrite E. reflexivity. Qed.
Theorem C73_refuted : ~ (forall f a b acc, 0 < acc -> exists v, romberg f a b 16 acc = Some v).
Proof.
  intros H. destruct (H spike 0 1 tol8 eq_refl) as (v & E). rewrite (romberg_fails spike 0 1 tol8 15) in E; [discriminate E|].
  apply spike_loop; [reflexivity|]. vm_compute. reflexivity.
Qed.

(** * Examples *)
Definition ex_la : list Qc := map (fun z => frac z 10) [1; 2; 4; 8]%Z.
Definition ex_lt : list Qc := map (fun z => frac z 1) [-9; -4; -2; 0]%Z.
Lemma increasing_check l : forallb (fun i => forallb (fun j => negb (i <? j)%nat || ltb (nth i l 0) (nth j l 0)) (seq 0 (length l))) (seq 0 (length l)) = true -> increasing l.
Proof.
  intros H i j x y Hij Hx Hy. destruct (nth_err _ _ 0 _ Hx) as (<- & Li). destruct (nth_err _ _ 0 _ Hy) as (<- & Lj).
  rewrite forallb_forall in H. specialize (H i ltac:(apply in_seq; lia)). rewrite forallb_forall in H. specialize (H j ltac:(apply in_seq; lia)).
  apply orb_true_iff in H. destruct H as [H|H]; [|apply ltb_spec; exact H]. apply Nat.ltb_lt in Hij. rewrite Hij in H. discriminate H.
Qed.
Example C49_example : increasing ex_la /\ increasing ex_lt /\ length ex_lt = length ex_la /\
  expansionToTime ex_la ex_lt (frac 3 10) = Some (frac (-3) 1) /\ timeToExpansion ex_la ex_lt (frac (-3) 1) = Some (frac 3 10) /\
  expansionToTime ex_la ex_lt (frac 4 10) = Some (frac (-2) 1) /\ expansionToTime ex_la ex_lt (frac 1 10) = None /\
  (2 <= 1024)%nat /\ frac 1 100 < 1 * frac11.
Proof.
  split; [apply increasing_check; vm_compute; reflexivity|]. split; [apply increasing_check; vm_compute; reflexivity|]. split; [reflexivity|].
  split; [vm_compute; f_equal; apply Qc_is_canon; reflexivity|]. split; [vm_compute; f_equal; apply Qc_is_canon; reflexivity|]. split; [vm_compute; f_equal; apply Qc_is_canon; reflexivity|].
  split; [vm_compute; reflexivity|]. split; [lia|reflexivity].
Qed.
Example C73_example : match romberg (cubic 1 1 1 1) 0 1 16 tol8 with Some v => v = frac 25 12 | None => False end.
Proof. vm_compute. apply Qc_is_canon. reflexivity. Qed.
Print Assumptions C49_interpolate_partial. Print Assumptions C49_roundtrip_partial. Print Assumptions C49_table. Print Assumptions C49_refuted_start.
Print Assumptions C49_beyond_table. Print Assumptions C73_cubic_partial. Print Assumptions C73_refuted.
