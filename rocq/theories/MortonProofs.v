(** Bit-level proofs about the Morton model. A reflective evaluator computes, for a
    straight-line bit program, which input bit ends up at each output position. *)
From Verif Require Import Base MortonModel.

Lemma Some_eq {A} (a b : A) : Some a = Some b -> a = b.
Proof. congruence. Qed.

(** * Symbolic words *)
Inductive wexp : Type :=
| WIn  (c : nat)
| WAnd (e : wexp) (m : Z)
| WOr  (e f : wexp)
| WXor (e f : wexp)
| WShl (e : wexp) (k : Z)
| WShr (e : wexp) (k : Z).

Fixpoint wden (rho : nat -> Z) (e : wexp) : Z :=
  match e with
  | WIn c => rho c
  | WAnd e m => Z.land (wden rho e) m
  | WOr e f => Z.lor (wden rho e) (wden rho f)
  | WXor e f => Z.lxor (wden rho e) (wden rho f)
  | WShl e k => shl64 (wden rho e) k
  | WShr e k => Z.shiftr (wden rho e) k
  end.

(** A symbolic bit is 0, a bit of an input, or unknown. *)
Inductive sbit := B0 | BV (c : nat) (i : Z) | BX.
Notation sword := (list sbit).

Definition bok (rho : nat -> Z) (b : sbit) (v : bool) : Prop :=
  match b with B0 => v = false | BV c i => v = Z.testbit (rho c) i | BX => True end.

Definition comb (b1 b2 : sbit) : sbit :=
  match b1, b2 with
  | B0, b => b
  | b, B0 => b
  | _, _ => BX
  end.

Fixpoint zipw (w1 w2 : sword) : sword :=
  match w1, w2 with
  | [], w => w
  | w, [] => w
  | a :: w1, b :: w2 => comb a b :: zipw w1 w2
  end.

Fixpoint maskw (w : sword) (m : Z) : sword :=
  match w with
  | [] => []
  | b :: w => (if Z.odd m then b else B0) :: maskw w (Z.div2 m)
  end.

Fixpoint seval (e : wexp) : sword :=
  match e with
  | WIn c => map (fun i => BV c (Z.of_nat i)) (seq 0 64)
  | WAnd e m => maskw (seval e) m
  | WOr e f | WXor e f => zipw (seval e) (seval f)
  | WShl e k => firstn 64 (repeat B0 (Z.to_nat k) ++ seval e)
  | WShr e k => skipn (Z.to_nat k) (seval e)
  end.

Fixpoint wfw (e : wexp) : bool :=
  match e with
  | WIn _ => true
  | WAnd e m => wfw e && (0 <=? m)
  | WOr e f | WXor e f => wfw e && wfw f
  | WShl e k => wfw e && (0 <=? k)
  | WShr e k => wfw e && (0 <=? k)
  end.

Definition reprs (rho : nat -> Z) (w : sword) (v : Z) : Prop :=
  0 <= v /\ forall n : nat, bok rho (nth n w B0) (Z.testbit v (Z.of_nat n)).

Lemma maskw_nth w : forall m n, 0 <= m ->
  nth n (maskw w m) B0 = if Z.testbit m (Z.of_nat n) then nth n w B0 else B0.
Proof.
  induction w as [|b w IH]; intros m n Hm.
  - destruct (Z.testbit m (Z.of_nat n)); destruct n; reflexivity.
  - destruct n as [|n].
    + cbn [maskw nth]. change (Z.of_nat 0) with 0. rewrite Z.bit0_odd. reflexivity.
    + cbn [maskw nth]. rewrite IH by (rewrite Z.div2_div; apply Z.div_pos; lia).
      rewrite Z.div2_spec, Z.shiftr_spec by lia.
      replace (Z.of_nat n + 1) with (Z.of_nat (S n)) by lia. reflexivity.
Qed.

Lemma zipw_nth w1 : forall w2 n, nth n (zipw w1 w2) B0 = comb (nth n w1 B0) (nth n w2 B0).
Proof.
  induction w1 as [|a w1 IH]; intros w2 n.
  - destruct n; reflexivity.
  - destruct w2 as [|b w2].
    + rewrite (@nth_overflow sbit [] n B0) by (cbn; lia). cbn [zipw].
      destruct (nth n (a :: w1) B0); reflexivity.
    + destruct n as [|n]; [reflexivity|]. cbn [zipw nth]. apply IH.
Qed.

Lemma firstn_nth {A} (d : A) q : forall l n, (n < q)%nat -> nth n (firstn q l) d = nth n l d.
Proof.
  induction q; intros l n Hn; [lia|].
  destruct l; [destruct n; reflexivity|]. destruct n; [reflexivity|]. cbn [firstn nth]. apply IHq. lia.
Qed.

Lemma skipn_nth {A} (d : A) q : forall l n, nth n (skipn q l) d = nth (q + n) l d.
Proof.
  induction q; intros l n; [reflexivity|].
  destruct l; [destruct n; reflexivity|]. cbn [skipn nth Nat.add]. apply IHq.
Qed.

Lemma testbit_small a n i : 0 <= a < 2^n -> 0 <= n <= i -> Z.testbit a i = false.
Proof.
  intros [H0 H1] Hi. destruct (Z.eq_dec a 0) as [->|Hnz]; [apply Z.bits_0|].
  apply Z.bits_above_log2; [lia|].
  apply Z.lt_le_trans with n; [|lia]. apply Z.log2_lt_pow2; lia.
Qed.

Lemma seval_sound rho e : (forall c, 0 <= rho c < 2^64) -> wfw e = true ->
  reprs rho (seval e) (wden rho e).
Proof.
  intros Hrho. induction e as [c|e IH m|e IHe f IHf|e IHe f IHf|e IH k|e IH k];
    cbn [wfw seval wden]; intros Hwf.
  - split; [apply Hrho|]. intros n.
    destruct (Nat.lt_ge_cases n 64) as [Hn|Hn].
    + rewrite (nth_indep _ B0 (BV c (Z.of_nat 0))) by (rewrite map_length, seq_length; exact Hn).
      rewrite (map_nth (fun i => BV c (Z.of_nat i))), seq_nth by exact Hn. reflexivity.
    + rewrite nth_overflow by (rewrite map_length, seq_length; exact Hn). cbn [bok].
      apply testbit_small with 64; [apply Hrho|lia].
  - apply andb_true_iff in Hwf. destruct Hwf as [Hwf Hm].
    destruct (IH Hwf) as [Hp Hb]. split.
    + apply Z.land_nonneg. left. exact Hp.
    + intros n. rewrite Z.land_spec, maskw_nth by lia. specialize (Hb n).
      destruct (Z.testbit m (Z.of_nat n)).
      * rewrite andb_true_r. exact Hb.
      * cbn [bok]. apply andb_false_r.
  - apply andb_true_iff in Hwf. destruct Hwf as [Hwe Hwf].
    destruct (IHe Hwe) as [Hpe Hbe]. destruct (IHf Hwf) as [Hpf Hbf].
    split; [apply Z.lor_nonneg; auto|]. intros n. rewrite Z.lor_spec, zipw_nth.
    specialize (Hbe n). specialize (Hbf n).
    destruct (nth n (seval e) B0), (nth n (seval f) B0); cbn [bok comb] in *; auto;
      rewrite ?Hbe, ?Hbf, ?orb_false_r, ?orb_false_l; reflexivity.
  - apply andb_true_iff in Hwf. destruct Hwf as [Hwe Hwf].
    destruct (IHe Hwe) as [Hpe Hbe]. destruct (IHf Hwf) as [Hpf Hbf].
    split; [apply Z.lxor_nonneg; tauto|]. intros n. rewrite Z.lxor_spec, zipw_nth.
    specialize (Hbe n). specialize (Hbf n).
    destruct (nth n (seval e) B0), (nth n (seval f) B0); cbn [bok comb] in *; auto;
      rewrite ?Hbe, ?Hbf, ?xorb_false_r, ?xorb_false_l; reflexivity.
  - apply andb_true_iff in Hwf. destruct Hwf as [Hwf Hk].
    destruct (IH Hwf) as [Hp Hb]. unfold shl64. split.
    + apply Z.land_nonneg. right. lia.
    + intros n. rewrite Z.land_spec.
      change 0xffffffffffffffff with (Z.ones 64).
      destruct (Nat.lt_ge_cases n 64) as [Hn|Hn].
      * rewrite Z.ones_spec_low by lia. rewrite andb_true_r.
        rewrite firstn_nth by exact Hn.
        destruct (Nat.lt_ge_cases n (Z.to_nat k)) as [Hnk|Hnk].
        -- rewrite app_nth1 by (rewrite repeat_length; lia). rewrite Z.shiftl_spec_low by lia.
           rewrite nth_repeat. reflexivity.
        -- rewrite app_nth2 by (rewrite repeat_length; lia). rewrite repeat_length.
           rewrite Z.shiftl_spec_high by lia.
           replace (Z.of_nat n - k) with (Z.of_nat (n - Z.to_nat k)) by lia. apply Hb.
      * rewrite Z.ones_spec_high by lia. rewrite andb_false_r.
        rewrite nth_overflow; [reflexivity|]. rewrite firstn_length. lia.
  - apply andb_true_iff in Hwf. destruct Hwf as [Hwf Hk].
    destruct (IH Hwf) as [Hp Hb]. split; [apply Z.shiftr_nonneg; exact Hp|].
    intros n. rewrite Z.shiftr_spec by lia. rewrite skipn_nth.
    replace (Z.of_nat n + k) with (Z.of_nat (Z.to_nat k + n)) by lia. apply Hb.
Qed.

(** Words up to trailing zeros, without unknown bits. *)
Definition word_eqb (a b : sword) : bool :=
  forallb (fun n => match nth n a B0, nth n b B0 with
                    | B0, B0 => true
                    | BV c i, BV d j => Nat.eqb c d && Z.eqb i j
                    | _, _ => false end) (seq 0 (Nat.max (length a) (length b))).
Lemma word_eqb_nth a b : word_eqb a b = true -> forall n, nth n a B0 = nth n b B0.
Proof.
  intros H n. unfold word_eqb in H. rewrite forallb_forall in H.
  destruct (Nat.lt_ge_cases n (Nat.max (length a) (length b))) as [Hn|Hn].
  - specialize (H n). rewrite in_seq in H. specialize (H ltac:(lia)).
    destruct (nth n a B0) as [|c i|], (nth n b B0) as [|d j|]; try discriminate; try reflexivity.
    apply andb_true_iff in H. destruct H as [H1 H2]. apply Nat.eqb_eq in H1. apply Z.eqb_eq in H2.
    subst; reflexivity.
  - rewrite !nth_overflow by lia. reflexivity.
Qed.

(** Main reflection principle: the output bits of [e] are given by the table [f]. *)
Lemma seval_table rho e (len : nat) (f : Z -> nat * Z) :
  (forall c, 0 <= rho c < 2^64) -> wfw e = true ->
  word_eqb (seval e) (map (fun n => let '(c, i) := f (Z.of_nat n) in BV c i) (seq 0 len)) = true ->
  0 <= wden rho e /\
  forall n, 0 <= n -> Z.testbit (wden rho e) n =
    if n <? Z.of_nat len then Z.testbit (rho (fst (f n))) (snd (f n)) else false.
Proof.
  intros Hr Hwf H. destruct (seval_sound rho e Hr Hwf) as [Hp Hb]. split; [exact Hp|].
  intros n Hn. specialize (Hb (Z.to_nat n)). rewrite (word_eqb_nth _ _ H) in Hb.
  rewrite Z2Nat.id in Hb by lia.
  destruct (Z.ltb_spec n (Z.of_nat len)) as [Hlt|Hge].
  - set (g := fun n => let '(c, i) := f (Z.of_nat n) in BV c i) in Hb.
    rewrite (nth_indep _ B0 (g 0%nat)) in Hb by (rewrite map_length, seq_length; lia).
    rewrite (map_nth g), seq_nth in Hb by lia. unfold g in Hb. rewrite Nat.add_0_l, Z2Nat.id in Hb by lia.
    destruct (f n) as [c i]. exact Hb.
  - rewrite nth_overflow in Hb by (rewrite map_length, seq_length; lia). exact Hb.
Qed.

(** * The Morton programs as symbolic expressions *)
Definition e_split2 (e : wexp) : wexp :=
  let x := WAnd e 0xffffffff in
  let x := WAnd (WOr x (WShl x 16)) 0xffff0000ffff in
  let x := WAnd (WOr x (WShl x 8)) 0xff00ff00ff00ff in
  let x := WAnd (WOr x (WShl x 4)) 0xf0f0f0f0f0f0f0f in
  let x := WAnd (WOr x (WShl x 2)) 0x3333333333333333 in
  WAnd (WOr x (WShl x 1)) 0x5555555555555555.
Definition e_split3 (e : wexp) : wexp :=
  let x := WAnd e 0x1fffff in
  let x := WAnd (WOr x (WShl x 32)) 0x1f00000000ffff in
  let x := WAnd (WOr x (WShl x 16)) 0x1f0000ff0000ff in
  let x := WAnd (WOr x (WShl x 8)) 0x100f00f00f00f00f in
  let x := WAnd (WOr x (WShl x 4)) 0x10c30c30c30c30c3 in
  WAnd (WOr x (WShl x 2)) 0x1249249249249249.
Definition e_key2 : wexp := WOr (e_split2 (WIn 0)) (WShl (e_split2 (WIn 1)) 1).
Definition e_key3 : wexp :=
  WOr (WOr (e_split3 (WIn 0)) (WShl (e_split3 (WIn 1)) 1)) (WShl (e_split3 (WIn 2)) 2).
Definition e_ext2 (c : Z) (e : wexp) : wexp :=
  let k := WShr e c in
  let k := WAnd k 0x5555555555555555 in
  let k := WAnd (WXor k (WShr k 1)) 0x3333333333333333 in
  let k := WAnd (WXor k (WShr k 2)) 0x0f0f0f0f0f0f0f0f in
  let k := WAnd (WXor k (WShr k 4)) 0x00ff00ff00ff00ff in
  let k := WAnd (WXor k (WShr k 8)) 0x0000ffff0000ffff in
  WAnd (WXor k (WShr k 16)) 0x00000000ffffffff.
Definition e_ext3 (c : Z) (e : wexp) : wexp :=
  let k := WShr e c in
  let k := WAnd k 0x1249249249249249 in
  let k := WAnd (WXor k (WShr k 2)) 0x30c30c30c30c30c3 in
  let k := WAnd (WXor k (WShr k 4)) 0xf00f00f00f00f00f in
  let k := WAnd (WXor k (WShr k 8)) 0x00ff0000ff0000ff in
  let k := WAnd (WXor k (WShr k 16)) 0x00ff00000000ffff in
  WAnd (WXor k (WShr k 32)) 0x1fffff.

Definition env3 (x y z : Z) (c : nat) : Z :=
  match c with O => x | S O => y | S (S O) => z | _ => 0 end.

Lemma env3_range x y z : 0 <= x < 2^64 -> 0 <= y < 2^64 -> 0 <= z < 2^64 ->
  forall c, 0 <= env3 x y z c < 2^64.
Proof. intros Hx Hy Hz [|[|[|c]]]; cbn [env3]; try assumption. lia. Qed.

Definition sel3 (x y z : Z) (c : Z) : Z := if c =? 0 then x else if c =? 1 then y else z.
Definition sel2 (x y : Z) (c : Z) : Z := if c =? 0 then x else y.

Lemma env3_sel3 x y z c : 0 <= c < 3 -> env3 x y z (Z.to_nat c) = sel3 x y z c.
Proof. intros H. assert (c = 0 \/ c = 1 \/ c = 2) as [->|[->| ->]] by lia; reflexivity. Qed.
Lemma env3_sel2 x y z c : 0 <= c < 2 -> env3 x y z (Z.to_nat c) = sel2 x y c.
Proof. intros H. assert (c = 0 \/ c = 1) as [->| ->] by lia; reflexivity. Qed.

Lemma morton3_testbit32 x y z n : 0 <= x < 2^32 -> 0 <= y < 2^32 -> 0 <= z < 2^32 -> 0 <= n ->
  Z.testbit (morton3 x y z) n =
  if n <? 63 then Z.testbit (sel3 x y z (n mod 3)) (n / 3) else false.
Proof.
  intros Hx Hy Hz Hn.
  destruct (seval_table (env3 x y z) e_key3 63 (fun n => (Z.to_nat (n mod 3), n / 3))) as [_ H].
  - apply env3_range; lia.
  - vm_compute; reflexivity.
  - vm_compute; reflexivity.
  - specialize (H n Hn). cbn [fst snd] in H.
    rewrite env3_sel3 in H by (apply Z.mod_pos_bound; lia). exact H.
Qed.

Lemma morton2_testbit x y n : 0 <= x < 2^32 -> 0 <= y < 2^32 -> 0 <= n ->
  Z.testbit (morton2 x y) n =
  if n <? 64 then Z.testbit (sel2 x y (n mod 2)) (n / 2) else false.
Proof.
  intros Hx Hy Hn.
  destruct (seval_table (env3 x y 0) e_key2 64 (fun n => (Z.to_nat (n mod 2), n / 2))) as [_ H].
  - apply env3_range; lia.
  - vm_compute; reflexivity.
  - vm_compute; reflexivity.
  - specialize (H n Hn). cbn [fst snd] in H.
    rewrite env3_sel2 in H by (apply Z.mod_pos_bound; lia). exact H.
Qed.

Lemma morton3_nonneg x y z : 0 <= morton3 x y z.
Proof.
  unfold morton3, shl64. apply Z.lor_nonneg. split; [|apply Z.land_nonneg; right; lia].
  apply Z.lor_nonneg. split; [|apply Z.land_nonneg; right; lia].
  unfold splitBy3_3. apply Z.land_nonneg. right. lia.
Qed.
Lemma morton2_nonneg x y : 0 <= morton2 x y.
Proof.
  unfold morton2, shl64. apply Z.lor_nonneg. split; [|apply Z.land_nonneg; right; lia].
  unfold splitBy3_2. apply Z.land_nonneg. right. lia.
Qed.
Lemma bits_lt_pow2 a k : 0 <= a -> 0 <= k -> (forall n, k <= n -> Z.testbit a n = false) -> a < 2^k.
Proof.
  intros Ha Hk H. destruct (Z.eq_dec a 0) as [->|Hnz]; [apply Z.pow_pos_nonneg; lia|].
  apply Z.log2_lt_pow2; [lia|].
  destruct (Z.lt_ge_cases (Z.log2 a) k) as [L|G]; [exact L|].
  specialize (H _ G). rewrite Z.bit_log2 in H by lia. discriminate.
Qed.
Lemma morton3_lt63 x y z : 0 <= x < 2^32 -> 0 <= y < 2^32 -> 0 <= z < 2^32 -> morton3 x y z < 2^63.
Proof.
  intros Hx Hy Hz. apply bits_lt_pow2; [apply morton3_nonneg|lia|].
  intros n Hn. rewrite morton3_testbit32 by lia. destruct (Z.ltb_spec n 63); [lia|reflexivity].
Qed.
Lemma morton2_lt64 x y : 0 <= x < 2^32 -> 0 <= y < 2^32 -> morton2 x y < 2^64.
Proof.
  intros Hx Hy. apply bits_lt_pow2; [apply morton2_nonneg|lia|].
  intros n Hn. rewrite morton2_testbit by lia. destruct (Z.ltb_spec n 64); [lia|reflexivity].
Qed.

(** * Decoding *)
Lemma extract3_testbit c key n : 0 <= c < 3 -> 0 <= key < 2^64 -> 0 <= n ->
  Z.testbit (extract3 c key) n = if n <? 21 then Z.testbit key (3 * n + c) else false.
Proof.
  intros Hc Hk Hn.
  assert (G : word_eqb (seval (e_ext3 c (WIn 0)))
                (map (fun n => let '(d, i) := (fun n => (0%nat, 3 * n + c)) (Z.of_nat n) in BV d i) (seq 0 21)) = true).
  { assert (c = 0 \/ c = 1 \/ c = 2) as [->|[->| ->]] by lia; vm_compute; reflexivity. }
  destruct (seval_table (env3 key 0 0) (e_ext3 c (WIn 0)) 21 (fun n => (0%nat, 3 * n + c))) as [_ H].
  - apply env3_range; lia.
  - cbn [wfw e_ext3]. rewrite !andb_true_l. lia.
  - exact G.
  - exact (H n Hn).
Qed.
Lemma extract2_testbit c key n : 0 <= c < 2 -> 0 <= key < 2^64 -> 0 <= n ->
  Z.testbit (extract2 c key) n = if n <? 32 then Z.testbit key (2 * n + c) else false.
Proof.
  intros Hc Hk Hn.
  assert (G : word_eqb (seval (e_ext2 c (WIn 0)))
                (map (fun n => let '(d, i) := (fun n => (0%nat, 2 * n + c)) (Z.of_nat n) in BV d i) (seq 0 32)) = true).
  { assert (c = 0 \/ c = 1) as [->| ->] by lia; vm_compute; reflexivity. }
  destruct (seval_table (env3 key 0 0) (e_ext2 c (WIn 0)) 32 (fun n => (0%nat, 2 * n + c))) as [_ H].
  - apply env3_range; lia.
  - cbn [wfw e_ext2]. rewrite !andb_true_l. lia.
  - exact G.
  - exact (H n Hn).
Qed.

Lemma extract3_key x y z c : 0 <= x < 2^32 -> 0 <= y < 2^32 -> 0 <= z < 2^32 -> 0 <= c < 3 ->
  extract3 c (morton3 x y z) = sel3 x y z c mod 2^21.
Proof.
  intros Hx Hy Hz Hc. apply Z.bits_inj'. intros n Hn.
  rewrite extract3_testbit; [|lia| |lia].
  2:{ split; [apply morton3_nonneg|]. pose proof (morton3_lt63 x y z Hx Hy Hz). lia. }
  destruct (Z.ltb_spec n 21) as [Hlt|Hge].
  - rewrite morton3_testbit32 by lia. destruct (Z.ltb_spec (3*n+c) 63); [|lia].
    rewrite Z.mod_pow2_bits_low by lia.
    replace (3*n+c) with (c + n*3) by lia. rewrite Z.mod_add, Z.div_add by lia.
    rewrite Z.mod_small, Z.div_small by lia. reflexivity.
  - rewrite Z.mod_pow2_bits_high by lia. reflexivity.
Qed.

Lemma extract2_key x y c : 0 <= x < 2^32 -> 0 <= y < 2^32 -> 0 <= c < 2 ->
  extract2 c (morton2 x y) = sel2 x y c.
Proof.
  intros Hx Hy Hc. apply Z.bits_inj'. intros n Hn.
  rewrite extract2_testbit; [|lia| |lia].
  2:{ split; [apply morton2_nonneg|apply morton2_lt64; assumption]. }
  destruct (Z.ltb_spec n 32) as [Hlt|Hge].
  - rewrite morton2_testbit by lia. destruct (Z.ltb_spec (2*n+c) 64); [|lia].
    replace (2*n+c) with (c + n*2) by lia. rewrite Z.mod_add, Z.div_add by lia.
    rewrite Z.mod_small, Z.div_small by lia. reflexivity.
  - symmetry. apply testbit_small with 32; [|lia]. unfold sel2. destruct (c =? 0); assumption.
Qed.

(** * Interface used by the mesh proofs: coordinates below 2^21 *)
Lemma morton3_testbit x y z n : 0 <= x < 2^21 -> 0 <= y < 2^21 -> 0 <= z < 2^21 -> 0 <= n ->
  Z.testbit (morton3 x y z) n = Z.testbit (sel3 x y z (n mod 3)) (n / 3).
Proof.
  intros Hx Hy Hz Hn. rewrite morton3_testbit32 by lia.
  destruct (Z.ltb_spec n 63) as [Hlt|Hge]; [reflexivity|]. symmetry.
  apply testbit_small with 21.
  - unfold sel3. destruct (n mod 3 =? 0); [assumption|]. destruct (n mod 3 =? 1); assumption.
  - split; [lia|]. apply Z.div_le_lower_bound; lia.
Qed.

Lemma morton3_div x y z k : 0 <= x < 2^21 -> 0 <= y < 2^21 -> 0 <= z < 2^21 -> 0 <= k ->
  morton3 (x / 2^k) (y / 2^k) (z / 2^k) = morton3 x y z / 2^(3*k).
Proof.
  intros Hx Hy Hz Hk.
  assert (R : forall a, 0 <= a < 2^21 -> 0 <= a / 2^k < 2^21).
  { intros a Ha. pose proof (Z.pow_pos_nonneg 2 k). split; [apply Z.div_pos; lia|].
    apply Z.div_lt_upper_bound; [lia|]. nia. }
  apply Z.bits_inj'. intros n Hn.
  rewrite <- (Z.shiftr_div_pow2 (morton3 x y z)) by lia. rewrite Z.shiftr_spec by lia.
  rewrite !morton3_testbit by (try apply R; auto; lia).
  replace (n + 3*k) with (n + k*3) by lia. rewrite Z.mod_add, Z.div_add by lia.
  assert (0 <= n / 3) by (apply Z.div_pos; lia).
  unfold sel3. destruct (n mod 3 =? 0); [|destruct (n mod 3 =? 1)];
    rewrite Z.div_pow2_bits by lia; reflexivity.
Qed.

Lemma morton3_inj x y z x' y' z' :
  0 <= x < 2^21 -> 0 <= y < 2^21 -> 0 <= z < 2^21 ->
  0 <= x' < 2^21 -> 0 <= y' < 2^21 -> 0 <= z' < 2^21 ->
  morton3 x y z = morton3 x' y' z' -> x = x' /\ y = y' /\ z = z'.
Proof.
  intros Hx Hy Hz Hx' Hy' Hz' H.
  assert (E : forall c, 0 <= c < 3 -> sel3 x y z c mod 2^21 = sel3 x' y' z' c mod 2^21).
  { intros c Hc. rewrite <- (extract3_key x y z), <- (extract3_key x' y' z') by lia. rewrite H. reflexivity. }
  pose proof (E 0 ltac:(lia)) as E0. pose proof (E 1 ltac:(lia)) as E1. pose proof (E 2 ltac:(lia)) as E2.
  cbn [sel3 Z.eqb] in E0, E1, E2. cbn in E0, E1, E2.
  rewrite !Z.mod_small in E0, E1, E2 by lia. auto.
Qed.

Lemma morton3_bound x y z k : 0 <= k <= 21 ->
  0 <= x < 2^k -> 0 <= y < 2^k -> 0 <= z < 2^k -> 0 <= morton3 x y z < 2^(3*k).
Proof.
  intros Hk Hx Hy Hz. split; [apply morton3_nonneg|].
  pose proof (Z.pow_le_mono_r 2 k 21 ltac:(lia) ltac:(lia)) as Hp.
  pose proof (Z.pow_pos_nonneg 2 (3*k) ltac:(lia) ltac:(lia)) as Hpp.
  assert (Hd : morton3 x y z / 2^(3*k) = 0).
  { rewrite <- morton3_div by lia. rewrite !Z.div_small by lia. reflexivity. }
  pose proof (morton3_nonneg x y z).
  pose proof (Z.div_mod (morton3 x y z) (2^(3*k)) ltac:(lia)) as E.
  pose proof (Z.mod_pos_bound (morton3 x y z) (2^(3*k)) ltac:(lia)). rewrite Hd in E. lia.
Qed.

(** Descendants of a cell form exactly a key interval. *)
Lemma morton3_descendants x y z X Y Z' k :
  0 <= x < 2^21 -> 0 <= y < 2^21 -> 0 <= z < 2^21 ->
  0 <= X < 2^21 -> 0 <= Y < 2^21 -> 0 <= Z' < 2^21 -> 0 <= k ->
  ((X / 2^k = x /\ Y / 2^k = y /\ Z' / 2^k = z) <->
   morton3 x y z * 2^(3*k) <= morton3 X Y Z' < (morton3 x y z + 1) * 2^(3*k)).
Proof.
  intros Hx Hy Hz HX HY HZ Hk.
  pose proof (Z.pow_pos_nonneg 2 (3*k) ltac:(lia) ltac:(lia)) as Hpp.
  pose proof (Z.pow_pos_nonneg 2 k ltac:(lia) ltac:(lia)) as Hp.
  assert (R : forall a, 0 <= a < 2^21 -> 0 <= a / 2^k < 2^21).
  { intros a Ha. split; [apply Z.div_pos; lia|]. apply Z.div_lt_upper_bound; [lia|]. nia. }
  pose proof (morton3_div X Y Z' k HX HY HZ Hk) as Hdiv.
  split.
  - intros (<- & <- & <-). rewrite Hdiv.
    pose proof (Z.div_mod (morton3 X Y Z') (2^(3*k)) ltac:(lia)) as E.
    pose proof (Z.mod_pos_bound (morton3 X Y Z') (2^(3*k)) ltac:(lia)). lia.
  - intros [H1 H2].
    assert (E : morton3 X Y Z' / 2^(3*k) = morton3 x y z).
    { symmetry. apply (Z.div_unique_pos _ _ _ (morton3 X Y Z' - morton3 x y z * 2^(3*k))); lia. }
    rewrite <- Hdiv in E. apply morton3_inj in E; auto.
Qed.

(** [shift_level] on keys that fit. *)
Lemma shift_level_up m d : 0 <= d -> 0 <= m -> m * 2^(3*d) < 2^64 ->
  shift_level m d = m * 2^(3*d).
Proof.
  intros Hd Hm Hb. unfold shift_level. destruct (Z.leb_spec 0 d); [|lia].
  unfold shl64. change 0xffffffffffffffff with (Z.ones 64).
  pose proof (Z.pow_pos_nonneg 2 (3*d) ltac:(lia) ltac:(lia)).
  rewrite Z.land_ones, Z.shiftl_mul_pow2 by lia. apply Z.mod_small. nia.
Qed.
Lemma shift_level_down m d : d < 0 -> shift_level m d = m / 2^(3 * (-d)).
Proof.
  intros Hd. unfold shift_level. destruct (Z.leb_spec 0 d); [lia|].
  rewrite Z.shiftr_div_pow2 by lia. f_equal. f_equal. lia.
Qed.
