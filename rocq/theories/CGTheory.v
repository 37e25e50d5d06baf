(** The preconditioned conjugate gradient recurrences over exact rationals: the residual is the
    true residual, the directions are conjugate, and at most one iteration per unknown is
    needed. Nothing here is specific to the code; GravityProofs connects the solver to it. *)
From Coq Require Import List Lia PeanoNat QArith Qcanon Permutation.
From Verif Require Import Base HydroSpec HydroProps ConserveSpec ConserveProofs ParticleProofs.
Import ListNotations.
Open Scope Qc_scope.

Section CG.
Context {X : Type} (C : list X) (dec : forall x y : X, {x = y} + {x <> y}) (ND : NoDup C).
Notation vec := (X -> Qc).
Definition dot (u v : vec) : Qc := csum (map (fun x => u x * v x) C).

Lemma dot_ext u u' v v' : (forall x, In x C -> u x = u' x) -> (forall x, In x C -> v x = v' x) -> dot u v = dot u' v'.
Proof. intros H K. apply csum_ext. intros x I. rewrite (H x I), (K x I). reflexivity. Qed.
Lemma dot_comm u v : dot u v = dot v u.
Proof. apply csum_ext. intros. ring. Qed.
Lemma dot_lin u v w t : dot u (fun x => v x + t * w x) = dot u v + t * dot u w.
Proof.
  unfold dot. rewrite <- csum_scale, <- csum_plus. apply csum_ext. intros. ring.
Qed.
Lemma dot_lin_l u v w t : dot (fun x => v x + t * w x) u = dot v u + t * dot w u.
Proof. rewrite dot_comm, dot_lin, (dot_comm u v), (dot_comm u w). reflexivity. Qed.
Lemma dot_zero u : dot u (fun _ => 0) = 0.
Proof. unfold dot. rewrite (csum_ext _ (fun _ => 0)); [apply csum_zero|]. intros. ring. Qed.

Lemma csum_nonneg {Y} (f : Y -> Qc) l : (forall x, In x l -> 0 <= f x) -> 0 <= csum (map f l).
Proof.
  induction l as [|x l IH]; intros H; cbn; [apply Qcle_refl|].
  replace 0 with (0 + 0) by ring. apply Qcplus_le_compat; [apply H; left; reflexivity|apply IH; intros; apply H; right; assumption].
Qed.
Lemma csum_nonneg_zero {Y} (f : Y -> Qc) l : (forall x, In x l -> 0 <= f x) -> csum (map f l) = 0 -> forall x, In x l -> f x = 0.
Proof.
  induction l as [|y l IH]; intros H E x J; [destruct J|]. destruct J as [<-|I]; cbn in E; fold (csum (map f l)) in E.
  - apply Qcle_antisym; [|apply H; left; reflexivity].
    rewrite Qcle_sub. replace (0 - f y) with (csum (map f l) - (f y + csum (map f l))) by ring. rewrite E.
    replace (csum (map f l) - 0) with (csum (map f l)) by ring. apply csum_nonneg. intros; apply H; right; assumption.
  - apply IH; [intros; apply H; right; assumption| |exact I].
    apply Qcle_antisym; [|apply csum_nonneg; intros; apply H; right; assumption].
    rewrite Qcle_sub. replace (0 - csum (map f l)) with (f y - (f y + csum (map f l))) by ring. rewrite E.
    replace (f y - 0) with (f y) by ring. apply H; left; reflexivity.
Qed.
Lemma sq_nonneg x : 0 <= x * x.
Proof.
  destruct (Qclt_le_dec x 0) as [L|L].
  - replace (x * x) with ((0 - x) * (0 - x)) by ring. apply Qcmult_nonneg; rewrite <- Qcle_sub; apply Qclt_le_weak, L.
  - apply Qcmult_nonneg; exact L.
Qed.
Lemma sq_zero x : x * x = 0 -> x = 0.
Proof. intros H. destruct (Qcmult_integral _ _ H); assumption. Qed.
Lemma nonneg_pos x : 0 <= x -> x <> 0 -> 0 < x.
Proof. intros H N. destruct (Qcle_lt_or_eq _ _ H) as [L|E]; [exact L|congruence]. Qed.

Lemma csum_le {Y} (f h : Y -> Qc) l : (forall x, In x l -> f x <= h x) -> csum (map f l) <= csum (map h l).
Proof.
  induction l as [|x l IH]; intros H; cbn; [apply Qcle_refl|].
  apply Qcplus_le_compat; [apply H; left; reflexivity|apply IH; intros; apply H; right; assumption].
Qed.

(** ** Weighted inner product *)
Context (W : X -> Qc) (WP : forall x, In x C -> 0 < W x).
Definition prec (r : vec) : vec := fun x => r x / W x.
Lemma prec_sym u v : dot u (prec v) = dot (prec u) v.
Proof. apply csum_ext. intros x I. unfold prec, Qcdiv. ring. Qed.
Lemma prec_comm u v : dot u (prec v) = dot v (prec u).
Proof. rewrite prec_sym. apply dot_comm. Qed.
Lemma prec_nonneg u : 0 <= dot u (prec u).
Proof.
  apply csum_nonneg. intros x I. unfold prec, Qcdiv. replace (u x * (u x * / W x)) with (u x * u x * / W x) by ring.
  apply Qcmult_nonneg; [apply sq_nonneg|apply Qclt_le_weak, Qcinv_lt_0, WP, I].
Qed.
Lemma prec_zero u : dot u (prec u) = 0 -> forall x, In x C -> u x = 0.
Proof.
  intros H x I. apply sq_zero.
  assert (K := csum_nonneg_zero (fun x => u x * prec u x) C). cbn beta in K.
  assert (E : u x * prec u x = 0).
  { apply K; [|exact H|exact I]. intros y J. unfold prec, Qcdiv. replace (u y * (u y * / W y)) with (u y * u y * / W y) by ring.
    apply Qcmult_nonneg; [apply sq_nonneg|apply Qclt_le_weak, Qcinv_lt_0, WP, J]. }
  unfold prec in E. assert (NZ := Qc_pos_nz _ (WP x I)).
  replace (u x * u x) with (u x * (u x / W x) * W x) by (field; exact NZ). rewrite E. ring.
Qed.

(** ** Orthogonal families *)
Section Bessel.
Context (q : nat -> vec) (m : nat).
Hypothesis (OR : forall i j, (i < m)%nat -> (j < m)%nat -> i <> j -> dot (q i) (prec (q j)) = 0).
Hypothesis (NZ : forall i, (i < m)%nat -> dot (q i) (prec (q i)) <> 0).
Fixpoint rest (v : vec) (k : nat) : vec :=
  match k with O => v | S k => fun x => rest v k x - (dot v (prec (q k)) / dot (q k) (prec (q k))) * q k x end.
Lemma rest_dot v k i : (k <= i)%nat -> (i < m)%nat -> dot (rest v k) (prec (q i)) = dot v (prec (q i)).
Proof.
  intros L I. induction k as [|k IH]; [reflexivity|]. cbn [rest].
  set (c := dot v (prec (q k)) / dot (q k) (prec (q k))).
  rewrite (dot_ext _ (fun x => rest v k x + (0 - c) * q k x) _ (prec (q i))) by (intros; try ring; reflexivity).
  rewrite dot_lin_l, IH, OR by lia. ring.
Qed.
Lemma rest_norm v k : (k <= m)%nat -> dot (rest v k) (prec (rest v k)) =
  dot v (prec v) - csum (map (fun j => dot v (prec (q j)) * dot v (prec (q j)) / dot (q j) (prec (q j))) (seq 0 k)).
Proof.
  induction k as [|k IH]; intros L; [cbn; ring|].
  rewrite seq_S, map_app, csum_app, Nat.add_0_l. cbn [map csum fold_right rest].
  assert (NK := NZ k ltac:(lia)). set (c := dot v (prec (q k)) / dot (q k) (prec (q k))).
  assert (E1 : forall u, dot u (prec (fun x => rest v k x - c * q k x)) = dot u (prec (rest v k)) + (0 - c) * dot u (prec (q k))).
  { intros u. rewrite <- dot_lin. apply dot_ext; [reflexivity|]. intros x _. unfold prec, Qcdiv. ring. }
  rewrite E1, (prec_comm (fun x => rest v k x - c * q k x) (rest v k)), (prec_comm (fun x => rest v k x - c * q k x) (q k)), !E1.
  rewrite (prec_comm (q k) (rest v k)), rest_dot by lia. rewrite IH by lia. unfold c. fold (csum (map (fun j => dot v (prec (q j)) * dot v (prec (q j)) / dot (q j) (prec (q j))) (seq 0 k))).
  field. exact NK.
Qed.
Lemma bessel v : csum (map (fun j => dot v (prec (q j)) * dot v (prec (q j)) / dot (q j) (prec (q j))) (seq 0 m)) <= dot v (prec v).
Proof. rewrite Qcle_sub, <- rest_norm by lia. apply prec_nonneg. Qed.

Definition unit (x : X) : vec := fun y => if dec y x then 1 else 0.
Lemma csum_unit (f : vec) l x : NoDup l -> In x l -> csum (map (fun y => unit x y * f y) l) = f x.
Proof.
  induction l as [|y l IH]; intros N I; [destruct I|]. cbn [map csum fold_right]. fold (csum (map (fun y => unit x y * f y) l)). inversion_clear N as [|? ? NI N'].
  unfold unit at 1.
  destruct I as [->|I].
  - destruct (dec x x) as [_|F]; [|destruct (F eq_refl)].
    rewrite (csum_ext _ (fun _ => 0)); [rewrite csum_zero; ring|]. intros y J. unfold unit. destruct (dec y x) as [->|]; [contradiction|ring].
  - destruct (dec y x) as [->|]; [contradiction|]. rewrite IH by assumption. ring.
Qed.
Lemma unit_dot x v : In x C -> dot (unit x) v = v x.
Proof. intros I. apply csum_unit; assumption. Qed.

Definition nq (n : nat) : Qc := zq (Z.of_nat n).
Lemma nq_S n : nq (S n) = 1 + nq n.
Proof. unfold nq. rewrite <- zq_1, <- zq_plus. f_equal. lia. Qed.
Lemma csum_ones {Y} (l : list Y) : csum (map (fun _ => 1) l) = nq (length l).
Proof. induction l as [|y l IH]; [reflexivity|]. cbn [map csum fold_right length]. rewrite nq_S. f_equal. exact IH. Qed.
Lemma nq_le n k : nq n <= nq k -> (n <= k)%nat.
Proof. intros H. apply (proj2 (zq_le _ _)) in H. lia. Qed.
Theorem orthogonal_count : (m <= length C)%nat.
Proof.
  apply nq_le. rewrite <- (csum_ones C), <- (seq_length m 0), <- (csum_ones (seq 0 m)).
  rewrite (csum_ext (fun _ => 1) (fun j => csum (map (fun x => W x * (prec (q j) x * prec (q j) x / dot (q j) (prec (q j)))) C)) (seq 0 m)).
  - rewrite csum_swap. apply csum_le. intros x I.
    rewrite csum_scale. assert (B := bessel (unit x)). rewrite unit_dot in B by exact I.
    rewrite (csum_ext _ (fun j => dot (unit x) (prec (q j)) * dot (unit x) (prec (q j)) / dot (q j) (prec (q j)))) by (intros j _; rewrite unit_dot by exact I; reflexivity).
    assert (NW := Qc_pos_nz _ (WP x I)).
    replace 1 with (W x * prec (unit x) x).
    + rewrite (Qcmult_comm (W x)), (Qcmult_comm (W x)). apply Qcmult_le_compat_r; [exact B|apply Qclt_le_weak, WP, I].
    + unfold prec, unit. destruct (dec x x) as [_|F]; [field; exact NW|destruct (F eq_refl)].
  - intros j J. apply in_seq in J. assert (NJ := NZ j ltac:(lia)).
    rewrite (csum_ext _ (fun x => / dot (q j) (prec (q j)) * (q j x * prec (q j) x))).
    + rewrite csum_scale. fold (dot (q j) (prec (q j))). field. exact NJ.
    + intros x I. assert (NW := Qc_pos_nz _ (WP x I)). unfold prec at 1 2 5. field. split; assumption.
Qed.
End Bessel.

(** ** The recurrences *)
Context (A : vec -> vec) (b : vec).
Hypothesis (A_lin : forall u v t x, In x C -> A (fun y => u y + t * v y) x = A u x + t * A v x).
Hypothesis (A_ext : forall u v x, (forall y, In y C -> u y = v y) -> In x C -> A u x = A v x).
Hypothesis (A_sym : forall u v, dot u (A v) = dot v (A u)).
Hypothesis (A_psd : forall u, 0 <= dot u (A u)).
Hypothesis (A_ker : forall u, dot u (A u) = 0 -> dot b u = 0).

Record state := mkState { s_phi : vec; s_r : vec; s_p : vec; s_rz : Qc }.
Definition norm2 (u : vec) : Qc := dot u u.
Definition start (phi : vec) : state :=
  let r := fun x => b x - A phi x in mkState phi r (prec r) (dot r (prec r)).
Definition step (S : state) : state :=
  let alpha := s_rz S / dot (s_p S) (A (s_p S)) in
  let r := fun x => s_r S x - alpha * A (s_p S) x in
  let rz := dot r (prec r) in
  mkState (fun x => s_phi S x + alpha * s_p S x) r (fun x => prec r x + rz / s_rz S * s_p S x) rz.

(** A direction of zero energy is orthogonal to every image. *)
Lemma psd_zero p y : dot p (A p) = 0 -> dot y (A p) = 0.
Proof.
  intros H. set (a := dot y (A p)). set (e := dot y (A y)). assert (E0 : 0 <= e) by apply A_psd.
  assert (E1 : 0 < e + 1).
  { apply Qclt_le_trans with (0 + 1); [reflexivity|]. apply Qcplus_le_compat; [exact E0|apply Qcle_refl]. }
  assert (NE := Qc_pos_nz _ E1). set (t := (0 - a) / (e + 1)).
  assert (K := A_psd (fun x => p x + t * y x)).
  assert (EQ : dot (fun x => p x + t * y x) (A (fun x => p x + t * y x)) = 0 - a * a * (e + two) / ((e + 1) * (e + 1))).
  { rewrite (dot_ext _ (fun x => p x + t * y x) _ (fun x => A p x + t * A y x)) by (intros; try reflexivity; apply A_lin; assumption).
    rewrite dot_lin, !dot_lin_l. rewrite H, (A_sym p y). fold a e. unfold t, two. field. exact NE. }
  rewrite EQ in K. assert (NN : 0 <= a * a) by apply sq_nonneg.
  apply sq_zero. apply Qcle_antisym; [|exact NN].
  destruct (Qclt_le_dec 0 (a * a)) as [L|L]; [exfalso|exact L].
  assert (E2 : 0 < e + two).
  { apply Qclt_le_trans with (0 + two); [reflexivity|]. apply Qcplus_le_compat; [exact E0|apply Qcle_refl]. }
  assert (P : 0 < a * a * (e + two) / ((e + 1) * (e + 1))) by (apply Qcdiv_lt_0; apply Qcmult_lt_0; assumption).
  apply (Qclt_not_le _ _ P). rewrite Qcle_sub. exact K.
Qed.

Context (phi0 : vec).
Fixpoint st (k : nat) : state := match k with O => start phi0 | S k => step (st k) end.
Notation r_ k := (s_r (st k)).
Notation p_ k := (s_p (st k)).
Notation z_ k := (prec (s_r (st k))).
Notation rz_ k := (s_rz (st k)).
Notation al_ k := (rz_ k / dot (p_ k) (A (p_ k))).

Lemma rz_eq k : rz_ k = dot (r_ k) (z_ k). Proof. destruct k; reflexivity. Qed.
(** The residual is the true residual. *)
Lemma true_residual k x : In x C -> r_ k x = b x - A (s_phi (st k)) x.
Proof.
  intros I. induction k as [|k IH]; [reflexivity|]. cbn [st step s_r s_phi].
  rewrite A_lin by exact I. rewrite IH. ring.
Qed.
Lemma dot_r u k : dot u (r_ (S k)) = dot u (r_ k) - al_ k * dot u (A (p_ k)).
Proof.
  cbn [st step s_r]. set (a := al_ k).
  rewrite (dot_ext u u _ (fun x => r_ k x + (0 - a) * A (p_ k) x)) by (intros; try reflexivity; ring).
  rewrite dot_lin. ring.
Qed.
Lemma dot_p u k : dot u (p_ (S k)) = dot u (z_ (S k)) + rz_ (S k) / rz_ k * dot u (p_ k).
Proof. cbn [st step s_p]. rewrite dot_lin. reflexivity. Qed.
Lemma dot_z u k : dot u (z_ (S k)) = dot u (p_ (S k)) - rz_ (S k) / rz_ k * dot u (p_ k).
Proof. rewrite dot_p. ring. Qed.

Definition live (k : nat) : Prop := forall j, (j < k)%nat -> rz_ j <> 0.
(** Energy of a direction with a live residual. *)
Lemma pAp_nz k : dot (r_ k) (p_ k) = rz_ k -> rz_ k <> 0 -> dot (p_ k) (A (p_ k)) <> 0.
Proof.
  intros E N H. apply N. rewrite <- E.
  rewrite (dot_ext _ (fun x => b x + (0 - 1) * A (s_phi (st k)) x) _ (p_ k)) by (intros x I; try reflexivity; rewrite true_residual by exact I; ring).
  rewrite dot_lin_l, (A_ker _ H), (dot_comm (A _)), A_sym, (psd_zero _ _ H). ring.
Qed.
Lemma conjugacy k : live k ->
  ((forall j, (j < k)%nat -> dot (r_ k) (p_ j) = 0) /\
  (forall j, (j < k)%nat -> dot (r_ k) (z_ j) = 0) /\
  (forall j, (j < k)%nat -> dot (p_ k) (A (p_ j)) = 0) /\
  dot (r_ k) (p_ k) = rz_ k /\
  (forall j, (j < k)%nat -> dot (p_ j) (A (p_ j)) <> 0))%type.
Proof.
  induction k as [|k IH]; intros L.
  - split; [|split; [|split; [|split]]]; try (intros; lia). reflexivity.
  - destruct IH as (RP & RZ & PA & RPK & NZ); [intros j J; apply L; lia|].
    assert (NK : rz_ k <> 0) by (apply L; lia).
    assert (NPA := pAp_nz k RPK NK).
    assert (NZ' : forall j, (j < S k)%nat -> dot (p_ j) (A (p_ j)) <> 0).
    { intros j J. destruct (Nat.eq_dec j k) as [->|]; [exact NPA|apply NZ; lia]. }
    assert (RP' : forall j, (j < S k)%nat -> dot (r_ (S k)) (p_ j) = 0).
    { intros j J. rewrite dot_comm, dot_r, (dot_comm (p_ j)). destruct (Nat.eq_dec j k) as [->|NE].
      - rewrite RPK. field. exact NPA.
      - rewrite (A_sym (p_ j)), (PA j), RP by lia. ring. }
    assert (RZ' : forall j, (j < S k)%nat -> dot (r_ (S k)) (z_ j) = 0).
    { intros j J. destruct j as [|j].
      - change (z_ 0) with (p_ 0). apply RP'. lia.
      - rewrite dot_z, !RP' by lia. ring. }
    assert (ZR : forall j, (j < S k)%nat -> dot (z_ (S k)) (r_ j) = 0).
    { intros j J. rewrite <- prec_sym. apply RZ', J. }
    (* image of an earlier direction *)
    assert (AP : forall u j, (j < S k)%nat -> dot u (A (p_ j)) = (dot u (r_ j) - dot u (r_ (S j))) / al_ j).
    { intros u j J. rewrite dot_r. assert (N1 := L j J). assert (N2 := NZ' j J). field. split; assumption. }
    split; [exact RP'|split; [exact RZ'|split; [|split; [|exact NZ']]]].
    + intros j J. rewrite dot_comm, dot_p, (dot_comm (A (p_ j))), (dot_comm (A (p_ j))).
      destruct (Nat.eq_dec j k) as [->|NE].
      * rewrite (AP (z_ (S k)) k) by lia. rewrite ZR by lia.
        rewrite (dot_comm (z_ (S k)) (r_ (S k))), <- rz_eq. field. split; assumption.
      * rewrite (PA j) by lia. rewrite (AP _ j) by lia. rewrite !ZR by lia. unfold Qcdiv. ring.
    + rewrite dot_p, <- rz_eq, RP' by lia. ring.
Qed.

(** The iterations stay well defined for as long as the residual is not zero, and the residual
    is zero after at most as many iterations as there are unknowns. *)
Theorem cg_defined k : live (S k) -> dot (p_ k) (A (p_ k)) <> 0.
Proof.
  intros L. destruct (conjugacy (S k) L) as (_ & _ & _ & _ & H). apply H. lia.
Qed.
Theorem cg_finite k : live k -> (k <= length C)%nat.
Proof.
  intros L. apply (orthogonal_count (fun j => r_ j) k).
  - intros i j I J NE. assert (G : forall i j, (i < k)%nat -> (j < i)%nat -> dot (r_ i) (z_ j) = 0).
    { intros i' j' I' J'. destruct (conjugacy i') as (_ & H & _); [intros l Hl; apply L; lia|]. apply H, J'. }
    destruct (Nat.lt_ge_cases j i) as [H|H]; [apply G; assumption|]. rewrite prec_comm. apply G; lia.
  - intros i I. rewrite <- rz_eq. apply L, I.
Qed.
Lemma rz_zero k : rz_ k = 0 -> norm2 (r_ k) = 0.
Proof.
  intros H. rewrite rz_eq in H. unfold norm2. rewrite (dot_ext _ (r_ k) _ (fun _ => 0)); [apply dot_zero|reflexivity|].
  apply prec_zero, H.
Qed.
End CG.
