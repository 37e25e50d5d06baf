(** Theorems C17 and C50: precomputed neighbour table, packing of indices. *)
From Verif Require Import Base OctreeSpec OctreeGeom OctreeModel FindNeighbors MarkerLoop RefineModel
  MeshSpec GhostExchange BalanceProofs CommModel CommProofs IndexModel HistorySpec OctreeProps.

(** ** C50: octant indices *)
Theorem C50_octant_index n :
  (forall k, to_flat n (of_flat n k) = k) /\
  (forall o, (isGhost o = false -> (iOct o < n)%nat) -> of_flat n (to_flat n o) = o).
Proof.
  split.
  - intros k. unfold to_flat, of_flat. destruct (Nat.leb_spec n k); cbn [isGhost iOct]; lia.
  - intros [i [|]] H; unfold to_flat, of_flat; cbn [isGhost iOct] in *.
    + replace (n <=? n + i)%nat with true by lia. f_equal. lia.
    + specialize (H eq_refl). replace (n <=? 0 + i)%nat with false by lia. reflexivity.
Qed.

(** Offsets that a table entry can have: -1, 0, 1 along each axis, 0 along z in 2D. *)
Definition small_offset (g : geom) (d : offset) : Prop :=
  (forall a, -1 <= d a <= 1) /\ (flat g AZ = true -> d AZ = 0).

Theorem C50_offsets g :
  (forall d, small_offset g d -> (offset_to_index g d < n_offsets g)%nat /\
     forall a, index_to_offset g (offset_to_index g d) a = d a) /\
  (forall i, (i < n_offsets g)%nat -> small_offset g (index_to_offset g i) /\
     offset_to_index g (index_to_offset g i) = i).
Proof.
  split.
  - intros d (H & Hf). pose proof (H AX). pose proof (H AY). pose proof (H AZ).
    unfold offset_to_index, index_to_offset, n_offsets, flat in *. destruct (g3d g); cbn [negb] in *.
    + split; [lia|]. rewrite Z2Nat.id by lia. intros [| |]; cbn [mkoff]; lia.
    + specialize (Hf eq_refl). split; [lia|]. rewrite Z2Nat.id by lia. intros [| |]; cbn [mkoff]; lia.
  - intros i Hi. unfold small_offset, offset_to_index, index_to_offset, n_offsets, flat in *.
    destruct (g3d g); cbn [negb]; (split; [split; [intros [| |]|intros; try discriminate]|]); cbn [mkoff]; try lia.
Qed.

(** ** C50: array elements *)

(** Index lists within the extents. *)
Definition in_range (exts is : list nat) : Prop := Forall2 lt is exts.

(** Digits of [e] in the mixed radix [l], first digit fastest. *)
Fixpoint digits (l : list nat) (e : nat) : list nat :=
  match l with [] => [] | n :: l => Nat.modulo e n :: digits l (Nat.div e n) end.
Fixpoint undigits (l is : list nat) : nat :=
  match l, is with n :: l, i :: is => i + n * undigits l is | _, _ => 0 end.

Lemma digits_length l : forall e, length (digits l e) = length l.
Proof. induction l; intros; cbn; auto. Qed.

Lemma prod_pos_div n p e : (e < n * p)%nat -> (Nat.modulo e n < n)%nat /\ (Nat.div e n < p)%nat.
Proof.
  intros H. assert (n <> 0%nat) by (intros ->; cbn in H; lia). split; [apply Nat.mod_upper_bound; lia|].
  apply Nat.div_lt_upper_bound; lia.
Qed.

Lemma digits_range l : forall e, (e < prod l)%nat -> in_range l (digits l e).
Proof.
  induction l as [|n l IH]; intros e H; cbn [digits prod] in *; constructor.
  - apply (prod_pos_div n (prod l) e H).
  - apply IH. apply (prod_pos_div n (prod l) e H).
Qed.

Lemma undigits_range l : forall is, in_range l is -> (undigits l is < prod l)%nat.
Proof.
  induction l as [|n l IH]; intros is H; inversion H; subst; cbn [undigits prod]; [lia|].
  specialize (IH _ H4). nia.
Qed.

Lemma undigits_digits l : forall e, (e < prod l)%nat -> undigits l (digits l e) = e.
Proof.
  induction l as [|n l IH]; intros e H; cbn [digits undigits prod] in *; [lia|].
  rewrite IH by (apply (prod_pos_div n (prod l) e H)).
  assert (n <> 0%nat) by (intros ->; cbn in H; lia).
  pose proof (Nat.div_mod e n). lia.
Qed.

Lemma digits_undigits l : forall is, in_range l is -> digits l (undigits l is) = is.
Proof.
  induction l as [|n l IH]; intros is H; inversion H; subst; cbn [undigits digits]; [reflexivity|].
  assert (n <> 0%nat) by lia. f_equal.
  - rewrite Nat.mul_comm, Nat.mod_add by lia. apply Nat.mod_small; lia.
  - rewrite Nat.mul_comm, Nat.div_add by lia. rewrite (Nat.div_small x n) by lia. cbn. apply IH; assumption.
Qed.

Lemma get_idx_after pos o : forall exts k e, (pos < k)%nat -> get_idx pos k exts o e = digits exts e.
Proof.
  induction exts as [|n exts IH]; intros k e H; cbn [get_idx digits]; [reflexivity|].
  replace (k =? pos)%nat with false by lia. f_equal. apply IH; lia.
Qed.
Lemma octant_size_after pos : forall exts k, (pos < k)%nat -> octant_size_from pos k exts = prod exts.
Proof.
  induction exts as [|n exts IH]; intros k H; cbn [octant_size_from prod]; [reflexivity|].
  replace (k =? pos)%nat with false by lia. f_equal. apply IH; lia.
Qed.

Lemma get_idx_at pos o n l2 : forall l1 k e, (k + length l1 = pos)%nat ->
  get_idx pos k (l1 ++ n :: l2) o e =
  firstn (length l1) (digits (l1 ++ l2) e) ++ o :: skipn (length l1) (digits (l1 ++ l2) e).
Proof.
  induction l1 as [|m l1 IH]; intros k e H; cbn [app length get_idx digits firstn skipn] in *.
  - replace (k =? pos)%nat with true by lia. f_equal. apply get_idx_after; lia.
  - replace (k =? pos)%nat with false by lia. f_equal. apply IH; lia.
Qed.
Lemma octant_size_at pos n l2 : forall l1 k, (k + length l1 = pos)%nat ->
  octant_size_from pos k (l1 ++ n :: l2) = prod (l1 ++ l2).
Proof.
  induction l1 as [|m l1 IH]; intros k H; cbn [app length octant_size_from prod] in *.
  - replace (k =? pos)%nat with true by lia. rewrite octant_size_after by lia. lia.
  - replace (k =? pos)%nat with false by lia. f_equal. apply IH; lia.
Qed.

Lemma in_range_app l1 l2 i1 i2 : length i1 = length l1 ->
  (in_range (l1 ++ l2) (i1 ++ i2) <-> in_range l1 i1 /\ in_range l2 i2).
Proof.
  unfold in_range. revert i1. induction l1 as [|n l1 IH]; intros [|i i1] H; cbn [app length] in *; try lia.
  - split; [intros; split; [constructor|assumption]|tauto].
  - specialize (IH i1 ltac:(lia)). split.
    + intros X. inversion X; subst. apply IH in H5. split; [constructor; tauto|tauto].
    + intros (X & Y). inversion X; subst. constructor; [assumption|]. apply IH; tauto.
Qed.
Lemma in_range_length l i : in_range l i -> length i = length l.
Proof. intros H. induction H; cbn; auto. Qed.

Lemma prod_app a b : prod (a ++ b) = (prod a * prod b)%nat.
Proof. induction a; cbn [app prod]; [lia|]. rewrite IHa. lia. Qed.

Section At.
Variables (l1 l2 : list nat) (n : nat).
Let pos := length l1.
Let exts := l1 ++ n :: l2.

Lemma get_U_at o e : get_U pos exts o e =
  firstn pos (digits (l1 ++ l2) e) ++ o :: skipn pos (digits (l1 ++ l2) e).
Proof. apply get_idx_at. reflexivity. Qed.
Lemma size_at : octant_size pos exts = prod (l1 ++ l2).
Proof. apply octant_size_at. reflexivity. Qed.

(** The multi-index of (octant, linear index). *)
Lemma get_U_undigits i1 o i2 : in_range l1 i1 -> in_range l2 i2 ->
  get_U pos exts o (undigits (l1 ++ l2) (i1 ++ i2)) = i1 ++ o :: i2.
Proof.
  intros H1 H2. pose proof (in_range_length _ _ H1) as E. rewrite get_U_at.
  rewrite digits_undigits by (apply in_range_app; auto). unfold pos. rewrite <- E.
  rewrite firstn_app, skipn_app, Nat.sub_diag, firstn_all, skipn_all. cbn. rewrite app_nil_r. reflexivity.
Qed.

Lemma get_U_split o e : (e < prod (l1 ++ l2))%nat -> exists i1 i2, get_U pos exts o e = i1 ++ o :: i2 /\
  in_range l1 i1 /\ in_range l2 i2 /\ e = undigits (l1 ++ l2) (i1 ++ i2).
Proof.
  intros He. rewrite get_U_at. eexists _, _. split; [reflexivity|].
  pose proof (digits_range _ _ He) as R.
  rewrite <- (firstn_skipn pos (digits (l1 ++ l2) e)) in R.
  assert (L : length (firstn pos (digits (l1 ++ l2) e)) = length l1).
  { rewrite firstn_length, digits_length, app_length. unfold pos. lia. }
  apply in_range_app in R; [|exact L]. repeat split; try apply R.
  rewrite firstn_skipn, undigits_digits; auto.
Qed.

Lemma prod_exts : prod exts = (n * prod (l1 ++ l2))%nat.
Proof. unfold exts. rewrite !prod_app. cbn [prod]. lia. Qed.
End At.

(** A view with extents l1 ++ n :: l2 (octant index at position length l1, n octants): the
    pairs (octant, linear index) designate every element exactly once. *)
Theorem C50_array_elements l1 n l2 :
  let exts := l1 ++ n :: l2 in let pos := length l1 in let size := octant_size pos exts in
  size = prod (l1 ++ l2) /\
  (forall o e, (o < n)%nat -> (e < size)%nat ->
     in_range exts (get_U pos exts o e) /\ nth_error (get_U pos exts o e) pos = Some o) /\
  (forall o e o' e', (e < size)%nat -> (e' < size)%nat ->
     get_U pos exts o e = get_U pos exts o' e' -> o = o' /\ e = e') /\
  (forall is, in_range exts is -> exists o e, (o < n)%nat /\ (e < size)%nat /\ is = get_U pos exts o e).
Proof.
  cbv zeta. rewrite size_at. split; [reflexivity|]. split; [|split].
  - intros o e Ho He. destruct (get_U_split l1 l2 n o e He) as (i1 & i2 & E & R1 & R2 & _). rewrite E. split.
    + apply in_range_app; [apply in_range_length; exact R1|]. split; [exact R1|]. constructor; assumption.
    + rewrite <- (in_range_length _ _ R1). rewrite nth_error_app2 by lia. rewrite Nat.sub_diag. reflexivity.
  - intros o e o' e' He He' E.
    destruct (get_U_split l1 l2 n o e He) as (i1 & i2 & E1 & R1 & R2 & X).
    destruct (get_U_split l1 l2 n o' e' He') as (j1 & j2 & E2 & S1 & S2 & Y).
    rewrite E1, E2 in E. pose proof (in_range_length _ _ R1). pose proof (in_range_length _ _ S1).
    assert (i1 = j1 /\ o :: i2 = o' :: j2) as (-> & K).
    { apply (f_equal (firstn (length i1))) in E as F. rewrite firstn_app, Nat.sub_diag, firstn_all in F. cbn [firstn] in F.
      rewrite app_nil_r in F. replace (length i1) with (length j1) in F by lia.
      rewrite firstn_app, Nat.sub_diag, firstn_all in F. cbn [firstn] in F. rewrite app_nil_r in F. subst j1.
      split; [reflexivity|]. eapply app_inv_head; exact E. }
    inversion K; subst. auto.
  - intros is R. assert (L := in_range_length _ _ R). rewrite app_length in L. cbn [length] in L.
    rewrite <- (firstn_skipn (length l1) is) in R.
    assert (L1 : length (firstn (length l1) is) = length l1) by (rewrite firstn_length; lia).
    apply in_range_app in R; [|exact L1]. destruct R as (R1 & R2).
    destruct (skipn (length l1) is) as [|o i2] eqn:E; inversion R2; subst.
    exists o, (undigits (l1 ++ l2) (firstn (length l1) is ++ i2)). split; [assumption|]. split.
    + apply undigits_range. apply in_range_app; auto.
    + rewrite get_U_undigits by assumption. rewrite <- E. symmetry. apply firstn_skipn.
Qed.

(** ** C50: transposition of the octant index *)
Lemma idx_eqb_eq a : forall b, idx_eqb a b = true <-> a = b.
Proof.
  induction a as [|x a IH]; intros [|y b]; cbn [idx_eqb]; try (split; congruence).
  rewrite andb_true_iff, Nat.eqb_eq, IH. split; [intros (-> & ->); reflexivity|intros E; injection E; auto].
Qed.

Lemma assign_spec {X} (F : list nat -> X) : forall ws f i, (forall w, In w ws -> snd w = F (fst w)) ->
  (In i (map fst ws) \/ f i = F i) -> assign ws f i = F i.
Proof.
  unfold assign. induction ws as [|w ws IH]; intros f i H D; cbn [fold_left map In] in *.
  - destruct D as [[]|D]; exact D.
  - apply IH; [auto|]. destruct (idx_eqb i (fst w)) eqn:E.
    + right. apply idx_eqb_eq in E. rewrite (H w (or_introl eq_refl)). congruence.
    + destruct D as [[D|D]|D]; [|left; exact D|right; exact D].
      assert (T : idx_eqb i (fst w) = true) by (apply idx_eqb_eq; congruence). congruence.
Qed.

(** A schedule only reorders the writes. *)
Definition reorders {X} (sch : list X -> list X) : Prop := forall l, Permutation (sch l) l.

Lemma split_index n k index : (index < n * k)%nat -> (Nat.div index k < n)%nat /\ (Nat.modulo index k < k)%nat.
Proof. intros H. rewrite Nat.mul_comm in H. destruct (prod_pos_div k n index H). auto. Qed.

Theorem C50_transpose_from {X} sch (R : view X) l1 l2 n f0 :
  reorders sch -> ext R = l1 ++ l2 ++ [n] -> l2 <> [] ->
  let U := transpose_from sch (length l1) R f0 in
  ext U = l1 ++ n :: l2 /\
  forall i1 o i2, in_range l1 i1 -> (o < n)%nat -> in_range l2 i2 ->
    elt U (i1 ++ o :: i2) = elt R (i1 ++ i2 ++ [o]).
Proof.
  intros Hs E Hl2 U.
  assert (EX : ext U = l1 ++ n :: l2).
  { unfold U, transpose_from. cbn [ext]. rewrite E. apply nth_error_ext'. intros i.
    rewrite !app_length. cbn [length]. replace (length l1 + (length l2 + 1))%nat with (length l1 + S (length l2))%nat by lia.
    destruct (Nat.lt_ge_cases i (length l1 + S (length l2))) as [Hi|Hi].
    2:{ rewrite (proj2 (nth_error_None _ i)) by (rewrite map_length, seq_length; lia).
        symmetry. apply nth_error_None. rewrite app_length. cbn [length]. lia. }
    rewrite nth_error_map, (nth_error_nth' _ 0%nat) by (rewrite seq_length; lia). rewrite seq_nth by lia. cbn [option_map Nat.add].
    destruct (Nat.ltb_spec i (length l1)).
    - rewrite nth_error_app1 by lia. rewrite app_nth1 by lia. symmetry. apply nth_error_nth'. lia.
    - rewrite nth_error_app2 by lia. destruct (Nat.eqb_spec i (length l1)).
      + subst i. rewrite Nat.sub_diag. cbn [nth_error]. f_equal.
        rewrite !app_nth2 by lia. replace (length l1 + S (length l2) - 1 - length l1 - length l2)%nat with 0%nat by lia. reflexivity.
      + rewrite app_nth2 by lia. rewrite app_nth1 by lia. destruct (i - length l1)%nat eqn:D; [lia|]. cbn [nth_error].
        replace (i - 1 - length l1)%nat with n1 by lia. symmetry. apply nth_error_nth'. lia. }
  split; [exact EX|]. intros i1 o i2 R1 Ho R2.
  unfold U, transpose_from in *. cbn [ext elt] in *.
  set (exts := map _ _) in *. rewrite EX. clearbody exts. 
  set (F := fun idx : list nat => elt R (firstn (length l1) idx ++ skipn (S (length l1)) idx ++ [nth (length l1) idx 0%nat])).
  assert (FE : forall i1 o i2, length i1 = length l1 -> F (i1 ++ o :: i2) = elt R (i1 ++ i2 ++ [o])).
  { intros j1 p j2 L. unfold F. rewrite <- L. f_equal. rewrite firstn_app, Nat.sub_diag, firstn_all. cbn [firstn]. rewrite app_nil_r.
    f_equal. f_equal.
    - rewrite skipn_app, skipn_all2 by lia. replace (S (length j1) - length j1)%nat with 1%nat by lia. reflexivity.
    - rewrite app_nth2 by lia. rewrite Nat.sub_diag. reflexivity. }
  rewrite <- FE by (apply in_range_length; exact R1).
  pose proof (size_at l1 l2 n) as SZ. rewrite SZ.
  assert (PR : prod (ext R) = (n * prod (l1 ++ l2))%nat).
  { rewrite E, app_assoc. rewrite prod_app. cbn [prod]. lia. }
  assert (RK : (length (ext R) - 1 = length (l1 ++ l2))%nat) by (rewrite E, !app_length; cbn [length]; lia).
  apply assign_spec.
  - intros w Hw. apply (Permutation_in _ (Hs _)) in Hw. apply in_map_iff in Hw. destruct Hw as (index & <- & Hi).
    apply in_seq in Hi. rewrite PR in Hi. destruct (split_index n (prod (l1 ++ l2)) index ltac:(lia)) as (Ha & Hb).
    cbn [fst snd]. destruct (get_U_split l1 l2 n (index / prod (l1 ++ l2)) _ Hb) as (j1 & j2 & G & S1 & S2 & EQ).
    rewrite G, FE by (apply in_range_length; exact S1). f_equal.
    rewrite RK, E, app_assoc. rewrite (get_U_at (l1 ++ l2) [] n). rewrite app_nil_r, EQ.
    rewrite digits_undigits by (apply in_range_app; [apply in_range_length; exact S1|auto]).
    replace (length (l1 ++ l2)) with (length (j1 ++ j2)) by (rewrite !app_length, (in_range_length _ _ S1), (in_range_length _ _ S2); reflexivity).
    rewrite firstn_all, skipn_all. rewrite <- app_assoc. reflexivity.
  - left. apply in_map_iff. set (index := (o * prod (l1 ++ l2) + undigits (l1 ++ l2) (i1 ++ i2))%nat).
    assert (Hu : (undigits (l1 ++ l2) (i1 ++ i2) < prod (l1 ++ l2))%nat).
    { apply undigits_range. apply in_range_app; [apply in_range_length; exact R1|auto]. }
    destruct (divmod_of o (prod (l1 ++ l2)) _ Hu) as (D1 & D2). fold index in D1, D2.
    eexists (_, _). split; [|eapply Permutation_in; [symmetry; apply Hs|]; apply in_map_iff; exists index; split; [reflexivity|]].
    + cbn [fst]. rewrite D1, D2. apply get_U_undigits; assumption.
    + apply in_seq. rewrite PR. unfold index. nia.
Qed.

Theorem C50_transpose_to {X} sch (U : view X) l1 l2 n f0 :
  reorders sch -> ext U = l1 ++ n :: l2 -> l2 <> [] ->
  let R := transpose_to sch (length l1) U f0 in
  ext R = l1 ++ l2 ++ [n] /\
  forall i1 o i2, in_range l1 i1 -> (o < n)%nat -> in_range l2 i2 ->
    elt R (i1 ++ i2 ++ [o]) = elt U (i1 ++ o :: i2).
Proof.
  intros Hs E Hl2 R.
  assert (EX : ext R = l1 ++ l2 ++ [n]).
  { unfold R, transpose_to. cbn [ext]. rewrite E, app_assoc. f_equal.
    - apply nth_error_ext'. intros i. rewrite !app_length. cbn [length].
      replace (length l1 + S (length l2) - 1)%nat with (length l1 + length l2)%nat by lia.
      destruct (Nat.lt_ge_cases i (length l1 + length l2)) as [Hi|Hi].
      2:{ rewrite (proj2 (nth_error_None _ i)) by (rewrite map_length, seq_length; lia).
          symmetry. apply nth_error_None. rewrite app_length. cbn [length]. lia. }
      rewrite nth_error_map, (nth_error_nth' _ 0%nat) by (rewrite seq_length; lia). rewrite seq_nth by lia. cbn [option_map Nat.add].
      destruct (Nat.ltb_spec i (length l1)).
      + rewrite nth_error_app1 by lia. rewrite app_nth1 by lia. symmetry. apply nth_error_nth'. lia.
      + rewrite nth_error_app2 by lia. rewrite app_nth2 by lia. destruct (S i - length l1)%nat eqn:D; [lia|]. cbn [nth].
        replace n0 with (i - length l1)%nat by lia. symmetry. apply nth_error_nth'. lia.
    - rewrite app_nth2 by lia. rewrite Nat.sub_diag. reflexivity. }
  split; [exact EX|]. intros i1 o i2 R1 Ho R2.
  unfold R, transpose_to in *. cbn [ext elt] in *.
  set (exts := map _ (seq _ _) ++ [_]) in *. rewrite EX. clearbody exts.
  assert (RK : (length (ext U) - 1 = length (l1 ++ l2))%nat) by (rewrite E, !app_length; cbn [length]; lia).
  rewrite RK, !E, app_assoc.
  set (F := fun idx : list nat => elt U (firstn (length l1) idx ++ nth (length (l1 ++ l2)) idx 0%nat :: firstn (length l2) (skipn (length l1) idx))).
  assert (FE : forall i1 o i2, length i1 = length l1 -> length i2 = length l2 -> F ((i1 ++ i2) ++ [o]) = elt U (i1 ++ o :: i2)).
  { intros j1 p j2 L L2. unfold F. rewrite app_length, <- L, <- L2. f_equal. rewrite <- app_assoc.
    rewrite firstn_app, Nat.sub_diag, firstn_all. cbn [firstn]. rewrite app_nil_r. f_equal. f_equal.
    - rewrite app_assoc, app_nth2 by (rewrite app_length; lia). rewrite app_length, Nat.sub_diag. reflexivity.
    - rewrite skipn_app, skipn_all, Nat.sub_diag. cbn [skipn app]. rewrite firstn_app, Nat.sub_diag, firstn_all. cbn. apply app_nil_r. }
  rewrite app_assoc. rewrite <- FE by (apply in_range_length; assumption).
  pose proof (size_at l1 l2 n) as SZ. rewrite SZ.
  pose proof (prod_exts l1 l2 n) as PR.
  assert (GR : forall o i1 i2, in_range l1 i1 -> in_range l2 i2 ->
    get_U (length (l1 ++ l2)) ((l1 ++ l2) ++ [n]) o (undigits (l1 ++ l2) (i1 ++ i2)) = (i1 ++ i2) ++ [o]).
  { intros p j1 j2 S1 S2. rewrite (get_U_at (l1 ++ l2) [] n). rewrite app_nil_r.
    rewrite digits_undigits by (apply in_range_app; [apply in_range_length; exact S1|auto]).
    replace (length (l1 ++ l2)) with (length (j1 ++ j2)) by (rewrite !app_length, (in_range_length _ _ S1), (in_range_length _ _ S2); reflexivity).
    rewrite firstn_all, skipn_all. reflexivity. }
  apply assign_spec.
  - intros w Hw. apply (Permutation_in _ (Hs _)) in Hw. apply in_map_iff in Hw. destruct Hw as (index & <- & Hi).
    apply in_seq in Hi. rewrite PR in Hi. destruct (split_index n (prod (l1 ++ l2)) index ltac:(lia)) as (Ha & Hb).
    cbn [fst snd]. destruct (get_U_split l1 l2 n (index / prod (l1 ++ l2)) _ Hb) as (j1 & j2 & G & S1 & S2 & EQ).
    rewrite G, EQ, GR by assumption. rewrite FE by (apply in_range_length; assumption). reflexivity.
  - left. apply in_map_iff. set (index := (o * prod (l1 ++ l2) + undigits (l1 ++ l2) (i1 ++ i2))%nat).
    assert (Hu : (undigits (l1 ++ l2) (i1 ++ i2) < prod (l1 ++ l2))%nat).
    { apply undigits_range. apply in_range_app; [apply in_range_length; exact R1|auto]. }
    destruct (divmod_of o (prod (l1 ++ l2)) _ Hu) as (D1 & D2). fold index in D1, D2.
    eexists (_, _). split; [|eapply Permutation_in; [symmetry; apply Hs|]; apply in_map_iff; exists index; split; [reflexivity|]].
    + cbn [fst]. rewrite D1, D2. apply GR; assumption.
    + apply in_seq. rewrite PR. unfold index. nia.
Qed.

(** Going to the communication layout and back restores every element. *)
Theorem C50_transpose_roundtrip {X} sch (U : view X) l1 l2 n f0 f1 :
  reorders sch -> ext U = l1 ++ n :: l2 -> l2 <> [] ->
  let U' := transpose_from sch (length l1) (transpose_to sch (length l1) U f0) f1 in
  ext U' = ext U /\ forall is, in_range (ext U) is -> elt U' is = elt U is.
Proof.
  intros Hs E Hl U'. destruct (C50_transpose_to sch U l1 l2 n f0 Hs E Hl) as (E1 & V1).
  destruct (C50_transpose_from sch _ l1 l2 n f1 Hs E1 Hl) as (E2 & V2). fold U' in E2, V2.
  split; [congruence|]. intros is R. rewrite E in R.
  destruct (C50_array_elements l1 n l2) as (_ & _ & _ & S). destruct (S is R) as (o & e & Ho & He & ->).
  rewrite size_at in He. destruct (get_U_split l1 l2 n o e He) as (i1 & i2 & G & R1 & R2 & _). rewrite G.
  rewrite V2 by assumption. apply V1; assumption.
Qed.

(** ** C17: the precomputed neighbour table *)
Lemma isBoundary_ext g A d d' : (forall a, d a = d' a) -> isBoundary g A d = isBoundary g A d'.
Proof. intros H. unfold isBoundary. rewrite !H. reflexivity. Qed.
Lemma shifted_ext g A d d' : (forall a, d a = d' a) -> shifted g A d = shifted g A d'.
Proof. intros H. unfold shifted, oct_of. rewrite !H. reflexivity. Qed.
Lemma suboctants_ext g V d d' : (forall a, d a = d' a) -> suboctants g V d = suboctants g V d'.
Proof. intros H. unfold suboctants. rewrite !H. reflexivity. Qed.
Lemma findNeighbors_ext g st i d d' : (forall a, d a = d' a) -> findNeighbors g st i d = findNeighbors g st i d'.
Proof.
  intros H. unfold findNeighbors. rewrite !H. destruct (nth_error st i) as [A|]; [|reflexivity].
  rewrite (isBoundary_ext g A d d' H), (shifted_ext g A d d' H).
  rewrite (suboctants_ext g (shifted g A d') d d' H). reflexivity.
Qed.

(** Reordering the slots of a two-dimensional array. *)
Section Slots.
Variables (n m : nat).
Definition slot (index : nat) : nat := (Nat.div index m + n * Nat.modulo index m)%nat.

Lemma slot_lt index : (index < n * m)%nat -> (slot index < n * m)%nat.
Proof. intros H. destruct (split_index n m index H). unfold slot. nia. Qed.
Lemma slot_inj a b : (a < n * m)%nat -> (b < n * m)%nat -> slot a = slot b -> a = b.
Proof.
  intros Ha Hb E. destruct (split_index n m a Ha) as (A1 & A2). destruct (split_index n m b Hb) as (B1 & B2).
  unfold slot in E.
  assert (E1 : Nat.modulo a m = Nat.modulo b m) by nia. assert (E2 : Nat.div a m = Nat.div b m) by nia.
  pose proof (Nat.div_mod a m). pose proof (Nat.div_mod b m). nia.
Qed.
Lemma slot_perm : Permutation (map slot (seq 0 (n * m))) (seq 0 (n * m)).
Proof.
  apply NoDup_Permutation_bis.
  - assert (G : forall l, NoDup l -> (forall x, In x l -> (x < n * m)%nat) -> NoDup (map slot l)).
    { induction l as [|x l IH]; intros ND H; cbn [map]; [constructor|]. inversion ND; subst. constructor.
      - intros I. apply in_map_iff in I. destruct I as (y & E & I).
        apply slot_inj in E; [subst; contradiction|apply H; right; exact I|apply H; left; reflexivity].
      - apply IH; [assumption|]. intros; apply H; right; assumption. }
    apply G; [apply seq_NoDup|]. intros x I. apply in_seq in I. lia.
  - rewrite map_length. lia.
  - intros x I. apply in_map_iff in I. destruct I as (y & <- & I). apply in_seq in I. apply in_seq.
    pose proof (slot_lt y). lia.
Qed.
Lemma slot_decode index : (index < n * m)%nat ->
  Nat.modulo (slot index) n = Nat.div index m /\ Nat.div (slot index) n = Nat.modulo index m.
Proof.
  intros H. destruct (split_index n m index H) as (A & B). unfold slot.
  rewrite Nat.add_comm, (Nat.mul_comm n). apply and_comm. apply divmod_of. exact A.
Qed.
End Slots.

Lemma nsum_perm a b : Permutation a b -> nsum a = nsum b.
Proof. induction 1; cbn [nsum]; lia. Qed.

Lemma mapM_block (ns : list nat) acc :
  mapM (fun i => match nth_error ns i with Some k => Some ((acc + i)%nat, k) | None => None end) (seq 0 (length ns))
  = Some (block acc ns).
Proof.
  apply mapM_seq.
  - unfold block. rewrite combine_length, seq_length. lia.
  - intros i Hi. unfold block. destruct (nth_error ns i) eqn:E.
    + symmetry. apply nth_error_combine. split; [|exact E].
      rewrite (nth_error_nth' _ 0%nat) by (rewrite seq_length; lia). rewrite seq_nth by lia. reflexivity.
    + apply nth_error_None in E. lia.
Qed.

Lemma concat_at {A} (ls : list (list A)) : forall r l j v, nth_error ls r = Some l -> nth_error l j = Some v ->
  nth_error (concat ls) (before ls r + j) = Some v.
Proof.
  unfold before. induction ls as [|x ls IH]; intros [|r] l j v H Hj; cbn [nth_error firstn concat length] in *; try discriminate.
  - injection H as ->. cbn [Nat.add]. rewrite nth_error_app1; [exact Hj|]. apply nth_error_Some. congruence.
  - rewrite app_length, <- Nat.add_assoc, nth_error_app2 by lia. 
    replace (length x + (length (concat (firstn r ls)) + j) - length x)%nat with (length (concat (firstn r ls)) + j)%nat by lia.
    eapply IH; eassumption.
Qed.
Lemma snd_combine_seq (l : list nat) : forall s, map snd (combine (seq s (length l)) l) = l.
Proof. induction l as [|c l IH]; intros s; cbn [length seq combine map]; [reflexivity|]. f_equal. apply IH. Qed.

Section Table.
Variables (g : geom) (st : list oct) (nb : nat) (F : nat -> nat -> list nat).
Let no := n_offsets g.
Hypothesis HF : forall i oi, (i < nb)%nat -> (oi < no)%nat -> findNeighbors g st i (index_to_offset g oi) = Some (F i oi).

Definition at_index (index : nat) : list nat := F (Nat.div index no) (Nat.modulo index no).
Definition counts : list nat := map (fun s => length (F (Nat.modulo s nb) (Nat.div s nb))) (seq 0 (nb * no)).

Lemma counts_at i oi : (i < nb)%nat -> (oi < no)%nat -> view2 nb counts i oi = Some (length (F i oi)).
Proof.
  intros Hi Ho. unfold view2, counts. rewrite nth_error_map, (nth_error_nth' _ 0%nat) by (rewrite seq_length; nia).
  rewrite seq_nth by nia. cbn [option_map Nat.add]. rewrite Nat.add_comm, (Nat.mul_comm nb).
  destruct (divmod_of oi nb i Hi) as (-> & ->). reflexivity.
Qed.

Lemma count_writes_eq : count_writes g st nb =
  Some (combine (seq 0 (nb * no)) counts).
Proof.
  unfold count_writes. fold no. apply mapM_seq.
  - rewrite combine_length, seq_length. unfold counts. rewrite map_length, seq_length. lia.
  - intros i Hi. rewrite Nat.mul_comm in Hi. destruct (split_index no nb i Hi) as (H1 & H2).
    rewrite HF by assumption. symmetry. apply nth_error_combine. unfold counts.
    rewrite nth_error_map, (nth_error_nth' _ 0%nat) by (rewrite seq_length; lia). rewrite seq_nth by lia. cbn [option_map Nat.add].
    split; [|reflexivity]. f_equal. pose proof (Nat.div_mod i nb). lia.
Qed.

Lemma scan_eq : forall k s acc, (s + k <= nb * no)%nat ->
  scan_writes g st nb counts acc (seq s k) =
  Some (map (fun j => (slot nb no (s + j), (acc + before (map at_index (seq s k)) j)%nat)) (seq 0 k),
        block acc (concat (map at_index (seq s k)))).
Proof.
  induction k as [|k IH]; intros s acc H; cbn [seq scan_writes map concat].
  - unfold block. reflexivity.
  - destruct (split_index nb no s ltac:(lia)) as (H1 & H2). fold no.
    rewrite counts_at, HF by assumption. fold (at_index s). rewrite mapM_block. rewrite IH by lia. f_equal. f_equal.
    + f_equal.
      * f_equal; [unfold slot; rewrite Nat.add_0_r; reflexivity|unfold before; cbn; lia].
      * rewrite <- (seq_shift k 0), map_map. apply map_ext. intros j. f_equal; [f_equal; lia|].
        unfold before. cbn [firstn map concat]. rewrite app_length. lia.
    + unfold block. rewrite app_length, seq_app. symmetry. apply combine_app'. rewrite seq_length. reflexivity.
Qed.

Theorem precompute_spec sch : reorders sch ->
  exists t, precompute sch g st nb = Some t /\
    t_count t = counts /\
    (forall index, (index < nb * no)%nat ->
       nth_error (t_offset t) (slot nb no index) = Some (before (map at_index (seq 0 (nb * no))) index)) /\
    t_iOct t = concat (map at_index (seq 0 (nb * no))).
Proof.
  intros Hs. unfold precompute. fold no. rewrite count_writes_eq.
  assert (LC : length counts = (nb * no)%nat) by (unfold counts; rewrite map_length, seq_length; reflexivity).
  assert (C : write_all (sch (combine (seq 0 (nb * no)) counts)) (repeat 0%nat (nb * no)) = counts).
  { apply write_all_covers; [rewrite repeat_length; lia| |].
    - intros p v I. apply (Permutation_in _ (Hs _)) in I. rewrite <- LC in I. apply (block_In 0) in I.
      destruct I as (i & -> & E). exact E.
    - intros p Hp. destruct (nth_error counts p) as [v|] eqn:E; [|apply nth_error_None in E; lia].
      exists v. eapply Permutation_in; [symmetry; apply Hs|]. rewrite <- LC. apply (block_In 0). exists p. auto. }
  rewrite C, (scan_eq (nb * no) 0 0) by lia. eexists. split; [reflexivity|]. cbn [t_count t_offset t_iOct].
  split; [reflexivity|]. set (Ls := map at_index (seq 0 (nb * no))). split.
  - set (ws := map _ (seq 0 (nb * no))).
    (* the array in which every slot holds its own value *)
    set (R := map (fun s => before Ls (Nat.modulo s nb * no + Nat.div s nb)) (seq 0 (nb * no))).
    assert (RS : forall index, (index < nb * no)%nat -> nth_error R (slot nb no index) = Some (before Ls index)).
    { intros index H. unfold R. pose proof (slot_lt nb no index H).
      rewrite nth_error_map, (nth_error_nth' _ 0%nat) by (rewrite seq_length; lia). rewrite seq_nth by lia. cbn [option_map Nat.add].
      destruct (slot_decode nb no index H) as (-> & ->). f_equal. f_equal. pose proof (Nat.div_mod index no). lia. }
    assert (W : write_all (sch ws) (repeat 0%nat (nb * no)) = R).
    { apply write_all_covers.
      - unfold R. rewrite repeat_length, map_length, seq_length. reflexivity.
      - intros p v I. apply (Permutation_in _ (Hs _)) in I. unfold ws in I. apply in_map_iff in I.
        destruct I as (j & E & I). apply in_seq in I. injection E as <- <-. cbn [Nat.add]. apply RS. lia.
      - intros p Hp. unfold R in Hp. rewrite map_length, seq_length in Hp.
        assert (I : In p (map (slot nb no) (seq 0 (nb * no)))).
        { eapply Permutation_in; [symmetry; apply slot_perm|]. apply in_seq. lia. }
        apply in_map_iff in I. destruct I as (index & <- & I).
        exists (before Ls index). eapply Permutation_in; [symmetry; apply Hs|]. unfold ws. apply in_map_iff.
        exists index. cbn [Nat.add]. auto. }
    intros index H. rewrite W. apply RS, H.
  - assert (T : nsum (map snd (combine (seq 0 (nb * no)) counts)) = length (concat Ls)).
    { assert (E : map snd (combine (seq 0 (nb * no)) counts) = counts).
      { rewrite <- LC. apply snd_combine_seq. }
      rewrite E. rewrite <- nsum_lengths. unfold Ls. rewrite map_map. unfold counts.
      erewrite <- (nsum_perm _ _ (Permutation_map _ (slot_perm nb no))). rewrite map_map. f_equal.
      apply map_ext_in. intros index I. apply in_seq in I. destruct (slot_decode nb no index ltac:(lia)) as (-> & ->). reflexivity. }
    rewrite T. apply write_all_covers; [apply repeat_length| |].
    + intros p v I. apply (Permutation_in _ (Hs _)) in I. apply block_In in I. destruct I as (i & -> & E). exact E.
    + intros p Hp. destruct (nth_error (concat Ls) p) as [v|] eqn:E; [|apply nth_error_None in E; lia].
      exists v. eapply Permutation_in; [symmetry; apply Hs|]. apply block_In. exists p. auto.
Qed.

Lemma table_spec sch t i oi : reorders sch -> precompute sch g st nb = Some t -> (i < nb)%nat -> (oi < no)%nat ->
  view2 nb (t_count t) i oi = Some (length (F i oi)) /\
  exists first, view2 nb (t_offset t) i oi = Some first /\
    forall j v, nth_error (F i oi) j = Some v -> nth_error (t_iOct t) (first + j) = Some v.
Proof.
  intros Hs E Hi Ho. destruct (precompute_spec sch Hs) as (t' & E' & T1 & T2 & T3). rewrite E in E'. injection E' as <-.
  split; [rewrite T1; apply counts_at; assumption|].
  set (index := (i * no + oi)%nat). destruct (divmod_of i no oi Ho) as (D1 & D2). fold index in D1, D2.
  assert (HI : (index < nb * no)%nat) by (unfold index; nia).
  exists (before (map at_index (seq 0 (nb * no))) index). split.
  - unfold view2. specialize (T2 index HI). unfold slot in T2. rewrite D1, D2 in T2. exact T2.
  - intros j v Hv. rewrite T3. apply concat_at with (l := at_index index).
    + rewrite nth_error_map, (nth_error_nth' _ 0%nat) by (rewrite seq_length; lia). rewrite seq_nth by lia. reflexivity.
    + unfold at_index. rewrite D1, D2. exact Hv.
Qed.
End Table.

(** The table answers every query of a local octant, and of a ghost octant, as the direct
    query does. *)
Theorem C17_precomputed sch g st nb t : reorders sch -> precompute sch g st nb = Some t ->
  forall o d, (isGhost o = false -> (iOct o < nb)%nat) -> small_offset g d ->
    table_find t g st nb o d = findNeighbors g st (to_flat nb o) d.
Proof.
  intros Hs E o d Ho Hd.
  set (no := n_offsets g).
  assert (HF : exists F, forall i oi, (i < nb)%nat -> (oi < no)%nat -> findNeighbors g st i (index_to_offset g oi) = Some (F i oi)).
  { exists (fun i oi => match findNeighbors g st i (index_to_offset g oi) with Some l => l | None => [] end).
    intros i oi Hi Hoi. unfold precompute in E. destruct (count_writes g st nb) as [wc|] eqn:EW; [|discriminate].
    unfold count_writes in EW. fold no in EW.
    assert (Hx : In (oi * nb + i)%nat (seq 0 (nb * no))) by (apply in_seq; nia).
    destruct (mapM_In_fwd _ _ _ _ EW Hx) as (y & _ & Hy). destruct (divmod_of oi nb i Hi) as (D1 & D2).
    cbv zeta in Hy. rewrite D1, D2 in Hy. destruct (findNeighbors g st i (index_to_offset g oi)); [reflexivity|discriminate]. }
  destruct HF as (F & HF). unfold table_find. destruct (isGhost o) eqn:G; [reflexivity|].
  specialize (Ho eq_refl). destruct (C50_offsets g) as (O1 & _). destruct (O1 d Hd) as (O2 & O3).
  destruct (table_spec g st nb F HF sch t (iOct o) (offset_to_index g d) Hs E Ho O2) as (C1 & first & C2 & C3).
  rewrite C1, C2. unfold to_flat at 2. rewrite G. cbn [Nat.add].
  rewrite <- (findNeighbors_ext g st (iOct o) _ d O3). rewrite HF by assumption.
  apply mapM_seq; [reflexivity|]. intros j Hj.
  destruct (nth_error (F (iOct o) (offset_to_index g d)) j) as [v|] eqn:Ev; [|apply nth_error_None in Ev; lia].
  rewrite (C3 j v Ev). f_equal. apply C50_octant_index.
Qed.

(** On a consistent mesh the table can be built on every rank. *)
Theorem C17_built sch g M R : reorders sch -> wf_geom g -> mesh_ok g M -> In R M ->
  exists t, precompute sch g (loc R ++ gho R) (length (loc R)) = Some t.
Proof.
  intros Hs WF OK HR. set (st := loc R ++ gho R).
  assert (H : forall i oi, (i < length (loc R))%nat -> (oi < n_offsets g)%nat ->
     exists l, findNeighbors g st i (index_to_offset g oi) = Some l).
  { intros i oi Hi Hoi. destruct (nth_error (loc R) i) as [A|] eqn:EA; [|apply nth_error_None in EA; lia].
    assert (EA' : nth_error st i = Some A) by (unfold st; rewrite nth_error_app1 by lia; exact EA).
    destruct (C50_offsets g) as (_ & O). destruct (O oi Hoi) as ((S1 & S2) & _).
    set (d := index_to_offset g oi) in *.
    destruct (all0 d) eqn:Z0.
    - exists [i]. rewrite <- (C15_zero_offset g st i A EA'). apply findNeighbors_ext. intros a.
      apply all0_true. exact Z0.
    - apply all0_false in Z0.
      assert (D : direction g d). { split; [exact S1|]. split; [exact Z0|]. intros [| |]; cbn [flat]; try discriminate. exact S2. }
      destruct (C15_neighbours g M R i A d WF OK HR EA D) as (ns & _ & E & _). exists ns. exact E. }
  destruct (precompute_spec g st (length (loc R))
    (fun i oi => match findNeighbors g st i (index_to_offset g oi) with Some l => l | None => [] end)) with (sch := sch) as (t & E & _).
  - intros i oi Hi Ho. destruct (H i oi Hi Ho) as (l & ->). reflexivity.
  - exact Hs.
  - exists t. exact E.
Qed.

(** * Concrete cases *)
Definition ex_R : rank := hd (mkRank [] [] [] 0 0) ex_M2.
Example ex_R_in : In ex_R ex_M2.
Proof. vm_compute. left. reflexivity. Qed.
Example ex_table :
  match precompute (@rev _) ex_g (loc ex_R ++ gho ex_R) (length (loc ex_R)) with
  | None => False
  | Some t =>
    table_find t ex_g (loc ex_R ++ gho ex_R) (length (loc ex_R)) (mkIdx 2 false) (mkoff 1 0 0) = Some [3%nat] /\
    table_find t ex_g (loc ex_R ++ gho ex_R) (length (loc ex_R)) (mkIdx 1 false) (mkoff 1 0 0) = Some [8%nat] /\
    table_find t ex_g (loc ex_R ++ gho ex_R) (length (loc ex_R)) (mkIdx 2 false) (mkoff 0 (-1) 0) = Some [0%nat] /\
    table_find t ex_g (loc ex_R ++ gho ex_R) (length (loc ex_R)) (mkIdx 0 false) (mkoff 0 (-1) 0) = Some []
  end.
Proof. vm_compute. repeat split. Qed.
Example ex_reorders : reorders (@rev (nat * nat)).
Proof. intros l. symmetry. apply Permutation_rev. Qed.
(** A field/cell/octant array with the octant index in the middle: 3 values, 2 octants, 2
    fields; element (2, 1, 0) has linear index 2 in octant 1. *)
Example ex_array : octant_size 1 [3; 2; 2]%nat = 6%nat /\ get_U 1 [3; 2; 2]%nat 1 2 = [2; 1; 0]%nat /\
  get_U 1 [3; 2; 2]%nat 1 5 = [2; 1; 1]%nat.
Proof. repeat split. Qed.
Example ex_transpose :
  let U := mkView [3; 2; 2]%nat (fun is => is) in
  let R := transpose_to (fun l => l) 1 U (fun _ => []) in
  ext R = [3; 2; 2]%nat /\ elt R [2; 1; 0]%nat = [2; 0; 1]%nat /\
  elt (transpose_from (@rev _) 1 R (fun _ => [])) [2; 0; 1]%nat = [2; 0; 1]%nat.
Proof. vm_compute. repeat split. Qed.

Print Assumptions C17_precomputed.
Print Assumptions C17_built.
Print Assumptions C50_octant_index.
Print Assumptions C50_offsets.
Print Assumptions C50_array_elements.
Print Assumptions C50_transpose_from.
Print Assumptions C50_transpose_to.
Print Assumptions C50_transpose_roundtrip.
