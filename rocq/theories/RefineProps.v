(** C38: the marker of an octant is the maximum over its cells, whatever the order of the
    atomic updates; markers given to the mesh stay within the level bounds (used by C10). *)
From Verif Require Import Base OctreeSpec OctreeModel RefineModel MeshSpec HistorySpec.

Lemma upd_nth_length {A} i (f : A -> A) l : length (upd_nth i f l) = length l.
Proof. revert i. induction l as [|x l IH]; intros [|i]; cbn; auto. Qed.
Lemma upd_nth_get {A} i (f : A -> A) l k :
  nth_error (upd_nth i f l) k = if Nat.eqb i k then option_map f (nth_error l k) else nth_error l k.
Proof.
  revert i k. induction l as [|x l IH]; intros i k.
  - destruct i, k; cbn; try reflexivity. destruct (Nat.eqb i k); reflexivity.
  - destruct i as [|i], k as [|k]; cbn; try reflexivity. apply IH.
Qed.

Lemma raw_length n cells : length (mark_cells_raw n cells) = n.
Proof.
  unfold mark_cells_raw. rewrite <- (repeat_length (-1) n) at 2. generalize (repeat (-1) n) as ms.
  induction cells as [|c cells IH]; intros ms; [reflexivity|]. cbn [fold_left]. rewrite IH. apply upd_nth_length.
Qed.
Lemma raw_fold cells : forall ms i m0, nth_error ms i = Some m0 ->
  exists m, nth_error (fold_left (fun ms c => upd_nth (fst c) (Z.max (snd c)) ms) cells ms) i = Some m /\
    m0 <= m /\ (forall v, In (i, v) cells -> v <= m) /\ (m = m0 \/ In (i, m) cells).
Proof.
  induction cells as [|[j v] cells IH]; intros ms i m0 H.
  - exists m0. cbn. split; [exact H|]. split; [lia|]. split; [intros v []|left; reflexivity].
  - cbn [fold_left fst snd]. assert (H' := upd_nth_get j (Z.max v) ms i). rewrite H in H'. cbn [option_map] in H'.
    destruct (Nat.eqb_spec j i) as [->|E].
    + destruct (IH _ i _ H') as (m & E1 & E2 & E3 & E4). exists m. split; [exact E1|]. split; [lia|]. split.
      * intros w [Q|Q]; [injection Q as <-; lia|apply E3, Q].
      * destruct E4 as [->|E4]; [|right; right; exact E4]. destruct (Z.max_spec v m0) as [[_ ->]|[_ ->]]; [left; reflexivity|].
        right. left. reflexivity.
    + destruct (IH _ i _ H') as (m & E1 & E2 & E3 & E4). exists m. split; [exact E1|]. split; [lia|]. split.
      * intros w [Q|Q]; [congruence|apply E3, Q].
      * destruct E4 as [E4|E4]; [left; exact E4|right; right; exact E4].
Qed.

(** [m] is the largest of -1 and the markers of the cells of octant [i]. *)
Definition is_cell_max (cells : list (nat * Z)) (i : nat) (m : Z) : Prop :=
  -1 <= m /\ (forall v, In (i, v) cells -> v <= m) /\ (m = -1 \/ In (i, m) cells).

Theorem C38_marker_is_maximum n cells i : (i < n)%nat ->
  exists m, nth_error (mark_cells_raw n cells) i = Some m /\ is_cell_max cells i m.
Proof.
  intros Hi. apply raw_fold. rewrite (nth_error_nth' _ (-1)) by (rewrite repeat_length; exact Hi).
  f_equal. apply nth_repeat.
Qed.

Theorem C38_order_independent n cells cells' : Permutation cells cells' ->
  mark_cells_raw n cells = mark_cells_raw n cells'.
Proof.
  intros P. apply (nth_ext _ _ 0 0); [rewrite !raw_length; reflexivity|].
  rewrite raw_length. intros i Hi.
  destruct (C38_marker_is_maximum n cells i Hi) as (m & E & A1 & A2 & A3).
  destruct (C38_marker_is_maximum n cells' i Hi) as (m' & E' & B1 & B2 & B3).
  rewrite (nth_error_nth _ _ _ E), (nth_error_nth _ _ _ E').
  assert (m' <= m) by (destruct B3 as [->|B3]; [lia|apply A2; eapply Permutation_in; [symmetry; exact P|exact B3]]).
  assert (m <= m') by (destruct A3 as [->|A3]; [lia|apply B2; eapply Permutation_in; [exact P|exact A3]]).
  lia.
Qed.

(** The complete kernel: one marker per octant, the maximum of its cells, except that
    octants already at a level bound are left alone rather than pushed over it. *)
Theorem C38_mark_cells g octs cells i A : nth_error octs i = Some A ->
  exists m, nth_error (mark_cells g octs cells) i = Some (clamp_marker g A m) /\ is_cell_max cells i m.
Proof.
  intros H. assert (Hi : (i < length octs)%nat) by (apply nth_error_Some; congruence).
  destruct (C38_marker_is_maximum (length octs) cells i Hi) as (m & E & HM). exists m. split; [|exact HM].
  unfold mark_cells. rewrite nth_error_map.
  assert (EC : nth_error (combine octs (mark_cells_raw (length octs) cells)) i = Some (A, m)).
  { revert E H. generalize (mark_cells_raw (length octs) cells) as ms. generalize octs as os. clear.
    intros os ms. revert i os. induction ms as [|x ms IH]; intros [|i] [|o os]; cbn; intros; try congruence. apply IH; assumption. }
  rewrite EC. reflexivity.
Qed.

(** Clamped markers are acceptable requests, and honour the raw marker when possible. *)
Lemma clamp_good g A m : lmin g <= lev A <= lmax g -> -1 <= m <= 1 ->
  -1 <= clamp_marker g A m <= 1 /\ lmin g <= lev A + clamp_marker g A m <= lmax g.
Proof.
  intros HA Hm. unfold clamp_marker. cbv zeta.
  destruct (lmax g <=? lev A) eqn:E1; destruct (m =? 1) eqn:E2; cbn [andb];
  destruct (lev A <=? lmin g) eqn:E3; cbn [andb];
  repeat match goal with |- context[if ?b then _ else _] => destruct b eqn:?; try lia end; try lia.
Qed.
Theorem C38_clamp g A m : lmin g <= lev A <= lmax g -> -1 <= m <= 1 ->
  (lmin g <= lev A + m <= lmax g -> clamp_marker g A m = m) /\
  (~ lmin g <= lev A + m <= lmax g -> clamp_marker g A m = 0).
Proof.
  intros HA Hm. unfold clamp_marker. cbv zeta.
  destruct (lmax g <=? lev A) eqn:E1; destruct (m =? 1) eqn:E2; cbn [andb];
  destruct (lev A <=? lmin g) eqn:E3; cbn [andb]; change (0 =? -1) with false; cbv iota;
  try destruct (m =? -1) eqn:E4; lia.
Qed.

(** Markers of all ranks produced by mark_cells are good markers of the mesh. *)
Lemma mark_cells_good g M (cells : list (list (nat * Z))) :
  (forall A, In A (leaves M) -> lmin g <= lev A <= lmax g) -> length cells = length M ->
  (forall cs c, In cs cells -> In c cs -> -1 <= snd c <= 1) ->
  good_markers g M (map (fun x => mark_cells g (loc (fst x)) (snd x)) (combine M cells)).
Proof.
  unfold good_markers, leaves. revert cells. induction M as [|R M IH]; intros [|cs cells] HL E HC; try discriminate; [constructor|].
  cbn [combine map fst snd]. constructor.
  - assert (HR : forall A, In A (loc R) -> lmin g <= lev A <= lmax g) by (intros A HA; apply HL; cbn; apply in_app_iff; left; exact HA).
    assert (HM : forall i A, nth_error (loc R) i = Some A -> exists m, nth_error (mark_cells g (loc R) cs) i = Some m /\
       -1 <= m <= 1 /\ lmin g <= lev A + m <= lmax g).
    { intros i A HA. destruct (C38_mark_cells g (loc R) cs i A HA) as (m & Em & H1 & H2 & H3).
      exists (clamp_marker g A m). split; [exact Em|]. apply clamp_good; [apply HR; eapply nth_error_In, HA|].
      destruct H3 as [->|H3]; [lia|]. apply (HC cs (i, m) (or_introl eq_refl) H3). }
    assert (HLen : length (mark_cells g (loc R) cs) = length (loc R)).
    { unfold mark_cells. rewrite map_length, combine_length, raw_length. lia. }
    revert HLen HM. generalize (mark_cells g (loc R) cs) as ms. generalize (loc R) as ls. clear.
    induction ls as [|A ls IH]; intros [|m ms] HLen HM; try discriminate; constructor.
    + destruct (HM O A eq_refl) as (m' & [= <-] & H). exact H.
    + apply IH; [cbn in HLen; lia|]. intros i B HB. exact (HM (S i) B HB).
  - apply IH; [intros A HA; apply HL; cbn; apply in_app_iff; right; exact HA|cbn in E; lia|intros cs' c H1 H2; apply (HC cs' c); [right; exact H1|exact H2]].
Qed.

(** Three octants of one level, cells asking for various changes, in two orders. *)
Example C38_example :
  let g := mkGeom false 1 3 2 2 1 true true false in
  let cells := [(0%nat, -1); (2%nat, 1); (1%nat, -1); (2%nat, 0); (0%nat, 0)] in
  mark_cells_raw 3 cells = [0; -1; 1] /\ mark_cells_raw 3 (rev cells) = [0; -1; 1] /\
  mark_cells g [mkOct 1 0 0 0; mkOct 1 1 0 0; mkOct 3 0 4 0] cells = [0; 0; 0].
Proof. repeat split. Qed.

Print Assumptions C38_marker_is_maximum.
Print Assumptions C38_order_independent.
Print Assumptions C38_mark_cells.
Print Assumptions C38_clamp.
