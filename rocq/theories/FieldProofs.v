(** Lemmas on named fields: the index behaves like a finite map and each operation acts on
    the dictionary of arrays. *)
From Verif Require Import Base OctreeModel RefineModel RefineProps CommModel FindNeighbors MarkerLoop GhostExchange FieldModel FieldSpec.

(** * The order of names *)
Definition slt (a b : string) : Prop := String.compare a b = Lt.
Lemma ascii_lt_trans a b c : Ascii.compare a b = Lt -> Ascii.compare b c = Lt -> Ascii.compare a c = Lt.
Proof. unfold Ascii.compare. rewrite !N.compare_lt_iff. apply N.lt_trans. Qed.
Lemma slt_trans : forall a b c, slt a b -> slt b c -> slt a c.
Proof.
  unfold slt. induction a as [|x a IH]; intros [|y b] [|z c] H1 H2; cbn [String.compare] in *; try discriminate; try reflexivity.
  destruct (Ascii.compare x y) eqn:E1; try discriminate.
  - apply Ascii.compare_eq_iff in E1. subst y. destruct (Ascii.compare x z) eqn:E2; try discriminate; [|reflexivity]. eapply IH; eauto.
  - destruct (Ascii.compare y z) eqn:E2; try discriminate.
    + apply Ascii.compare_eq_iff in E2. subst z. rewrite E1. reflexivity.
    + rewrite (ascii_lt_trans x y z E1 E2). reflexivity.
Qed.
Lemma scompare_refl a : String.compare a a = Eq.
Proof.
  pose proof (String.compare_antisym a a) as H. destruct (String.compare a a); [reflexivity|discriminate..].
Qed.
Lemma slt_neq a b : slt a b -> a <> b.
Proof. intros H ->. unfold slt in H. rewrite scompare_refl in H. discriminate. Qed.

(** * The index *)
Definition sorted_names {A} (m : list (string * A)) : Prop := StronglySorted slt (map fst m).
Lemma sorted_NoDup {A} (m : list (string * A)) : sorted_names m -> NoDup (map fst m).
Proof.
  unfold sorted_names. induction 1 as [|a l H IH F]; constructor; [|exact IH]. intros K. rewrite Forall_forall in F. exact (slt_neq _ _ (F _ K) eq_refl).
Qed.
Lemma set_name_In n i : forall m, sorted_names m -> forall k v, In (k, v) (set_name n i m) <-> (k = n /\ v = i) \/ (k <> n /\ In (k, v) m).
Proof.
  unfold sorted_names. induction m as [|[a w] m IH]; intros S k v; cbn [set_name].
  - cbn [In]. split; [intros [E|[]]; injection E as <- <-; auto|intros [[-> ->]|[_ []]]; auto].
  - cbn [map fst] in S. inversion S as [|? ? S' F]; subst. rewrite Forall_forall in F.
    assert (LT : forall k' v', In (k', v') m -> slt a k') by (intros k' v' H; apply F, in_map_iff; exists (k', v'); auto).
    destruct (String.compare n a) eqn:E.
    + apply String.compare_eq_iff in E. subst a. cbn [In]. split.
      * intros [E|H]; [injection E as <- <-; auto|]. right. split; [intros ->; exact (slt_neq _ _ (LT _ _ H) eq_refl)|auto].
      * intros [[-> ->]|[NE [E|H]]]; [auto|congruence|auto].
    + cbn [In]. split.
      * intros [E'|H]; [injection E' as <- <-; auto|]. right. split; [|exact H]. intros ->. destruct H as [E'|H]; [injection E' as <- <-; exact (slt_neq _ _ E eq_refl)|].
        exact (slt_neq _ _ (slt_trans _ _ _ E (LT _ _ H)) eq_refl).
      * intros [[-> ->]|[NE H]]; auto.
    + cbn [In]. rewrite (IH S' k v). split.
      * intros [E'|[H|[NE H]]]; [injection E' as <- <-; right; split; [intros ->; rewrite scompare_refl in E; discriminate|auto]|auto|auto].
      * intros [H|[NE [E'|H]]]; auto.
Qed.
Lemma sorted_cons {A} k (v : A) m : sorted_names m -> (forall k' v', In (k', v') m -> slt k k') -> sorted_names ((k, v) :: m).
Proof.
  intros S H. unfold sorted_names. cbn [map fst]. constructor; [exact S|]. apply Forall_forall. intros x Hx. apply in_map_iff in Hx. destruct Hx as ([k' v'] & <- & Hk). exact (H _ _ Hk).
Qed.
Lemma set_name_sorted n i : forall m, sorted_names m -> sorted_names (set_name n i m).
Proof.
  induction m as [|[a w] m IH]; intros S; cbn [set_name].
  - apply sorted_cons; [constructor|intros ? ? []].
  - pose proof S as S0. unfold sorted_names in S. cbn [map fst] in S. inversion S as [|? ? S' F]; subst. rewrite Forall_forall in F.
    assert (LT : forall k' v', In (k', v') m -> slt a k') by (intros k' v' H; apply F, in_map_iff; exists (k', v'); auto).
    destruct (String.compare n a) eqn:E.
    + apply String.compare_eq_iff in E. subst a. apply sorted_cons; [exact S'|exact LT].
    + apply sorted_cons; [exact S0|]. intros k' v' [H|H]; [injection H as <- <-; exact E|]. exact (slt_trans _ _ _ E (LT _ _ H)).
    + apply sorted_cons; [apply IH; exact S'|]. intros k' v' H. apply set_name_In in H; [|exact S']. destruct H as [[-> _]|[_ H]]; [|exact (LT _ _ H)].
      unfold slt. rewrite String.compare_antisym, E. reflexivity.
Qed.
Lemma erase_In n m k v : In (k, v) (erase_name n m) <-> k <> n /\ In (k, v) m.
Proof.
  unfold erase_name. rewrite filter_In. cbn [fst]. rewrite negb_true_iff, String.eqb_neq. tauto.
Qed.
Lemma filter_sorted {A} (f : string * A -> bool) m : sorted_names m -> sorted_names (filter f m).
Proof.
  induction m as [|[a w] m IH]; intros S; [exact S|]. unfold sorted_names in S. cbn [map fst] in S. inversion S as [|? ? S' F]; subst. rewrite Forall_forall in F.
  cbn [filter]. destruct (f (a, w)); [|apply IH; exact S']. apply sorted_cons; [apply IH; exact S'|]. intros k' v' H. apply filter_In in H. apply F, in_map_iff. exists (k', v'). tauto.
Qed.
Lemma find_name_In m : NoDup (map fst m) -> forall n i, find_name n m = Some i <-> In (n, i) m.
Proof.
  induction m as [|[k v] m IH]; intros ND n i; cbn [find_name].
  - split; [discriminate|intros []].
  - cbn [map fst] in ND. apply NoDup_cons_iff in ND. destruct ND as [NI ND]. destruct (String.eqb_spec k n) as [->|NE].
    + split; [intros E; injection E as ->; left; reflexivity|]. intros [E|H]; [injection E as ->; reflexivity|].
      exfalso. apply NI, in_map_iff. exists (n, i). auto.
    + rewrite (IH ND n i). split; [intros H; right; exact H|]. intros [E|H]; [congruence|exact H].
Qed.
Lemma find_name_None m n : find_name n m = None <-> ~ In n (map fst m).
Proof.
  induction m as [|[k v] m IH]; cbn [find_name map fst In]; [tauto|]. destruct (String.eqb_spec k n) as [->|NE]; [split; [discriminate|tauto]|].
  rewrite IH. tauto.
Qed.
Lemma lookup_In {X} (m : dict X) : NoDup (map fst m) -> forall n a, lookup n m = Some a <-> In (n, a) m.
Proof.
  induction m as [|[k v] m IH]; intros ND n i; cbn [lookup].
  - split; [discriminate|intros []].
  - cbn [map fst] in ND. apply NoDup_cons_iff in ND. destruct ND as [NI ND]. destruct (String.eqb_spec k n) as [->|NE].
    + split; [intros E; injection E as ->; left; reflexivity|]. intros [E|H]; [injection E as ->; reflexivity|].
      exfalso. apply NI, in_map_iff. exists (n, i). auto.
    + rewrite (IH ND n i). split; [intros H; right; exact H|]. intros [E|H]; [congruence|exact H].
Qed.
Lemma lookup_None {X} (m : dict X) n : lookup n m = None <-> ~ In n (map fst m).
Proof.
  induction m as [|[k v] m IH]; cbn [lookup map fst In]; [tauto|]. destruct (String.eqb_spec k n) as [->|NE]; [split; [discriminate|tauto]|].
  rewrite IH. tauto.
Qed.
Lemma remove_In {X} n (m : dict X) k a : In (k, a) (remove n m) <-> k <> n /\ In (k, a) m.
Proof. unfold remove. rewrite filter_In. cbn [fst]. rewrite negb_true_iff, String.eqb_neq. tauto. Qed.
Lemma NoDup_keys_filter {A B} (f : A * B -> bool) m : NoDup (map fst m) -> NoDup (map fst (filter f m)).
Proof.
  induction m as [|[k v] m IH]; intros ND; [constructor|]. cbn [map fst] in ND. apply NoDup_cons_iff in ND. destruct ND as [NI ND]. cbn [filter].
  destruct (f (k, v)); [|apply IH, ND]. cbn [map fst]. constructor; [|apply IH, ND]. intros H. apply NI. apply in_map_iff in H. destruct H as ([k' v'] & E & H).
  apply filter_In in H. apply in_map_iff. exists (k', v'). tauto.
Qed.

(** First free slot. *)
Lemma is_free_spec m i : is_free m i = true <-> forall k, ~ In (k, i) m.
Proof.
  unfold is_free. rewrite negb_true_iff. split.
  - intros H k Hk. assert (existsb (fun p : string * nat => Nat.eqb (snd p) i) m = true); [|congruence]. apply existsb_exists. exists (k, i). split; [exact Hk|apply Nat.eqb_refl].
  - intros H. destruct (existsb (fun p : string * nat => Nat.eqb (snd p) i) m) eqn:E; [|reflexivity]. apply existsb_exists in E. destruct E as ([k v] & Hk & Ev).
    cbn [snd] in Ev. apply Nat.eqb_eq in Ev. subst v. destruct (H k Hk).
Qed.
Lemma first_free_spec n m : (length m < n)%nat -> exists i, first_free n m = Some i /\ (i < n)%nat /\ forall k, ~ In (k, i) m.
Proof.
  intros H. unfold first_free. destruct (find (is_free m) (seq 0 n)) as [i|] eqn:E.
  - apply find_some in E. destruct E as [E1 E2]. apply in_seq in E1. exists i. split; [reflexivity|]. split; [lia|]. apply is_free_spec, E2.
  - exfalso. assert (INC : incl (seq 0 n) (map snd m)).
    { intros i Hi. pose proof (find_none _ _ E i Hi) as F. destruct (existsb (fun p : string * nat => Nat.eqb (snd p) i) m) eqn:Ex; [|unfold is_free in F; rewrite Ex in F; discriminate].
      apply existsb_exists in Ex. destruct Ex as ([k v] & Hk & Ev). cbn [snd] in Ev. apply Nat.eqb_eq in Ev. subst v. apply in_map_iff. exists (k, i). auto. }
    pose proof (NoDup_incl_length (seq_NoDup n 0) INC) as L. rewrite seq_length, map_length in L. lia.
Qed.

Lemma same_keys_length {A B} (m : list (string * A)) (m' : list (string * B)) : NoDup (map fst m) -> NoDup (map fst m') ->
  (forall n, In n (map fst m) <-> In n (map fst m')) -> length m = length m'.
Proof.
  intros N1 N2 H. rewrite <- (map_length fst m), <- (map_length fst m'). apply Permutation_length, NoDup_Permutation; assumption.
Qed.

(** * Fields *)
Section Rel.
Context {X : Type}.
Variable zero : X.
Variables nbc no ng : nat.
Notation zb := (zero_block zero nbc).

Definition column (i : nat) (v : @view X) : array X := (map (fun r => nth i r []) (v_U v), map (fun r => nth i r []) (v_G v)).
Definition fresh : array X := (repeat zb no, repeat zb ng).

(** The view is well formed and its slots are used by at most one name. *)
Record fields_inv (s : @fields X) : Prop := {
  i_sorted : sorted_names (f_index s);
  i_slots : forall k i, In (k, i) (f_index s) -> (i < v_n (f_view s))%nat;
  i_inj : forall k k' i, In (k, i) (f_index s) -> In (k', i) (f_index s) -> k = k';
  i_rows : forall r, In r (v_U (f_view s) ++ v_G (f_view s)) -> length r = v_n (f_view s);
  i_size : v_n (f_view s) <> 0%nat -> length (v_U (f_view s)) = no /\ length (v_G (f_view s)) = ng;
  i_max : (v_n (f_view s) <= f_max s <= max_index_count)%nat }.
(** The dictionary that the fields stand for. *)
Record stands_for (s : @fields X) (m : dict X) : Prop := {
  s_keys : NoDup (map fst m);
  s_names : forall n, In n (map fst m) <-> In n (map fst (f_index s));
  s_cols : forall n i, In (n, i) (f_index s) -> lookup n m = Some (column i (f_view s)) }.

Lemma stands_find s m n : fields_inv s -> stands_for s m ->
  match find_name n (f_index s) with Some i => lookup n m = Some (column i (f_view s)) | None => lookup n m = None end.
Proof.
  intros I S. destruct (find_name n (f_index s)) as [i|] eqn:E.
  - apply (s_cols s m S). apply find_name_In; [apply sorted_NoDup, (i_sorted s I)|exact E].
  - apply lookup_None. rewrite (s_names s m S). apply find_name_None. exact E.
Qed.
Lemma slots_NoDup s : fields_inv s -> NoDup (map snd (f_index s)).
Proof.
  intros I. pose proof (sorted_NoDup _ (i_sorted s I)) as ND. pose proof (i_inj s I) as IJ. revert ND IJ. induction (f_index s) as [|[k v] m IH]; intros ND IJ; [constructor|].
  cbn [map fst snd] in *. apply NoDup_cons_iff in ND. destruct ND as [NI ND]. constructor; [|apply IH; [exact ND|intros; eapply IJ; right; eauto]].
  intros H. apply in_map_iff in H. destruct H as ([k' v'] & E & H). cbn [snd] in E. subst v'. apply NI. rewrite (IJ k k' v (or_introl eq_refl) (or_intror H)). apply in_map_iff. exists (k', v). auto.
Qed.
Lemma index_le s : fields_inv s -> (length (f_index s) <= v_n (f_view s))%nat.
Proof.
  intros I. rewrite <- (map_length snd). rewrite <- (seq_length (v_n (f_view s)) 0). apply NoDup_incl_length; [apply slots_NoDup, I|].
  intros i Hi. apply in_map_iff in Hi. destruct Hi as ([k v] & E & H). cbn [snd] in E. subst v. apply in_seq. pose proof (i_slots s I k i H). lia.
Qed.
Lemma stands_length s m : fields_inv s -> stands_for s m -> length m = length (f_index s).
Proof. intros I S. apply same_keys_length; [exact (s_keys s m S)|apply sorted_NoDup, (i_sorted s I)|exact (s_names s m S)]. Qed.

(** ** Extension *)
Lemma nth_grow k i (r : @row X) : (i < length r)%nat -> nth i (grow zero nbc k r) [] = nth i r [].
Proof. intros H. unfold grow. apply app_nth1, H. Qed.
Lemma extend_ok s m : fields_inv s -> stands_for s m -> exists s', extend_fields zero nbc no ng s = Some s' /\ fields_inv s' /\ stands_for s' m /\
  v_n (f_view s') = f_max s /\ f_index s' = f_index s /\ f_max s' = f_max s.
Proof.
  intros I S. unfold extend_fields, alloc. pose proof (i_max s I) as MX. replace (f_max s <=? max_index_count)%nat with true by (symmetry; apply Nat.leb_le; lia).
  destruct (Nat.eqb_spec (v_n (f_view s)) 0) as [E0|NE].
  - eexists. split; [reflexivity|]. assert (EI : f_index s = []).
    { pose proof (index_le s I). destruct (f_index s); [reflexivity|cbn [length] in *; lia]. }
    rewrite EI. split; [|split; [|cbn; auto]].
    + constructor; cbn [f_view f_index f_max v_n v_U v_G].
      * constructor.
      * intros k i [].
      * intros k k' i [].
      * intros r Hr. apply in_app_iff in Hr. destruct Hr as [Hr|Hr]; apply repeat_spec in Hr; subst r; apply repeat_length.
      * intros _. rewrite !repeat_length. auto.
      * lia.
    + constructor; cbn [f_view f_index f_max v_n v_U v_G].
      * exact (s_keys s m S).
      * intros n. rewrite (s_names s m S), EI. tauto.
      * intros n i [].
  - destruct (i_size s I NE) as [L1 L2]. rewrite L1, L2, !Nat.eqb_refl. replace (v_n (f_view s) <=? f_max s)%nat with true by (symmetry; apply Nat.leb_le; lia). cbn [andb].
    eexists. split; [reflexivity|]. split; [|split; [|cbn; auto]].
    + constructor; cbn [f_view f_index f_max v_n v_U v_G].
      * exact (i_sorted s I).
      * intros k i H. pose proof (i_slots s I k i H). lia.
      * exact (i_inj s I).
      * intros r Hr. rewrite <- map_app in Hr. apply in_map_iff in Hr. destruct Hr as (r0 & <- & Hr). unfold grow. rewrite app_length, repeat_length, (i_rows s I r0 Hr). lia.
      * intros _. rewrite !map_length. auto.
      * lia.
    + constructor; cbn [f_view f_index f_max v_n v_U v_G].
      * exact (s_keys s m S).
      * exact (s_names s m S).
      * intros n i H. rewrite (s_cols s m S n i H). unfold column. cbn [v_U v_G]. rewrite !map_map. f_equal. pose proof (i_slots s I n i H) as SL.
        f_equal; apply map_ext_in; intros r Hr; symmetry; apply nth_grow; rewrite (i_rows s I r); [exact SL|apply in_app_iff; auto|exact SL|apply in_app_iff; auto].
Qed.

(** ** Creation *)
Lemma map_nth_clear i j (rows : list (@row X)) : j <> i -> map (fun r => nth j r []) (map (upd_nth i (fun _ => zb)) rows) = map (fun r => nth j r []) rows.
Proof.
  intros NE. rewrite map_map. apply map_ext. intros r. destruct (nth_error r j) as [b|] eqn:E.
  - rewrite (nth_error_nth _ _ _ E). apply nth_error_nth. rewrite upd_nth_get, E. destruct (Nat.eqb_spec i j); [congruence|reflexivity].
  - rewrite !nth_overflow; [reflexivity|apply nth_error_None; exact E|rewrite upd_nth_length; apply nth_error_None; exact E].
Qed.
Lemma map_nth_cleared i (rows : list (@row X)) : (forall r, In r rows -> (i < length r)%nat) -> map (fun r => nth i r []) (map (upd_nth i (fun _ => zb)) rows) = repeat zb (length rows).
Proof.
  intros H. rewrite map_map. induction rows as [|r rows IH]; [reflexivity|]. cbn [map length repeat]. f_equal; [|apply IH; intros; apply H; right; assumption].
  apply nth_error_nth. rewrite upd_nth_get, Nat.eqb_refl. assert (L : (i < length r)%nat) by (apply H; left; reflexivity).
  destruct (nth_error r i) eqn:E; [reflexivity|]. apply nth_error_None in E. lia.
Qed.
Lemma new_field_ok s m n : fields_inv s -> stands_for s m -> lookup n m = None -> (length (f_index s) < v_n (f_view s))%nat ->
  exists s', new_field zero nbc s n = Some s' /\ fields_inv s' /\ stands_for s' ((n, fresh) :: m) /\ v_n (f_view s') = v_n (f_view s) /\ length (f_index s') = S (length (f_index s)).
Proof.
  intros I S HN HL. unfold new_field. pose proof (stands_find s m n I S) as F. destruct (find_name n (f_index s)) as [i|] eqn:E; [congruence|]. clear F.
  destruct (first_free_spec _ _ HL) as (i & Ei & Li & Fi). rewrite Ei. eexists. split; [reflexivity|].
  assert (NI : forall j, ~ In (n, j) (f_index s)) by (intros j Hj; apply find_name_None in E; apply E, in_map_iff; exists (n, j); auto).
  assert (I' : fields_inv (mkFields (mkView (v_n (f_view s)) (map (upd_nth i (fun _ => zb)) (v_U (f_view s))) (map (upd_nth i (fun _ => zb)) (v_G (f_view s)))) (set_name n i (f_index s)) (f_max s))).
  { constructor; cbn [f_view f_index f_max v_n v_U v_G].
    - apply set_name_sorted, (i_sorted s I).
    - intros k j H. apply set_name_In in H; [|exact (i_sorted s I)]. destruct H as [[_ ->]|[_ H]]; [exact Li|exact (i_slots s I k j H)].
    - intros k k' j H H'. apply set_name_In in H; [|exact (i_sorted s I)]. apply set_name_In in H'; [|exact (i_sorted s I)].
      destruct H as [[-> ->]|[_ H]], H' as [[-> E']|[_ H']]; [reflexivity|destruct (Fi _ H')|subst; destruct (Fi _ H)|exact (i_inj s I _ _ _ H H')].
    - intros r Hr. rewrite <- map_app in Hr. apply in_map_iff in Hr. destruct Hr as (r0 & <- & Hr). rewrite upd_nth_length. exact (i_rows s I r0 Hr).
    - intros H. rewrite !map_length. exact (i_size s I H).
    - exact (i_max s I). }
  split; [exact I'|].
  assert (S' : stands_for (mkFields (mkView (v_n (f_view s)) (map (upd_nth i (fun _ => zb)) (v_U (f_view s))) (map (upd_nth i (fun _ => zb)) (v_G (f_view s)))) (set_name n i (f_index s)) (f_max s)) ((n, fresh) :: m)).
  { constructor; cbn [f_view f_index f_max v_n v_U v_G].
    - cbn [map fst]. constructor; [|exact (s_keys s m S)]. apply lookup_None, HN.
    - intros k. cbn [map fst In]. rewrite (s_names s m S k). split.
      + intros [->|H].
        * apply in_map_iff. exists (k, i). split; [reflexivity|]. apply set_name_In; [exact (i_sorted s I)|auto].
        * apply in_map_iff in H. destruct H as ([k' j] & E' & H). cbn [fst] in E'. subst k'. apply in_map_iff. exists (k, j). split; [reflexivity|].
          apply set_name_In; [exact (i_sorted s I)|]. right. split; [intros ->; exact (NI _ H)|exact H].
      + intros H. apply in_map_iff in H. destruct H as ([k' j] & E' & H). cbn [fst] in E'. subst k'. apply set_name_In in H; [|exact (i_sorted s I)].
        destruct H as [[-> _]|[_ H]]; [auto|]. right. apply in_map_iff. exists (k, j). auto.
    - intros k j H. apply set_name_In in H; [|exact (i_sorted s I)]. cbn [lookup]. destruct H as [[-> ->]|[NE H]].
      + rewrite String.eqb_refl. unfold fresh, column. cbn [v_U v_G]. destruct (i_size s I ltac:(lia)) as [L1 L2].
        rewrite !map_nth_cleared, L1, L2; [reflexivity|intros r Hr; rewrite (i_rows s I r); [exact Li|apply in_app_iff; auto]..].
      + destruct (String.eqb_spec n k) as [E'|_]; [congruence|]. rewrite (s_cols s m S k j H). unfold column. cbn [v_U v_G].
        assert (j <> i) by (intros ->; exact (Fi _ H)). rewrite !map_nth_clear by assumption. reflexivity. }
  split; [exact S'|]. split; [reflexivity|].
  pose proof (stands_length _ _ I' S') as L. cbn [f_index length] in L |- *. rewrite <- L. rewrite (stands_length s m I S). reflexivity.
Qed.
Lemma new_each_ok : forall names s m, fields_inv s -> stands_for s m -> NoDup names -> (forall n, In n names -> lookup n m = None) ->
  (length (f_index s) + length names <= v_n (f_view s))%nat ->
  exists s' m', new_each zero nbc s names = Some s' /\ fields_inv s' /\ stands_for s' m' /\ (forall n, lookup n m' = if existsb (String.eqb n) names then Some fresh else lookup n m).
Proof.
  induction names as [|n names IH]; intros s m I S ND HN HL; cbn [new_each].
  - exists s, m. auto.
  - apply NoDup_cons_iff in ND. destruct ND as [NI ND]. cbn [length] in HL.
    destruct (new_field_ok s m n I S (HN n (or_introl eq_refl)) ltac:(lia)) as (s1 & E1 & I1 & S1 & V1 & L1). rewrite E1.
    destruct (IH s1 ((n, fresh) :: m) I1 S1 ND) as (s' & m' & E' & I' & S' & H').
    + intros k Hk. cbn [lookup]. destruct (String.eqb_spec n k) as [->|_]; [contradiction|]. apply HN. right. exact Hk.
    + lia.
    + exists s', m'. split; [exact E'|]. split; [exact I'|]. split; [exact S'|]. intros k. rewrite H'. cbn [existsb lookup].
      rewrite (String.eqb_sym n k). destruct (String.eqb k n); cbn [orb]; [destruct (existsb (String.eqb k) names); reflexivity|reflexivity].
Qed.
Lemma new_each_None : forall names s m, fields_inv s -> stands_for s m -> (exists n a, In n names /\ lookup n m = Some a) -> (length (f_index s) + length names <= v_n (f_view s))%nat ->
  new_each zero nbc s names = None.
Proof.
  induction names as [|n names IH]; intros s m I S (k & a & Hk & Ha) HL; [destruct Hk|]. cbn [new_each length] in *.
  destruct (lookup n m) as [b|] eqn:En.
  - unfold new_field. pose proof (stands_find s m n I S) as F. destruct (find_name n (f_index s)); [reflexivity|congruence].
  - destruct Hk as [->|Hk]; [congruence|]. destruct (new_field_ok s m n I S En ltac:(lia)) as (s1 & E1 & I1 & S1 & V1 & L1). rewrite E1.
    eapply IH; [exact I1|exact S1| |lia]. exists k, a. split; [exact Hk|]. cbn [lookup]. destruct (String.eqb_spec n k) as [->|_]; [congruence|exact Ha].
Qed.

(** Two dictionaries with the same content are interchangeable. *)
Lemma stands_ext s m m' : NoDup (map fst m') -> (forall n, lookup n m' = lookup n m) -> stands_for s m -> stands_for s m'.
Proof.
  intros ND H S. constructor; [exact ND| |].
  - intros n. rewrite <- (s_names s m S n). destruct (lookup n m) as [a|] eqn:E.
    + split; intros _.
      * destruct (In_dec String.string_dec n (map fst m)) as [|NI]; [assumption|]. apply lookup_None in NI. congruence.
      * destruct (In_dec String.string_dec n (map fst m')) as [|NI]; [assumption|]. apply lookup_None in NI. rewrite H in NI. congruence.
    + split; intros Hn; exfalso; [assert (E' : lookup n m' = None) by (rewrite H; exact E); apply lookup_None in E'; contradiction|apply lookup_None in E; contradiction].
  - intros n i Hi. rewrite H. exact (s_cols s m S n i Hi).
Qed.
Lemma lookup_app (m1 m2 : dict X) n : lookup n (m1 ++ m2) = match lookup n m1 with Some a => Some a | None => lookup n m2 end.
Proof. induction m1 as [|[k a] m1 IH]; [reflexivity|]. cbn [app lookup]. destruct (String.eqb k n); [reflexivity|exact IH]. Qed.
Lemma lookup_remove (m : dict X) k n : lookup n (remove k m) = if String.eqb n k then None else lookup n m.
Proof.
  induction m as [|[a w] m IH]; [destruct (String.eqb n k); reflexivity|]. unfold remove in *. cbn [filter fst]. destruct (String.eqb_spec a k) as [->|NE]; cbn [negb].
  - rewrite IH. cbn [lookup]. rewrite (String.eqb_sym k n). destruct (String.eqb n k); reflexivity.
  - cbn [lookup]. rewrite IH. destruct (String.eqb_spec a n) as [->|N2]; [|reflexivity]. destruct (String.eqb_spec n k); [contradiction|reflexivity].
Qed.

Lemma new_fields_ok s m names : fields_inv s -> stands_for s m -> NoDup names ->
  match step fresh max_index_count m (New names) with
  | Some m' => exists s', new_fields zero nbc no ng names s = Some s' /\ fields_inv s' /\ stands_for s' m'
  | None => new_fields zero nbc no ng names s = None
  end.
Proof.
  intros I S ND. unfold new_fields, step.
  assert (SZ : negb (length (f_index s) =? 0)%nat && negb ((length (v_U (f_view s)) =? no)%nat && (length (v_G (f_view s)) =? ng)%nat) = false).
  { destruct (Nat.eqb_spec (length (f_index s)) 0) as [E|E]; [reflexivity|]. pose proof (index_le s I). destruct (i_size s I ltac:(lia)) as [-> ->]. rewrite !Nat.eqb_refl. reflexivity. }
  rewrite SZ. clear SZ. rewrite (stands_length s m I S). set (needed := (length (f_index s) + length names)%nat).
  set (s1 := mkFields (f_view s) (f_index s) (Nat.max (f_max s) needed)).
  destruct (Nat.leb_spec needed max_index_count) as [LE|GT].
  - (* enough room *)
    assert (I1 : fields_inv s1).
    { destruct I as [A1 A2 A3 A4 A5 A6]. constructor; cbn [s1 f_view f_index f_max]; auto. lia. }
    assert (S1 : stands_for s1 m) by (destruct S as [A1 A2 A3]; constructor; auto).
    assert (exists s2, (if (v_n (f_view s) <? needed)%nat then extend_fields zero nbc no ng s1 else Some s1) = Some s2 /\ fields_inv s2 /\ stands_for s2 m /\ (needed <= v_n (f_view s2))%nat /\ f_index s2 = f_index s) as (s2 & E2 & I2 & S2 & V2 & X2).
    { destruct (Nat.ltb_spec (v_n (f_view s)) needed) as [LT|GE].
      - destruct (extend_ok s1 m I1 S1) as (s2 & E2 & I2 & S2 & V2 & X2 & _). exists s2. rewrite V2, X2. cbn [s1 f_max f_index]. split; [exact E2|]. split; [exact I2|]. split; [exact S2|]. split; [lia|reflexivity].
      - exists s1. split; [reflexivity|]. split; [exact I1|]. split; [exact S1|]. split; [exact GE|reflexivity]. }
    rewrite E2. rewrite andb_true_r. destruct (forallb (fun n => match lookup n m with Some _ => false | None => true end) names) eqn:EF.
    + destruct (new_each_ok names s2 m I2 S2 ND) as (s' & m' & E' & I' & S' & H').
      * intros n Hn. rewrite forallb_forall in EF. specialize (EF n Hn). cbv beta in EF. destruct (lookup n m); [discriminate|reflexivity].
      * rewrite X2. exact V2.
      * exists s'. split; [exact E'|]. split; [exact I'|]. apply (stands_ext s' m').
        -- rewrite map_app, map_map. cbn [fst]. rewrite map_id. rewrite forallb_forall in EF.
           assert (DJ : forall n, In n names -> ~ In n (map fst m)).
           { intros n Hn. specialize (EF n Hn). cbv beta in EF. apply lookup_None. destruct (lookup n m); [discriminate|reflexivity]. }
           revert DJ. clear - ND S. induction names as [|n l IH]; intros DJ; [exact (s_keys s m S)|]. cbn [app]. apply NoDup_cons_iff in ND. destruct ND as [NI ND]. constructor.
           ++ intros H. apply in_app_iff in H. destruct H as [H|H]; [contradiction|]. exact (DJ n (or_introl eq_refl) H).
           ++ apply IH; [exact ND|]. intros k Hk. apply DJ. right. exact Hk.
        -- intros n. rewrite H', lookup_app. clear. induction names as [|k l IH]; [reflexivity|]. cbn [map lookup existsb]. rewrite (String.eqb_sym k n). destruct (String.eqb n k); [reflexivity|exact IH].
        -- exact S'.
    + eapply new_each_None; [exact I2|exact S2| |rewrite X2; exact V2].
      assert (EX : existsb (fun n => match lookup n m with Some _ => true | None => false end) names = true).
      { clear - EF. induction names as [|k l IH]; [discriminate|]. cbn [forallb existsb] in *. destruct (lookup k m); [reflexivity|]. exact (IH EF). }
      apply existsb_exists in EX. destruct EX as (n & Hn & E). destruct (lookup n m) as [a|] eqn:En; [|discriminate]. exists n, a. auto.
  - rewrite andb_false_r. pose proof (i_max s I) as MX. replace (v_n (f_view s) <? needed)%nat with true by (symmetry; apply Nat.ltb_lt; lia).
    unfold extend_fields, alloc. cbn [s1 f_max]. replace (Nat.max (f_max s) needed <=? max_index_count)%nat with false by (symmetry; apply Nat.leb_gt; lia). reflexivity.
Qed.

(** ** Renaming, deleting *)
Lemma move_ok s m dest src : fields_inv s -> stands_for s m -> dest <> src ->
  match step fresh max_index_count m (Rename dest src) with
  | Some m' => exists s', move_field dest src s = Some s' /\ fields_inv s' /\ stands_for s' m'
  | None => move_field dest src s = None
  end.
Proof.
  intros I S NE. unfold move_field, step. pose proof (stands_find s m src I S) as F. destruct (find_name src (f_index s)) as [i|] eqn:E; rewrite F; [|reflexivity].
  assert (HS : In (src, i) (f_index s)) by (apply find_name_In; [apply sorted_NoDup, (i_sorted s I)|exact E]).
  assert (IN : forall k j, In (k, j) (erase_name src (set_name dest i (f_index s))) <-> (k = dest /\ j = i) \/ (k <> dest /\ k <> src /\ In (k, j) (f_index s))).
  { intros k j. rewrite erase_In, set_name_In by exact (i_sorted s I). split; [intros [H1 [H2|H2]]; tauto|]. intros [[-> ->]|(H1 & H2 & H3)]; [split; [exact NE|auto]|tauto]. }
  eexists. split; [reflexivity|]. split.
  - constructor; cbn [f_view f_index f_max].
    + apply filter_sorted, set_name_sorted, (i_sorted s I).
    + intros k j H. apply IN in H. destruct H as [[_ ->]|(_ & _ & H)]; [exact (i_slots s I _ _ HS)|exact (i_slots s I _ _ H)].
    + intros k k' j H H'. apply IN in H, H'. destruct H as [[-> ->]|(N1 & N2 & H)], H' as [[-> E']|(N1' & N2' & H')]; auto.
      * destruct N2'. exact (i_inj s I _ _ _ H' HS).
      * subst j. destruct N2. exact (i_inj s I _ _ _ H HS).
      * exact (i_inj s I _ _ _ H H').
    + exact (i_rows s I).
    + exact (i_size s I).
    + exact (i_max s I).
  - constructor; cbn [f_view f_index f_max].
    + cbn [map fst]. constructor; [|apply NoDup_keys_filter, NoDup_keys_filter, (s_keys s m S)]. intros H. apply in_map_iff in H. destruct H as ([k a] & Ek & H). cbn [fst] in Ek. subst k.
      apply remove_In in H. destruct H as [_ H]. apply remove_In in H. tauto.
    + intros n. cbn [map fst In]. split.
      * intros H. assert (HH : n = dest \/ (n <> dest /\ n <> src /\ In n (map fst m))).
        { destruct H as [->|H]; [auto|]. apply in_map_iff in H. destruct H as ([k a] & Ek & H). cbn [fst] in Ek. subst k. apply remove_In in H. destruct H as [N1 H]. apply remove_In in H. destruct H as [N2 H].
          right. split; [exact N2|]. split; [exact N1|]. apply in_map_iff. exists (n, a). auto. }
        destruct HH as [->|(N1 & N2 & HH)]; [apply in_map_iff; exists (dest, i); split; [reflexivity|apply IN; auto]|].
        apply (s_names s m S) in HH. apply in_map_iff in HH. destruct HH as ([k j] & Ek & HH). cbn [fst] in Ek. subst k. apply in_map_iff. exists (n, j). split; [reflexivity|]. apply IN. auto.
      * intros H. apply in_map_iff in H. destruct H as ([k j] & Ek & H). cbn [fst] in Ek. subst k. apply IN in H. destruct H as [[-> _]|(N1 & N2 & H)]; [auto|]. right.
        assert (HN : In n (map fst m)) by (apply (s_names s m S), in_map_iff; exists (n, j); auto). apply in_map_iff in HN. destruct HN as ([k a] & Ek & HN). cbn [fst] in Ek. subst k.
        apply in_map_iff. exists (n, a). split; [reflexivity|]. apply remove_In. split; [exact N2|]. apply remove_In. auto.
    + intros k j H. apply IN in H. cbn [lookup]. destruct H as [[-> ->]|(N1 & N2 & H)].
      * rewrite String.eqb_refl. reflexivity.
      * destruct (String.eqb_spec dest k); [congruence|]. rewrite !lookup_remove. destruct (String.eqb_spec k src); [contradiction|]. destruct (String.eqb_spec k dest); [contradiction|]. exact (s_cols s m S k j H).
Qed.
Lemma delete_ok s m n : fields_inv s -> stands_for s m -> fields_inv (delete_field n s) /\ stands_for (delete_field n s) (remove n m).
Proof.
  intros I S. unfold delete_field. split.
  - constructor; cbn [f_view f_index f_max].
    + apply filter_sorted, (i_sorted s I).
    + intros k j H. apply erase_In in H. exact (i_slots s I _ _ (proj2 H)).
    + intros k k' j H H'. apply erase_In in H, H'. exact (i_inj s I _ _ _ (proj2 H) (proj2 H')).
    + exact (i_rows s I).
    + exact (i_size s I).
    + exact (i_max s I).
  - constructor; cbn [f_view f_index f_max].
    + apply NoDup_keys_filter, (s_keys s m S).
    + intros k. split; intros H; apply in_map_iff in H; destruct H as ([k' a] & Ek & H); cbn [fst] in Ek; subst k'.
      * apply remove_In in H. destruct H as [NE H]. assert (HN : In k (map fst (f_index s))) by (apply (s_names s m S), in_map_iff; exists (k, a); auto).
        apply in_map_iff in HN. destruct HN as ([k' j] & Ek & HN). cbn [fst] in Ek. subst k'. apply in_map_iff. exists (k, j). split; [reflexivity|]. apply erase_In. auto.
      * apply erase_In in H. destruct H as [NE H]. assert (HN : In k (map fst m)) by (apply (s_names s m S), in_map_iff; exists (k, a); auto).
        apply in_map_iff in HN. destruct HN as ([k' j] & Ek & HN). cbn [fst] in Ek. subst k'. apply in_map_iff. exists (k, j). split; [reflexivity|]. apply remove_In. auto.
    + intros k j H. apply erase_In in H. destruct H as [NE H]. rewrite lookup_remove. destruct (String.eqb_spec k n); [contradiction|]. exact (s_cols s m S k j H).
Qed.

(** ** Access *)
Lemma access_one (s : @fields X) n : getAccessor [(n, 0%nat)] s = match find_name n (f_index s) with Some i => Some (mkAccessor [(0%nat, i)] [i]) | None => None end.
Proof. unfold getAccessor. cbn [mapM fst]. destruct (find_name n (f_index s)); reflexivity. Qed.
Lemma read_column s g o i c : fields_inv s -> (i < v_n (f_view s))%nat -> read_at s g o i c = value (column i (f_view s)) g o c.
Proof.
  intros I Hi. unfold read_at, value, column. assert (H : forall rows : list (@row X), (forall r, In r rows -> length r = v_n (f_view s)) ->
    match nth_error rows o with Some r => match nth_error r i with Some b => nth_error b c | None => None end | None => None end =
    match nth_error (map (fun r => nth i r []) rows) o with Some b => nth_error b c | None => None end).
  { unfold row in *. intros rows L. rewrite nth_error_map. destruct (nth_error rows o) as [r|] eqn:E; [|reflexivity]. cbn [option_map].
    pose proof (L r (nth_error_In _ _ E)). rewrite (nth_error_nth' r [] (n := i)) by lia. reflexivity. }
  destruct g; cbn [fst snd]; apply H; intros r Hr; apply (i_rows s I); apply in_app_iff; auto.
Qed.
Lemma read_ok s m n g o c : fields_inv s -> stands_for s m ->
  read_field n g o c s = match lookup n m with Some a => value a g o c | None => None end.
Proof.
  intros I S. unfold read_field. rewrite access_one. pose proof (stands_find s m n I S) as F. destruct (find_name n (f_index s)) as [i|] eqn:E; rewrite F; [|reflexivity].
  cbn. apply read_column; [exact I|]. apply (i_slots s I n). apply find_name_In; [apply sorted_NoDup, (i_sorted s I)|exact E].
Qed.
Lemma column_write i j o f (rows : list (@row X)) : (forall r, In r rows -> (i < length r)%nat) ->
  map (fun r => nth j r []) (upd_nth o (upd_nth i f) rows) = if Nat.eqb j i then upd_nth o f (map (fun r => nth j r []) rows) else map (fun r => nth j r []) rows.
Proof.
  unfold row in *. intros L. apply nth_error_ext'. intros k. rewrite nth_error_map, upd_nth_get.
  assert (EQ : forall r, nth_error rows k = Some r -> nth j (upd_nth i f r) [] = if Nat.eqb j i then f (nth j r []) else nth j r []).
  { intros r Er. pose proof (L r (nth_error_In _ _ Er)) as Lr. destruct (Nat.eqb_spec j i) as [->|NE].
    - apply nth_error_nth. rewrite upd_nth_get, Nat.eqb_refl, (nth_error_nth' r []) by exact Lr. reflexivity.
    - destruct (nth_error r j) as [b|] eqn:Eb.
      + rewrite (nth_error_nth _ _ _ Eb). apply nth_error_nth. rewrite upd_nth_get, Eb. destruct (Nat.eqb_spec i j); [congruence|reflexivity].
      + rewrite !nth_overflow; [reflexivity|apply nth_error_None; exact Eb|rewrite upd_nth_length; apply nth_error_None; exact Eb]. }
  destruct (Nat.eqb_spec o k) as [->|NE].
  - destruct (Nat.eqb j i) eqn:EJ.
    + rewrite upd_nth_get, Nat.eqb_refl, nth_error_map. destruct (nth_error rows k) as [r|] eqn:E; [|reflexivity]. cbn [option_map]. rewrite (EQ r eq_refl). reflexivity.
    + rewrite nth_error_map. destruct (nth_error rows k) as [r|] eqn:E; [|reflexivity]. cbn [option_map]. rewrite (EQ r eq_refl). reflexivity.
  - destruct (Nat.eqb j i); [rewrite upd_nth_get; destruct (Nat.eqb_spec o k); [congruence|]|]; rewrite nth_error_map; reflexivity.
Qed.
Lemma upd_In {A} o (f : A -> A) l r : In r (upd_nth o f l) -> exists r0, In r0 l /\ (r = r0 \/ r = f r0).
Proof.
  intros H. apply In_nth_error in H. destruct H as [k Hk]. rewrite upd_nth_get in Hk. destruct (Nat.eqb o k).
  - destruct (nth_error l k) as [r0|] eqn:E; [|discriminate]. injection Hk as <-. exists r0. split; [exact (nth_error_In _ _ E)|auto].
  - exists r. split; [exact (nth_error_In _ _ Hk)|auto].
Qed.
Lemma write_ok s m n g o c x : fields_inv s -> stands_for s m ->
  match step fresh max_index_count m (Write n g o c x) with
  | Some m' => exists s', write_field n g o c x s = Some s' /\ fields_inv s' /\ stands_for s' m'
  | None => write_field n g o c x s = None
  end.
Proof.
  intros I S. unfold write_field, step. rewrite access_one. pose proof (stands_find s m n I S) as F. destruct (find_name n (f_index s)) as [i|] eqn:E; rewrite F; [|reflexivity].
  cbn [lookup_id a_ivar find fst snd Nat.eqb]. assert (HS : In (n, i) (f_index s)) by (apply find_name_In; [apply sorted_NoDup, (i_sorted s I)|exact E]).
  pose proof (i_slots s I n i HS) as SL. unfold write_at. rewrite (read_column s g o i c I SL). destruct (value (column i (f_view s)) g o c) eqn:EV; [|reflexivity].
  set (w := upd_nth o (upd_nth i (upd_nth c (fun _ => x)))). eexists. split; [reflexivity|].
  set (v' := if g then mkView (v_n (f_view s)) (v_U (f_view s)) (w (v_G (f_view s))) else mkView (v_n (f_view s)) (w (v_U (f_view s))) (v_G (f_view s))).
  assert (VN : v_n v' = v_n (f_view s)) by (unfold v'; destruct g; reflexivity).
  assert (ROWS : forall rows r, (forall r, In r rows -> length r = v_n (f_view s)) -> In r (w rows) -> length r = v_n (f_view s)).
  { intros rows r L H. unfold w in H. apply upd_In in H. destruct H as (r0 & H0 & [-> | ->]); [|rewrite upd_nth_length]; apply L, H0. }
  assert (RU : forall r, In r (v_U (f_view s)) -> length r = v_n (f_view s)) by (intros r Hr; apply (i_rows s I), in_app_iff; auto).
  assert (RG : forall r, In r (v_G (f_view s)) -> length r = v_n (f_view s)) by (intros r Hr; apply (i_rows s I), in_app_iff; auto).
  split.
  - constructor; cbn [f_view f_index f_max]; fold v'; rewrite ?VN.
    + exact (i_sorted s I).
    + exact (i_slots s I).
    + exact (i_inj s I).
    + intros r Hr. apply in_app_iff in Hr. unfold v' in Hr. destruct g; cbn [v_U v_G] in Hr; destruct Hr as [Hr|Hr]; [apply RU, Hr|exact (ROWS _ _ RG Hr)|exact (ROWS _ _ RU Hr)|apply RG, Hr].
    + intros H. destruct (i_size s I H) as [L1 L2]. unfold v'. destruct g; cbn [v_U v_G]; unfold w; rewrite ?upd_nth_length; auto.
    + exact (i_max s I).
  - assert (COL : forall j, column j v' = if Nat.eqb j i then with_value (column j (f_view s)) g o c x else column j (f_view s)).
    { intros j. unfold v', column, with_value, w. destruct g; cbn [v_U v_G fst snd].
      - rewrite (column_write i j o (upd_nth c (fun _ => x)) (v_G (f_view s))) by (intros r Hr; rewrite (RG r Hr); exact SL). destruct (Nat.eqb j i); reflexivity.
      - rewrite (column_write i j o (upd_nth c (fun _ => x)) (v_U (f_view s))) by (intros r Hr; rewrite (RU r Hr); exact SL). destruct (Nat.eqb j i); reflexivity. }
    constructor; cbn [f_view f_index f_max]; fold v'.
    + cbn [map fst]. constructor; [|apply NoDup_keys_filter, (s_keys s m S)]. intros H. apply in_map_iff in H. destruct H as ([k a] & Ek & H). cbn [fst] in Ek. subst k. apply remove_In in H. tauto.
    + intros k. rewrite <- (s_names s m S k). cbn [map fst In]. split.
      * intros [<-|H]; [apply (s_names s m S), in_map_iff; exists (n, i); auto|]. apply in_map_iff in H. destruct H as ([k' a] & Ek & H). cbn [fst] in Ek. subst k'. apply remove_In in H. apply in_map_iff. exists (k, a). tauto.
      * intros H. destruct (String.string_dec n k) as [->|NE]; [auto|]. right. apply in_map_iff in H. destruct H as ([k' a] & Ek & H). cbn [fst] in Ek. subst k'. apply in_map_iff. exists (k, a). split; [reflexivity|]. apply remove_In. split; [congruence|exact H].
    + intros k j H. rewrite COL. cbn [lookup]. destruct (String.eqb_spec n k) as [->|NE].
      * assert (j = i). { pose proof (proj2 (find_name_In _ (sorted_NoDup _ (i_sorted s I)) k j) H) as E1. congruence. } subst j. rewrite Nat.eqb_refl. reflexivity.
      * destruct (Nat.eqb_spec j i) as [->|NJ]; [destruct NE; exact (i_inj s I _ _ _ HS H)|]. rewrite lookup_remove. destruct (String.eqb_spec k n); [congruence|]. exact (s_cols s m S k j H).
Qed.

(** ** The empty state *)
Lemma empty_inv : fields_inv no_fields.
Proof. constructor; cbn; try tauto; try lia. constructor. Qed.
Lemma empty_stands : stands_for no_fields [].
Proof. constructor; cbn; try tauto. constructor. Qed.
End Rel.
