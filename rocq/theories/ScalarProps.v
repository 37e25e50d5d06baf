(** The scalar data of a simulation (C101). *)
From Coq Require Import List String Ascii NArith Lia Sorted.
From Verif Require Import ScalarModel.
Import ListNotations.

(** * What a name of a type stands for after a history, oldest first: its last value. *)
Definition first_given {V} (l : list (string * V)) (k : string) : option V :=
  option_map snd (find (fun e => if string_dec k (fst e) then true else false) l).
(** What an action does to the value of the int [k], and of the real [k]. *)
Definition on_int {A B} (k : string) (o : option A) (a : action A B) : option A :=
  match a with
  | SetInt k' v => if string_dec k k' then Some v else o
  | AssignInt k' v => if string_dec k k' then match o with Some _ => Some v | None => None end else o
  | _ => o
  end.
Definition on_real {A B} (k : string) (o : option B) (a : action A B) : option B :=
  match a with
  | SetReal k' v => if string_dec k k' then Some v else o
  | AssignReal k' v => if string_dec k k' then match o with Some _ => Some v | None => None end else o
  | _ => o
  end.

(** * The order of the keys *)
Lemma ascii_compare_trans a b c : Ascii.compare a b = Lt -> Ascii.compare b c = Lt -> Ascii.compare a c = Lt.
Proof. unfold Ascii.compare. rewrite !N.compare_lt_iff. lia. Qed.
Lemma ascii_compare_eq a b : Ascii.compare a b = Eq -> a = b.
Proof. unfold Ascii.compare. intros H. apply N.compare_eq_iff in H. rewrite <- (ascii_N_embedding a), <- (ascii_N_embedding b), H. reflexivity. Qed.
Lemma ascii_compare_refl a : Ascii.compare a a = Eq. Proof. apply N.compare_refl. Qed.
Lemma compare_trans x : forall y z, String.compare x y = Lt -> String.compare y z = Lt -> String.compare x z = Lt.
Proof.
  induction x as [|a x IH]; intros [|b y] [|c z] H1 H2; cbn in *; try congruence.
  destruct (Ascii.compare a b) eqn:E1; try discriminate; destruct (Ascii.compare b c) eqn:E2; try discriminate.
  - apply ascii_compare_eq in E1, E2. subst. rewrite ascii_compare_refl. eapply IH; eassumption.
  - apply ascii_compare_eq in E1. subst. rewrite E2. reflexivity.
  - apply ascii_compare_eq in E2. subst. rewrite E1. reflexivity.
  - rewrite (ascii_compare_trans a b c E1 E2). reflexivity.
Qed.
Lemma compare_refl x : String.compare x x = Eq.
Proof. induction x as [|a x IH]; [reflexivity|]. cbn. rewrite ascii_compare_refl. exact IH. Qed.
Lemma compare_same x y : String.compare x y = Eq <-> x = y.
Proof. split; [apply String.compare_eq_iff|intros ->; apply compare_refl]. Qed.
Lemma compare_gt x y : String.compare x y = Gt -> String.compare y x = Lt.
Proof. intros H. rewrite String.compare_antisym, H. reflexivity. Qed.

Definition before {V} (x y : string * V) : Prop := String.compare (fst x) (fst y) = Lt.
Definition ordered {V} (m : list (string * V)) : Prop := StronglySorted before m.

Lemma assign_in {V} k (v : V) m e : In e (assign k v m) -> e = (k, v) \/ In e m.
Proof.
  induction m as [|(k', v') m IH]; cbn [assign]; [cbn [In]; intuition congruence|]. destruct (String.compare k k'); cbn [In]; intuition congruence.
Qed.
Lemma assign_ordered {V} k (v : V) m : ordered m -> ordered (assign k v m).
Proof.
  unfold ordered. induction m as [|(k', v') m IH]; intros H; cbn [assign]; [repeat constructor|]. inversion H as [|? ? S F]; subst. destruct (String.compare k k') eqn:E.
  - apply compare_same in E. subst. constructor; [exact S|]. apply Forall_forall. intros x Hx. rewrite Forall_forall in F. exact (F x Hx).
  - constructor; [exact H|]. apply Forall_forall. rewrite Forall_forall in F. intros x [<-|Hx]; [exact E|]. eapply compare_trans; [exact E|exact (F x Hx)].
  - constructor; [apply IH, S|]. apply Forall_forall. rewrite Forall_forall in F. intros x Hx. apply assign_in in Hx. destruct Hx as [-> |Hx]; [apply compare_gt, E|exact (F x Hx)].
Qed.
Lemma at_assign {V} k k' (v : V) m : ordered m -> at_key k (assign k' v m) = if string_dec k k' then Some v else at_key k m.
Proof.
  unfold ordered. induction m as [|(k2, v2) m IH]; intros H; cbn [assign at_key].
  - destruct (String.compare k k') eqn:E; destruct (string_dec k k') as [-> |N]; try reflexivity; try (apply compare_same in E; contradiction); rewrite (proj2 (compare_same _ _) eq_refl) in E; discriminate.
  - inversion H as [|? ? S F]; subst. rewrite Forall_forall in F. destruct (String.compare k' k2) eqn:E; cbn [at_key].
    + apply compare_same in E. subst k2. destruct (string_dec k k') as [-> |N]; [rewrite (proj2 (compare_same _ _) eq_refl); reflexivity|]. destruct (String.compare k k') eqn:E2; try reflexivity. apply compare_same in E2. contradiction.
    + destruct (string_dec k k') as [-> |N]; [rewrite (proj2 (compare_same _ _) eq_refl); reflexivity|]. destruct (String.compare k k') eqn:E2.
      * apply compare_same in E2. contradiction.
      * rewrite (compare_trans k k' k2 E2 E). reflexivity.
      * reflexivity.
    + destruct (String.compare k k2) eqn:E2.
      * apply compare_same in E2. subst k2. destruct (string_dec k k') as [-> |N]; [rewrite (proj2 (compare_same _ _) eq_refl) in E; discriminate|reflexivity].
      * destruct (string_dec k k') as [-> |N]; [congruence|reflexivity].
      * apply IH, S.
Qed.
Lemma at_in {V} k (v : V) m : ordered m -> In (k, v) m <-> at_key k m = Some v.
Proof.
  unfold ordered. induction m as [|(k2, v2) m IH]; intros H; cbn [at_key]; [split; [intros []|discriminate]|]. inversion H as [|? ? S F]; subst. rewrite Forall_forall in F. split.
  - intros [J|J]; [injection J as -> ->; rewrite (proj2 (compare_same _ _) eq_refl); reflexivity|]. pose proof (F _ J) as L. unfold before in L. cbn [fst] in L.
    rewrite String.compare_antisym, L. cbn. apply IH; assumption.
  - destruct (String.compare k k2) eqn:E; try discriminate; intros J; [apply compare_same in E; injection J as ->; subst; left; reflexivity|right; apply IH; assumption].
Qed.
Lemma insert_ordered {V} (m : list (string * V)) e : ordered m -> ordered (insert_new m e).
Proof. intros O. unfold insert_new. try destruct (at_key (fst e) m); auto using assign_ordered. Qed.
Lemma from_fold {V} (l : list (string * V)) : forall m, ordered m -> ordered (fold_left insert_new l m) /\
  forall k, at_key k (fold_left insert_new l m) = match at_key k m with Some v => Some v | None => first_given l k end.
Proof.
  induction l as [|(k1, v1) l IH]; intros m O; cbn [fold_left]; [split; [exact O|intros k; destruct (at_key k m); reflexivity]|].
  destruct (IH (insert_new m (k1, v1)) (insert_ordered m _ O)) as (O' & G). split; [exact O'|]. intros k. rewrite G. unfold insert_new. cbn [fst snd].
  unfold first_given. cbn [find fst]. destruct (at_key k1 m) as [w|] eqn:E1.
  - destruct (at_key k m) eqn:E; [reflexivity|]. destruct (string_dec k k1) as [-> |N]; [congruence|reflexivity].
  - rewrite (at_assign k k1 v1 m O). destruct (string_dec k k1) as [-> |N]; [rewrite E1; reflexivity|destruct (at_key k m); reflexivity].
Qed.

Definition well {A B} (s : scalar_data A B) : Prop := ordered (ints s) /\ ordered (reals s).
Lemma act_spec {A B} (s : scalar_data A B) a : well s -> well (act s a) /\ (forall k, get_int (act s a) k = on_int k (get_int s k) a) /\ (forall k, get_real (act s a) k = on_real k (get_real s k) a).
Proof.
  intros (O1 & O2). destruct a as [k' v|k' v|k' v|k' v]; cbn [act on_int on_real].
  - split; [split; [apply assign_ordered, O1|exact O2]|]. split; intros k; [apply (at_assign k k' v), O1|reflexivity].
  - split; [split; [exact O1|apply assign_ordered, O2]|]. split; intros k; [reflexivity|apply (at_assign k k' v), O2].
  - destruct (get_int s k') eqn:E.
    + split; [split; [apply assign_ordered, O1|exact O2]|]. split; intros k; [|reflexivity]. unfold get_int at 1. cbn [ints]. rewrite (at_assign k k' v _ O1). destruct (string_dec k k') as [-> |N]; [rewrite E; reflexivity|reflexivity].
    + split; [split; assumption|]. split; intros k; [|reflexivity]. destruct (string_dec k k') as [-> |N]; [rewrite E; reflexivity|reflexivity].
  - destruct (get_real s k') eqn:E.
    + split; [split; [exact O1|apply assign_ordered, O2]|]. split; intros k; [reflexivity|]. unfold get_real at 1. cbn [reals]. rewrite (at_assign k k' v _ O2). destruct (string_dec k k') as [-> |N]; [rewrite E; reflexivity|reflexivity].
    + split; [split; assumption|]. split; intros k; [reflexivity|]. destruct (string_dec k k') as [-> |N]; [rewrite E; reflexivity|reflexivity].
Qed.
Lemma acts_spec {A B} (h : list (action A B)) : forall s, well s -> well (fold_left act h s) /\
  (forall k, get_int (fold_left act h s) k = fold_left (on_int k) h (get_int s k)) /\ (forall k, get_real (fold_left act h s) k = fold_left (on_real k) h (get_real s k)).
Proof.
  induction h as [|a h IH]; intros s W; cbn [fold_left]; [split; [exact W|split; reflexivity]|].
  destruct (act_spec s a W) as (W1 & I1 & R1). destruct (IH _ W1) as (W2 & I2 & R2). split; [exact W2|]. split; intros k; [rewrite I2, I1|rewrite R2, R1]; reflexivity.
Qed.
Lemma new_spec {A B} (is : list (string * A)) (rs : list (string * B)) : well (scalars_new is rs) /\ (forall k, get_int (scalars_new is rs) k = first_given is k) /\ (forall k, get_real (scalars_new is rs) k = first_given rs k).
Proof.
  destruct (from_fold is [] (SSorted_nil _)) as (O1 & G1). destruct (from_fold rs [] (SSorted_nil _)) as (O2 & G2). split; [split; assumption|]. split; intros k; [apply G1|apply G2].
Qed.

(** * The theorems. Construction from lists, then any history of calls. *)
Definition after {A B} (is : list (string * A)) (rs : list (string * B)) (h : list (action A B)) : scalar_data A B := fold_left act h (scalars_new is rs).
(** A variable has its last value among those of its type, and get throws if it has none. *)
Theorem C101_last_value {A B} (is : list (string * A)) (rs : list (string * B)) h k :
  get_int (after is rs h) k = fold_left (on_int k) h (first_given is k) /\ get_real (after is rs h) k = fold_left (on_real k) h (first_given rs k).
Proof. destruct (new_spec is rs) as (W & I0 & R0). destruct (acts_spec h _ W) as (_ & I & R). unfold after. rewrite I, R, I0, R0. split; reflexivity. Qed.
(** foreach_var visits each variable exactly once, with its value: the integers first, each type in
    the order of the names. *)
Theorem C101_visits {A B} (is : list (string * A)) (rs : list (string * B)) h :
  exists vi vr, visited (after is rs h) = map (fun e => (fst e, inl (snd e))) vi ++ map (fun e => (fst e, inr (snd e))) vr /\
  StronglySorted (fun x y => String.compare (fst x) (fst y) = Lt) vi /\ StronglySorted (fun x y => String.compare (fst x) (fst y) = Lt) vr /\
  (forall k v, In (k, v) vi <-> fold_left (on_int k) h (first_given is k) = Some v) /\ (forall k v, In (k, v) vr <-> fold_left (on_real k) h (first_given rs k) = Some v).
Proof.
  destruct (new_spec is rs) as (W & I0 & R0). destruct (acts_spec h _ W) as ((O1 & O2) & I & R). exists (ints (after is rs h)), (reals (after is rs h)). split; [reflexivity|]. split; [exact O1|]. split; [exact O2|].
  unfold after. split; intros k v; [rewrite (at_in k v _ O1), <- I0, <- I|rewrite (at_in k v _ O2), <- R0, <- R]; reflexivity.
Qed.
(** The type of a variable is part of its name: calls for one type leave the other alone. *)
Theorem C101_types_apart {A B} (is : list (string * A)) (rs : list (string * B)) h k v :
  get_int (after is rs (h ++ [SetReal k v])) k = get_int (after is rs h) k.
Proof. unfold after. rewrite fold_left_app. reflexivity. Qed.

Open Scope string_scope.
Example C101_example : let s := after [("iter", 3); ("iter", 4)] [("time", 10)] [SetReal "dt" 7; SetInt "iter" 5; AssignReal "aexp" 1; AssignReal "dt" 8; SetReal "iter" 2] in
  get_int s "iter" = Some 5 /\ get_real s "dt" = Some 8 /\ get_real s "aexp" = None /\ visited s = [("iter", inl 5); ("dt", inr 8); ("iter", inr 2); ("time", inr 10)].
Proof. vm_compute. repeat split. Qed.

Print Assumptions C101_last_value.
Print Assumptions C101_visits.
Print Assumptions C101_types_apart.
