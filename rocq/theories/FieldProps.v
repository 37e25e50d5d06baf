(** C29, C58, C59, C60: named fields and particle attributes behave like independent arrays. *)
From Verif Require Import Base OctreeModel RefineModel RefineProps CommModel FindNeighbors MarkerLoop GhostExchange FieldModel FieldSpec FieldProofs.

Section Histories.
Context {X : Type}.
Variable zero : X.
Variables nbc no ng : nat.

(** One call of the API on a mesh of [no] octants and [ng] ghosts. *)
Definition apply_op (s : @fields X) (o : field_op X) : option (@fields X) :=
  match o with
  | New names => new_fields zero nbc no ng names s
  | Rename dest src => move_field dest src s
  | Delete n => Some (delete_field n s)
  | Write n ghost oc c x => write_field n ghost oc c x s
  end.
Fixpoint apply_ops (s : @fields X) (ops : list (field_op X)) : option (@fields X) :=
  match ops with [] => Some s | o :: ops => match apply_op s o with Some s => apply_ops s ops | None => None end end.
(** The array of a new field: one zero per cell. *)
Definition zeros : array X := (repeat (repeat zero nbc) no, repeat (repeat zero nbc) ng).

Lemma step_ok s m o : fields_inv no ng s -> stands_for s m -> set_op o -> ~ renames_self o ->
  match step zeros 64 m o with
  | Some m' => exists s', apply_op s o = Some s' /\ fields_inv no ng s' /\ stands_for s' m'
  | None => apply_op s o = None
  end.
Proof.
  intros I S SO NR. destruct o as [names|dest src|n|n g o c x]; cbn [apply_op].
  - exact (new_fields_ok zero nbc no ng s m names I S SO).
  - exact (move_ok zero nbc no ng s m dest src I S NR).
  - cbn [step]. eexists. split; [reflexivity|]. exact (delete_ok no ng s m n I S).
  - exact (write_ok zero nbc no ng s m n g o c x I S).
Qed.
Lemma run_ok : forall ops s m, fields_inv no ng s -> stands_for s m -> (forall o, In o ops -> set_op o /\ ~ renames_self o) ->
  match run zeros 64 m ops with
  | Some m' => exists s', apply_ops s ops = Some s' /\ fields_inv no ng s' /\ stands_for s' m'
  | None => apply_ops s ops = None
  end.
Proof.
  induction ops as [|o ops IH]; intros s m I S H; cbn [run apply_ops].
  - exists s. auto.
  - destruct (H o (or_introl eq_refl)) as [H1 H2]. pose proof (step_ok s m o I S H1 H2) as ST. destruct (step zeros 64 m o) as [m1|].
    + destruct ST as (s1 & -> & I1 & S1). apply IH; [exact I1|exact S1|]. intros; apply H; right; assumption.
    + rewrite ST. reflexivity.
Qed.
Lemma getField_column (s : @fields X) n i : fields_inv no ng s -> In (n, i) (f_index s) -> getField no n s = Some (fst (column i (f_view s))).
Proof.
  intros I H. unfold getField. rewrite (proj2 (find_name_In _ (sorted_NoDup _ (i_sorted no ng s I)) n i) H).
  pose proof (i_slots no ng s I n i H) as SL. destruct (i_size no ng s I ltac:(lia)) as [-> _]. rewrite Nat.eqb_refl. unfold column. cbn [fst].
  assert (L : forall r, In r (v_U (f_view s)) -> (i < length r)%nat) by (intros r Hr; rewrite (i_rows no ng s I r); [exact SL|apply in_app_iff; auto]).
  clear -L. unfold row in *. induction (v_U (f_view s)) as [|r rows IH]; [reflexivity|]. cbn [mapM map]. rewrite (nth_error_nth' r []) by (apply L; left; reflexivity).
  rewrite IH; [reflexivity|]. intros; apply L; right; assumption.
Qed.

(** ** C29 *)
(** Any history of calls on a mesh that does not change, when no field is renamed to its own
    name: a call fails exactly when the dictionary of independent arrays says so (unknown
    or already existing name, more than 64 fields, cell out of range), and afterwards
    every access by name, existing names and copies returned by getField agree with that
    dictionary.
    Missing for the full property: histories in which a field is renamed to its own name
    (see C29_refuted); changes of the mesh between calls are the subject of C27, C28, C30. *)
Theorem C29_histories_partial ops : (forall o, In o ops -> set_op o /\ ~ renames_self o) ->
  match run zeros 64 [] ops with
  | Some m => exists s, apply_ops no_fields ops = Some s /\
      (forall n, In n (map fst (f_index s)) <-> lookup n m <> None) /\
      (forall n ghost o c, read_field n ghost o c s = match lookup n m with Some a => value a ghost o c | None => None end) /\
      (forall n, getField no n s = match lookup n m with Some a => Some (fst a) | None => None end)
  | None => apply_ops no_fields ops = None
  end.
Proof.
  intros H. pose proof (run_ok ops no_fields [] (empty_inv no ng) empty_stands H) as R. destruct (run zeros 64 [] ops) as [m|]; [|exact R].
  destruct R as (s & E & I & S). exists s. split; [exact E|]. split; [|split].
  - intros n. rewrite <- (s_names s m S n). destruct (lookup n m) as [a|] eqn:El.
    + split; [congruence|]. intros _. destruct (In_dec String.string_dec n (map fst m)) as [|NI]; [assumption|]. apply lookup_None in NI. congruence.
    + split; [|congruence]. intros Hn. apply lookup_None in El. contradiction.
  - intros n ghost o c. exact (read_ok no ng s m n ghost o c I S).
  - intros n. pose proof (stands_find no ng s m n I S) as F. destruct (find_name n (f_index s)) as [i|] eqn:Ef; rewrite F.
    + apply getField_column; [exact I|]. apply find_name_In; [apply sorted_NoDup, (i_sorted no ng s I)|exact Ef].
    + unfold getField. rewrite Ef. reflexivity.
Qed.
End Histories.

Import String.StringSyntax.
Local Open Scope string_scope.
(** Several slots recycled and renamed, on 2 octants and 1 ghost of 2 cells. *)
Definition ex_ops : list (field_op Z) :=
  [New ["rho"; "u"]; Write "rho" false 1 0 5; New ["rho_next"]; Write "rho_next" false 1 0 7; Write "u" true 0 1 9;
   Rename "rho" "rho_next"; New ["v"]; Delete "u"; New ["w"; "a"]; Write "w" false 0 1 3].
Example C29_histories_example :
  (forall o, In o ex_ops -> set_op o /\ ~ renames_self o) /\
  option_map (fun m => map (fun n => (n, lookup n m)) ["a"; "rho"; "u"; "v"; "w"]) (run (zeros 0 2 2 1) 64 [] ex_ops) =
  Some [("a", Some ([[0; 0]; [0; 0]], [[0; 0]])); ("rho", Some ([[0; 0]; [7; 0]], [[0; 0]])); ("u", None);
        ("v", Some ([[0; 0]; [0; 0]], [[0; 0]])); ("w", Some ([[0; 3]; [0; 0]], [[0; 0]]))] /\
  option_map (fun s => f_index s) (apply_ops 0 2 2 1 no_fields ex_ops) = Some [("a", 3%nat); ("rho", 2%nat); ("v", 0%nat); ("w", 1%nat)].
Proof.
  split; [|split; vm_compute; reflexivity].
  intros o Ho. repeat (destruct Ho as [<-|Ho]; [split; [cbn; repeat constructor; cbn; intuition discriminate|cbn; intuition discriminate]|]). destruct Ho.
Qed.

(** The full property fails: renaming a field to its own name deletes it. *)
Theorem C29_refuted :
  ~ (forall (X : Type) (zero : X) nbc no ng ops, (forall o, In o ops -> set_op o) ->
     match run (zeros zero nbc no ng) 64 [] ops with
     | Some m => exists s, apply_ops zero nbc no ng no_fields ops = Some s /\
         forall n ghost o c, read_field n ghost o c s = match lookup n m with Some a => value a ghost o c | None => None end
     | None => apply_ops zero nbc no ng no_fields ops = None
     end).
Proof.
  intros H. specialize (H Z 0 1%nat 1%nat 0%nat [New ["x"]; Write "x" false 0 0 5; Rename "x" "x"]).
  assert (SO : forall o : field_op Z, In o [New ["x"]; Write "x" false 0 0 5; Rename "x" "x"] -> set_op o).
  { intros o Ho. repeat (destruct Ho as [<-|Ho]; [cbn; repeat constructor; cbn; tauto|]). destruct Ho. }
  specialize (H SO). vm_compute in H. destruct H as (s & E & H). injection E as <-. specialize (H "x" false 0%nat 0%nat). vm_compute in H. discriminate.
Qed.

(** ** C59 *)
(** The full property: whatever happened before, on whatever mesh, a field that new_fields
    just created can be read, and is zero, in every cell of the current mesh. *)
Definition C59_statement : Prop :=
  forall (X : Type) (zero : X) nbc no0 ng0 ops s no ng names s', (forall o, In o ops -> set_op o) ->
    apply_ops zero nbc no0 ng0 no_fields ops = Some s -> NoDup names -> new_fields zero nbc no ng names s = Some s' ->
    forall n o c, In n names -> (c < nbc)%nat ->
      ((o < no)%nat -> read_field n false o c s' = Some zero) /\ ((o < ng)%nat -> read_field n true o c s' = Some zero).
(** It fails when all the fields were deleted and the mesh has changed: the storage keeps
    its old size, as the size checks are skipped. *)
Theorem C59_refuted : ~ C59_statement.
Proof.
  intros H. destruct (H Z 0 1%nat 1%nat 0%nat [New ["a"]; Delete "a"] (mkFields (mkView 1 [[[0]]] []) [] 1) 2%nat 0%nat ["b"]
                        (mkFields (mkView 1 [[[0]]] []) [("b", 0%nat)] 1)) with (n := "b") (o := 1%nat) (c := 0%nat) as [K _].
  - intros o Ho. repeat (destruct Ho as [<-|Ho]; [cbn; repeat constructor; cbn; tauto|]). destruct Ho.
  - reflexivity.
  - repeat constructor. intros [].
  - reflexivity.
  - left. reflexivity.
  - lia.
  - specialize (K ltac:(lia)). vm_compute in K. discriminate.
Qed.
Lemma value_zeros {X} (zero : X) nbc no ng o c : (c < nbc)%nat ->
  ((o < no)%nat -> value (zeros zero nbc no ng) false o c = Some zero) /\ ((o < ng)%nat -> value (zeros zero nbc no ng) true o c = Some zero).
Proof.
  assert (R : forall (A : Type) (x : A) n i, (i < n)%nat -> nth_error (repeat x n) i = Some x).
  { intros A x n. induction n as [|n IH]; intros [|i] H; try lia; [reflexivity|]. cbn. apply IH. lia. }
  intros Hc. unfold value, zeros. cbn [fst snd]. split; intros Ho; rewrite (R _ _ _ _ Ho); apply R, Hc.
Qed.
(** What holds: if some field exists, or if the mesh is the one of the previous calls (and no
    field was renamed to itself), new fields are complete or the call fails. *)
Theorem C59_new_fields_partial {X} (zero : X) nbc no0 ng0 ops s no ng names s' : (forall o, In o ops -> set_op o /\ ~ renames_self o) ->
    apply_ops zero nbc no0 ng0 no_fields ops = Some s -> NoDup names -> new_fields zero nbc no ng names s = Some s' ->
    f_index s <> [] \/ (no0 = no /\ ng0 = ng) ->
    forall n o c, In n names -> (c < nbc)%nat ->
      ((o < no)%nat -> read_field n false o c s' = Some zero) /\ ((o < ng)%nat -> read_field n true o c s' = Some zero).
Proof.
  intros H E ND EN HC n o c Hn Hc. pose proof (run_ok zero nbc no0 ng0 ops no_fields [] (empty_inv no0 ng0) empty_stands H) as R.
  destruct (run (zeros zero nbc no0 ng0) 64 [] ops) as [m|]; [|congruence]. destruct R as (s1 & E1 & I & S). rewrite E in E1. injection E1 as <-.
  assert (EQ : no0 = no /\ ng0 = ng).
  { destruct HC as [NE|EQ]; [|exact EQ]. unfold new_fields in EN. destruct (f_index s) as [|p l] eqn:Ei; [contradiction|]. rewrite <- Ei in *. 
    destruct (Nat.eqb_spec (length (f_index s)) 0) as [L0|L0]; [rewrite Ei in L0; discriminate|]. cbn [negb andb] in EN.
    pose proof (index_le no0 ng0 s I) as LE. destruct (i_size no0 ng0 s I ltac:(lia)) as [L1 L2]. rewrite L1, L2 in EN.
    destruct (Nat.eqb_spec no0 no); [|discriminate]. destruct (Nat.eqb_spec ng0 ng); [|discriminate]. auto. }
  destruct EQ as [-> ->]. pose proof (new_fields_ok zero nbc no ng s m names I S ND) as NF. fold (zeros zero nbc no ng) in NF.
  destruct (step (fresh zero nbc no ng) max_index_count m (New names)) as [m'|] eqn:Es; [|congruence]. destruct NF as (s2 & E2 & I2 & S2). rewrite EN in E2. injection E2 as <-.
  rewrite !(read_ok no ng s' m' n _ o c I2 S2). cbn [step] in Es. destruct (forallb _ names && _); [|discriminate]. injection Es as <-.
  assert (EL : lookup n (map (fun k => (k, fresh zero nbc no ng)) names ++ m) = Some (zeros zero nbc no ng)).
  { clear -Hn. induction names as [|k l IH]; [destruct Hn|]. cbn [map app lookup]. destruct (String.eqb_spec k n) as [->|NE]; [reflexivity|]. apply IH. destruct Hn; [contradiction|assumption]. }
  rewrite EL. apply value_zeros, Hc.
Qed.
(** A mesh that changes while a field exists: the call fails; same mesh: it succeeds. *)
Example C59_new_fields_example :
  exists s, apply_ops 0 2 2 1 no_fields ex_ops = Some s /\ f_index s <> [] /\
    (exists s', new_fields 0 2 2 1 ["b"; "x"] s = Some s' /\ read_field "x" false 1 1 s' = Some 0) /\ new_fields 0 2 3 1 ["b"] s = None.
Proof. eexists. split; [vm_compute; reflexivity|]. split; [discriminate|]. split; [eexists; split; vm_compute; reflexivity|vm_compute; reflexivity]. Qed.

(** ** C60 *)
(** An accessor requested for distinct identifiers: at(cell, id) and at_ivar(cell, k) access the
    slot of the field requested under [id] (the [k]-th requested field). *)
Theorem C60_accessor_partial {X} (infos : list (string * nat)) (s : @fields X) :
  infos <> [] -> (length infos <= 32)%nat -> NoDup (map snd infos) -> (forall x, In x infos -> (snd x < 64)%nat) ->
  (forall x, In x infos -> find_name (fst x) (f_index s) <> None) ->
  exists a, getAccessor infos s = Some a /\
    forall k n id, nth_error infos k = Some (n, id) -> lookup_id a id = find_name n (f_index s) /\ nth_error (a_active a) k = find_name n (f_index s).
Proof.
  intros NE L32 ND L64 HF. unfold getAccessor.
  assert (exists idx, mapM (fun x : string * nat => find_name (fst x) (f_index s)) infos = Some idx) as [idx Ei].
  { clear -HF. induction infos as [|x infos IH]; [exists []; reflexivity|]. cbn [mapM]. destruct (find_name (fst x) (f_index s)) as [i|] eqn:E; [|destruct (HF x (or_introl eq_refl) E)].
    destruct IH as [l ->]; [intros; apply HF; right; assumption|]. eexists. reflexivity. }
  destruct infos as [|x0 infos0] eqn:EI; [contradiction|]. rewrite <- EI in *. clear EI.
  rewrite Ei. replace (length infos <=? max_field_count)%nat with true by (symmetry; apply Nat.leb_le; exact L32).
  replace (forallb (fun x : string * nat => (snd x <? max_index_count)%nat) infos) with true by (symmetry; apply forallb_forall; intros x Hx; apply Nat.ltb_lt, L64, Hx).
  cbn [andb]. eexists. split; [reflexivity|]. intros k n id Hk. cbn [a_active]. unfold lookup_id. cbn [a_ivar].
  assert (F : Forall2 (fun (x : string * nat) i => find_name (fst x) (f_index s) = Some i) infos idx).
  { clear -Ei. revert idx Ei. induction infos as [|x infos IH]; intros idx Ei; cbn [mapM] in Ei; [injection Ei as <-; constructor|].
    destruct (find_name (fst x) (f_index s)) as [i|] eqn:E; [|discriminate]. destruct (mapM _ infos) as [l|]; [|discriminate]. injection Ei as <-. constructor; auto. }
  apply Forall2_nth in F. destruct F as [FL F].
  destruct (nth_error idx k) as [i|] eqn:Ek.
  2:{ exfalso. apply nth_error_None in Ek. assert (nth_error infos k <> None) by congruence. apply nth_error_Some in H. lia. }
  pose proof (F k (n, id) i Hk Ek) as Fi. cbn [fst] in Fi. rewrite Fi. split; [|exact Ek || reflexivity].
  assert (IN : In (id, i) (combine (map snd infos) idx)).
  { apply (nth_error_In _ k). apply nth_error_combine. split; [rewrite nth_error_map, Hk; reflexivity|exact Ek]. }
  destruct (find (fun p : nat * nat => Nat.eqb (fst p) id) (rev (combine (map snd infos) idx))) as [[id' i']|] eqn:Ef.
  - apply find_some in Ef. destruct Ef as [Ef1 Ef2]. cbn [fst] in Ef2. apply Nat.eqb_eq in Ef2. subst id'. apply <- in_rev in Ef1. cbn [snd]. f_equal.
    apply In_nth_error in Ef1. destruct Ef1 as [k' Hk']. apply nth_error_combine in Hk'. destruct Hk' as [A B].
    assert (k' = k); [|subst; congruence]. apply (proj1 (NoDup_nth_error (map snd infos)) ND); [apply nth_error_Some; congruence|]. rewrite A, nth_error_map, Hk. reflexivity.
  - exfalso. pose proof (find_none _ _ Ef (id, i) (proj1 (in_rev _ _) IN)) as K. cbn [fst] in K. rewrite Nat.eqb_refl in K. discriminate.
Qed.
Example C60_accessor_example :
  exists s : @fields Z, apply_ops 0 2 2 1 no_fields ex_ops = Some s /\
    (forall x, In x [("w", 5%nat); ("rho", 0%nat)] -> find_name (fst x) (f_index s) <> None) /\
    option_map (fun a => (lookup_id a 0, lookup_id a 5, a_active a)) (getAccessor [("w", 5%nat); ("rho", 0%nat)] s) = Some (Some 2%nat, Some 1%nat, [1%nat; 2%nat]).
Proof. eexists. split; [vm_compute; reflexivity|]. split; [intros x [<-|[<-|[]]]; vm_compute; discriminate|vm_compute; reflexivity]. Qed.
(** A request with a duplicate identifier is not rejected (the message of the assertion says
    it should be): the first field cannot be reached. *)
Theorem C60_refuted :
  ~ (forall (X : Type) (s : @fields X) infos, ~ NoDup (map snd infos) -> getAccessor infos s = None).
Proof.
  intros H. specialize (H Z (mkFields (mkView 2 [[[0]; [1]]] []) [("a", 0%nat); ("b", 1%nat)] 2) [("a", 3%nat); ("b", 3%nat)]).
  assert (ND : ~ NoDup (map snd [("a", 3%nat); ("b", 3%nat)])) by (intros N; inversion N as [|? ? K _]; apply K; left; reflexivity).
  specialize (H ND). vm_compute in H. discriminate.
Qed.

(** ** C58: particle attributes *)
Section Attributes.
Context {X : Type}.
Variable zero : X.
(** Number of particles. *)
Variable np : nat.
Definition apply_attr_op (p : @container X) (o : field_op X) : option (@container X) :=
  match o with
  | New [n] => new_attribute zero n p
  | New _ => None
  | Rename dest src => move_attribute dest src p
  | Delete n => Some (delete_attribute n p)
  | Write n _ _ k x => write_attribute n k x p
  end.
Fixpoint apply_attr_ops (p : @container X) (ops : list (field_op X)) : option (@container X) :=
  match ops with [] => Some p | o :: ops => match apply_attr_op p o with Some p => apply_attr_ops p ops | None => None end end.
(** Calls of the attribute API: one name at a time, one value per particle (block 0). *)
Definition attr_op (o : field_op X) : Prop :=
  match o with New names => length names = 1%nat | Write _ g b _ _ => g = false /\ b = 0%nat | _ => True end.
Definition deletes (o : field_op X) : Prop := match o with Delete _ | Rename _ _ => True | _ => False end.

(** Seen as fields: one octant whose cells are the particles. *)
Definition embed (p : @container X) : @fields X := mkFields (mkView (length (c_cols p)) [c_cols p] []) (c_attr p) (length (c_cols p)).
Definition attr_inv (p : @container X) : Prop := c_size p = np /\ fields_inv 1 0 (embed p).
Notation zs := (zeros zero np 1 0).

Lemma attr_new_sound p m n : attr_inv p -> stands_for (embed p) m ->
  match new_attribute zero n p with
  | Some p' => exists m', step zs 64 m (New [n]) = Some m' /\ attr_inv p' /\ stands_for (embed p') m' /\ length (c_cols p') = S (length (c_attr p))
  | None => step zs 64 m (New [n]) = None \/ length (c_cols p) <> length (c_attr p)
  end.
Proof.
  intros [SZ I] S. unfold new_attribute. pose proof (stands_length 1 0 _ _ I S) as LM. cbn [embed f_index] in LM.
  cbn [step forallb length]. rewrite andb_true_r. rewrite LM.
  destruct (Nat.ltb_spec max_index_count (Datatypes.S (length (c_attr p)))) as [GT|LE].
  { left. replace (length (c_attr p) + 1 <=? 64)%nat with false by (symmetry; apply Nat.leb_gt; unfold max_index_count in GT; lia). rewrite andb_false_r. reflexivity. }
  replace (length (c_attr p) + 1 <=? 64)%nat with true by (symmetry; apply Nat.leb_le; unfold max_index_count in LE; lia). rewrite andb_true_r.
  set (Q := match (if Nat.eqb (length (c_attr p)) 0 then _ else _) with Some _ => _ | None => _ end).
  (* the enlarged columns *)
  assert (EXT : forall cols, (if Nat.eqb (length (c_attr p)) 0 then Some (repeat (repeat zero (c_size p)) (Datatypes.S (length (c_attr p))))
                              else if Nat.eqb (length (c_cols p)) (length (c_attr p)) then Some (c_cols p ++ repeat (repeat zero (c_size p)) 1) else None) = Some cols ->
            length cols = Datatypes.S (length (c_attr p)) /\ fields_inv 1 0 (embed (mkContainer (c_size p) cols (c_attr p))) /\ stands_for (embed (mkContainer (c_size p) cols (c_attr p))) m).
  { intros cols E. destruct (Nat.eqb_spec (length (c_attr p)) 0) as [E0|N0].
    - injection E as <-. split; [rewrite E0; reflexivity|]. rewrite E0. destruct (c_attr p) as [|? ?] eqn:EA; [|discriminate]. split.
      + constructor; cbn; try tauto; [constructor|intros r [<-|[]]; reflexivity|unfold max_index_count; lia].
      + constructor; [exact (s_keys _ _ S)| |intros ? ? []]. intros k. pose proof (s_names _ _ S k) as K. unfold embed in *. cbn [f_index c_attr] in *. rewrite EA in K. exact K.
    - destruct (Nat.eqb_spec (length (c_cols p)) (length (c_attr p))) as [EL|]; [|discriminate]. injection E as <-. split; [rewrite app_length, EL; cbn; lia|]. split.
      + constructor; unfold embed in *; cbn [f_view f_index f_max v_n v_U v_G c_cols c_attr].
        * exact (i_sorted _ _ _ I).
        * intros k i H. pose proof (i_slots _ _ _ I k i H). cbn in H0. rewrite app_length. lia.
        * exact (i_inj _ _ _ I).
        * intros r [<-|[]]. reflexivity.
        * auto.
        * rewrite app_length. cbn [length repeat]. unfold max_index_count in *. lia.
      + constructor; unfold embed in *; cbn [f_view f_index f_max v_n v_U v_G c_cols c_attr]; [exact (s_keys _ _ S)|exact (s_names _ _ S)|].
        intros k i H. rewrite (s_cols _ _ S k i H). unfold column. cbn [f_view v_U v_G map]. pose proof (i_slots _ _ _ I k i H) as SL. cbn in SL. rewrite app_nth1 by exact SL. reflexivity. }
  subst Q. destruct (if Nat.eqb (length (c_attr p)) 0 then _ else _) as [cols|] eqn:EC.
  2:{ right. destruct (Nat.eqb_spec (length (c_attr p)) 0) as [E0|N0]; [discriminate|]. destruct (Nat.eqb_spec (length (c_cols p)) (length (c_attr p))); [discriminate|assumption]. }
  destruct (EXT cols eq_refl) as (LC & I1 & S1). clear EXT EC.
  pose proof (stands_find 1 0 _ _ n I S) as F. cbn [embed f_index] in F. destruct (find_name n (c_attr p)) as [j|] eqn:Ej.
  { left. rewrite F. reflexivity. }
  rewrite F. set (p1 := mkContainer (c_size p) cols (c_attr p)) in *.
  destruct (new_field_ok zero np 1 0 (embed p1) m n I1 S1 F) as (s' & E' & I' & S' & V' & L').
  { cbn [embed p1 f_index f_view v_n c_attr c_cols]. lia. }
  unfold new_field in E'. cbn [embed p1 f_index f_view f_max v_n v_U v_G c_attr c_cols map] in E'. rewrite Ej in E'. rewrite LC in E'.
  destruct (first_free (Datatypes.S (length (c_attr p))) (c_attr p)) as [i|] eqn:Ei; [|discriminate]. injection E' as <-.
  eexists. split; [reflexivity|]. rewrite SZ in *. unfold zero_block in *.
  assert (EQ : embed (mkContainer np (upd_nth i (fun _ => repeat zero np) cols) (set_name n i (c_attr p))) =
          mkFields (mkView (Datatypes.S (length (c_attr p))) [upd_nth i (fun _ => repeat zero np) cols] []) (set_name n i (c_attr p)) (Datatypes.S (length (c_attr p)))).
  { unfold embed. cbn [c_cols c_attr]. rewrite upd_nth_length, LC. reflexivity. }
  split; [split; [reflexivity|]; rewrite EQ; exact I'|]. split; [rewrite EQ; exact S'|]. cbn [c_cols]. rewrite upd_nth_length. exact LC.
Qed.
Lemma embed_inv p : c_size p = np -> fields_inv 1 0 (embed p) -> attr_inv p.
Proof. intros H1 H2. split; assumption. Qed.
Lemma attr_step p m o : attr_inv p -> stands_for (embed p) m -> attr_op o -> ~ renames_self o ->
  match apply_attr_op p o with
  | Some p' => exists m', step zs 64 m o = Some m' /\ attr_inv p' /\ stands_for (embed p') m' /\
                 (~ deletes o -> length (c_cols p) = length (c_attr p) -> length (c_cols p') = length (c_attr p'))
  | None => step zs 64 m o = None \/ length (c_cols p) <> length (c_attr p)
  end.
Proof.
  intros AI S AO NR. pose proof AI as [SZ I]. destruct o as [names|dest src|n|n gh b k x]; cbn [apply_attr_op].
  - cbn in AO. destruct names as [|n [|? ?]]; try discriminate. pose proof (attr_new_sound p m n AI S) as H. destruct (new_attribute zero n p) as [p'|]; [|exact H].
    destruct H as (m' & H1 & H2 & H3 & H4). exists m'. split; [exact H1|]. split; [exact H2|]. split; [exact H3|]. intros _ _. rewrite H4.
    pose proof (stands_length 1 0 _ _ I S) as L1. pose proof (stands_length 1 0 _ _ (proj2 H2) H3) as L2. cbn [embed f_index] in L1, L2. rewrite <- L1, <- L2.
    cbn [step forallb] in H1. destruct (_ && _); [|discriminate]. injection H1 as <-. reflexivity.
  - pose proof (move_ok zero np 1 0 (embed p) m dest src I S NR) as H. unfold move_field, move_attribute in *. cbn [embed f_index f_view f_max] in H.
    unfold zeros. unfold zeros, fresh, zero_block, max_index_count in *.
    destruct (find_name src (c_attr p)) as [i|] eqn:E.
    + destruct (step _ 64 m (Rename dest src)) as [m'|]; [|discriminate]. destruct H as (s' & E1 & I1 & S1). injection E1 as <-. exists m'. split; [reflexivity|].
      split; [split; [exact SZ|exact I1]|]. split; [exact S1|]. cbn [deletes]. tauto.
    + destruct (step _ 64 m (Rename dest src)) as [m'|]; [|auto]. destruct H as (s' & E1 & _). discriminate.
  - destruct (delete_ok 1 0 (embed p) m n I S) as [I1 S1]. cbn [step]. eexists. split; [reflexivity|]. split; [split; [exact SZ|exact I1]|]. split; [exact S1|]. cbn [deletes]. tauto.
  - destruct AO as [-> ->]. pose proof (write_ok zero np 1 0 (embed p) m n false 0 k x I S) as H.
    unfold write_attribute, read_attribute, write_field, write_at, read_at in *. rewrite access_one in H. cbn [embed f_index f_view f_max v_n v_U v_G] in H.
    unfold zeros. unfold zeros, fresh, zero_block, max_index_count in *. destruct (find_name n (c_attr p)) as [i|] eqn:E.
    + cbn [lookup_id a_ivar find fst snd Nat.eqb nth_error] in H.
      destruct (nth_error (c_cols p) i) as [col|] eqn:Ei.
      2:{ destruct (step _ 64 m (Write n false 0 k x)); [destruct H as (s' & E1 & _); discriminate|auto]. }
      destruct (nth_error col k) as [v|] eqn:Ek.
      2:{ destruct (step _ 64 m (Write n false 0 k x)); [destruct H as (s' & E1 & _); discriminate|auto]. }
      destruct (step _ 64 m (Write n false 0 k x)) as [m'|]; [|discriminate]. destruct H as (s' & E1 & I1 & S1). injection E1 as <-. exists m'. split; [reflexivity|].
      cbn [upd_nth] in I1, S1.
      assert (EQ : embed (mkContainer (c_size p) (upd_nth i (upd_nth k (fun _ => x)) (c_cols p)) (c_attr p)) =
                   mkFields (mkView (length (c_cols p)) [upd_nth i (upd_nth k (fun _ => x)) (c_cols p)] []) (c_attr p) (length (c_cols p))).
      { unfold embed. cbn [c_cols c_attr]. rewrite upd_nth_length. reflexivity. }
      split; [split; [exact SZ|rewrite EQ; exact I1]|]. split; [rewrite EQ; exact S1|]. cbn [c_cols c_attr]. rewrite upd_nth_length. auto.
    + destruct (step _ 64 m (Write n false 0 k x)); [destruct H as (s' & E1 & _); discriminate|auto].
Qed.
Lemma attr_run : forall ops p m, attr_inv p -> stands_for (embed p) m -> (forall o, In o ops -> attr_op o /\ ~ renames_self o) ->
  match apply_attr_ops p ops with
  | Some p' => exists m', run zs 64 m ops = Some m' /\ attr_inv p' /\ stands_for (embed p') m'
  | None => (forall o, In o ops -> ~ deletes o) -> length (c_cols p) = length (c_attr p) -> run zs 64 m ops = None
  end.
Proof.
  induction ops as [|o ops IH]; intros p m I S H; cbn [apply_attr_ops run].
  - exists m. auto.
  - destruct (H o (or_introl eq_refl)) as [H1 H2]. pose proof (attr_step p m o I S H1 H2) as ST. destruct (apply_attr_op p o) as [p1|].
    + destruct ST as (m1 & -> & I1 & S1 & L1). specialize (IH p1 m1 I1 S1 (fun o Ho => H o (or_intror Ho))).
      destruct (apply_attr_ops p1 ops) as [p2|]; [exact IH|]. intros ND LC. apply IH; [intros; apply ND; right; assumption|]. apply L1; [apply ND; left; reflexivity|exact LC].
    + intros ND LC. destruct ST as [->|NE]; [reflexivity|contradiction].
Qed.
Lemma new_container_inv : attr_inv (new_container np) /\ stands_for (embed (new_container np)) [].
Proof.
  split; [split; [reflexivity|]|].
  - constructor; cbn; try tauto; [constructor|intros r [<-|[]]; reflexivity|lia].
  - constructor; cbn; try tauto. constructor.
Qed.
(** Histories without a rename to the same name: if no call fails, every attribute reads as
    its independent array; if no attribute was deleted or renamed, calls fail only when the
    dictionary says so.
    Missing: creation after a deletion (C58_refuted), rename to the same name. *)
Theorem C58_attributes_partial ops : (forall o, In o ops -> attr_op o /\ ~ renames_self o) ->
  (forall p, apply_attr_ops (new_container np) ops = Some p ->
     exists m, run zs 64 [] ops = Some m /\
       forall n k, read_attribute n k p = match lookup n m with Some a => value a false 0 k | None => None end) /\
  ((forall o, In o ops -> ~ deletes o) -> run zs 64 [] ops <> None -> apply_attr_ops (new_container np) ops <> None).
Proof.
  intros H. destruct new_container_inv as [I0 S0]. pose proof (attr_run ops _ _ I0 S0 H) as R. split.
  - intros p E. rewrite E in R. destruct R as (m & E1 & I & S). exists m. split; [exact E1|]. intros n k.
    pose proof (read_ok 1 0 (embed p) m n false 0 k (proj2 I) S) as RD. rewrite <- RD. unfold read_field, read_attribute. rewrite access_one. cbn [embed f_index].
    destruct (find_name n (c_attr p)) as [i|]; [|reflexivity]. reflexivity.
  - intros ND NR E. rewrite E in R. apply NR, R; [exact ND|reflexivity].
Qed.
End Attributes.
Example C58_attributes_example :
  exists p, apply_attr_ops 0 (new_container 2) [New ["m"]; Write "m" false 0 1 4; New ["a"]; Write "a" false 0 0 6; Rename "b" "m"] = Some p /\
    read_attribute "b" 1 p = Some 4 /\ read_attribute "a" 0 p = Some 6 /\ read_attribute "m" 1 p = None.
Proof. eexists. split; [vm_compute; reflexivity|]. repeat split. Qed.
(** The full property fails: with two attributes, deleting one and creating another throws. *)
Theorem C58_refuted :
  ~ (forall (X : Type) (zero : X) np ops, (forall o, In o ops -> attr_op o /\ ~ renames_self o) ->
     run (zeros zero np 1 0) 64 [] ops <> None -> apply_attr_ops zero (new_container np) ops <> None).
Proof.
  intros H. apply (H Z 0 1%nat [New ["a"]; New ["b"]; Delete "a"; New ["c"]]).
  - intros o Ho. repeat (destruct Ho as [<-|Ho]; [cbn; tauto|]). destruct Ho.
  - vm_compute. discriminate.
  - vm_compute. reflexivity.
Qed.

Print Assumptions C29_histories_partial.
Print Assumptions C29_refuted.
Print Assumptions C58_attributes_partial.
Print Assumptions C58_refuted.
Print Assumptions C59_new_fields_partial.
Print Assumptions C59_refuted.
Print Assumptions C60_accessor_partial.
Print Assumptions C60_refuted.
