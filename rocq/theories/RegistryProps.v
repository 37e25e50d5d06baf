(** C46: factories and named enumerations. C65: a default value reads back as itself. *)
From Coq Require Import String Ascii Sorted.
From Verif Require Import Base OctreeModel ConfigModel ConfigSpec ConfigProofs ConfigProps ConfigOutput RegistryModel.
Open Scope Z_scope.

(** * C46: the factory *)
(** First class registered under an id. *)
Fixpoint first_registered {A} (id : str) (h : list (str * A)) : option A :=
  match h with [] => None | (i, a) :: h => if str_eqb i id then Some a else first_registered id h end.
Lemma register_get {A} (m : list (str * A)) id a i : i <> none_id ->
  mget i (fst (register_class m id a)) = match mget i m with Some x => Some x | None => if str_eqb id i then Some a else None end.
Proof.
  intros N. unfold register_class. destruct (str_eqb id none_id) eqn:E; cbn [fst].
  - apply str_eqb_eq in E. subst. replace (str_eqb none_id i) with false; [destruct (mget i m); reflexivity|]. symmetry. apply str_eqb_neq. auto.
  - destruct (mget id m) as [x|] eqn:M; cbn [fst].
    + destruct (str_eqb id i) eqn:E'; [apply str_eqb_eq in E'; subst; rewrite M; reflexivity|destruct (mget i m); reflexivity].
    + rewrite mget_mset, str_eqb_sym. destruct (str_eqb id i) eqn:E'; [apply str_eqb_eq in E'; subst; rewrite M; reflexivity|destruct (mget i m); reflexivity].
Qed.
Lemma register_sorted {A} (m : list (str * A)) id a : sorted m -> sorted (fst (register_class m id a)).
Proof. intros S. unfold register_class. destruct (str_eqb id none_id); [exact S|]. destruct (mget id m); [exact S|]. apply mset_sorted, S. Qed.
Lemma register_none {A} (m : list (str * A)) id a : mget none_id m = None -> mget none_id (fst (register_class m id a)) = None.
Proof.
  intros N. unfold register_class. destruct (str_eqb id none_id) eqn:E; [exact N|]. destruct (mget id m); [exact N|]. cbn [fst]. rewrite mget_mset, str_eqb_sym, E. exact N.
Qed.
Lemma register_all_spec {A} (h : list (str * A)) : forall m, sorted m -> mget none_id m = None ->
  sorted (fst (register_all m h)) /\ mget none_id (fst (register_all m h)) = None /\
  (forall i, i <> none_id -> mget i (fst (register_all m h)) = match mget i m with Some x => Some x | None => first_registered i h end) /\
  (forall k i a, nth_error h k = Some (i, a) ->
     nth_error (snd (register_all m h)) k = Some (negb (str_eqb i none_id) && match mget i m with Some _ => false | None => match first_registered i (firstn k h) with Some _ => false | None => true end end)).
Proof.
  induction h as [|[id a] h IH]; intros m S N; cbn [register_all fst snd first_registered].
  { split; [exact S|]. split; [exact N|]. split; [intros i _; destruct (mget i m); reflexivity|]. intros [|k] i a E; discriminate. }
  destruct (register_class m id a) as [m' r] eqn:R. specialize (IH m').
  pose proof (register_sorted m id a S) as S'. pose proof (register_none m id a N) as N'. pose proof (fun i => register_get m id a i) as G. rewrite R in S', N', G. cbn [fst] in S', N', G.
  destruct (IH S' N') as (A1 & A2 & A3 & A4). destruct (register_all m' h) as [m2 rs] eqn:R2. cbn [fst snd] in *. split; [exact A1|]. split; [exact A2|]. split.
  - intros i NI. rewrite (A3 i NI), (G i NI). destruct (mget i m); [reflexivity|]. cbn [first_registered]. destruct (str_eqb id i); reflexivity.
  - intros [|k] i a' E; cbn [nth_error firstn first_registered] in *.
    + injection E as <- <-. f_equal. unfold register_class in R. destruct (str_eqb id none_id); [injection R as _ <-; reflexivity|]. destruct (mget id m); injection R as _ <-; reflexivity.
    + rewrite (A4 k i a' E). f_equal. destruct (str_eqb i none_id) eqn:EN; [reflexivity|]. cbn [negb andb]. apply str_eqb_neq in EN. rewrite (G i EN). destruct (mget i m); [reflexivity|]. destruct (str_eqb id i); reflexivity.
Qed.
(** Any history of registrations. *)
Theorem C46_factory {A} (h : list (str * A)) m rs : register_all [] h = (m, rs) ->
  make_instance m (of_string "none") = Nothing /\
  (forall id, id <> of_string "none" -> make_instance m id = match first_registered id h with Some a => Built a | None => Unknown end) /\
  (forall k id a, nth_error h k = Some (id, a) ->
     nth_error rs k = Some true <-> id <> of_string "none" /\ first_registered id (firstn k h) = None) /\
  (forall id, In id (available_ids m) <-> id <> of_string "none" /\ exists a, In (id, a) h) /\ NoDup (available_ids m).
Proof.
  intros E. destruct (register_all_spec h [] ltac:(constructor) eq_refl) as (S & N & G & R). rewrite E in S, N, G, R. cbn [fst snd mget] in *. fold none_id. split; [reflexivity|]. split; [|split; [|split]].
  - intros id NE. unfold make_instance. replace (str_eqb id none_id) with false by (symmetry; apply str_eqb_neq, NE). rewrite (G id NE). reflexivity.
  - intros k id a EK. rewrite (R k id a EK). destruct (str_eqb id none_id) eqn:EN; cbn [negb andb].
    + apply str_eqb_eq in EN. split; [discriminate|]. intros (X & _). contradiction.
    + apply str_eqb_neq in EN. destruct (first_registered id (firstn k h)); split; try discriminate; auto. intros (_ & X). discriminate.
  - intros id. assert (FI : (exists a, In (id, a) h) <-> exists a, first_registered id h = Some a).
    { clear. induction h as [|[i a] h IH]; cbn [first_registered In].
      - split; intros (a & H); [destruct H|discriminate].
      - destruct (str_eqb i id) eqn:X.
        + apply str_eqb_eq in X. subst. split; intros _; exists a; auto.
        + rewrite <- IH. split; intros (b & H); exists b; [destruct H as [H|H]; [injection H as -> _; rewrite str_eqb_refl in X; discriminate|exact H]|auto]. }
    rewrite FI. unfold available_ids. rewrite in_map_iff. split.
    + intros ([i a] & <- & I). cbn [fst]. pose proof (mget_sorted _ _ _ S I) as M. assert (NE : i <> none_id) by (intros ->; rewrite N in M; discriminate). split; [exact NE|]. rewrite <- (G i NE). eauto.
    + intros (NE & a & H). exists (id, a). split; [reflexivity|]. apply mget_In. rewrite (G id NE). exact H.
  - unfold available_ids. clear -S. induction S as [|[k a] m S IH F]; cbn [map fst]; constructor; [|exact IH]. intros I. apply in_map_iff in I. destruct I as (p & E & I). rewrite Forall_forall in F. specialize (F p I). cbn [fst] in F. rewrite E, slt_irrefl in F. discriminate.
Qed.
Definition ex_history : list (str * Z) := [(of_string "b", 1); (of_string "none", 2); (of_string "a", 3); (of_string "b", 4)].
Example ex_factory : exists m, register_all [] ex_history = (m, [true; false; true; false]) /\ make_instance m (of_string "b") = Built 1 /\
  make_instance m (of_string "c") = Unknown /\ available_ids m = [of_string "a"; of_string "b"].
Proof. eexists. split; [vm_compute; reflexivity|]. repeat split. Qed.

(** * C46: named enumerations. Names that are not numbers and appear once read back. *)
Lemma find_first {X} (f : X -> bool) l x : List.find f l = Some x -> In x l /\ f x = true.
Proof. apply find_some. Qed.
Theorem C46_enum lo hi t v name : NoDup (map snd t) -> (forall p, In p t -> parse_int lo hi (snd p) = None) ->
  to_string t v = Some name -> In (v, name) t /\ conv (enum_codec lo hi t) (show (enum_codec lo hi t) v) = Some v /\ show (enum_codec lo hi t) v = name.
Proof.
  intros ND NN E. unfold to_string in E. destruct (List.find (fun p => fst p =? v) t) as [[v' n']|] eqn:F; [|discriminate]. cbn in E. injection E as ->.
  destruct (find_some _ _ F) as (I & EV). cbn [fst] in EV. apply Z.eqb_eq in EV. subst v'. split; [exact I|].
  cbn [enum_codec conv show]. unfold to_string. rewrite F. cbn [option_map snd]. split; [|reflexivity]. rewrite (NN _ I : parse_int lo hi name = None). unfold from_string.
  destruct (List.find (fun p => str_eqb (snd p) name) t) as [[v' n']|] eqn:G.
  - destruct (find_some _ _ G) as (J & EN). cbn [snd] in EN. apply str_eqb_eq in EN. subst n'. cbn. f_equal. clear -ND I J. induction t as [|p t IH]; [destruct I|]. cbn [map] in ND. inversion ND as [|? ? NI ND']; subst.
    destruct I as [-> |I], J as [J|J]; [congruence| | |apply IH; assumption].
    + exfalso. apply NI. apply in_map_iff. exists (v', name). auto.
    + subst p. exfalso. apply NI. apply in_map_iff. exists (v, name). auto.
  - exfalso. pose proof (find_none _ _ G _ I) as X. cbn in X. rewrite str_eqb_refl in X. discriminate.
Qed.
(** Every named enumerator is printed with a name and reads back: the tables of the code. *)
Definition all_tables := [boundary_table; gravity_table; riemann_table; parabolic_table; diffusivity_table; kappa_table; output_table].
Lemma nodup_check (l : list str) : (fix go l := match l with [] => true | x :: l => negb (existsb (str_eqb x) l) && go l end) l = true -> NoDup l.
Proof.
  induction l as [|x l IH]; [constructor|]. rewrite andb_true_iff, negb_true_iff. intros (A & B). constructor; [|apply IH, B]. intros I. rewrite <- not_true_iff_false in A. apply A. apply existsb_exists. exists x. split; [exact I|apply str_eqb_refl].
Qed.
Lemma tables_ok t : In t all_tables -> NoDup (map snd t) /\ (forall p, In p t -> parse_int 0 (2 ^ 32 - 1) (snd p) = None) /\
  forall p, In p t -> to_string t (fst p) = Some (snd p).
Proof.
  intros I. repeat (destruct I as [<-|I]; [split; [apply nodup_check; vm_compute; reflexivity|]; split; intros p J; cbn [In] in J; repeat (destruct J as [<-|J]; [vm_compute; reflexivity|]); destruct J|]). destruct I.
Qed.
Theorem C46_enum_tables t v name : In t all_tables -> In (v, name) t ->
  show (enum_codec 0 (2 ^ 32 - 1) t) v = name /\ conv (enum_codec 0 (2 ^ 32 - 1) t) name = Some v.
Proof.
  intros HT HI. destruct (tables_ok t HT) as (ND & NN & TS). destruct (C46_enum _ _ t v name ND NN (TS _ HI)) as (_ & C & S). rewrite S in C. auto.
Qed.
(** Unknown names are rejected, but any number is accepted, enumerator or not. *)
Theorem C46_enum_unknown lo hi t s : parse_int lo hi s = None -> ~ In s (map snd t) -> conv (enum_codec lo hi t) s = None.
Proof.
  intros P N. cbn [enum_codec conv]. rewrite P. unfold from_string. destruct (List.find _ t) as [p|] eqn:F; [|reflexivity]. exfalso. destruct (find_some _ _ F) as (I & E). apply str_eqb_eq in E. apply N. apply in_map_iff. eauto.
Qed.
Theorem C46_refuted_enum_number : ~ (forall t s v, In t all_tables -> conv (enum_codec 0 (2 ^ 32 - 1) t) s = Some v -> exists name, In (v, name) t).
Proof.
  intros H. destruct (H boundary_table (of_string "17") 17) as (n & I); [left; reflexivity|vm_compute; reflexivity|]. repeat (destruct I as [I|I]; [discriminate|]). destruct I.
Qed.

(** * C65: integers *)
Lemma code_chr z : 0 <= z < 256 -> code (chr z) = z.
Proof.
  intros H. unfold code, chr. rewrite N_ascii_embedding; [apply Z2N.id; lia|]. apply N2Z.inj_lt. rewrite Z2N.id by lia. cbn. lia.
Qed.
Lemma digit_chr d : 0 <= d < 10 -> is_digit (chr (48 + d)) = true /\ code (chr (48 + d)) - 48 = d /\ isspace (chr (48 + d)) = false /\ Ascii.eqb (chr (48 + d)) "-" = false /\ Ascii.eqb (chr (48 + d)) "+" = false.
Proof.
  intros H. assert (C : d = 0 \/ d = 1 \/ d = 2 \/ d = 3 \/ d = 4 \/ d = 5 \/ d = 6 \/ d = 7 \/ d = 8 \/ d = 9) by lia.
  repeat (destruct C as [-> |C]; [vm_compute; auto|]). subst. vm_compute. auto.
Qed.
Lemma digits_value_app a b acc : fold_left (fun a c => 10 * a + (code c - 48)) (a ++ b) acc = fold_left (fun a c => 10 * a + (code c - 48)) b (fold_left (fun a c => 10 * a + (code c - 48)) a acc).
Proof. apply fold_left_app. Qed.
Lemma show_digits_spec fuel : forall z, 0 <= z < 2 ^ Z.of_nat fuel -> (1 <= fuel)%nat ->
  digits_value (show_digits fuel z) = z /\ forallb is_digit (show_digits fuel z) = true /\
  exists d t, show_digits fuel z = chr (48 + d) :: t /\ 0 <= d < 10.
Proof.
  induction fuel as [|fuel IH]; intros z Hz F; [lia|]. cbn [show_digits]. destruct (z <? 10) eqn:L.
  - apply Z.ltb_lt in L. destruct (digit_chr z) as (A & B & _); [lia|]. unfold digits_value. cbn [fold_left forallb]. rewrite A, B. repeat split; try lia. exists z, []. split; [reflexivity|lia].
  - apply Z.ltb_ge in L. rewrite Nat2Z.inj_succ, Z.pow_succ_r in Hz by lia. assert (F' : (1 <= fuel)%nat). { destruct fuel; [cbn in Hz; lia|lia]. }
    assert (HD : 0 <= z / 10 < 2 ^ Z.of_nat fuel) by (split; [apply Z.div_pos; lia|apply Z.div_lt_upper_bound; lia]).
    destruct (IH (z / 10) HD F') as (A & B & d & t & C & D). pose proof (Z.mod_pos_bound z 10 ltac:(lia)) as M. destruct (digit_chr (z mod 10) M) as (X & Y & _). split; [|split].
    + unfold digits_value in *. rewrite digits_value_app, A. cbn [fold_left]. rewrite Y. pose proof (Z.div_mod z 10 ltac:(lia)). lia.
    + rewrite forallb_app, B. cbn [forallb andb]. rewrite X. reflexivity.
    + rewrite C. cbn [app]. eauto.
Qed.
Lemma log2_fuel z : 0 <= z -> 0 <= z < 2 ^ Z.of_nat (S (Z.to_nat (Z.log2 z))).
Proof.
  intros H. split; [exact H|]. rewrite Nat2Z.inj_succ, Z2Nat.id by apply Z.log2_nonneg. destruct (Z.eq_dec z 0) as [-> |N]; [cbn; lia|]. apply Z.log2_spec. lia.
Qed.
Theorem C65_int lo hi z : lo <= z <= hi -> conv (int_codec lo hi) (show (int_codec lo hi) z) = Some z.
Proof.
  intros H. cbn [int_codec conv show]. unfold show_int. destruct (z <? 0) eqn:L.
  - apply Z.ltb_lt in L. destruct (show_digits_spec _ (- z) (log2_fuel (- z) ltac:(lia)) ltac:(lia)) as (A & B & d & t & C & D). unfold parse_int. cbn [lskip]. change (isspace "-") with false. cbn iota. rewrite Ascii.eqb_refl, B, A.
    rewrite C. cbn [str_eqb negb andb]. replace (lo <=? - - z) with true by (symmetry; apply Z.leb_le; lia). replace (- - z <=? hi) with true by (symmetry; apply Z.leb_le; lia). cbn. f_equal. lia.
  - apply Z.ltb_ge in L. destruct (show_digits_spec _ z (log2_fuel z L) ltac:(lia)) as (A & B & d & t & C & D). destruct (digit_chr d D) as (_ & _ & SP & EM & EP). unfold parse_int.
    set (s := show_digits _ z) in *. assert (LS : lskip s = s) by (rewrite C; cbn [lskip]; rewrite SP; reflexivity). rewrite LS. rewrite C at 1. rewrite EM, EP, B, A. rewrite C. cbn [str_eqb negb andb].
    replace (lo <=? z) with true by (symmetry; apply Z.leb_le; lia). replace (z <=? hi) with true by (symmetry; apply Z.leb_le; lia). reflexivity.
Qed.

(** * C65: vectors. The texts of the elements have no comma, the last one is not empty. *)
Lemma tokens_run a : forall acc s, ~ In ","%char a -> tokens acc (a ++ s) = tokens (acc ++ a) s.
Proof.
  induction a as [|c a IH]; intros acc s N; [rewrite app_nil_r; reflexivity|]. cbn [app tokens]. destruct (Ascii.eqb c ",") eqn:E; [apply Ascii.eqb_eq in E; subst; exfalso; apply N; left; reflexivity|].
  rewrite IH by (intros I; apply N; right; exact I). rewrite <- app_assoc. reflexivity.
Qed.
Lemma show_vector_cons {T} (C : codec T) x y l : show (vector_codec C) (x :: y :: l) = show C x ++ ","%char :: show (vector_codec C) (y :: l).
Proof.
  cbn [vector_codec show map concat]. set (r := concat (map (fun v => show C v ++ [","%char]) l)). assert (N : (show C y ++ [","%char]) ++ r <> []) by (destruct (show C y); discriminate).
  rewrite removelast_app by exact N. rewrite <- app_assoc. reflexivity.
Qed.
Lemma show_vector_one {T} (C : codec T) x : show (vector_codec C) [x] = show C x.
Proof. cbn [vector_codec show map concat]. rewrite app_nil_r. apply removelast_last. Qed.
Lemma tokens_vector {T} (C : codec T) l : (forall x, In x l -> ~ In ","%char (show C x)) -> (forall x l', l = l' ++ [x] -> show C x <> []) ->
  tokens [] (show (vector_codec C) l) = map (show C) l.
Proof.
  induction l as [|x l IH]; intros N L; [reflexivity|]. destruct l as [|y l].
  - rewrite show_vector_one. rewrite <- (app_nil_r (show C x)), tokens_run by (apply N; left; reflexivity). cbn [app tokens map]. destruct (show C x) eqn:E; [exfalso; apply (L x [] eq_refl E)|reflexivity].
  - rewrite show_vector_cons, tokens_run by (apply N; left; reflexivity). cbn [app tokens]. rewrite Ascii.eqb_refl. rewrite IH; [reflexivity|intros z I; apply N; right; exact I|]. intros z l' E. apply (L z (x :: l')). rewrite E. reflexivity.
Qed.
Lemma mapM_conv {T} (C : codec T) l : (forall x, In x l -> conv C (show C x) = Some x) -> mapM (conv C) (map (show C) l) = Some l.
Proof. induction l as [|x l IH]; intros H; [reflexivity|]. cbn [map mapM]. rewrite (H x (or_introl eq_refl)), IH by (intros y I; apply H; right; exact I). reflexivity. Qed.
Theorem C65_vector {T} (C : codec T) l : (forall x, In x l -> conv C (show C x) = Some x /\ ~ In ","%char (show C x)) -> (forall x l', l = l' ++ [x] -> show C x <> []) ->
  conv (vector_codec C) (show (vector_codec C) l) = Some l.
Proof.
  intros H L. change (conv (vector_codec C) (show (vector_codec C) l)) with (mapM (conv C) (tokens [] (show (vector_codec C) l))). rewrite tokens_vector; [apply mapM_conv|..]; [intros x I; apply H, I|intros x I; apply H, I|exact L].
Qed.
Lemma show_int_chars z c : In c (show_int z) -> c = "-"%char \/ is_digit c = true.
Proof.
  unfold show_int. destruct (z <? 0) eqn:L; [intros [<-|I]; [auto|]|intros I]; right.
  - apply Z.ltb_lt in L. destruct (show_digits_spec _ (- z) (log2_fuel (- z) ltac:(lia)) ltac:(lia)) as (_ & B & _). rewrite forallb_forall in B. apply B, I.
  - apply Z.ltb_ge in L. destruct (show_digits_spec _ z (log2_fuel z L) ltac:(lia)) as (_ & B & _). rewrite forallb_forall in B. apply B, I.
Qed.
Theorem C65_int_vector lo hi l : (forall z, In z l -> lo <= z <= hi) -> conv (vector_codec (int_codec lo hi)) (show (vector_codec (int_codec lo hi)) l) = Some l.
Proof.
  intros H. apply C65_vector.
  - intros z I. split; [apply C65_int, H, I|]. intros J. apply show_int_chars in J. destruct J as [J|J]; discriminate.
  - intros z l' _ E. cbn [int_codec show] in E. unfold show_int in E. destruct (z <? 0) eqn:L; [discriminate|]. apply Z.ltb_ge in L. destruct (show_digits_spec _ z (log2_fuel z L) ltac:(lia)) as (_ & _ & d & t & X & _). rewrite X in E. discriminate.
Qed.

(** A default that reads back is what the query of a missing variable returns. *)
Theorem C65_default {T} (C : codec T) s n d vs : conv C (show C d) = Some d -> same C d d = true -> stored s n vs = None ->
  exists vs', getValue_default C s n d vs = Some (d, vs').
Proof.
  intros H E S. unfold getValue_default. rewrite hasValue_stored, S, getValue_spec, get_set, !str_eqb_refl. cbn [andb e_value]. rewrite H. cbn [option_map orb]. rewrite E. eauto.
Qed.
Theorem C65_string_bool s n vs : stored s n vs = None ->
  (forall d, exists vs', getValue_default string_codec s n d vs = Some (d, vs')) /\ (forall d, exists vs', getValue_default bool_codec s n d vs = Some (d, vs')).
Proof. intros S. split; intros d; apply C65_default; try exact S; [reflexivity|apply str_eqb_refl|destruct d; reflexivity|destruct d; reflexivity]. Qed.
(** A vector holding one empty string is not an accepted default. *)
Theorem C65_refuted_vector : ~ (forall s n (d : list str) vs, stored s n vs = None -> exists vs', getValue_default (vector_codec string_codec) s n d vs = Some (d, vs')).
Proof. intros H. destruct (H [] [] [[]] [] eq_refl) as (vs' & E). vm_compute in E. discriminate. Qed.
Example ex_int : show_int (-2050) = of_string "-2050" /\ parse_int (- 2 ^ 31) (2 ^ 31 - 1) (of_string " +17") = Some 17 /\ parse_int 0 5 (of_string "7") = None /\ parse_int 0 5 (of_string "3x") = None.
Proof. vm_compute. auto. Qed.
Example ex_vector : show (vector_codec (int_codec 0 100)) [3; 40; 5] = of_string "3,40,5". Proof. reflexivity. Qed.

Print Assumptions C46_factory.
Print Assumptions C46_enum.
Print Assumptions C46_enum_tables.
Print Assumptions C46_enum_unknown.
Print Assumptions C46_refuted_enum_number.
Print Assumptions C65_int.
Print Assumptions C65_vector.
Print Assumptions C65_int_vector.
Print Assumptions C65_default.
Print Assumptions C65_string_bool.
Print Assumptions C65_refuted_vector.
