(** C34: what a configuration answers. C64: malformed lines are reported. *)
From Coq Require Import String Ascii.
From Verif Require Import Base OctreeModel ConfigModel ConfigSpec ConfigProofs.
Open Scope Z_scope.

Definition ini_s := of_string "ini".
Definition print_s := of_string "print_config".
Lemma bool_default_ok vs s n : stored s n vs = None -> exists vs', getValue_default bool_codec s n false vs = Some (false, vs').
Proof.
  intros E. unfold getValue_default. rewrite hasValue_stored, E. rewrite getValue_spec, get_set, !str_eqb_refl. cbn [andb e_value]. cbn. eauto.
Qed.
Lemma construct_of_parse text vs : parse text = Some vs -> (forall v, stored ini_s print_s vs = Some v -> conv bool_codec v <> None) ->
  exists vs', construct text = Some vs' /\
    forall s n, stored s n vs' = match stored s n vs with Some v => Some v | None => if same_key s n (ini_s, print_s, []) then Some (of_string "false") else None end.
Proof.
  intros E H. unfold construct. rewrite E. fold ini_s print_s. destruct (stored ini_s print_s vs) as [v|] eqn:ES.
  - specialize (H v eq_refl). destruct (conv bool_codec v) as [b|] eqn:EC; [|contradiction].
    assert (G : exists vs', getValue_default bool_codec ini_s print_s false vs = Some (b, vs')).
    { unfold getValue_default. rewrite hasValue_stored, ES. pose proof (getValue_result bool_codec ini_s print_s vs) as R. rewrite ES, EC in R.
      destruct (getValue bool_codec ini_s print_s vs) as [[r vs']|]; [|discriminate]. cbn in R. injection R as ->. exists vs'. reflexivity. }
    destruct G as (vs' & G). rewrite G. exists vs'. split; [reflexivity|]. apply (getValue_default_spec _ _ _ _ _ _ _ G).
  - destruct (bool_default_ok vs _ _ ES) as (vs' & G). rewrite G. exists vs'. split; [reflexivity|]. apply (getValue_default_spec _ _ _ _ _ _ _ G).
Qed.

(** * C34: a file defines exactly the variables it assigns, with the value of the last
    assignment, whatever the case of the names in the file and in the query. Missing from the
    full claim: lines longer than the buffer of the parser, section names longer than 49
    characters (see the refutations). ini/print_config is always defined. *)
Theorem C34_file_partial f last_newline : file_ok [] f -> Forall (fun i => (length (line_of i) <= 199)%nat) f ->
  match f with i :: _ => starts_bom (line_of i) = false | [] => True end ->
  (forall v, last_value ini_s print_s (assignments [] [] f) = Some v -> conv bool_codec v <> None) ->
  exists vs, construct (render f last_newline) = Some vs /\
    (forall s n v, last_value s n (assignments [] [] f) = Some v -> hasValue s n vs = true /\ forall T (C : codec T), option_map fst (getValue C s n vs) = conv C v) /\
    (forall s n, last_value s n (assignments [] [] f) = None -> hasValue s n vs = same_key s n (ini_s, print_s, [])).
Proof.
  intros OK FL NB PC. destruct (parse_file f last_newline OK FL NB) as (vs & E & ST). destruct (construct_of_parse _ vs E) as (vs' & E' & ST'); [intros v; rewrite ST; apply PC|].
  exists vs'. split; [exact E'|]. split.
  - intros s n v L. assert (S1 : stored s n vs' = Some v) by (rewrite ST', ST, L; reflexivity). rewrite hasValue_stored, S1. split; [reflexivity|]. intros T C. rewrite getValue_result, S1. reflexivity.
  - intros s n L. rewrite hasValue_stored, ST', ST, L. destruct (same_key _ _ _); reflexivity.
Qed.

(** The characters of the C library function isspace, used in the shapes of lines. *)
Theorem C34_whitespace c : isspace c = true <-> In c [" "%char; "009"%char; "010"%char; "011"%char; "012"%char; "013"%char].
Proof.
  split.
  - destruct c as [[] [] [] [] [] [] [] []]; vm_compute; intros E; try discriminate E; tauto.
  - intros H. repeat (destruct H as [<-|H]; [reflexivity|]). destruct H.
Qed.

(** * C34: queries. The text held for a variable never changes once set; a variable missing in
    the file takes the default of its first query. *)
Theorem C34_history qs : forall vs vs', run_queries qs vs = Some vs' ->
  forall s n, stored s n vs' = match stored s n vs with Some v => Some v | None => first_default s n qs end.
Proof.
  induction qs as [|q qs IH]; intros vs vs' E s n; cbn [run_queries] in E; [injection E as <-; destruct (stored s n vs); reflexivity|].
  destruct (run_query q vs) as [vs1|] eqn:E1; [|discriminate]. rewrite (IH _ _ E s n). destruct q as [T C s0 n0 [d|]]; cbn [run_query first_default] in *.
  - destruct (getValue_default C s0 n0 d vs) as [[r x]|] eqn:G; [|discriminate]. cbn in E1. injection E1 as ->. destruct (getValue_default_spec _ _ _ _ _ _ _ G) as (_ & H). rewrite H.
    destruct (stored s n vs); [reflexivity|]. destruct (same_key s n (s0, n0, [])); reflexivity.
  - destruct (getValue C s0 n0 vs) as [[r x]|] eqn:G; [|discriminate]. cbn in E1. injection E1 as ->. rewrite (getValue_keeps _ _ _ _ _ _ G). destruct (stored s n vs) eqn:ES; [reflexivity|].
    destruct (same_key s n (s0, n0, [])) eqn:K; [|reflexivity]. apply same_key_iff in K. destruct K as (K1 & K2). exfalso.
    rewrite getValue_spec in G. rewrite stored_low in ES. rewrite K1, K2 in ES. destruct (get_entry (tolower s0) (tolower n0) vs); discriminate.
Qed.
(** The answer of a query with a default: the text if there is one, the default otherwise
    ([same]: the operator== of the type). *)
Theorem C34_default {T} (C : codec T) s n d vs r vs' : (forall x y, same C x y = true -> x = y) -> getValue_default C s n d vs = Some (r, vs') ->
  match stored s n vs with Some v => conv C v = Some r | None => r = d end.
Proof.
  intros SND G. destruct (getValue_default_spec _ _ _ _ _ _ _ G) as (H & _). destruct (stored s n vs); [exact H|]. symmetry. apply SND, H.
Qed.
(** Asking again, after any queries, in any case, with any default, gives the same answer. *)
Theorem C34_repeat {T} (C : codec T) s n d vs r vs1 qs vs2 s' n' : getValue_default C s n d vs = Some (r, vs1) -> run_queries qs vs1 = Some vs2 ->
  fold_case s' = fold_case s -> fold_case n' = fold_case n ->
  option_map fst (getValue C s' n' vs2) = Some r /\ forall d', option_map fst (getValue_default C s' n' d' vs2) = Some r.
Proof.
  intros G R KS KN. destruct (getValue_default_spec _ _ _ _ _ _ _ G) as (H1 & H2).
  assert (S1 : exists v, stored s' n' vs1 = Some v /\ conv C v = Some r).
  { rewrite H2. assert (E : stored s' n' vs = stored s n vs) by (unfold stored; rewrite KS, KN; reflexivity). rewrite E. destruct (stored s n vs) as [v|]; [eauto|].
    assert (K : same_key s' n' (s, n, []) = true) by (apply same_key_iff; rewrite <- !fold_case_eq; auto). rewrite K. exists (show C d). split; [reflexivity|apply H1]. }
  destruct S1 as (v & S1 & CV). pose proof (C34_history qs vs1 vs2 R s' n') as S2. rewrite S1 in S2. split; [rewrite getValue_result, S2; exact CV|].
  intros d'. unfold getValue_default. rewrite hasValue_stored, S2. pose proof (getValue_result C s' n' vs2) as X. rewrite S2, CV in X. destruct (getValue C s' n' vs2) as [[r' x]|]; [|discriminate]. exact X.
Qed.
(** String and boolean defaults are always accepted. *)
Theorem C34_default_defined s n vs : stored s n vs = None ->
  (forall d, exists vs', getValue_default string_codec s n d vs = Some (d, vs')) /\ (forall d, exists vs', getValue_default bool_codec s n d vs = Some (d, vs')).
Proof.
  intros E. split; intros d; unfold getValue_default; rewrite hasValue_stored, E, getValue_spec, get_set, !str_eqb_refl; cbn [andb e_value].
  - cbn. rewrite str_eqb_refl. eauto.
  - destruct d; cbn; eauto.
Qed.

(** * Refutations: a long line is cut and its end read as another line; long section names are cut. *)
Theorem C34_refuted_long : ~ (forall f, file_ok [] f -> match f with i :: _ => starts_bom (line_of i) = false | [] => True end ->
  exists vs, parse (render f true) = Some vs /\ forall s n, stored s n vs = last_value s n (assignments [] [] f)).
Proof.
  set (v := repeat "x"%char 197 ++ of_string " tail"). intros H. destruct (H [Assign (of_string "a") [] "=" [] v []]) as (vs & E & ST).
  - split; [|exact I]. cbn [item_ok]. assert (ONE : forall c, c <> nl -> one_line [c]) by (intros c N [X|[]]; auto).
    split; [repeat split|].
    + apply ONE. discriminate.
    + intros c [<-|[<-|[]]] [X|[]]; discriminate.
    + apply no_comment_scan. reflexivity.
    + intros c t X. injection X as <- _. reflexivity.
    + intros c t X. destruct t as [|? [|]]; try discriminate. injection X as <-. reflexivity.
    + intros c t X. injection X as <- _. intros [Y|[Y|[Y|[]]]]; discriminate.
    + split; [discriminate|]. split; [intros c []|]. split; [left; reflexivity|]. split; [intros c []|]. split.
      { unfold v. repeat split.
        - intros I. apply in_app_iff in I. destruct I as [I|I]; [apply repeat_spec in I; discriminate|]. revert I. apply mem_nIn. reflexivity.
        - apply no_comment_scan. vm_compute. reflexivity.
        - intros c t X. vm_compute in X. injection X as <- _. reflexivity.
        - intros c t X. change (of_string " tail") with (of_string " tai" ++ ["l"%char]) in X. rewrite app_assoc in X. apply app_inj_tail in X. destruct X as (_ & <-). reflexivity. }
      split; [intros X; exfalso; apply X; reflexivity|]. exists [], []. split; [reflexivity|]. split; [intros c []|]. split; [intros []|left; reflexivity].
  - reflexivity.
  - specialize (ST [] (of_string "a")). vm_compute in E. injection E as <-. vm_compute in ST. discriminate.
Qed.
Theorem C34_refuted_section : ~ (forall s, one_line s -> without ["]"%char] s -> no_comment s ->
  exists vs, construct ("["%char :: s ++ ["]"%char; nl] ++ of_string "x=1") = Some vs /\ hasValue s (of_string "x") vs = true).
Proof.
  intros H. destruct (H (repeat "s"%char 50)) as (vs & E & HV).
  - intros I. apply repeat_spec in I. discriminate.
  - intros c [<-|[]] I. apply repeat_spec in I. discriminate.
  - apply no_comment_scan. reflexivity.
  - vm_compute in E. injection E as <-. vm_compute in HV. discriminate.
Qed.

(** * C64: a line that is neither blank, comment, section, assignment nor indented is reported,
    wherever it is in the file. *)
Definition malformed (l : str) : Prop :=
  l <> [] /\ one_line l /\ no_lead l /\ first_not [";"; "#"]%char l /\
  match l with "["%char :: r => without ["]"%char] r | _ => without ["="; ":"]%char l end.
Lemma error_sticky n st m l : p_error st <> 0 -> p_error (process n st m l) <> 0.
Proof.
  intros H. unfold process. destruct (lskip (rstrip l)) as [|c r]; [exact H|]. destruct (mem c _); [exact H|]. destruct (_ && _); [exact H|].
  assert (S : p_error (set_error n st) <> 0) by (unfold set_error; cbn; destruct (p_error st =? 0) eqn:E; [apply Z.eqb_eq in E; contradiction|exact H]).
  destruct (Ascii.eqb c "["); destruct (find_chars _ _ _) as [a [|d b]]; try exact S; (destruct (_ : bool); [exact H|exact S]).
Qed.
Lemma error_lines ls : forall n st, p_error st <> 0 -> p_error (process_lines n st ls) <> 0.
Proof.
  induction ls as [|l ls IH]; intros n st H; [exact H|]. cbn [process_lines]. apply IH. unfold process_line. destruct (_ && _); apply error_sticky, H.
Qed.
Lemma malformed_error n st l eol : 1 <= n -> malformed l -> allsp eol -> p_error (process n st false (l ++ eol)) <> 0.
Proof.
  intros N (NE & O & NL & FN & W) AE. rewrite process_eol by exact AE. unfold process. destruct (rstrip_split l) as (sp & E & A & _).
  destruct l as [|c t]; [contradiction|]. pose proof (NL c t eq_refl) as SC. pose proof (FN c t eq_refl) as FC.
  assert (R : exists r, rstrip (c :: t) = c :: r /\ forall d, In d r -> In d t).
  { pose proof (rstrip_incl t) as RI. cbn [rstrip]. destruct (rstrip t) as [|x r]; [rewrite SC; exists []; split; [reflexivity|intros d []]|exists (x :: r); split; [reflexivity|exact RI]]. }
  destruct R as (r & R & RI). rewrite R. cbn [lskip]. rewrite SC. rewrite Nat.eqb_refl. cbn [negb orb]. rewrite andb_false_r.
  replace (mem c [";"; "#"]%char) with false by (symmetry; apply mem_nIn, FC).
  assert (S : p_error (set_error n st) <> 0) by (unfold set_error; cbn; destruct (p_error st =? 0) eqn:EE; [lia|apply Z.eqb_neq, EE]).
  destruct (Ascii.eqb c "[") eqn:EB.
  - apply Ascii.eqb_eq in EB. subst c. destruct (find_chars _ false r) as [a [|d b]] eqn:F; [exact S|]. destruct (Ascii.eqb d "]") eqn:ED; [|exact S]. exfalso.
    apply Ascii.eqb_eq in ED. subst d. destruct (find_spec _ _ _ _ _ F) as (EQ & _). apply (W "]"%char (or_introl eq_refl)), RI. rewrite EQ. apply in_app_iff. right. left. reflexivity.
  - assert (W' : without ["="; ":"]%char (c :: t)) by (clear -W EB; destruct c as [[] [] [] [] [] [] [] []]; try exact W; discriminate). clear W.
    destruct (find_chars _ false (c :: r)) as [a [|d b]] eqn:F; [exact S|]. destruct (mem d ["="; ":"]%char) eqn:ED; [|exact S]. exfalso. apply mem_In in ED.
    destruct (find_spec _ _ _ _ _ F) as (EQ & _). assert (ID : In d (c :: r)) by (rewrite EQ; apply in_app_iff; right; left; reflexivity).
    apply (W' d ED). destruct ID as [<-|ID]; [left; reflexivity|right; apply RI, ID].
Qed.
(** Reading up to the end of some line. *)
Lemma take_prefix n t l r : take_line n t = (l, r) -> t = l ++ r /\ (l = [] -> n = O \/ t = []).
Proof.
  revert t l r. induction n as [|n IH]; intros t l r; cbn [take_line]; [intros E; injection E as <- <-; auto|]. destruct t as [|c t]; [intros E; injection E as <- <-; auto|].
  destruct (Ascii.eqb c nl); [intros E; injection E as <- <-; split; [reflexivity|discriminate]|]. destruct (take_line n t) as [x y] eqn:T. intros E. injection E as <- <-.
  destruct (IH _ _ _ T) as (-> & _). split; [reflexivity|discriminate].
Qed.
Lemma take_within n t l r u : take_line n (t ++ [nl]) = (l, r) -> take_line n (t ++ nl :: u) = (l, r ++ u).
Proof.
  revert t l r. induction n as [|n IH]; intros t l r; cbn [take_line]; [intros E; injection E as <- <-; rewrite <- app_assoc; reflexivity|].
  destruct t as [|c t]; cbn [app].
  - rewrite Ascii.eqb_refl. intros E. injection E as <- <-. reflexivity.
  - destruct (Ascii.eqb c nl); [intros E; injection E as <- <-; rewrite <- app_assoc; reflexivity|]. destruct (take_line n (t ++ [nl])) as [x y] eqn:T. intros E. injection E as <- <-.
    rewrite (IH _ _ _ T). reflexivity.
Qed.
Lemma take_rest n t l r : take_line n (t ++ [nl]) = (l, r) -> r = [] \/ exists t', r = t' ++ [nl].
Proof.
  intros E. destruct (take_prefix _ _ _ _ E) as (EQ & _). destruct r as [|c r] using rev_ind; [left; reflexivity|right]. rewrite app_assoc in EQ. apply app_inj_tail in EQ. destruct EQ as (_ & <-). eauto.
Qed.
Lemma split_after u : forall fuel t n st, (length (t ++ nl :: u) <= fuel)%nat -> 1 <= n ->
  exists n' st' fuel', 2 <= n' /\ (length u <= fuel')%nat /\ process_lines n st (split_lines fuel (t ++ nl :: u)) = process_lines n' st' (split_lines fuel' u).
Proof.
  induction fuel as [|fuel IH]; intros t n st F N; [rewrite app_length in F; cbn in F; lia|].
  destruct (take_line 199 (t ++ [nl])) as [l r] eqn:T. pose proof (take_within _ _ _ _ u T) as T'. destruct (take_prefix _ _ _ _ T) as (EQ & LN).
  assert (NEQ : exists c x, t ++ nl :: u = c :: x) by (destruct t; cbn [app]; eauto). destruct NEQ as (c & x & NEQ).
  change (split_lines (S fuel) (t ++ nl :: u)) with (match t ++ nl :: u with _ :: _ => let '(x, r) := take_line 199 (t ++ nl :: u) in x :: split_lines fuel r | [] => [] end).
  rewrite T'. rewrite NEQ. cbn [process_lines].
  assert (LL : (1 <= length l)%nat). { destruct l; [|cbn; lia]. destruct (LN eq_refl) as [X|X]; [discriminate|destruct t; discriminate]. }
  assert (LEN : (length (t ++ nl :: u) = length l + length r + length u)%nat).
  { change (nl :: u) with ([nl] ++ u). rewrite app_assoc, EQ, !app_length. reflexivity. }
  destruct (take_rest _ _ _ _ T) as [-> |(t' & ->)].
  - exists (n + 1), (process_line n st l), fuel. cbn [app length] in *. split; [lia|]. split; [lia|reflexivity].
  - rewrite (app_length t') in LEN. cbn [length] in LEN. rewrite <- app_assoc. cbn [app]. destruct (IH t' (n + 1) (process_line n st l)) as (n' & st' & f' & A & B & C); [unfold str in *; rewrite app_length; cbn [length]; lia|lia|].
    exists n', st', f'. auto.
Qed.
Theorem C64_malformed before l after : malformed l -> (length l <= 199)%nat -> starts_bom l = false -> (before = [] \/ exists b, before = b ++ [nl]) ->
  construct (before ++ l ++ nl :: after) = None /\ construct (before ++ l) = None.
Proof.
  intros M L NB BF. pose proof M as M'. destruct M' as (NE & O & _).
  assert (SPN : allsp [nl]) by (intros c [<-|[]]; reflexivity). assert (SPE : allsp []) by (intros c []).
  assert (G : forall tail, tail = [] \/ (exists a, tail = nl :: a) -> parse (before ++ l ++ tail) = None).
  { intros tail HT. unfold parse, lines. set (st := mkP [] [] 0 []).
    assert (X : exists n st' fuel, 1 <= n /\ (length (l ++ tail) <= fuel)%nat /\
       process_lines 1 st (split_lines (length (before ++ l ++ tail)) (before ++ l ++ tail)) = process_lines n st' (split_lines fuel (l ++ tail))).
    { destruct BF as [-> |(b & ->)].
      - exists 1, st, (length (l ++ tail)). split; [lia|]. split; [lia|reflexivity].
      - rewrite <- app_assoc. cbn [app]. destruct (split_after (l ++ tail) (length (b ++ nl :: l ++ tail)) b 1 st) as (n & st' & f & A & B & C); [lia|lia|]. exists n, st', f. split; [lia|]. split; [exact B|exact C]. }
    destruct X as (n & st' & fuel & N & F & ->). destruct fuel as [|fuel]; [rewrite app_length in F; destruct l; [contradiction|cbn in F; lia]|].
    assert (T : exists eol r, take_line 199 (l ++ tail) = (l ++ eol, r) /\ (eol = [] \/ eol = [nl])).
    { destruct HT as [-> |(a & ->)].
      - exists [], []. rewrite app_nil_r. split; [apply take_end; assumption|auto].
      - destruct (Nat.eq_dec (length l) 199) as [E|E].
        + exists [], (nl :: a). rewrite app_nil_r. split; [rewrite <- E; apply take_exact, O|auto].
        + exists [nl], a. split; [apply take_whole; [exact O|lia]|auto]. }
    destruct T as (eol & r & T & EO). assert (NEQ : exists c x, l ++ tail = c :: x) by (destruct l; [contradiction|cbn [app]; eauto]). destruct NEQ as (c & x & NEQ).
    change (split_lines (S fuel) (l ++ tail)) with (match l ++ tail with _ :: _ => let '(x, r) := take_line 199 (l ++ tail) in x :: split_lines fuel r | [] => [] end).
    rewrite T, NEQ. cbn [process_lines].
    assert (E : p_error (process_lines (n + 1) (process_line n st' (l ++ eol)) (split_lines fuel r)) <> 0).
    { apply error_lines. rewrite process_line_no; [apply malformed_error; [lia|exact M|destruct EO as [-> | ->]; assumption]|].
      intros _. destruct EO as [-> | ->]; [rewrite app_nil_r; exact NB|apply bom_eol, NB]. }
    apply Z.eqb_neq in E. rewrite E. reflexivity. }
  split; unfold construct.
  - rewrite (G (nl :: after)) by (right; eauto). reflexivity.
  - specialize (G [] (or_introl eq_refl)). rewrite app_nil_r in G. rewrite G. reflexivity.
Qed.
