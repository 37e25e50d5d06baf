(** Proofs for C35: what any text and any queries leave in a configuration can be written and
    read back. *)
From Coq Require Import String Ascii Sorted.
From Verif Require Import Base OctreeModel ConfigModel ConfigSpec ConfigProofs ConfigProps.
Open Scope Z_scope.

(** * Sorted maps *)
Lemma code_inj a b : code a = code b -> a = b.
Proof. unfold code. intros H. apply N2Z.inj in H. rewrite <- (ascii_N_embedding a), <- (ascii_N_embedding b), H. reflexivity. Qed.
Lemma slt_irrefl a : slt a a = false.
Proof. induction a as [|x a IH]; [reflexivity|]. cbn [slt]. rewrite Z.ltb_irrefl, Z.eqb_refl, IH. reflexivity. Qed.
Lemma slt_trans a b c : slt a b = true -> slt b c = true -> slt a c = true.
Proof.
  revert b c. induction a as [|x a IH]; intros [|y b] [|z c]; cbn [slt]; try discriminate; try reflexivity. rewrite !orb_true_iff, !andb_true_iff, !Z.ltb_lt, !Z.eqb_eq.
  intros [H|(H & H')] [G|(G & G')]; [left; lia|left; lia|left; lia|right]. split; [lia|apply (IH b c); assumption].
Qed.
Lemma slt_total a b : a <> b -> slt a b = false -> slt b a = true.
Proof.
  revert b. induction a as [|x a IH]; intros [|y b]; cbn [slt]; intros N E; try contradiction; try discriminate; try reflexivity. apply orb_false_iff in E. destruct E as (E1 & E2).
  apply Z.ltb_ge in E1. destruct (code y <? code x) eqn:L; [reflexivity|]. apply Z.ltb_ge in L. assert (EQ : code x = code y) by lia. rewrite EQ, Z.eqb_refl in E2 |- *. cbn [andb orb] in *.
  apply IH; [|exact E2]. intros ->. apply N. f_equal. apply code_inj, EQ.
Qed.
Definition sorted {V} (m : list (str * V)) : Prop := StronglySorted (fun a b => slt (fst a) (fst b) = true) m.
Lemma mset_In {V} k (v : V) m p : In p (mset k v m) -> p = (k, v) \/ In p m.
Proof.
  induction m as [|[k' v'] m IH]; cbn [mset]; [intros [<-|[]]; auto|]. destruct (str_eqb k k') eqn:E; [|destruct (slt k k')]; intros H.
  - destruct H as [<-|H]; [auto|right; right; exact H].
  - destruct H as [<-|H]; [auto|right; exact H].
  - destruct H as [<-|H]; [right; left; reflexivity|]. destruct (IH H) as [-> |I]; [auto|right; right; exact I].
Qed.
Lemma mset_sorted {V} k (v : V) m : sorted m -> sorted (mset k v m).
Proof.
  unfold sorted. induction m as [|[k' v'] m IH]; intros S; cbn [mset]; [repeat constructor|]. inversion S as [|? ? S' F]; subst. rewrite Forall_forall in F. cbn [fst] in F.
  destruct (str_eqb k k') eqn:E; [|destruct (slt k k') eqn:L].
  - apply str_eqb_eq in E. subst. constructor; [exact S'|]. apply Forall_forall. exact F.
  - constructor; [exact S|]. apply Forall_forall. intros p [<-|Hp]; [exact L|]. cbn [fst]. apply (slt_trans _ k'); [exact L|apply F, Hp].
  - constructor; [apply IH, S'|]. apply Forall_forall. intros p Hp. cbn [fst]. apply str_eqb_neq in E. destruct (mset_In _ _ _ _ Hp) as [-> |Hi]; [apply slt_total; assumption|apply F, Hi].
Qed.
Lemma mget_In {V} k (m : list (str * V)) v : mget k m = Some v -> In (k, v) m.
Proof.
  induction m as [|[k' v'] m IH]; [discriminate|]. cbn [mget]. destruct (str_eqb k k') eqn:E; [|intros H; right; apply IH, H]. apply str_eqb_eq in E. subst. intros H. injection H as ->. left. reflexivity.
Qed.
Lemma mget_sorted {V} k (m : list (str * V)) v : sorted m -> In (k, v) m -> mget k m = Some v.
Proof.
  unfold sorted. induction m as [|[k' v'] m IH]; intros S H; [destruct H|]. destruct H as [H|H]; cbn [mget].
  - injection H as -> ->. rewrite str_eqb_refl. reflexivity.
  - inversion S as [|? ? S' F]; subst. rewrite Forall_forall in F. specialize (F _ H). cbn [fst] in F. destruct (str_eqb k k') eqn:E; [|apply IH; assumption].
    apply str_eqb_eq in E. subst. rewrite slt_irrefl in F. discriminate.
Qed.

(** * What a configuration holds *)
Definition name_pre (n : str) : Prop := one_line n /\ without ["="; ":"]%char n /\ no_comment n /\ no_lead n /\ first_not ["["; ";"; "#"]%char n.
Definition good_entries (m : list (str * entry)) : Prop := sorted m /\ forall n e, In (n, e) m -> name_pre n /\ tolower n = n /\ value_ok (e_value e).
Definition good (vs : values) : Prop := sorted vs /\ forall s m, In (s, m) vs -> section_ok s /\ tolower s = s /\ good_entries m.

Lemma tolower_nl s : one_line s -> one_line (tolower s).
Proof. intros H I. apply in_map_iff in I. destruct I as (c & E & Hc). apply lower_special in E; [subst; exact (H Hc)|left; reflexivity]. Qed.
Lemma tolower_without cs s : (forall c, In c cs -> In c [nl; "="; ":"; "["; "]"; ";"; "#"]%char) -> without cs s -> without cs (tolower s).
Proof. intros SUB H d Hd I. apply in_map_iff in I. destruct I as (c & E & Hc). apply lower_special in E; [subst; exact (H _ Hd Hc)|apply SUB, Hd]. Qed.
Lemma tolower_scan s : forall w, scan w (tolower s) = scan w s.
Proof.
  induction s as [|c s IH]; intros w; [reflexivity|]. cbn [tolower map scan]. fold (tolower s). rewrite IH, lower_space. do 3 f_equal.
  destruct (Ascii.eqb c ";") eqn:E; [apply Ascii.eqb_eq in E; subst; reflexivity|]. apply Ascii.eqb_neq in E. apply Ascii.eqb_neq. intros X. apply E. apply (lower_special c); [cbn; tauto|exact X].
Qed.
Lemma tolower_comment s : no_comment s -> no_comment (tolower s).
Proof. rewrite !no_comment_scan, tolower_scan. auto. Qed.
Lemma tolower_lead s : no_lead s -> no_lead (tolower s).
Proof. intros H c t E. destruct s as [|d s]; [discriminate|]. injection E as <- _. rewrite lower_space. apply (H d s eq_refl). Qed.
Lemma section_lower s : section_ok s -> section_ok (tolower s).
Proof.
  intros (A & B & C & D). repeat split; [apply tolower_nl, A|apply tolower_without; [|exact B]|apply tolower_comment, C|unfold tolower; rewrite map_length; exact D]. intros c [<-|[]]. cbn. tauto.
Qed.
Lemma name_lower n : name_pre n -> name_pre (tolower n).
Proof.
  intros (A & B & C & D & E). repeat split; [apply tolower_nl, A|apply tolower_without; [|exact B]|apply tolower_comment, C|apply tolower_lead, D|].
  - intros c [<-|[<-|[]]]; cbn; tauto.
  - intros c t X I. destruct n as [|d n]; [discriminate|]. injection X as X _. apply (E d n eq_refl). rewrite (lower_special d c); [exact I| |exact X].
    clear -I. destruct I as [<-|[<-|[<-|[]]]]; cbn; tauto.
Qed.
Lemma name_prefix a b : name_pre (a ++ b) -> name_pre a.
Proof.
  intros (A & B & C & D & E). repeat split.
  - intros I. apply A, in_app_iff. auto.
  - intros c Hc I. apply (B c Hc), in_app_iff. auto.
  - apply no_comment_scan in C. rewrite scan_app in C. apply andb_true_iff in C. apply no_comment_scan, C.
  - intros c t ->. apply (D c (t ++ b) eq_refl).
  - intros c t ->. apply (E c (t ++ b) eq_refl).
Qed.
Lemma firstn_prefix (n : nat) (s : str) : exists b, s = firstn n s ++ b.
Proof. exists (skipn n s). symmetry. apply firstn_skipn. Qed.

Lemma good_set s n e vs : section_ok s -> tolower s = s -> name_pre n -> tolower n = n -> value_ok (e_value e) -> good vs -> good (set_entry s n e vs).
Proof.
  intros HS LS HN LN HV (SV & G). unfold set_entry. split; [apply mset_sorted, SV|]. intros s' m' I. destruct (mset_In _ _ _ _ I) as [E|I']; [|apply G, I']. injection E as -> ->.
  split; [exact HS|]. split; [exact LS|].
  assert (GE : good_entries (match mget s vs with Some m => m | None => [] end)).
  { destruct (mget s vs) as [m|] eqn:M; [|split; [constructor|intros ? ? []]]. apply mget_In in M. apply (G _ _ M). }
  destruct GE as (SE & GE). split; [apply mset_sorted, SE|]. intros n' e' J. destruct (mset_In _ _ _ _ J) as [E|J']; [injection E as -> ->; auto|apply GE, J'].
Qed.
Lemma good_get s n e vs : good vs -> get_entry s n vs = Some e -> section_ok s /\ tolower s = s /\ name_pre n /\ tolower n = n /\ value_ok (e_value e).
Proof.
  intros (_ & G) E. unfold get_entry in E. destruct (mget s vs) as [m|] eqn:M; [|discriminate]. apply mget_In in M, E. destruct (G _ _ M) as (A & B & _ & GE). destruct (GE _ _ E) as (C & D & F). auto.
Qed.
Lemma good_handler s n v vs : section_ok s -> name_pre n -> value_ok v -> good vs -> good (handler s n v vs).
Proof. intros HS HN HV G. apply good_set; [apply section_lower, HS|apply tolower_idem|apply name_lower, HN|apply tolower_idem|exact HV|exact G]. Qed.

(** * Reading any text *)
Definition Inv (st : pstate) : Prop := section_ok (p_section st) /\ name_pre (p_prev st) /\ good (p_values st).
Lemma one_line_sub a s : (forall c, In c a -> In c s) -> one_line s -> one_line a.
Proof. intros H O I. apply O, H, I. Qed.
Lemma value_stripped x : one_line x -> scan false x = true -> value_ok (rstrip (lskip x)).
Proof.
  intros O S. destruct (lskip_split x) as (sp & E & A & NL). destruct (rstrip_split (lskip x)) as (sp' & E' & A' & NT). repeat split.
  - eapply one_line_sub; [|exact O]. intros c I. apply lskip_incl, rstrip_incl, I.
  - apply no_comment_scan. rewrite E, scan_app in S. apply andb_true_iff in S. destruct S as (_ & S). apply scan_first in S. destruct S as (S & _). rewrite E', scan_app in S. apply andb_true_iff in S. apply S.
  - intros c t X. rewrite X in E'. apply (NL c (t ++ sp')). rewrite E'. reflexivity.
  - exact NT.
Qed.
Lemma process_inv n st m l : one_line (rstrip l) -> Inv st -> Inv (process n st m l).
Proof.
  intros O (IS & IP & IG). unfold process. set (s := lskip (rstrip l)). assert (OS : one_line s) by (eapply one_line_sub; [|exact O]; intros c; apply lskip_incl).
  assert (NLs : no_lead s) by (destruct (lskip_split (rstrip l)) as (? & _ & _ & X); exact X). clearbody s. destruct s as [|c r]; [split; auto|].
  destruct (mem c _) eqn:MC; [split; auto|]. assert (ERR : Inv (set_error n st)) by (split; [exact IS|split; assumption]).
  destruct (_ && _).
  - destruct (find_chars [] false (c :: r)) as [a b] eqn:F. destruct (find_spec _ _ _ _ _ F) as (E & S & _). cbn [fst]. split; [exact IS|]. split; [exact IP|]. apply good_handler; try assumption.
    assert (NA : no_lead a) by (intros d t ->; cbn [app] in E; injection E as <- _; apply (NLs c r eq_refl)).
    rewrite <- (lskip_id a) by exact NA. apply value_stripped; [|exact S]. eapply one_line_sub; [|exact OS]. intros d I. rewrite E. apply in_app_iff. auto.
  - destruct (Ascii.eqb c "[") eqn:EB.
    + destruct (find_chars _ false r) as [a b] eqn:F. destruct (find_spec _ _ _ _ _ F) as (E & S & W). destruct b as [|d b]; [exact ERR|]. destruct (Ascii.eqb d "]"); [|exact ERR].
      split; [|split; [|exact IG]]; cbn [p_section p_prev].
      * unfold strncpy0. destruct (firstn_prefix 49 a) as (x & EX). assert (SUB : forall e, In e (firstn 49 a) -> In e a) by (intros e I; rewrite EX; apply in_app_iff; auto). repeat split.
        -- intros I. apply OS. right. rewrite E. apply in_app_iff. left. apply SUB, I.
        -- intros e [<-|[]] I. apply (W "]"%char (or_introl eq_refl)), SUB, I.
        -- apply no_comment_scan. rewrite EX, scan_app in S. apply andb_true_iff in S. apply S.
        -- apply firstn_le_length.
      * repeat split; [intros []|intros e ? []|intros a' b' t X; destruct a'; discriminate|intros e t X; discriminate|intros e t X; discriminate].
    + destruct (find_chars _ false (c :: r)) as [a b] eqn:F. destruct (find_spec _ _ _ _ _ F) as (E & S & W). destruct b as [|d b]; [exact ERR|]. destruct (mem d _) eqn:MD; [|exact ERR].
      assert (NP : name_pre a).
      { repeat split.
        - intros I. apply OS. rewrite E. apply in_app_iff. auto.
        - exact W.
        - apply no_comment_scan, S.
        - intros e t ->. cbn [app] in E. injection E as <- _. apply (NLs c r eq_refl).
        - intros e t ->. cbn [app] in E. injection E as <- _. apply mem_nIn in MC. apply Ascii.eqb_neq in EB. intros [X|X]; [symmetry in X; contradiction|]. apply MC. exact X. }
      assert (NR : name_pre (rstrip a)) by (destruct (rstrip_split a) as (sp & EA & _); rewrite EA in NP; apply (name_prefix _ _ NP)).
      split; [exact IS|]. split; cbn [p_prev p_values].
      * unfold strncpy0. destruct (firstn_prefix 49 (rstrip a)) as (x & EX). rewrite EX in NR. apply (name_prefix _ _ NR).
      * destruct (find_chars [] false b) as [v w] eqn:FV. destruct (find_spec _ _ _ _ _ FV) as (EV & SV & _). cbn [fst]. apply good_handler; try assumption.
        apply value_stripped; [|exact SV]. eapply one_line_sub; [|exact OS]. intros e I. rewrite E. apply in_app_iff. right. right. rewrite EV. apply in_app_iff. auto.
Qed.
Lemma take_shape n t l r : take_line n t = (l, r) -> exists a, one_line a /\ (l = a \/ l = a ++ [nl]).
Proof.
  revert t l r. induction n as [|n IH]; intros t l r; cbn [take_line]; [intros E; injection E as <- <-; exists []; split; [intros []|auto]|]. destruct t as [|c t]; [intros E; injection E as <- <-; exists []; split; [intros []|auto]|].
  destruct (Ascii.eqb c nl) eqn:N; [apply Ascii.eqb_eq in N; subst; intros E; injection E as <- <-; exists []; split; [intros []|auto]|]. destruct (take_line n t) as [x y] eqn:T. intros E. injection E as <- <-.
  destruct (IH _ _ _ T) as (a & O & H). exists (c :: a). split; [intros [X|X]; [subst; rewrite Ascii.eqb_refl in N; discriminate|apply O, X]|]. destruct H as [-> | ->]; auto.
Qed.
Lemma shape_rstrip a l : one_line a -> l = a \/ l = a ++ [nl] -> one_line (rstrip l).
Proof.
  intros O [-> | ->]; [eapply one_line_sub; [apply rstrip_incl|exact O]|]. rewrite rstrip_sp by (intros c [<-|[]]; reflexivity). eapply one_line_sub; [apply rstrip_incl|exact O].
Qed.
Lemma skipn_shape k a l : one_line a -> l = a \/ l = a ++ [nl] -> exists a', one_line a' /\ (skipn k l = a' \/ skipn k l = a' ++ [nl]).
Proof.
  intros O H. assert (SUB : one_line (skipn k a)). { eapply one_line_sub; [|exact O]. intros c I. rewrite <- (firstn_skipn k a). apply in_app_iff. auto. }
  destruct H as [-> | ->]; [eauto|]. rewrite skipn_app. destruct (k - length a)%nat as [|j] eqn:J; [exists (skipn k a); auto|].
  exists []. split; [intros []|]. rewrite skipn_all2 by lia. left. cbn [app]. apply skipn_all2. cbn. lia.
Qed.
Lemma lines_inv fuel : forall t n st, Inv st -> Inv (process_lines n st (split_lines fuel t)).
Proof.
  induction fuel as [|fuel IH]; intros t n st I; [destruct t; exact I|]. destruct t as [|c t]; [exact I|].
  change (split_lines (S fuel) (c :: t)) with (let '(x, r) := take_line 199 (c :: t) in x :: split_lines fuel r). destruct (take_line 199 (c :: t)) as [l r] eqn:T. cbn [process_lines]. apply IH.
  destruct (take_shape _ _ _ _ T) as (a & O & H). unfold process_line. destruct (_ && _).
  - destruct (skipn_shape 3 a l O H) as (a' & O' & H'). apply process_inv; [apply (shape_rstrip a'); assumption|exact I].
  - apply process_inv; [apply (shape_rstrip a); assumption|exact I].
Qed.
Lemma parse_good text vs : parse text = Some vs -> good vs.
Proof.
  unfold parse. destruct (_ =? 0); [|discriminate]. intros E. injection E as <-. unfold lines. apply lines_inv. assert (NC : no_comment []) by (intros a b t X; destruct a; discriminate).
  split; [|split]; cbn [p_section p_prev p_values].
  - split; [intros []|]. split; [intros c _ []|]. split; [exact NC|cbn; lia].
  - split; [intros []|]. split; [intros c _ []|]. split; [exact NC|]. split; intros c t X; discriminate.
  - split; [constructor|intros ? ? []].
Qed.

(** * Queries keep it *)
Lemma good_getValue {T} (C : codec T) s n vs r vs' : good vs -> getValue C s n vs = Some (r, vs') -> good vs'.
Proof.
  intros G E. rewrite getValue_spec in E. destruct (get_entry (tolower s) (tolower n) vs) as [e|] eqn:GE; [|discriminate]. destruct (good_get _ _ _ _ G GE) as (A & B & D & F & H).
  destruct (conv C (e_value e)); [|discriminate]. cbn [option_map] in E. apply (f_equal (option_map snd)) in E. cbn [option_map snd] in E. injection E as <-. apply good_set; assumption.
Qed.
Lemma name_ok_pre n : name_ok n -> name_pre n.
Proof. intros (A & B & C & D & _ & E). repeat split; assumption. Qed.
Lemma good_default {T} (C : codec T) s n d vs r vs' : section_ok s -> name_pre n -> value_ok (show C d) -> good vs -> getValue_default C s n d vs = Some (r, vs') -> good vs'.
Proof.
  intros HS HN HV G. unfold getValue_default. set (vs1 := if hasValue s n vs then vs else _). assert (G1 : good vs1).
  { unfold vs1. destruct (hasValue s n vs); [exact G|]. apply good_set; [apply section_lower, HS|apply tolower_idem|apply name_lower, HN|apply tolower_idem|exact HV|exact G]. }
  destruct (getValue C s n vs1) as [[x y]|] eqn:E; [|discriminate]. destruct (_ || _); [|discriminate]. intros X. injection X as <- <-. apply (good_getValue _ _ _ _ _ _ G1 E).
Qed.
Lemma good_queries qs : forall vs vs', Forall query_ok qs -> good vs -> run_queries qs vs = Some vs' -> good vs'.
Proof.
  induction qs as [|q qs IH]; intros vs vs' F G E; cbn [run_queries] in E; [injection E as <-; exact G|]. inversion F as [|? ? Q F']; subst. destruct (run_query q vs) as [vs1|] eqn:R; [|discriminate].
  apply (IH vs1); [exact F'| |exact E]. destruct q as [T C s n [d|]]; cbn [run_query query_ok] in *.
  - destruct Q as (A & B & D). destruct (getValue_default C s n d vs) as [[x y]|] eqn:GD; [|discriminate]. cbn in R. injection R as <-. apply (good_default _ _ _ _ _ _ _ A (name_ok_pre _ B) D G GD).
  - destruct (getValue C s n vs) as [[x y]|] eqn:GD; [|discriminate]. cbn in R. injection R as <-. apply (good_getValue _ _ _ _ _ _ G GD).
Qed.
Lemma ini_ok : section_ok ini_s. Proof. repeat split; [apply mem_nIn; reflexivity|intros c [<-|[]]; apply mem_nIn; reflexivity|apply no_comment_scan; reflexivity|cbn; lia]. Qed.
Lemma print_ok : name_pre print_s.
Proof.
  repeat split; [apply mem_nIn; reflexivity|intros c [<-|[<-|[]]]; apply mem_nIn; reflexivity|apply no_comment_scan; reflexivity|intros c t E; vm_compute in E; injection E as <- _; reflexivity|].
  intros c t E. vm_compute in E. injection E as <- _. apply mem_nIn. reflexivity.
Qed.
Lemma false_ok : value_ok (of_string "false").
Proof.
  repeat split; [apply mem_nIn; reflexivity|apply no_comment_scan; reflexivity|intros c t E; vm_compute in E; injection E as <- _; reflexivity|].
  intros c t E. change (of_string "false") with (of_string "fals" ++ ["e"%char]) in E. apply app_inj_tail in E. destruct E as (_ & <-). reflexivity.
Qed.
Lemma construct_good text vs : construct text = Some vs -> good vs /\ exists v, stored ini_s print_s vs = Some v /\ conv bool_codec v <> None.
Proof.
  unfold construct. fold ini_s print_s. destruct (parse text) as [vs0|] eqn:P; [|discriminate]. destruct (getValue_default bool_codec ini_s print_s false vs0) as [[r x]|] eqn:G; [|discriminate]. intros E. injection E as ->.
  split; [apply (good_default bool_codec ini_s print_s false _ _ _ ini_ok print_ok false_ok (parse_good _ _ P) G)|]. destruct (getValue_default_spec _ _ _ _ _ _ _ G) as (H1 & H2). rewrite H2.
  destruct (stored ini_s print_s vs0) as [v|]; [exists v; split; [reflexivity|rewrite H1; discriminate]|]. exists (of_string "false"). split; [|discriminate].
  change (same_key ini_s print_s (ini_s, print_s, [])) with true. reflexivity.
Qed.

(** * What is written, as lines *)
Definition spaces (n : nat) : str := repeat " "%char n.
Lemma spaces_blank n : blank (spaces n).
Proof. intros c I. apply repeat_spec in I. subst. split; [reflexivity|discriminate]. Qed.
Definition notes (e : entry) : str := (if e_used e then [] else of_string " ; Unused") ++ (if e_from_file e then [] else of_string " ; Default").
Definition line_item (p : str * entry) : item :=
  Assign (fst p) (spaces (20 - length (fst p)) ++ [" "%char]) "=" [" "%char] (e_value (snd p)) (spaces (20 - length (e_value (snd p))) ++ notes (snd p)).
Definition section_items (p : str * list (str * entry)) : list item := Section (fst p) [] :: map line_item (snd p).
Definition items (vs : values) : list item := flat_map section_items vs.
Lemma line_item_text p : line_of (line_item p) ++ [nl] = output_line p.
Proof.
  destruct p as [n e]. unfold line_item, output_line, pad, notes, spaces. cbn [line_of fst snd]. rewrite <- !app_assoc. cbn [app of_string String.list_ascii_of_string]. rewrite <- ?app_assoc. cbn [app]. rewrite <- ?app_assoc. reflexivity.
Qed.
Lemma output_items vs : output vs = body (items vs).
Proof.
  unfold output, items. induction vs as [|[s m] vs IH]; [reflexivity|]. cbn [map concat flat_map]. rewrite body_app, IH. f_equal. unfold section_items, body, output_section. cbn [map concat fst snd line_of]. rewrite map_map.
  rewrite (map_ext (fun x => line_of (line_item x) ++ [nl]) output_line line_item_text). cbn [app]. rewrite <- !app_assoc. reflexivity.
Qed.
Lemma notes_trailing e : exists sp c, notes e = sp ++ c /\ blank sp /\ one_line c /\ (c = [] \/ sp <> [] /\ exists t, c = ";"%char :: t).
Proof.
  assert (B : blank [" "%char]) by (intros c [<-|[]]; split; [reflexivity|discriminate]).
  unfold notes. destruct (e_used e), (e_from_file e).
  - exists [], []. split; [reflexivity|]. split; [intros c []|]. split; [intros []|auto].
  - exists [" "%char], (of_string "; Default"). split; [reflexivity|]. split; [exact B|]. split; [apply mem_nIn; reflexivity|]. right. split; [discriminate|]. eexists. reflexivity.
  - exists [" "%char], (of_string "; Unused"). split; [reflexivity|]. split; [exact B|]. split; [apply mem_nIn; reflexivity|]. right. split; [discriminate|]. eexists. reflexivity.
  - exists [" "%char], (of_string "; Unused ; Default"). split; [reflexivity|]. split; [exact B|]. split; [apply mem_nIn; reflexivity|]. right. split; [discriminate|]. eexists. reflexivity.
Qed.
Lemma item_fits n e : writable n e -> (length (line_of (line_item (n, e))) <= 199)%nat.
Proof. intros (_ & _ & H). rewrite <- line_item_text, app_length in H. cbn [length] in H. lia. Qed.
Lemma item_good n e prev : name_pre n -> value_ok (e_value e) -> writable n e -> (n = [] -> prev = []) -> item_ok prev (line_item (n, e)).
Proof.
  intros (A & B & C & D & E) V (NT & FS & _) P. cbn [item_ok line_item fst snd]. assert (B1 : blank [" "%char]) by (intros c [<-|[]]; split; [reflexivity|discriminate]).
  split; [repeat split; assumption|]. split; [intros N; left; apply P, N|]. split; [intros c I; apply in_app_iff in I; destruct I as [I|I]; [apply (spaces_blank _ c I)|apply B1, I]|].
  split; [left; reflexivity|]. split; [exact B1|]. split; [exact V|]. split; [intros _; exact FS|]. destruct (notes_trailing e) as (sp & c & EQ & BS & O & H). rewrite EQ.
  exists (spaces (20 - length (e_value e)) ++ sp), c. split; [rewrite app_assoc; reflexivity|]. split; [intros x I; apply in_app_iff in I; destruct I as [I|I]; [apply (spaces_blank _ x I)|apply BS, I]|].
  split; [exact O|]. destruct H as [-> |(NE & t & ->)]; [left; reflexivity|]. right. split; [|eauto]. intros X. apply app_eq_nil in X. apply NE, X.
Qed.
Lemma slt_nil a : slt a [] = false. Proof. destruct a; reflexivity. Qed.
Lemma entries_ok m : forall prev, good_entries m -> (forall n e, In (n, e) m -> writable n e) -> (prev = [] \/ forall n e, In (n, e) m -> n <> []) -> file_ok prev (map line_item m).
Proof.
  induction m as [|[n e] m IH]; intros prev (S & G) W P; [exact I|]. cbn [map file_ok]. destruct (G n e (or_introl eq_refl)) as (A & B & C). split.
  - apply item_good; [exact A|exact C|apply W; left; reflexivity|]. intros ->. destruct P as [P|P]; [exact P|]. exfalso. apply (P [] e); [left; reflexivity|reflexivity].
  - cbn [prev_after line_item fst]. inversion S as [|? ? S' F]; subst. rewrite Forall_forall in F. apply IH; [split; [exact S'|intros n' e' I; apply G; right; exact I]|intros n' e' I; apply W; right; exact I|].
    right. intros n' e' I ->. specialize (F _ I). cbn [fst] in F. rewrite slt_nil in F. discriminate.
Qed.
Lemma items_ok vs : forall prev, good vs -> (forall s m n e, In (s, m) vs -> In (n, e) m -> writable n e) -> file_ok prev (items vs).
Proof.
  induction vs as [|[s m] vs IH]; intros prev (S & G) W; [exact I|]. inversion S as [|? ? S' F]; subst. destruct (G s m (or_introl eq_refl)) as (A & B & C). unfold items. cbn [flat_map section_items fst snd app]. fold (items vs).
  cbn [file_ok item_ok prev_after]. split; [split; [exact A|intros []]|]. apply file_ok_app. split; [apply entries_ok; [exact C|intros n e I; apply (W s m); [left; reflexivity|exact I]|left; reflexivity]|].
  apply IH; [split; [exact S'|intros s' m' I; apply G; right; exact I]|]. intros s0 m0 n e I. apply (W s0 m0). right. exact I.
Qed.
Lemma last_value_app s n a b : last_value s n (a ++ b) = match last_value s n b with Some v => Some v | None => last_value s n a end.
Proof. induction a as [|x a IH]; cbn [app last_value]; [destruct (last_value s n b); reflexivity|]. rewrite IH. destruct (last_value s n b); reflexivity. Qed.
Definition section_assignments (p : str * list (str * entry)) : list (str * str * str) := map (fun q => (fst p, fst q, e_value (snd q))) (snd p).
Lemma items_assignments vs : forall sec prev, assignments sec prev (items vs) = flat_map section_assignments vs.
Proof.
  induction vs as [|[s m] vs IH]; intros sec prev; [reflexivity|]. unfold items. cbn [flat_map section_items fst snd app assignments]. fold (items vs). unfold section_assignments at 1. cbn [fst snd].
  generalize (@nil ascii) as p. induction m as [|[n e] m IHm]; intros p; [apply IH|]. cbn [map app assignments line_item fst snd]. rewrite IHm. reflexivity.
Qed.
Lemma last_section s n s' m : tolower s' = s' -> good_entries m ->
  last_value s n (section_assignments (s', m)) = if str_eqb (tolower s) s' then option_map e_value (mget (tolower n) m) else None.
Proof.
  intros LS (S & G). unfold section_assignments. cbn [fst snd]. induction m as [|[n' e] m IH]; [destruct (str_eqb _ _); reflexivity|]. inversion S as [|? ? S' F]; subst. cbn [map last_value fst snd].
  rewrite IH by (try exact S'; intros n0 e0 I; apply G; right; exact I). destruct (G n' e (or_introl eq_refl)) as (_ & LN & _). rewrite same_key_low. cbn [mget]. rewrite LS, LN. destruct (str_eqb (tolower s) s'); [|reflexivity]. cbn [andb].
  destruct (str_eqb (tolower n) n') eqn:E; [|destruct (mget (tolower n) m); reflexivity]. destruct (mget (tolower n) m) as [e'|] eqn:M; [|reflexivity]. exfalso.
  apply str_eqb_eq in E. apply mget_In in M. rewrite Forall_forall in F. specialize (F _ M). cbn [fst] in F. rewrite E, slt_irrefl in F. discriminate.
Qed.
Lemma last_items s n vs : good vs -> last_value s n (flat_map section_assignments vs) = stored s n vs.
Proof.
  rewrite stored_low. unfold get_entry. induction vs as [|[s' m] vs IH]; intros (S & G); [reflexivity|]. inversion S as [|? ? S' F]; subst. destruct (G s' m (or_introl eq_refl)) as (_ & LS & GE). cbn [flat_map].
  rewrite last_value_app, IH by (split; [exact S'|intros x y I; apply G; right; exact I]). rewrite (last_section s n s' m LS GE). cbn [mget]. destruct (str_eqb (tolower s) s') eqn:E.
  - apply str_eqb_eq in E. destruct (mget (tolower s) vs) as [m'|] eqn:M; [|reflexivity]. exfalso. apply mget_In in M. rewrite Forall_forall in F. specialize (F _ M). cbn [fst] in F. rewrite E, slt_irrefl in F. discriminate.
  - destruct (mget (tolower s) vs) as [m'|]; [destruct (mget (tolower n) m')|]; reflexivity.
Qed.
Lemma readback vs : good vs -> (exists v, stored ini_s print_s vs = Some v /\ conv bool_codec v <> None) ->
  (forall s n e, get_entry s n vs = Some e -> writable n e) ->
  exists vs', construct (output vs) = Some vs' /\ forall s n, stored s n vs' = stored s n vs.
Proof.
  intros G (pv & PS & PC) W0. assert (W : forall s m n e, In (s, m) vs -> In (n, e) m -> writable n e).
  { intros s m n e I J. apply (W0 s). unfold get_entry. destruct G as (S & G). rewrite (mget_sorted _ _ _ S I). destruct (G _ _ I) as (_ & _ & SE & _). apply mget_sorted; assumption. }
  destruct (parse_file (items vs) true (items_ok vs [] G W)) as (vs1 & E & ST).
  - apply Forall_forall. intros i I. apply in_flat_map in I. destruct I as ([s m] & I & J). cbn [section_items fst snd] in J. destruct J as [<-|J].
    + destruct G as (_ & G). destruct (G _ _ I) as ((_ & _ & _ & L) & _). cbn [line_of]. cbn [length]. rewrite app_length. cbn [length].
      cbn [fst]. lia.
    + apply in_map_iff in J. destruct J as ([n e] & <- & J). apply item_fits, (W s m n e I J).
  - destruct vs as [|[s m] vs]; [exact I|]. destruct s as [|a [|b s]]; reflexivity.
  - change (render (items vs) true) with (body (items vs)) in E. rewrite <- output_items in E. rewrite items_assignments in ST.
    assert (ST' : forall s n, stored s n vs1 = stored s n vs) by (intros s n; rewrite ST; apply last_items, G).
    destruct (construct_of_parse _ _ E) as (vs2 & E2 & ST2); [intros v Hv; rewrite ST', PS in Hv; injection Hv as <-; exact PC|].
    exists vs2. split; [exact E2|]. intros s n. rewrite ST2, ST'. destruct (stored s n vs) eqn:X; [reflexivity|]. destruct (same_key s n (ini_s, print_s, [])) eqn:K; [|reflexivity].
    apply same_key_iff in K. destruct K as (K1 & K2). rewrite stored_low in X, PS. rewrite K1, K2 in X. rewrite X in PS. discriminate.
Qed.
