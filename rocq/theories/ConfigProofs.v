(** Lemmas on the parser and the maps of ConfigModel. *)
From Coq Require Import String Ascii.
From Verif Require Import Base OctreeModel ConfigModel ConfigSpec.
Open Scope Z_scope.

(** * Characters and strings *)
Lemma str_eqb_eq a b : str_eqb a b = true <-> a = b.
Proof.
  revert b. induction a as [|x a IH]; intros [|y b]; cbn [str_eqb]; try (split; congruence). rewrite andb_true_iff, Ascii.eqb_eq, IH. split; [intros [-> ->]; reflexivity|intros E; injection E; auto].
Qed.
Lemma str_eqb_refl a : str_eqb a a = true. Proof. apply str_eqb_eq. reflexivity. Qed.
Lemma str_eqb_sym a b : str_eqb a b = str_eqb b a.
Proof. apply eq_true_iff_eq. rewrite !str_eqb_eq. split; auto. Qed.
Lemma str_eqb_neq a b : str_eqb a b = false <-> a <> b.
Proof. rewrite <- str_eqb_eq. destruct (str_eqb a b); split; congruence. Qed.
Lemma mem_In c s : mem c s = true <-> In c s.
Proof. induction s as [|d s IH]; cbn [mem In]; [split; [discriminate|contradiction]|]. rewrite orb_true_iff, Ascii.eqb_eq, IH. split; intros [->|H]; auto. Qed.
Lemma mem_nIn c s : mem c s = false <-> ~ In c s.
Proof. rewrite <- mem_In. destruct (mem c s); split; congruence. Qed.

Ltac chars c := destruct c as [[] [] [] [] [] [] [] []]; vm_compute.
Lemma lower_space c : isspace (lower_char c) = isspace c. Proof. chars c; reflexivity. Qed.
Lemma lower_idem c : lower_char (lower_char c) = lower_char c. Proof. chars c; reflexivity. Qed.
Lemma lower_special c d : In d [nl; "="; ":"; "["; "]"; ";"; "#"]%char -> lower_char c = d -> c = d.
Proof. intros [<-|[<-|[<-|[<-|[<-|[<-|[<-|[]]]]]]]]; chars c; intros H; first [reflexivity|discriminate H]. Qed.
Lemma tolower_idem s : tolower (tolower s) = tolower s.
Proof. unfold tolower. rewrite map_map. apply map_ext, lower_idem. Qed.

(** * Scanning for comments *)
Fixpoint scan (w : bool) (s : str) : bool :=
  match s with [] => true | c :: t => negb (w && Ascii.eqb c ";") && scan (isspace c) t end.
Definition ends_space (w : bool) (s : str) : bool := match rev s with [] => w | c :: _ => isspace c end.
Lemma ends_space_cons w c s : ends_space w (c :: s) = ends_space (isspace c) s.
Proof. unfold ends_space. cbn [rev]. destruct (rev s); reflexivity. Qed.
Lemma scan_app w a b : scan w (a ++ b) = scan w a && scan (ends_space w a) b.
Proof. revert w. induction a as [|c a IH]; intros w; [reflexivity|]. cbn [app scan]. rewrite IH, ends_space_cons, andb_assoc. reflexivity. Qed.
Lemma scan_weaken w s : scan true s = true -> scan w s = true.
Proof. destruct w; [auto|]. destruct s as [|c s]; [reflexivity|]. cbn [scan andb negb]. rewrite andb_true_iff. tauto. Qed.
Lemma scan_first w s : scan w s = true <-> scan false s = true /\ (w = true -> first_not [";"%char] s).
Proof.
  destruct s as [|c s]; cbn [scan]; [split; [intros _; split; [reflexivity|intros _ c t E; discriminate]|reflexivity]|]. cbn [andb negb]. rewrite andb_true_iff. split.
  - intros (H & S). split; [exact S|]. intros -> d t E. injection E as <- <-. intros [<-|[]]. rewrite Ascii.eqb_refl in H. discriminate.
  - intros (S & H). split; [|exact S]. destruct w; [|reflexivity]. cbn [andb]. specialize (H eq_refl c s eq_refl). apply negb_true_iff, Ascii.eqb_neq. intros ->. apply H. left. reflexivity.
Qed.
Lemma no_comment_scan s : no_comment s <-> scan false s = true.
Proof.
  split.
  - intros H. assert (G : forall a s, (forall x b t, a ++ s = x ++ b :: ";"%char :: t -> isspace b = false) -> scan (ends_space false a) s = true).
    { clear. intros a s. revert a. induction s as [|c s IH]; intros a H; [reflexivity|]. cbn [scan]. rewrite andb_true_iff. split.
      - apply negb_true_iff. destruct (Ascii.eqb c ";") eqn:E; [|apply andb_false_r]. apply Ascii.eqb_eq in E. subst c. unfold ends_space.
        destruct (rev a) as [|b a'] eqn:EA; [reflexivity|]. apply (f_equal (@rev _)) in EA. rewrite rev_involutive in EA. cbn [rev] in EA. subst a.
        rewrite (H (rev a') b s); [reflexivity|]. rewrite <- app_assoc. reflexivity.
      - replace (isspace c) with (ends_space false (a ++ [c])) by (unfold ends_space; rewrite rev_app_distr; reflexivity). apply IH. intros x b t E. apply (H x b t). rewrite <- E, <- app_assoc. reflexivity. }
    apply (G [] s). exact H.
  - intros S a b t E. subst s. rewrite scan_app in S. apply andb_true_iff in S. destruct S as (_ & S). cbn [scan] in S. rewrite !andb_true_iff, !negb_true_iff in S.
    destruct S as (_ & S & _). rewrite Ascii.eqb_refl, andb_true_r in S. exact S.
Qed.

(** * Spaces *)
Definition allsp (s : str) : Prop := forall c, In c s -> isspace c = true.
Lemma blank_allsp s : blank s -> allsp s. Proof. intros H c Hc. apply (H c Hc). Qed.
Lemma allsp_app a b : allsp (a ++ b) <-> allsp a /\ allsp b.
Proof. unfold allsp. split; [intros H; split; intros c Hc; apply H, in_app_iff; auto|intros (A & B) c Hc; apply in_app_iff in Hc; destruct Hc; auto]. Qed.
Lemma lskip_sp sp s : allsp sp -> lskip (sp ++ s) = lskip s.
Proof. induction sp as [|c sp IH]; intros H; [reflexivity|]. cbn [app lskip]. rewrite (H c (or_introl eq_refl)). apply IH. intros d Hd. apply H. right. exact Hd. Qed.
Lemma lskip_id s : no_lead s -> lskip s = s.
Proof. destruct s as [|c s]; intros H; [reflexivity|]. cbn. rewrite (H c s eq_refl). reflexivity. Qed.
Lemma lskip_split s : exists sp, s = sp ++ lskip s /\ allsp sp /\ no_lead (lskip s).
Proof.
  induction s as [|c s (sp & E & A & N)]; [exists []; repeat split; [intros c []|intros c t E; discriminate]|]. cbn [lskip]. destruct (isspace c) eqn:S.
  - exists (c :: sp). cbn [app]. rewrite <- E. repeat split; [|exact N]. intros d [<-|Hd]; [exact S|apply A, Hd].
  - exists []. repeat split; [intros d []|]. intros d t E'. injection E' as <- <-. exact S.
Qed.
Lemma rstrip_sp s sp : allsp sp -> rstrip (s ++ sp) = rstrip s.
Proof.
  intros H. induction s as [|c s IH].
  - cbn [app]. induction sp as [|c sp IH]; [reflexivity|]. cbn [rstrip]. rewrite IH by (intros d Hd; apply H; right; exact Hd). cbn. rewrite (H c (or_introl eq_refl)). reflexivity.
  - cbn [app rstrip]. rewrite IH. reflexivity.
Qed.
Lemma rstrip_split s : exists sp, s = rstrip s ++ sp /\ allsp sp /\ no_trail (rstrip s).
Proof.
  induction s as [|c s (sp & E & A & N)]; [exists []; repeat split; [intros c []|intros c t E; destruct t; discriminate]|]. cbn [rstrip].
  destruct (rstrip s) as [|d r] eqn:R.
  - cbn [app] in E. destruct (isspace c) eqn:S.
    + exists (c :: s). repeat split; [|intros d t E'; destruct t; discriminate]. intros d [<-|Hd]; [exact S|apply A; rewrite <- E; exact Hd].
    + exists sp. cbn [app]. split; [congruence|]. split; [exact A|]. intros d t E'. destruct t as [|x [|]]; cbn [app] in E'; try discriminate. injection E' as <-. exact S.
  - exists sp. cbn [app] in E |- *. rewrite <- E. repeat split; [exact A|]. intros x t E'. destruct t as [|y t]; cbn [app] in E'; [discriminate|]. injection E' as _ E'. apply (N x t). exact E'.
Qed.
Lemma rstrip_id s : no_trail s -> rstrip s = s.
Proof.
  intros H. destruct (rstrip_split s) as (sp & E & A & _). destruct sp as [|c sp] using rev_ind; [rewrite app_nil_r in E; auto|exfalso].
  rewrite app_assoc in E. specialize (H c _ E). rewrite (A c) in H; [discriminate|]. apply in_app_iff. right. left. reflexivity.
Qed.
Lemma rstrip_app a b : a <> [] -> no_trail a -> rstrip (a ++ b) = a ++ rstrip b.
Proof.
  intros NE N. destruct (rstrip_split b) as (sp & E & A & NB). rewrite E at 1. rewrite app_assoc, rstrip_sp by exact A. apply rstrip_id.
  intros c t EQ. destruct (rstrip b) as [|x r] using rev_ind; [rewrite app_nil_r in EQ; apply (N c t EQ)|]. rewrite app_assoc in EQ. apply app_inj_tail in EQ. destruct EQ as (_ & <-). apply (NB x r eq_refl).
Qed.
Lemma rstrip_allsp s : allsp s -> rstrip s = []. Proof. intros H. apply (rstrip_sp [] s H). Qed.
Lemma lskip_allsp s : allsp s -> lskip s = []. Proof. intros H. rewrite <- (app_nil_r s), lskip_sp by exact H. reflexivity. Qed.
Lemma strip_comm s : rstrip (lskip s) = lskip (rstrip s).
Proof.
  destruct (lskip_split s) as (sp & E & A & N). destruct (lskip s) as [|c t] eqn:L.
  - rewrite app_nil_r in E. subst s. rewrite (rstrip_allsp sp A). reflexivity.
  - rewrite E. clear E L. destruct (rstrip_split (c :: t)) as (sp' & E & A' & _). specialize (N c t eq_refl).
    assert (R : exists r, rstrip (c :: t) = c :: r).
    { cbn [rstrip]. destruct (rstrip t); [rewrite N|]; eauto. }
    destruct R as (r & R).
    assert (X : rstrip (sp ++ c :: t) = sp ++ rstrip (c :: t)).
    { clear -R. induction sp as [|d sp IH]; [reflexivity|]. cbn [app]. change (rstrip (d :: sp ++ c :: t)) with (match rstrip (sp ++ c :: t) with [] => if isspace d then [] else [d] | r => d :: r end).
      rewrite IH, R. destruct sp; reflexivity. }
    rewrite X, R, lskip_sp by exact A. cbn [lskip]. rewrite N. reflexivity.
Qed.
Lemma rstrip_incl s c : In c (rstrip s) -> In c s.
Proof. intros H. destruct (rstrip_split s) as (sp & E & _). rewrite E. apply in_app_iff. left. exact H. Qed.
Lemma lskip_incl s c : In c (lskip s) -> In c s.
Proof. intros H. destruct (lskip_split s) as (sp & E & _). rewrite E. apply in_app_iff. right. exact H. Qed.

(** * find_chars *)
Lemma find_spec chars w s : forall a b, find_chars chars w s = (a, b) -> s = a ++ b /\ scan w a = true /\ (forall c, In c chars -> ~ In c a).
Proof.
  revert w. induction s as [|c s IH]; intros w a b; cbn [find_chars]; [intros E; injection E as <- <-; repeat split; auto|].
  destruct (mem c chars || (w && Ascii.eqb c ";")) eqn:M; [intros E; injection E as <- <-; repeat split; auto|].
  destruct (find_chars chars (isspace c) s) as [a' b'] eqn:F. intros E. injection E as <- <-. destruct (IH _ _ _ F) as (-> & S & N). apply orb_false_iff in M. destruct M as (M1 & M2).
  repeat split; [cbn [scan]; rewrite M2, S; reflexivity|]. intros d Hd [<-|H]; [apply mem_nIn in M1; contradiction|apply (N d Hd H)].
Qed.
Lemma find_app chars w a b : scan w a = true -> (forall c, In c chars -> ~ In c a) ->
  find_chars chars w (a ++ b) = (a ++ fst (find_chars chars (ends_space w a) b), snd (find_chars chars (ends_space w a) b)).
Proof.
  revert w. induction a as [|c a IH]; intros w S N; [cbn [app ends_space rev]; unfold ends_space; cbn [rev]; destruct (find_chars chars w b); reflexivity|].
  cbn [app find_chars scan] in *. apply andb_true_iff in S. destruct S as (S1 & S2). apply negb_true_iff in S1. rewrite S1.
  assert (M : mem c chars = false) by (apply mem_nIn; intros H; apply (N c H); left; reflexivity). rewrite M. cbn [orb]. rewrite IH; [|exact S2|intros d Hd H; apply (N d Hd); right; exact H].
  rewrite ends_space_cons. reflexivity.
Qed.
Lemma scan_allsp w s : allsp s -> scan w s = true.
Proof.
  revert w. induction s as [|c s IH]; intros w H; [reflexivity|]. cbn [scan]. rewrite IH by (intros d Hd; apply H; right; exact Hd). rewrite andb_true_r. apply negb_true_iff.
  destruct (Ascii.eqb c ";") eqn:E; [|apply andb_false_r]. apply Ascii.eqb_eq in E. subst c. specialize (H _ (or_introl eq_refl)). discriminate.
Qed.
(** The value after the separator is that of the unstripped line. *)
Lemma find_rstrip w s : rstrip (fst (find_chars [] w (rstrip s))) = rstrip (fst (find_chars [] w s)).
Proof.
  destruct (rstrip_split s) as (sp & E & A & _). rewrite E at 2. destruct (find_chars [] w (rstrip s)) as [a b] eqn:F. destruct (find_spec _ _ _ _ _ F) as (E2 & S & _). cbn [fst].
  destruct b as [|c b].
  - rewrite app_nil_r in E2. rewrite <- E2 in *. rewrite find_app by (try exact S; intros c []). cbn [fst]. rewrite <- (app_nil_r sp) at 1. rewrite find_app by (try (apply scan_allsp, A); intros c []). cbn.
    rewrite app_nil_r, rstrip_sp by exact A. reflexivity.
  - rewrite E2, <- app_assoc. rewrite find_app by (try exact S; intros d []).
    assert (X : forall x, find_chars [] w (a ++ x) = (a, x) -> True) by auto. clear X.
    rewrite E2 in F. rewrite find_app in F by (try exact S; intros d []). apply (f_equal snd) in F. cbn [snd] in F. cbn [app] in F |- *. cbn [find_chars mem] in F |- *.
    destruct (false || ends_space w a && Ascii.eqb c ";"); [cbn [fst]; rewrite app_nil_r; reflexivity|exfalso].
    destruct (find_chars [] (isspace c) b) as [x y] eqn:F2. cbn [snd] in F. destruct (find_spec _ _ _ _ _ F2) as (E3 & _). rewrite E3 in F.
    apply (f_equal (@length _)) in F. cbn [length] in F. rewrite app_length in F. lia.
Qed.
(** The shape of what follows the separator. *)
Lemma value_of sp v r : allsp sp -> value_ok v -> (sp <> [] -> first_not [";"%char] v) -> trailing r ->
  rstrip (lskip (fst (find_chars [] false (sp ++ v ++ r)))) = v.
Proof.
  intros SP (O & NC & NL & NT) F (s1 & c & -> & B & _ & T). apply blank_allsp in B. apply no_comment_scan in NC.
  assert (SV : scan (ends_space false sp) v = true).
  { apply scan_first. split; [exact NC|]. intros E. apply F. intros ->. discriminate E. }
  assert (FC : fst (find_chars [] false (sp ++ v ++ s1 ++ c)) = sp ++ v ++ s1).
  { assert (S1 : scan false (sp ++ v ++ s1) = true). { rewrite !scan_app, scan_allsp, SV, scan_allsp by assumption. reflexivity. }
    replace (sp ++ v ++ s1 ++ c) with ((sp ++ v ++ s1) ++ c) by (rewrite <- !app_assoc; reflexivity). rewrite find_app by (try exact S1; intros d []). cbn [fst].
    destruct T as [->|(NE & t & ->)]; [cbn; apply app_nil_r|]. assert (ES : ends_space false (sp ++ v ++ s1) = true).
    { destruct s1 as [|x s1] using rev_ind; [contradiction|]. unfold ends_space. rewrite !app_assoc, rev_app_distr. cbn. apply B, in_app_iff. right. left. reflexivity. }
    rewrite ES. cbn. apply app_nil_r. }
  rewrite FC. rewrite lskip_sp by exact SP. destruct v as [|x v]; [cbn [app]; rewrite lskip_allsp by exact B; reflexivity|].
  rewrite (lskip_id ((x :: v) ++ s1)); [|intros d t E; injection E as <- _; apply (NL x v eq_refl)]. rewrite rstrip_sp by exact B. apply rstrip_id, NT.
Qed.

(** * One line *)
Definition item_step (st : pstate) (i : item) : pstate :=
  match i with
  | Section n _ => mkP n [] (p_error st) (p_values st)
  | Assign n _ _ _ v _ => mkP (p_section st) (strncpy0 n) (p_error st) (handler (p_section st) n v (p_values st))
  | Continue _ v _ => mkP (p_section st) (p_prev st) (p_error st) (handler (p_section st) (p_prev st) v (p_values st))
  | _ => st
  end.
Lemma process_eol n st m l eol : allsp eol -> process n st m (l ++ eol) = process n st m l.
Proof. intros H. unfold process. rewrite rstrip_sp by exact H. reflexivity. Qed.
Lemma no_trail_app a b : b <> [] -> no_trail b -> no_trail (a ++ b).
Proof. intros NE N c t E. destruct b as [|x b] using rev_ind; [contradiction|]. rewrite app_assoc in E. apply app_inj_tail in E. destruct E as (_ & <-). apply (N x b eq_refl). Qed.
Lemma no_trail_one c : isspace c = false -> no_trail [c].
Proof. intros H d t E. destruct t as [|x [|]]; cbn [app] in E; try discriminate. injection E as <-. exact H. Qed.
Lemma no_lead_app a b : a <> [] -> no_lead a -> no_lead (a ++ b).
Proof. intros NE N c t E. destruct a as [|x a]; [contradiction|]. injection E as <- _. apply (N x a eq_refl). Qed.
Lemma strncpy0_nil s : strncpy0 s = [] <-> s = [].
Proof. destruct s; [split; reflexivity|split; discriminate]. Qed.
Lemma strncpy0_id s : (length s <= 49)%nat -> strncpy0 s = s.
Proof. intros H. apply firstn_all2. exact H. Qed.

Lemma process_item lineno st i prev : item_ok prev i -> p_prev st = strncpy0 prev -> process lineno st false (line_of i) = item_step st i.
Proof.
  intros OK EP. destruct i as [name tail|name sp1 sep sp2 value rest|sp value rest|sp|sp c text]; cbn [item_ok line_of item_step] in *.
  - destruct OK as ((O & W & NC & LN) & OT). unfold process. set (hd := "["%char :: name ++ ["]"%char]).
    replace ("["%char :: name ++ "]"%char :: tail) with (hd ++ tail) by (unfold hd; cbn [app]; rewrite <- app_assoc; reflexivity).
    rewrite rstrip_app; [|discriminate|apply (no_trail_app ("["%char :: name) ["]"%char]); [discriminate|apply no_trail_one; reflexivity]].
    rewrite lskip_id by (apply no_lead_app; [discriminate|intros c t E; injection E as <- _; reflexivity]).
    rewrite Nat.eqb_refl. cbn [negb orb]. unfold hd. cbn [app]. cbn [mem Ascii.eqb Bool.eqb orb]. rewrite andb_false_r. cbn [Ascii.eqb Bool.eqb].
    apply no_comment_scan in NC. rewrite <- app_assoc. rewrite find_app by (try exact NC; exact W). cbn [app find_chars mem Ascii.eqb Bool.eqb orb fst snd]. rewrite app_nil_r, strncpy0_id by exact LN. reflexivity.
  - destruct OK as ((O & W & NC & NL & NT & FN) & EM & B1 & SEP & B2 & VO & FS & TR). unfold process. apply blank_allsp in B1. apply blank_allsp in B2.
    set (vr := sp2 ++ value ++ rest). replace (name ++ sp1 ++ sep :: vr) with ((name ++ sp1 ++ [sep]) ++ vr) by (rewrite <- !app_assoc; reflexivity).
    assert (SS : isspace sep = false) by (destruct SEP as [-> | ->]; reflexivity).
    rewrite rstrip_app; [|destruct name, sp1; discriminate|rewrite app_assoc; apply no_trail_app; [discriminate|apply no_trail_one, SS]].
    set (start := lskip ((name ++ sp1 ++ [sep]) ++ rstrip vr)).
    (* the stripped line starts with the name, or with the separator *)
    assert (ST : exists w, start = name ++ w ++ [sep] ++ rstrip vr /\ allsp w /\ (name = [] -> w = []) /\ (length start = length ((name ++ sp1 ++ [sep]) ++ rstrip vr) \/ prev = [])).
    { unfold start. destruct name as [|x name].
      - exists []. cbn [app]. rewrite <- app_assoc, lskip_sp by exact B1. rewrite lskip_id by (cbn [app]; intros c t E; injection E as <- _; exact SS).
        split; [reflexivity|]. split; [intros c []|]. split; [reflexivity|]. destruct (EM eq_refl) as [-> | ->]; [right; reflexivity|left; reflexivity].
      - exists sp1. rewrite lskip_id; [|apply no_lead_app; [discriminate|apply no_lead_app; [discriminate|exact NL]]]. split; [rewrite <- !app_assoc; reflexivity|]. split; [exact B1|]. split; [discriminate|left; reflexivity]. }
    destruct ST as (w & ST & WS & WE & IND). generalize dependent start. intros start ST IND. rewrite ST.
    assert (HD : exists c r, name ++ w ++ [sep] ++ rstrip vr = c :: r /\ mem c [";"; "#"]%char = false /\ Ascii.eqb c "[" = false).
    { destruct name as [|x name].
      - rewrite (WE eq_refl). exists sep, (rstrip vr). split; [reflexivity|]. destruct SEP as [-> | ->]; split; reflexivity.
      - exists x, (name ++ w ++ [sep] ++ rstrip vr). split; [reflexivity|]. specialize (FN x name eq_refl). split.
        + apply mem_nIn. intros H. apply FN. right. exact H.
        + apply Ascii.eqb_neq. intros ->. apply FN. left. reflexivity. }
    assert (FIND : find_chars ["="; ":"]%char false (name ++ w ++ [sep] ++ rstrip vr) = (name ++ w, sep :: rstrip vr)).
    { apply no_comment_scan in NC. assert (SC : scan false (name ++ w) = true) by (rewrite scan_app, NC, scan_allsp by exact WS; reflexivity). rewrite app_assoc, find_app; [|exact SC|].
      - cbn [app find_chars]. replace (mem sep ["="; ":"]%char) with true by (destruct SEP as [-> | ->]; reflexivity). cbn [orb fst snd]. rewrite app_nil_r. reflexivity.
      - intros c Hc H. apply in_app_iff in H. destruct H as [H|H]; [apply (W c Hc H)|]. specialize (WS c H). destruct Hc as [<-|[<-|[]]]; discriminate. }
    assert (NN : rstrip (name ++ w) = name) by (rewrite rstrip_sp by exact WS; apply rstrip_id, NT).
    assert (VV : rstrip (lskip (fst (find_chars [] false (rstrip vr)))) = value).
    { rewrite strip_comm, find_rstrip, <- strip_comm. unfold vr. apply value_of; assumption. }
    destruct HD as (c & r & HD & M1 & M2). rewrite HD in *. rewrite M1.
    replace (negb (str_eqb (p_prev st) []) && (false || negb (length (c :: r) =? length ((name ++ sp1 ++ [sep]) ++ rstrip vr))%nat)) with false.
    2:{ symmetry. destruct IND as [E| ->]; [|rewrite EP; reflexivity]. rewrite <- E, ST, Nat.eqb_refl. apply andb_false_r. }
    rewrite M2, FIND. replace (mem sep ["="; ":"]%char) with true by (destruct SEP as [-> | ->]; reflexivity). rewrite NN, VV. reflexivity.
  - destruct OK as (PN & PL & B & SN & VN & VO & FN & TR). apply blank_allsp in B. unfold process. rewrite app_assoc.
    destruct VO as (VO1 & VO2 & VO3 & VO4). rewrite rstrip_app; [|destruct sp, value; try contradiction; discriminate|apply no_trail_app; assumption].
    rewrite <- app_assoc, lskip_sp by exact B. rewrite lskip_id by (apply no_lead_app; assumption). destruct value as [|c v]; [contradiction|]. cbn [app]. specialize (FN c v eq_refl).
    replace (mem c [";"; "#"]%char) with false by (symmetry; apply mem_nIn; exact FN).
    assert (E1 : str_eqb (p_prev st) [] = false) by (apply str_eqb_neq; rewrite EP, strncpy0_nil; exact PN). rewrite E1.
    assert (E2 : (length (c :: v ++ rstrip rest) =? length (sp ++ c :: v ++ rstrip rest))%nat = false).
    { apply Nat.eqb_neq. rewrite app_length. destruct sp; [contradiction|]. cbn [length]. lia. }
    rewrite E2. cbn [negb andb orb]. f_equal. f_equal.
    assert (VV : rstrip (lskip (fst (find_chars [] false ([] ++ (c :: v) ++ rest)))) = c :: v).
    { apply value_of; [intros d []|split; auto|intros H; exfalso; apply H; reflexivity|exact TR]. }
    cbn [app] in VV. change (c :: v ++ rstrip rest) with ((c :: v) ++ rstrip rest). rewrite <- rstrip_app by assumption. rewrite find_rstrip.
    rewrite <- VV at 2. f_equal. symmetry. apply lskip_id. intros d t E. cbn [app find_chars mem orb andb] in E. destruct (find_chars [] (isspace c) (v ++ rest)) as [a b]. cbn [fst] in E. injection E as <- _. apply (VO3 c v eq_refl).
  - rewrite <- (app_nil_l sp), process_eol by apply blank_allsp, OK. reflexivity.
  - destruct OK as (B & C & OT). apply blank_allsp in B. unfold process. change (sp ++ c :: text) with (sp ++ [c] ++ text). rewrite app_assoc.
    assert (SC : isspace c = false) by (destruct C as [-> | ->]; reflexivity).
    rewrite rstrip_app; [|destruct sp; discriminate|apply no_trail_app; [discriminate|apply no_trail_one, SC]]. rewrite <- app_assoc, lskip_sp by exact B. cbn [app lskip]. rewrite SC.
    replace (mem c [";"; "#"]%char) with true by (destruct C as [-> | ->]; reflexivity). reflexivity.
Qed.

(** * Lines of a file *)
Lemma take_whole n l t : one_line l -> (length l < n)%nat -> take_line n (l ++ nl :: t) = (l ++ [nl], t).
Proof.
  revert n. induction l as [|c l IH]; intros n O L; (destruct n as [|n]; [cbn in L; lia|]); cbn [app take_line]; [rewrite Ascii.eqb_refl; reflexivity|].
  assert (E : Ascii.eqb c nl = false) by (apply Ascii.eqb_neq; intros ->; apply O; left; reflexivity). rewrite E, IH; [reflexivity|intros H; apply O; right; exact H|cbn in L; lia].
Qed.
Lemma take_exact l t : one_line l -> take_line (length l) (l ++ t) = (l, t).
Proof.
  induction l as [|c l IH]; intros O; [reflexivity|]. cbn [app length take_line].
  assert (E : Ascii.eqb c nl = false) by (apply Ascii.eqb_neq; intros ->; apply O; left; reflexivity). rewrite E, IH; [reflexivity|intros H; apply O; right; exact H].
Qed.
Lemma take_end n l : one_line l -> (length l <= n)%nat -> take_line n l = (l, []).
Proof.
  revert n. induction l as [|c l IH]; intros n O L; [destruct n; reflexivity|]. destruct n as [|n]; [cbn in L; lia|]. cbn [take_line].
  assert (E : Ascii.eqb c nl = false) by (apply Ascii.eqb_neq; intros ->; apply O; left; reflexivity). rewrite E, IH; [reflexivity|intros H; apply O; right; exact H|cbn in L; lia].
Qed.
Lemma bom_eol l : starts_bom l = false -> starts_bom (l ++ [nl]) = false.
Proof.
  unfold starts_bom. destruct l as [|a [|b [|c l]]]; cbn [app firstn]; intros H; [reflexivity| | |exact H].
  - destruct (str_eqb [a; nl] bom) eqn:E; [apply str_eqb_eq in E; discriminate|reflexivity].
  - destruct (str_eqb [a; b; nl] bom) eqn:E; [apply str_eqb_eq in E; discriminate|reflexivity].
Qed.
Lemma process_line_no n st l : (n = 1 -> starts_bom l = false) -> process_line n st l = process n st false l.
Proof. intros H. unfold process_line. destruct (n =? 1) eqn:E; [rewrite H by lia|]; reflexivity. Qed.
(** A line of at most 199 characters, its newline, and the rest of the text. *)
Lemma read_item n st fuel i prev t : item_ok prev i -> p_prev st = strncpy0 prev -> one_line (line_of i) -> (length (line_of i) <= 199)%nat ->
  1 <= n -> (n = 1 -> starts_bom (line_of i) = false) -> (length (line_of i ++ nl :: t) <= fuel)%nat ->
  exists n' fuel', 2 <= n' /\ (length t <= fuel')%nat /\ process_lines n st (split_lines fuel (line_of i ++ nl :: t)) = process_lines n' (item_step st i) (split_lines fuel' t).
Proof.
  intros OK EP O L N1 NB F. pose proof (process_item n st i prev OK EP) as PI. set (l := line_of i) in *. clearbody l.
  assert (SPN : allsp [nl]) by (intros c [<-|[]]; reflexivity).
  rewrite app_length in F. cbn [length] in F. destruct fuel as [|fuel]; [lia|]. destruct (Nat.eq_dec (length l) 199) as [E|NE].
  - exists (n + 1 + 1), (pred fuel). split; [lia|]. split; [lia|]. destruct fuel as [|fuel]; [lia|]. cbn [pred]. destruct l as [|c l]; [discriminate|].
    assert (T1 : take_line 199 ((c :: l) ++ nl :: t) = (c :: l, nl :: t)) by (rewrite <- E; apply take_exact, O).
    change (split_lines (S (S fuel)) ((c :: l) ++ nl :: t)) with (let '(x, r) := take_line 199 ((c :: l) ++ nl :: t) in x :: split_lines (S fuel) r). rewrite T1. cbn [process_lines].
    change (split_lines (S fuel) (nl :: t)) with (let '(x, r) := take_line 199 (nl :: t) in x :: split_lines fuel r). cbn [take_line]. rewrite Ascii.eqb_refl. cbn [process_lines].
    rewrite (process_line_no n) by exact NB. rewrite PI. rewrite (process_line_no (n + 1)) by lia. change [nl] with ([] ++ [nl]). rewrite process_eol by exact SPN. reflexivity.
  - exists (n + 1), fuel. split; [lia|]. split; [lia|]. assert (T1 : take_line 199 (l ++ nl :: t) = (l ++ [nl], t)) by (apply take_whole; [exact O|lia]).
    assert (NEQ : exists c r, l ++ nl :: t = c :: r) by (destruct l; cbn [app]; eauto). destruct NEQ as (c & r & NEQ).
    change (split_lines (S fuel) (l ++ nl :: t)) with (match l ++ nl :: t with _ :: _ => let '(x, r) := take_line 199 (l ++ nl :: t) in x :: split_lines fuel r | [] => [] end).
    rewrite T1. rewrite NEQ. cbn [process_lines]. rewrite (process_line_no n) by (intros X; apply bom_eol, NB, X). rewrite process_eol by exact SPN. rewrite PI. reflexivity.
Qed.
Lemma item_one_line prev i : item_ok prev i -> one_line (line_of i).
Proof.
  assert (B : forall sp, blank sp -> one_line sp) by (intros sp H I; apply (H _ I); reflexivity).
  assert (A : forall a b, one_line a -> one_line b -> one_line (a ++ b)) by (intros a b HA HB I; apply in_app_iff in I; destruct I; auto).
  assert (T : forall r, trailing r -> one_line r) by (intros r (sp & c & -> & H1 & H2 & _); auto).
  assert (K : forall c s, c <> nl -> one_line s -> one_line (c :: s)) by (intros c s H1 H2 [E|I]; [congruence|auto]).
  destruct i as [name tail|name sp1 sep sp2 value rest|sp value rest|sp|sp c text]; cbn [item_ok line_of].
  - intros ((O & _) & OT). apply K; [discriminate|]. apply A; [exact O|]. apply K; [discriminate|exact OT].
  - intros ((O & _) & _ & B1 & SEP & B2 & (VO & _) & _ & TR). apply A; [exact O|]. apply A; [auto|]. apply K; [destruct SEP as [-> | ->]; discriminate|]. auto.
  - intros (_ & _ & B1 & _ & _ & (VO & _) & _ & TR). auto.
  - apply B.
  - intros (B1 & C & OT). apply A; [auto|]. apply K; [destruct C as [-> | ->]; discriminate|exact OT].
Qed.
Lemma prev_step st i prev : item_ok prev i -> p_prev st = strncpy0 prev -> p_prev (item_step st i) = strncpy0 (prev_after prev i).
Proof. destruct i; cbn; auto. Qed.
Definition body (f : list item) : str := concat (map (fun i => line_of i ++ [nl]) f).
Lemma read_body f : forall n st fuel prev t, file_ok prev f -> p_prev st = strncpy0 prev -> Forall (fun i => (length (line_of i) <= 199)%nat) f ->
  1 <= n -> (n = 1 -> match f with i :: _ => starts_bom (line_of i) = false | [] => True end) -> (length (body f ++ t) <= fuel)%nat ->
  exists n' fuel', (f = [] -> n' = n) /\ (f <> [] -> 2 <= n') /\ (length t <= fuel')%nat /\ process_lines n st (split_lines fuel (body f ++ t)) = process_lines n' (fold_left item_step f st) (split_lines fuel' t).
Proof.
  induction f as [|i f IH]; intros n st fuel prev t OK EP FL N1 NB F.
  - exists n, fuel. repeat split; [congruence|exact F].
  - destruct OK as (OK & OKF). inversion_clear FL as [|? ? L FL']. unfold body in *. cbn [map concat fold_left] in *. rewrite <- !app_assoc in *. cbn [app] in *.
    destruct (read_item n st fuel i prev (body f ++ t) OK EP (item_one_line _ _ OK) L N1 NB F) as (n1 & f1 & N2 & F1 & E).
    destruct (IH n1 (item_step st i) f1 (prev_after prev i) t OKF (prev_step _ _ _ OK EP) FL' ltac:(lia) ltac:(lia) F1) as (n2 & f2 & N3 & N4 & F2 & E2).
    exists n2, f2. unfold body in *. split; [discriminate|]. split; [|split; [exact F2|congruence]]. intros _. destruct f as [|j f]; [rewrite (N3 eq_refl); exact N2|apply N4; discriminate].
Qed.
Lemma body_app f g : body (f ++ g) = body f ++ body g.
Proof. unfold body. rewrite map_app, concat_app. reflexivity. Qed.
Lemma file_ok_app f g prev : file_ok prev (f ++ g) <-> file_ok prev f /\ file_ok (fold_left prev_after f prev) g.
Proof. revert prev. induction f as [|i f IH]; intros prev; cbn [app file_ok fold_left]; [tauto|]. rewrite IH. tauto. Qed.
Lemma prev_fold f : forall st prev, file_ok prev f -> p_prev st = strncpy0 prev -> p_prev (fold_left item_step f st) = strncpy0 (fold_left prev_after f prev).
Proof. induction f as [|i f IH]; intros st prev OK EP; [exact EP|]. destruct OK as (OK & OKF). cbn [fold_left]. apply IH; [exact OKF|apply prev_step; assumption]. Qed.
Lemma read_file f last_newline : file_ok [] f -> Forall (fun i => (length (line_of i) <= 199)%nat) f ->
  match f with i :: _ => starts_bom (line_of i) = false | [] => True end ->
  process_lines 1 (mkP [] [] 0 []) (lines (render f last_newline)) = fold_left item_step f (mkP [] [] 0 []).
Proof.
  intros OK FL NB. set (st := mkP [] [] 0 []). unfold lines. destruct last_newline; cbn [render].
  - fold (body f). destruct (read_body f 1 st (length (body f)) [] [] OK eq_refl FL ltac:(lia) (fun _ => NB) ltac:(rewrite app_nil_r; lia)) as (n & fuel & _ & _ & _ & E).
    rewrite app_nil_r in E. rewrite E. destruct fuel; reflexivity.
  - fold (body f). destruct f as [|i f _] using rev_ind; [reflexivity|]. assert (EB : removelast (body (f ++ [i])) = body f ++ line_of i) by (rewrite body_app; unfold body at 2; cbn [map concat]; rewrite app_nil_r, app_assoc; apply removelast_last). rewrite EB. clear EB.
    apply file_ok_app in OK. destruct OK as (OK1 & OK2). cbn [file_ok] in OK2. apply Forall_app in FL. destruct FL as (FL1 & FL2). inversion_clear FL2 as [|? ? L _].
    set (t := line_of i). rewrite fold_left_app. cbn [fold_left].
    destruct (read_body f 1 st (length (body f ++ t)) [] t OK1 eq_refl FL1 ltac:(lia) ltac:(destruct f; [auto|intros _; exact NB]) ltac:(lia)) as (n & fuel & N1 & N2 & F & E). rewrite E.
    pose proof (process_item n (fold_left item_step f st) i _ (proj1 OK2) (prev_fold f st [] OK1 eq_refl)) as PI. fold t in PI. rewrite <- PI.
    pose proof (item_one_line _ _ (proj1 OK2)) as O. fold t in O, L. remember t as t' eqn:ET. clear E PI. destruct t' as [|c t']; [destruct fuel; reflexivity|]. destruct fuel as [|fuel]; [cbn in F; lia|].
    change (split_lines (S fuel) (c :: t')) with (let '(x, r) := take_line 199 (c :: t') in x :: split_lines fuel r). rewrite take_end by assumption.
    replace (split_lines fuel []) with (@nil str) by (destruct fuel; reflexivity). cbn [process_lines]. apply process_line_no. intros ->.
    destruct f as [|j f]; [cbn [app] in NB; fold t in NB; rewrite <- ET in NB; exact NB|specialize (N2 ltac:(discriminate)); lia].
Qed.

(** * Maps *)
Lemma mget_mset {V} k k' (v : V) m : mget k (mset k' v m) = if str_eqb k k' then Some v else mget k m.
Proof.
  induction m as [|[x y] m IH]; cbn [mset mget]; [reflexivity|]. destruct (str_eqb k' x) eqn:E1.
  - apply str_eqb_eq in E1. subst x. cbn [mget]. destruct (str_eqb k k'); reflexivity.
  - destruct (slt k' x); cbn [mget]; [reflexivity|]. rewrite IH. destruct (str_eqb k x) eqn:E2; [|reflexivity]. apply str_eqb_eq in E2. subst x. rewrite str_eqb_sym, E1. reflexivity.
Qed.
Lemma get_set s n e vs s' n' : get_entry s' n' (set_entry s n e vs) = if str_eqb s' s && str_eqb n' n then Some e else get_entry s' n' vs.
Proof.
  unfold get_entry, set_entry. rewrite mget_mset. destruct (str_eqb s' s) eqn:E; [|reflexivity]. apply str_eqb_eq in E. subst s'. rewrite mget_mset. cbn [andb].
  destruct (str_eqb n' n); [reflexivity|]. destruct (mget s vs); reflexivity.
Qed.
Lemma fold_case_eq s : fold_case s = tolower s.
Proof. unfold fold_case, tolower. apply map_ext. intros [[] [] [] [] [] [] [] []]; vm_compute; reflexivity. Qed.
Lemma same_key_low s n s' n' v : same_key s n (s', n', v) = str_eqb (tolower s) (tolower s') && str_eqb (tolower n) (tolower n').
Proof. unfold same_key. rewrite !fold_case_eq. reflexivity. Qed.
Lemma stored_low s n vs : stored s n vs = option_map e_value (get_entry (tolower s) (tolower n) vs).
Proof. unfold stored. rewrite !fold_case_eq. reflexivity. Qed.
Lemma stored_handler s n v vs s' n' : stored s' n' (handler s n v vs) = if same_key s' n' (s, n, v) then Some v else stored s' n' vs.
Proof. rewrite !stored_low, same_key_low. unfold handler. rewrite get_set. destruct (str_eqb _ _ && str_eqb _ _); reflexivity. Qed.
Lemma stored_set s n e vs s' n' : stored s' n' (set_entry (tolower s) (tolower n) e vs) = if same_key s' n' (s, n, []) then Some (e_value e) else stored s' n' vs.
Proof. rewrite !stored_low, same_key_low. rewrite get_set. destruct (str_eqb _ _ && str_eqb _ _); reflexivity. Qed.

(** * What a file sets *)
Lemma strncpy0_short s : strncpy0 s = s \/ (49 < length s)%nat.
Proof. destruct (le_lt_dec (length s) 49); [left; apply strncpy0_id; assumption|right; assumption]. Qed.
Lemma fold_values f : forall st prev s n, file_ok prev f -> p_prev st = strncpy0 prev ->
  stored s n (p_values (fold_left item_step f st)) = match last_value s n (assignments (p_section st) prev f) with Some v => Some v | None => stored s n (p_values st) end.
Proof.
  induction f as [|i f IH]; intros st prev s n OK EP; [reflexivity|]. destruct OK as (OK & OKF). cbn [fold_left]. rewrite (IH (item_step st i) (prev_after prev i) s n OKF (prev_step _ _ _ OK EP)).
  destruct i as [name tail|name sp1 sep sp2 value rest|sp value rest|sp|sp c text]; cbn [item_step assignments prev_after p_section p_values p_prev]; try reflexivity.
  - cbn [last_value]. destruct (last_value s n (assignments (p_section st) name f)); [reflexivity|]. rewrite stored_handler. destruct (same_key _ _ _); reflexivity.
  - cbn [last_value]. destruct (last_value s n (assignments (p_section st) prev f)); [reflexivity|]. rewrite stored_handler, EP.
    destruct OK as (_ & PL & _). rewrite strncpy0_id by exact PL. destruct (same_key _ _ _); reflexivity.
Qed.
Lemma fold_error f : forall st, p_error (fold_left item_step f st) = p_error st.
Proof. induction f as [|i f IH]; intros st; [reflexivity|]. cbn [fold_left]. rewrite IH. destruct i; reflexivity. Qed.
Lemma parse_file f last_newline : file_ok [] f -> Forall (fun i => (length (line_of i) <= 199)%nat) f ->
  match f with i :: _ => starts_bom (line_of i) = false | [] => True end ->
  exists vs, parse (render f last_newline) = Some vs /\ forall s n, stored s n vs = last_value s n (assignments [] [] f).
Proof.
  intros OK FL NB. unfold parse. rewrite read_file by assumption. rewrite fold_error. cbn [p_error]. change (0 =? 0) with true. eexists. split; [reflexivity|].
  intros s n. rewrite (fold_values f (mkP [] [] 0 []) [] s n OK eq_refl). cbn [p_section p_values]. destruct (last_value _ _ _); reflexivity.
Qed.

(** * Queries *)
Lemma getValue_spec {T} (C : codec T) s n vs : getValue C s n vs =
  match get_entry (tolower s) (tolower n) vs with
  | Some e => option_map (fun r => (r, set_entry (tolower s) (tolower n) (mkE (e_value e) (e_from_file e) true) vs)) (conv C (e_value e))
  | None => None
  end.
Proof. unfold getValue. destruct (get_entry _ _ _) as [e|]; [|reflexivity]. destruct (conv C (e_value e)); reflexivity. Qed.
Lemma getValue_result {T} (C : codec T) s n vs : option_map fst (getValue C s n vs) = match stored s n vs with Some v => conv C v | None => None end.
Proof. rewrite getValue_spec, stored_low. destruct (get_entry _ _ _) as [e|]; [|reflexivity]. cbn [option_map]. destruct (conv C (e_value e)); reflexivity. Qed.
Lemma same_key_iff s n s' n' v : same_key s n (s', n', v) = true <-> tolower s = tolower s' /\ tolower n = tolower n'.
Proof. rewrite same_key_low, andb_true_iff, !str_eqb_eq. reflexivity. Qed.
Lemma getValue_keeps {T} (C : codec T) s n vs r vs' : getValue C s n vs = Some (r, vs') -> forall s' n', stored s' n' vs' = stored s' n' vs.
Proof.
  rewrite getValue_spec. destruct (get_entry (tolower s) (tolower n) vs) as [e|] eqn:E; [|discriminate]. destruct (conv C (e_value e)); [|discriminate]. cbn [option_map]. intros X s' n'.
  apply (f_equal (option_map snd)) in X. cbn [option_map snd] in X. injection X as <-. rewrite stored_set. destruct (same_key s' n' (s, n, [])) eqn:K; [|reflexivity].
  apply same_key_iff in K. destruct K as (K1 & K2). cbn [e_value]. rewrite stored_low, K1, K2, E. reflexivity.
Qed.
Lemma hasValue_stored s n vs : hasValue s n vs = match stored s n vs with Some _ => true | None => false end.
Proof. rewrite stored_low. unfold hasValue. destruct (get_entry _ _ _); reflexivity. Qed.
Lemma getValue_default_spec {T} (C : codec T) s n d vs r vs' : getValue_default C s n d vs = Some (r, vs') ->
  match stored s n vs with Some v => conv C v = Some r | None => conv C (show C d) = Some r /\ same C d r = true end /\
  (forall s' n', stored s' n' vs' = match stored s' n' vs with Some v => Some v | None => if same_key s' n' (s, n, []) then Some (show C d) else None end).
Proof.
  unfold getValue_default. rewrite hasValue_stored. destruct (stored s n vs) as [v|] eqn:ES.
  - destruct (getValue C s n vs) as [[r' vs1]|] eqn:G; [|discriminate]. cbn [orb]. intros E. injection E as <- <-. pose proof (getValue_result C s n vs) as R. rewrite G, ES in R. cbn in R.
    split; [auto|]. intros s' n'. rewrite (getValue_keeps _ _ _ _ _ _ G). destruct (stored s' n' vs) eqn:E'; [reflexivity|].
    destruct (same_key s' n' (s, n, [])) eqn:K; [|reflexivity]. apply same_key_iff in K. destruct K as (K1 & K2). rewrite stored_low in ES, E'. rewrite K1, K2, ES in E'. discriminate.
  - set (vs0 := set_entry _ _ _ vs). destruct (getValue C s n vs0) as [[r' vs1]|] eqn:G; [|discriminate]. cbn [orb]. destruct (same C d r') eqn:S; [|discriminate]. intros E. injection E as <- <-.
    assert (S0 : forall s' n', stored s' n' vs0 = if same_key s' n' (s, n, []) then Some (show C d) else stored s' n' vs) by (intros s' n'; unfold vs0; apply stored_set).
    pose proof (getValue_result C s n vs0) as R. rewrite G, S0 in R. assert (K0 : same_key s n (s, n, []) = true) by (apply same_key_iff; auto). rewrite K0 in R. cbn in R.
    split; [split; [auto|exact S]|]. intros s' n'. rewrite (getValue_keeps _ _ _ _ _ _ G), S0. destruct (same_key s' n' (s, n, [])) eqn:K; [|destruct (stored s' n' vs); reflexivity].
    apply same_key_iff in K. destruct K as (K1 & K2). assert (E : stored s' n' vs = stored s n vs) by (rewrite !stored_low, K1, K2; reflexivity). rewrite E, ES. reflexivity.
Qed.
