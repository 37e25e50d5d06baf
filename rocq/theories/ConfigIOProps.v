(** C35: the written configuration reads back. Examples for C34, C35 and C64. *)
From Coq Require Import String Ascii.
From Verif Require Import Base OctreeModel ConfigModel ConfigSpec ConfigProofs ConfigProps ConfigOutput.
Open Scope Z_scope.

(** * C35: any text accepted by the constructor, any queries, then output and read again: the
    same variables with the same text. Missing from the full claim: values starting with ';',
    lines longer than the buffer of the parser (see the refutations), names cut after a blank,
    defaults that cannot be written on one line. *)
Theorem C35_readback_partial text vs0 qs vs : construct text = Some vs0 -> Forall query_ok qs -> run_queries qs vs0 = Some vs ->
  (forall s n e, get_entry s n vs = Some e -> writable n e) ->
  exists vs', construct (output vs) = Some vs' /\
    forall s n, hasValue s n vs' = hasValue s n vs /\ forall T (C : codec T), option_map fst (getValue C s n vs') = option_map fst (getValue C s n vs).
Proof.
  intros E F R W. destruct (construct_good _ _ E) as (G & v & S & CV). destruct (readback vs) as (vs' & E' & ST).
  - apply (good_queries qs vs0); assumption.
  - exists v. split; [|exact CV]. rewrite (C34_history qs vs0 vs R), S. reflexivity.
  - exact W.
  - exists vs'. split; [exact E'|]. intros s n. rewrite !hasValue_stored, ST. split; [reflexivity|]. intros T C. rewrite !getValue_result, ST. reflexivity.
Qed.
(** * Refutations *)
Definition reads_back_as (vs : values) : Prop := exists vs', construct (output vs) = Some vs' /\ forall s n, stored s n vs' = stored s n vs.
Theorem C35_refuted_semicolon : ~ (forall text vs, construct text = Some vs -> (forall s n e, get_entry s n vs = Some e -> (length (output_line (n, e)) <= 200)%nat) -> reads_back_as vs).
Proof.
  intros H. set (text := of_string "x=;q"). destruct (construct text) as [vs|] eqn:E; [|vm_compute in E; discriminate].
  destruct (H text vs E) as (vs' & E' & ST).
  - vm_compute in E. injection E as <-. intros s n e G. unfold get_entry in G. cbn [mget] in G. destruct (str_eqb s _) in G; [|destruct (str_eqb s _) in G]; try discriminate; cbn [mget] in G.
    + destruct (str_eqb n _) eqn:EN in G; [|discriminate]. apply str_eqb_eq in EN. subst. injection G as <-. vm_compute. lia.
    + destruct (str_eqb n _) eqn:EN in G; [|discriminate]. apply str_eqb_eq in EN. subst. injection G as <-. vm_compute. lia.
  - specialize (ST [] (of_string "x")). vm_compute in E. injection E as <-. vm_compute in E'. injection E' as <-. vm_compute in ST. discriminate.
Qed.
Theorem C35_refuted_long : ~ (forall f vs, file_ok [] f -> Forall (fun i => (length (line_of i) <= 199)%nat) f -> (forall s n v, In (s, n, v) (assignments [] [] f) -> first_not [";"%char] v) ->
  construct (render f true) = Some vs -> reads_back_as vs).
Proof.
  intros H. set (v := repeat "v"%char 190). set (f := [Assign (of_string "x") [] "=" [] v []]). destruct (construct (render f true)) as [vs|] eqn:E; [|vm_compute in E; discriminate].
  destruct (H f vs) as (vs' & E' & ST).
  - split; [|exact I]. cbn [item_ok]. split; [repeat split|].
    + intros [X|[]]. discriminate.
    + intros c [<-|[<-|[]]] [X|[]]; discriminate.
    + apply no_comment_scan. reflexivity.
    + intros c t X. injection X as <- _. reflexivity.
    + intros c t X. destruct t as [|? [|]]; try discriminate. injection X as <-. reflexivity.
    + intros c t X. injection X as <- _. intros [Y|[Y|[Y|[]]]]; discriminate.
    + split; [discriminate|]. split; [intros c []|]. split; [left; reflexivity|]. split; [intros c []|]. split.
      { unfold v. repeat split.
        - intros I. apply repeat_spec in I. discriminate.
        - apply no_comment_scan. vm_compute. reflexivity.
        - intros c t X. vm_compute in X. injection X as <- _. reflexivity.
        - intros c t X. assert (I : In c (repeat "v"%char 190)) by (rewrite X; apply in_app_iff; right; left; reflexivity). apply repeat_spec in I. subst. reflexivity. }
      split; [intros X; exfalso; apply X; reflexivity|]. exists [], []. split; [reflexivity|]. split; [intros c []|]. split; [intros []|left; reflexivity].
  - constructor; [|constructor]. apply Nat.leb_le. vm_compute. reflexivity.
  - intros s n w [X|[]]. injection X as <- <- <-. intros c t X. vm_compute in X. injection X as <- _. intros [Y|[]]. discriminate.
  - exact E.
  - vm_compute in E. injection E as <-. vm_compute in E'. discriminate.
Qed.

(** * Examples *)
Definition t (l : list String.string) : str := concat (map (fun s => of_string s ++ [nl]) l).
Definition ex_file := t ["# comment"; "[AMR]"; "level_min = 3 ; coarse"; "Level_Max=5"; ""; "[hydro]"; "gamma : 1.4"; " 1.5"; "[amr]"; "level_MIN = 4"]%string.
Definition ask (s n : String.string) (vs : values) : option str := option_map fst (getValue string_codec (of_string s) (of_string n) vs).
(** The constructor, then a query with default of a missing variable, then another default. *)
Example ex_config : exists vs, construct ex_file = Some vs /\
  ask "amr" "level_min" vs = Some (of_string "4") /\ ask "Amr" "LEVEL_MAX" vs = Some (of_string "5") /\ ask "hydro" "gamma" vs = Some (of_string "1.5") /\ ask "hydro" "cfl" vs = None /\
  exists vs1, getValue_default string_codec (of_string "hydro") (of_string "cfl") (of_string "0.5") vs = Some (of_string "0.5", vs1) /\
  option_map fst (getValue_default string_codec (of_string "Hydro") (of_string "CFL") (of_string "0.8") vs1) = Some (of_string "0.5").
Proof.
  destruct (construct ex_file) as [vs|] eqn:E; [|vm_compute in E; discriminate]. vm_compute in E. injection E as <-. eexists. split; [reflexivity|].
  split; [vm_compute; reflexivity|]. split; [vm_compute; reflexivity|]. split; [vm_compute; reflexivity|]. split; [vm_compute; reflexivity|]. eexists. split; vm_compute; reflexivity.
Qed.
(** The hypotheses of C34_file_partial. *)
Example ex_file_ok : exists f, file_ok [] f /\ Forall (fun i => (length (line_of i) <= 199)%nat) f /\ render f true = t ["[A]"; "x = 1"; " 2"]%string /\
  assignments [] [] f = [(of_string "A", of_string "x", of_string "1"); (of_string "A", of_string "x", of_string "2")].
Proof.
  exists [Section (of_string "A") []; Assign (of_string "x") [" "%char] "=" [" "%char] (of_string "1") []; Continue [" "%char] (of_string "2") []].
  assert (B : blank [" "%char]) by (intros c [<-|[]]; split; [reflexivity|discriminate]). assert (TR : trailing []) by (exists [], []; split; [reflexivity|split; [intros c []|split; [intros []|left; reflexivity]]]).
  assert (V : forall c, isspace c = false -> c <> nl -> value_ok [c]).
  { intros c S N. repeat split; [intros [X|[]]; auto|apply no_comment_scan; reflexivity|intros d u X; injection X as <- _; exact S|apply no_trail_one, S]. }
  split; [|split; [|split; reflexivity]].
  - cbn [file_ok prev_after item_ok]. split; [|split; [|split; [|exact I]]].
    + split; [|intros []]. split; [apply mem_nIn; reflexivity|]. split; [intros c [<-|[]]; apply mem_nIn; reflexivity|]. split; [apply no_comment_scan; reflexivity|cbn; lia].
    + split; [|split; [intros X; discriminate|]].
      * split; [apply mem_nIn; reflexivity|]. split; [intros c [<-|[<-|[]]]; apply mem_nIn; reflexivity|]. split; [apply no_comment_scan; reflexivity|]. split; [intros c u X; injection X as <- _; reflexivity|].
        split; [apply no_trail_one; reflexivity|intros c u X; injection X as <- _; apply mem_nIn; reflexivity].
      * split; [exact B|]. split; [left; reflexivity|]. split; [exact B|]. split; [apply V; [reflexivity|discriminate]|]. split; [intros _ c u X; injection X as <- _; apply mem_nIn; reflexivity|exact TR].
    + split; [discriminate|]. split; [cbn; lia|]. split; [exact B|]. split; [discriminate|]. split; [discriminate|]. split; [apply V; [reflexivity|discriminate]|].
      split; [intros c u X; injection X as <- _; apply mem_nIn; reflexivity|exact TR].
  - repeat constructor; cbn; lia.
Qed.
(** C35: what is written, and read again. *)
Example ex_output : exists vs, construct (t ["[amr]"; "max=5"]%string) = Some vs /\
  output vs = t ["[amr]"; "max                  = 5                    ; Unused"; "[ini]"; "print_config         = false                ; Default"]%string /\
  (forall s n e, get_entry s n vs = Some e -> writable n e) /\ exists vs', construct (output vs) = Some vs' /\ ask "amr" "max" vs' = Some (of_string "5").
Proof.
  destruct (construct (t ["[amr]"; "max=5"]%string)) as [vs|] eqn:E; [|vm_compute in E; discriminate]. vm_compute in E. injection E as <-. eexists. split; [reflexivity|]. split; [vm_compute; reflexivity|]. split.
  - intros s n e G. unfold get_entry in G. cbn [mget] in G. destruct (str_eqb s _) in G; [|destruct (str_eqb s _) in G]; try discriminate; cbn [mget] in G.
    + destruct (str_eqb n _) eqn:EN in G; [|discriminate]. apply str_eqb_eq in EN. subst. injection G as <-. split; [|split; [intros c u X; injection X as <- _; intros [Y|[]]; discriminate|vm_compute; lia]].
      apply (no_trail_app (of_string "ma") (of_string "x")); [discriminate|apply no_trail_one; reflexivity].
    + destruct (str_eqb n _) eqn:EN in G; [|discriminate]. apply str_eqb_eq in EN. subst. injection G as <-. split; [|split; [intros c u X; injection X as <- _; intros [Y|[]]; discriminate|vm_compute; lia]].
      apply (no_trail_app (of_string "print_confi") (of_string "g")); [discriminate|apply no_trail_one; reflexivity].
  - destruct (construct (output _)) as [vs'|] eqn:E'; [|vm_compute in E'; discriminate]. exists vs'. split; [reflexivity|]. vm_compute in E'. injection E' as <-. vm_compute. reflexivity.
Qed.
(** C64 *)
Example ex_malformed : malformed (of_string "[amr") /\ malformed (of_string "level_max 5") /\ construct (t ["[amr]"; "level_max 5"; "x=1"]%string) = None.
Proof.
  split; [|split; [|vm_compute; reflexivity]]; (split; [discriminate|]; split; [apply mem_nIn; reflexivity|]; split; [intros c u X; injection X as <- _; reflexivity|]; split; [intros c u X; injection X as <- _; apply mem_nIn; reflexivity|]).
  - intros c [<-|[]]. apply mem_nIn. reflexivity.
  - intros c [<-|[<-|[]]]; apply mem_nIn; reflexivity.
Qed.

Print Assumptions C34_file_partial.
Print Assumptions C34_history.
Print Assumptions C34_default.
Print Assumptions C34_repeat.
Print Assumptions C34_whitespace.
Print Assumptions C34_default_defined.
Print Assumptions C34_refuted_long.
Print Assumptions C34_refuted_section.
Print Assumptions C64_malformed.
Print Assumptions C35_readback_partial.
Print Assumptions C35_refuted_semicolon.
Print Assumptions C35_refuted_long.
