(** What a configuration file means, independently of the parser: a list of lines of five
    kinds, and the assignments they make. *)
From Coq Require Import String Ascii.
From Verif Require Import Base OctreeModel ConfigModel.
Open Scope Z_scope.

(** * Shapes of strings *)
Definition blank (s : str) : Prop := forall c, In c s -> isspace c = true /\ c <> nl.
Definition one_line (s : str) : Prop := ~ In nl s.
Definition no_lead (s : str) : Prop := forall c t, s = c :: t -> isspace c = false.
Definition no_trail (s : str) : Prop := forall c t, s = t ++ [c] -> isspace c = false.
(** No comment inside: no ';' after a whitespace character. *)
Definition no_comment (s : str) : Prop := forall a b t, s = a ++ b :: ";"%char :: t -> isspace b = false.
Definition without (cs : str) (s : str) : Prop := forall c, In c cs -> ~ In c s.
Definition first_not (cs : str) (s : str) : Prop := forall c t, s = c :: t -> ~ In c cs.

(** * Lines *)
Inductive item :=
| Section (name tail : str)                                (* [name]tail *)
| Assign (name sp1 : str) (sep : ascii) (sp2 value rest : str) (* name = value ; comment *)
| Continue (sp value rest : str)                           (* indented line after an assignment *)
| Blank (sp : str)
| Comment (sp : str) (c : ascii) (text : str).
Definition line_of (i : item) : str :=
  match i with
  | Section name tail => "["%char :: name ++ "]"%char :: tail
  | Assign name sp1 sep sp2 value rest => name ++ sp1 ++ sep :: sp2 ++ value ++ rest
  | Continue sp value rest => sp ++ value ++ rest
  | Blank sp => sp
  | Comment sp c text => sp ++ c :: text
  end.
(** After a value: blanks, and possibly a comment, which starts after at least one blank. *)
Definition trailing (r : str) : Prop :=
  exists sp c, r = sp ++ c /\ blank sp /\ one_line c /\ (c = [] \/ sp <> [] /\ exists t, c = ";"%char :: t).
Definition section_ok (s : str) : Prop := one_line s /\ without ["]"%char] s /\ no_comment s /\ (length s <= 49)%nat.
Definition name_ok (n : str) : Prop :=
  one_line n /\ without ["="; ":"]%char n /\ no_comment n /\ no_lead n /\ no_trail n /\ first_not ["["; ";"; "#"]%char n.
Definition value_ok (v : str) : Prop := one_line v /\ no_comment v /\ no_lead v /\ no_trail v.

(** A line is well formed after a line that set variable [prev] ([[]]: none). *)
Definition item_ok (prev : str) (i : item) : Prop :=
  match i with
  | Section name tail => section_ok name /\ one_line tail
  | Assign name sp1 sep sp2 value rest =>
      name_ok name /\ (name = [] -> prev = [] \/ sp1 = []) /\ blank sp1 /\ (sep = "="%char \/ sep = ":"%char) /\ blank sp2 /\
      value_ok value /\ (sp2 <> [] -> first_not [";"%char] value) /\ trailing rest
  | Continue sp value rest =>
      prev <> [] /\ (length prev <= 49)%nat /\ blank sp /\ sp <> [] /\ value <> [] /\ value_ok value /\ first_not [";"; "#"]%char value /\ trailing rest
  | Blank sp => blank sp
  | Comment sp c text => blank sp /\ (c = ";"%char \/ c = "#"%char) /\ one_line text
  end.
Definition prev_after (prev : str) (i : item) : str :=
  match i with Section _ _ => [] | Assign name _ _ _ _ _ => name | _ => prev end.
Fixpoint file_ok (prev : str) (f : list item) : Prop :=
  match f with [] => True | i :: f => item_ok prev i /\ file_ok (prev_after prev i) f end.

(** * The text of a file, with or without a newline at the end *)
Definition render (f : list item) (last_newline : bool) : str :=
  let t := concat (map (fun i => line_of i ++ [nl]) f) in if last_newline then t else removelast t.

(** * Assignments: section, name, value, in order. A continuation line sets the variable again. *)
Fixpoint assignments (sec prev : str) (f : list item) : list (str * str * str) :=
  match f with
  | [] => []
  | Section s _ :: f => assignments s [] f
  | Assign n _ _ _ v _ :: f => (sec, n, v) :: assignments sec n f
  | Continue _ v _ :: f => (sec, prev, v) :: assignments sec prev f
  | _ :: f => assignments sec prev f
  end.
(** Letters are compared without case. *)
Fixpoint assoc (c : ascii) (l : list (ascii * ascii)) : ascii := match l with [] => c | (a, b) :: l => if Ascii.eqb c a then b else assoc c l end.
Definition fold_case (s : str) : str :=
  map (fun c => assoc c (combine (list_ascii_of_string "ABCDEFGHIJKLMNOPQRSTUVWXYZ") (list_ascii_of_string "abcdefghijklmnopqrstuvwxyz"))) s.
Definition same_key (s n : str) (a : str * str * str) : bool :=
  let '(s', n', _) := a in str_eqb (fold_case s) (fold_case s') && str_eqb (fold_case n) (fold_case n').
(** Value of the last assignment, names compared without case. *)
Fixpoint last_value (s n : str) (l : list (str * str * str)) : option str :=
  match l with
  | [] => None
  | a :: l => match last_value s n l with Some v => Some v | None => if same_key s n a then Some (snd a) else None end
  end.

(** * Histories of queries *)
Inductive query := | Ask {T : Type} (C : codec T) (s n : str) (d : option T).
Definition run_query (q : query) (vs : values) : option values :=
  match q with
  | Ask C s n (Some d) => option_map snd (getValue_default C s n d vs)
  | Ask C s n None => option_map snd (getValue C s n vs)
  end.
Fixpoint run_queries (qs : list query) (vs : values) : option values :=
  match qs with [] => Some vs | q :: qs => match run_query q vs with Some vs => run_queries qs vs | None => None end end.
(** The text of the default of the first query of a variable. *)
Fixpoint first_default (s n : str) (qs : list query) : option str :=
  match qs with
  | [] => None
  | Ask C s' n' d :: qs => if same_key s n (s', n', []) then option_map (show C) d else first_default s n qs
  end.
(** The text a configuration holds for a variable. *)
Definition stored (s n : str) (vs : values) : option str := option_map e_value (get_entry (fold_case s) (fold_case n) vs).

(** * Writing *)
(** A query whose default, section and name can be written in a file. *)
Definition query_ok (q : query) : Prop :=
  match q with Ask C s n (Some d) => section_ok s /\ name_ok n /\ value_ok (show C d) | Ask _ _ _ None => True end.
(** An entry whose line can be read back: no blank at the end of the name, no ';' at the start of
    the value, at most 199 characters and a newline. *)
Definition writable (n : str) (e : entry) : Prop := no_trail n /\ first_not [";"%char] (e_value e) /\ (length (output_line (n, e)) <= 200)%nat.
