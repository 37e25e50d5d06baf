(** Model of utils/config/inih/ini.cpp and utils/config/ConfigMap.h (under /repo/core/src).

    A C string is the list of its characters before the terminating NUL. The macros have the
    values of ini.h l.97-162: multi-line values, BOM and inline comments (prefix ';') allowed,
    lines read into a buffer of 200 characters on the stack, no stop on the first error. *)
From Coq Require Import String Ascii.
From Verif Require Import Base OctreeModel.
Open Scope Z_scope.

Definition str := list ascii.
Definition code (c : ascii) : Z := Z.of_N (N_of_ascii c).
Definition chr (z : Z) : ascii := ascii_of_N (Z.to_N z).
Definition nl : ascii := chr 10.
Fixpoint mem (c : ascii) (s : str) : bool := match s with [] => false | d :: s => Ascii.eqb c d || mem c s end.
Fixpoint str_eqb (a b : str) : bool :=
  match a, b with [], [] => true | x :: a, y :: b => Ascii.eqb x y && str_eqb a b | _, _ => false end.
(** isspace and tolower of the C locale. *)
Definition isspace (c : ascii) : bool := (9 <=? code c) && (code c <=? 13) || (code c =? 32).
Definition lower_char (c : ascii) : ascii := if (65 <=? code c) && (code c <=? 90) then chr (code c + 32) else c.
(** ConfigMap.h l.401-405 *)
Definition tolower (s : str) : str := map lower_char s.

(** * ini.cpp *)
(** rstrip, l.48-54 *)
Fixpoint rstrip (s : str) : str :=
  match s with
  | [] => []
  | c :: t => match rstrip t with [] => if isspace c then [] else [c] | r => c :: r end
  end.
(** lskip, l.57-62 *)
Fixpoint lskip (s : str) : str := match s with [] => [] | c :: t => if isspace c then lskip t else s end.
(** find_chars_or_comment, l.67-83: the part before the returned pointer, and the part from it
    on. *)
Fixpoint find_chars (chars : str) (was_space : bool) (s : str) : str * str :=
  match s with
  | [] => ([], [])
  | c :: t => if mem c chars || (was_space && Ascii.eqb c ";") then ([], s)
              else let '(a, b) := find_chars chars (isspace c) t in (c :: a, b)
  end.
(** strncpy0, l.87-95, into an array of 50 characters (MAX_SECTION, MAX_NAME) *)
Definition strncpy0 (s : str) : str := firstn 49 s.

(** ini_reader_string, l.266-289: at most [n] = 199 characters, up to a newline. *)
Fixpoint take_line (n : nat) (text : str) : str * str :=
  match n, text with
  | O, _ => ([], text)
  | _, [] => ([], [])
  | S n, c :: t => if Ascii.eqb c nl then ([c], t) else let '(l, r) := take_line n t in (c :: l, r)
  end.
Fixpoint split_lines (fuel : nat) (text : str) : list str :=
  match fuel, text with
  | S fuel, _ :: _ => let '(l, r) := take_line 199 text in l :: split_lines fuel r
  | _, _ => []
  end.
Definition lines (text : str) : list str := split_lines (length text) text.

(** * The values of a ConfigMap, l.381-388: std::map of std::map, sorted by key *)
Record entry := mkE { e_value : str; e_from_file : bool; e_used : bool }.
Fixpoint slt (a b : str) : bool :=
  match a, b with
  | _, [] => false
  | [], _ => true
  | x :: a, y :: b => (code x <? code y) || (code x =? code y) && slt a b
  end.
Fixpoint mget {V} (k : str) (m : list (str * V)) : option V :=
  match m with [] => None | (k', v) :: m => if str_eqb k k' then Some v else mget k m end.
Fixpoint mset {V} (k : str) (v : V) (m : list (str * V)) : list (str * V) :=
  match m with
  | [] => [(k, v)]
  | (k', v') :: t => if str_eqb k k' then (k, v) :: t else if slt k k' then (k, v) :: m else (k', v') :: mset k v t
  end.
Definition values := list (str * list (str * entry)).
(** [_values[section][name] = e], keys as given *)
Definition set_entry (section name : str) (e : entry) (vs : values) : values :=
  mset section (mset name e (match mget section vs with Some m => m | None => [] end)) vs.
Definition get_entry (section name : str) (vs : values) : option entry :=
  match mget section vs with Some m => mget name m | None => None end.
(** valueHandler, ConfigMap.h l.389-399 *)
Definition handler (section name value : str) (vs : values) : values :=
  set_entry (tolower section) (tolower name) (mkE value true false) vs.

(** * ini_parse_stream, ini.cpp l.98-241 *)
Record pstate := mkP { p_section : str; p_prev : str; p_error : Z; p_values : values }.
Definition set_error (lineno : Z) (st : pstate) : pstate :=
  mkP (p_section st) (p_prev st) (if p_error st =? 0 then lineno else p_error st) (p_values st).
Definition bom : str := [chr 239; chr 187; chr 191].
Definition starts_bom (l : str) : bool := str_eqb (firstn 3 l) bom.

(** One line after the byte order mark, l.164-226. [moved]: the mark was skipped. *)
Definition process (lineno : Z) (st : pstate) (moved : bool) (line : str) : pstate :=
  let stripped := rstrip line in
  let start := lskip stripped in
  let indented := moved || negb (length start =? length stripped)%nat in
  match start with
  | [] => st                                       (* strchr finds the terminating NUL *)
  | c :: rest =>
    if mem c [";"; "#"]%char then st
    else if negb (str_eqb (p_prev st) []) && indented then
      let value := rstrip (fst (find_chars [] false start)) in
      mkP (p_section st) (p_prev st) (p_error st) (handler (p_section st) (p_prev st) value (p_values st))
    else if Ascii.eqb c "[" then
      let '(sec, e) := find_chars ["]"%char] false rest in
      match e with
      | d :: _ => if Ascii.eqb d "]" then mkP (strncpy0 sec) [] (p_error st) (p_values st) else set_error lineno st
      | [] => set_error lineno st
      end
    else
      let '(n, e) := find_chars ["="; ":"]%char false start in
      match e with
      | d :: v =>
        if mem d ["="; ":"]%char then
          let name := rstrip n in
          let value := rstrip (lskip (fst (find_chars [] false v))) in
          mkP (p_section st) (strncpy0 name) (p_error st) (handler (p_section st) name value (p_values st))
        else set_error lineno st
      | [] => set_error lineno st
      end
  end.
Definition process_line (lineno : Z) (st : pstate) (line : str) : pstate :=
  if (lineno =? 1) && starts_bom line then process lineno st true (skipn 3 line) else process lineno st false line.
Fixpoint process_lines (lineno : Z) (st : pstate) (ls : list str) : pstate :=
  match ls with [] => st | l :: ls => process_lines (lineno + 1) (process_line lineno st l) ls end.
(** ini_parse_string with the handler of ConfigMap; [None]: error, which the constructor of
    ConfigMap turns into an exception (l.197-199). *)
Definition parse (text : str) : option values :=
  let st := process_lines 1 (mkP [] [] 0 []) (lines text) in
  if p_error st =? 0 then Some (p_values st) else None.

(** * Queries, ConfigMap.h l.278-340 *)
(** How a type is read and written: convert_to, to_string and operator==. *)
Record codec (T : Type) := mkCodec { conv : str -> option T; show : T -> str; same : T -> T -> bool }.
Arguments conv {T}. Arguments show {T}. Arguments same {T}. Arguments mkCodec {T}.

(** l.335-340 *)
Definition hasValue (section name : str) (vs : values) : bool :=
  match get_entry (tolower section) (tolower name) vs with Some _ => true | None => false end.
(** l.300-333 *)
Definition getValue {T} (C : codec T) (section name : str) (vs : values) : option (T * values) :=
  match get_entry (tolower section) (tolower name) vs with
  | None => None
  | Some e =>
    match conv C (e_value e) with
    | Some r => Some (r, set_entry (tolower section) (tolower name) (mkE (e_value e) (e_from_file e) true) vs)
    | None => None
    end
  end.
(** l.278-295 *)
Definition getValue_default {T} (C : codec T) (section name : str) (d : T) (vs : values) : option (T * values) :=
  let is_present := hasValue section name vs in
  let vs := if is_present then vs
            else set_entry (tolower section) (tolower name) (mkE (show C d) false false) vs in
  match getValue C section name vs with
  | Some (r, vs) => if is_present || same C d r then Some (r, vs) else None
  | None => None
  end.

(** Conversions, l.22-170: strings, booleans and vectors. *)
Definition of_string (s : String.string) : str := String.list_ascii_of_string s.
Definition string_codec : codec str := mkCodec Some (fun s => s) str_eqb.
Definition is_one_of (s : str) (l : list String.string) : bool := existsb (fun x => str_eqb s (of_string x)) l.
Definition bool_codec : codec bool :=
  mkCodec (fun s => if is_one_of s ["1"; "yes"; "true"; "on"]%string then Some true
                    else if is_one_of s ["0"; "no"; "false"; "off"]%string then Some false else None)
          (fun b => of_string (if b then "true" else "false")%string) Bool.eqb.
(** std::getline with separator ',' until it fails. *)
Fixpoint tokens (acc s : str) : list str :=
  match s with
  | [] => match acc with [] => [] | _ => [acc] end
  | c :: s => if Ascii.eqb c "," then acc :: tokens [] s else tokens (acc ++ [c]) s
  end.
Fixpoint list_eqb {T} (eq : T -> T -> bool) (a b : list T) : bool :=
  match a, b with [], [] => true | x :: a, y :: b => eq x y && list_eqb eq a b | _, _ => false end.
Definition vector_codec {T} (C : codec T) : codec (list T) :=
  mkCodec (fun s => mapM (conv C) (tokens [] s))
          (fun l => removelast (concat (map (fun v => show C v ++ [","%char]) l)))
          (list_eqb (same C)).

(** * Constructor, l.191-201: parse, then read ini/print_config. *)
Definition construct (text : str) : option values :=
  match parse text with
  | Some vs =>
    match getValue_default bool_codec (of_string "ini") (of_string "print_config") false vs with
    | Some (_, vs) => Some vs
    | None => None
    end
  | None => None
  end.

(** * output, l.352-378: what is written to last.ini *)
Definition pad (width : nat) (s : str) : str := s ++ repeat " "%char (width - length s).
Definition output_line (p : str * entry) : str :=
  pad 20 (fst p) ++ of_string " = " ++ pad 20 (e_value (snd p)) ++
  (if e_used (snd p) then [] else of_string " ; Unused") ++
  (if e_from_file (snd p) then [] else of_string " ; Default") ++ [nl].
Definition output_section (p : str * list (str * entry)) : str :=
  ["["%char] ++ fst p ++ ["]"%char; nl] ++ concat (map output_line (snd p)).
Definition output (vs : values) : str := concat (map output_section vs).
