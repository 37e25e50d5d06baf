(** Model of the conversions of integers and enumerators (utils/config/ConfigMap.h l.22-158,
    utils/config/named_enum.h) and of utils/misc/RegisteringFactory.h (under /repo/core/src). *)
From Coq Require Import String Ascii.
From Verif Require Import Base OctreeModel ConfigModel.
Open Scope Z_scope.

(** * Integers *)
(** [sst << t] (ConfigMap.h l.148-154) for an integer, default flags. [fuel]: number of digits. *)
Fixpoint show_digits (fuel : nat) (z : Z) : str :=
  match fuel with
  | O => []
  | S fuel => if z <? 10 then [chr (48 + z)] else show_digits fuel (z / 10) ++ [chr (48 + z mod 10)]
  end.
Definition show_int (z : Z) : str :=
  let digits z := show_digits (S (Z.to_nat (Z.log2 z))) z in
  if z <? 0 then "-"%char :: digits (- z) else digits z.
Definition is_digit (c : ascii) : bool := (48 <=? code c) && (code c <=? 57).
Definition digits_value (s : str) : Z := fold_left (fun a c => 10 * a + (code c - 48)) s 0.
(** [value_stream >> res] followed by the tests of fail and eof (l.78-89), default flags: blanks
    are skipped, then a sign and digits up to the end of the text. Out of range: fail. *)
Definition parse_int (lo hi : Z) (s : str) : option Z :=
  let s := lskip s in
  let '(neg, d) := match s with
                   | c :: t => if Ascii.eqb c "-" then (true, t) else if Ascii.eqb c "+" then (false, t) else (false, s)
                   | [] => (false, s)
                   end in
  if negb (str_eqb d []) && forallb is_digit d then
    let v := digits_value d in
    let v := if neg then - v else v in
    if (lo <=? v) && (v <=? hi) then Some v else None
  else None.
Definition int_codec (lo hi : Z) : codec Z := mkCodec (parse_int lo hi) show_int Z.eqb.

(** * named_enum.h l.19-65: two maps filled with insert: the first registration of a key is kept *)
Definition enum_table := list (Z * str).
Definition from_string (t : enum_table) (s : str) : option Z :=
  option_map fst (List.find (fun p => str_eqb (snd p) s) t).
Definition to_string (t : enum_table) (v : Z) : option str :=
  option_map snd (List.find (fun p => fst p =? v) t).
(** ConfigMap.h l.50-74 and l.131-146. The underlying type of the enumerations of the code is an
    integer type, here of range [lo, hi] (for an unsigned type, operator>> also accepts negative
    numbers, modulo 2^n: not modelled). An enumerator without name makes to_string throw: here
    it gives the empty text, which no enumeration of the code reads. *)
Definition enum_codec (lo hi : Z) (t : enum_table) : codec Z :=
  mkCodec (fun s => match parse_int lo hi s with Some z => Some z | None => from_string t s end)
          (fun v => match to_string t v with Some s => s | None => [] end) Z.eqb.
(** enums.h l.17-83, RiemannSolvers.h l.15-32, ParabolicTerm_thermal_conduction.h l.24-30,
    io/IOManager_hdf5.cpp l.25-31 *)
Definition boundary_table : enum_table := [(1, of_string "reflecting"); (2, of_string "absorbing"); (3, of_string "periodic"); (5, of_string "userdef")].
Definition gravity_table : enum_table := [(0, of_string "none"); (1, of_string "constant_scalar"); (3, of_string "constant_field"); (2, of_string "field")].
Definition riemann_table : enum_table := [(1, of_string "hllc"); (3, of_string "hlld"); (2, of_string "five_waves")].
Definition parabolic_table : enum_table := [(0, of_string "viscosity"); (1, of_string "thermal_conduction")].
Definition diffusivity_table : enum_table := [(0, of_string "constant"); (1, of_string "analytical")].
Definition kappa_table : enum_table := [(0, of_string "none"); (1, of_string "tri_layer")].
Definition output_table : enum_table := [(0, of_string "float"); (1, of_string "double")].

(** * RegisteringFactory.h. [A]: the registered classes. *)
Section Factory.
Context {A : Type}.
Definition none_id := of_string "none".
(** register_class, l.82-98; the second component: no exception *)
Definition register_class (m : list (str * A)) (id : str) (a : A) : list (str * A) * bool :=
  if str_eqb id none_id then (m, false)
  else match mget id m with Some _ => (m, false) | None => (mset id a m, true) end.
Fixpoint register_all (m : list (str * A)) (h : list (str * A)) : list (str * A) * list bool :=
  match h with
  | [] => (m, [])
  | (id, a) :: h => let '(m, r) := register_class m id a in let '(m, rs) := register_all m h in (m, r :: rs)
  end.
(** make_instance, l.58-80: an object of class a, nothing (null pointer), or an exception *)
Inductive made := Built (a : A) | Nothing | Unknown.
Definition make_instance (m : list (str * A)) (id : str) : made :=
  if str_eqb id none_id then Nothing else match mget id m with Some a => Built a | None => Unknown end.
(** get_available_ids, l.40-49 *)
Definition available_ids (m : list (str * A)) : list str := map fst m.
End Factory.
