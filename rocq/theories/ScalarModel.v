(** Model of the scalar data of a simulation: utils/misc/MultiTypeMap.h, used with the types int and
    real_t (ScalarSimulationData.h:7). The values of the two types are any types [A] and [B]; a
    std::map is its list of entries in the order of the keys (std::string: unsigned bytes, a prefix first). *)
From Coq Require Import List String.
Import ListNotations.

(** std::map::operator[] and assignment (l.59). *)
Fixpoint assign {V} (k : string) (v : V) (m : list (string * V)) : list (string * V) :=
  match m with
  | [] => [(k, v)]
  | (k', v') :: m' => match String.compare k k' with Lt => (k, v) :: m | Eq => (k, v) :: m' | Gt => (k', v') :: assign k v m' end
  end.
(** std::map::at (l.26), None is std::out_of_range. *)
Fixpoint at_key {V} (k : string) (m : list (string * V)) : option V :=
  match m with [] => None | (k', v) :: m' => match String.compare k k' with Eq => Some v | Gt => at_key k m' | Lt => None end end.
(** std::map::map(initializer_list) (l.19): an entry whose key is there already is not inserted. *)
Definition insert_new {V} (m : list (string * V)) (e : string * V) : list (string * V) :=
  match at_key (fst e) m with Some _ => m | None => assign (fst e) (snd e) m end.
Definition from_list {V} (l : list (string * V)) : list (string * V) := fold_left insert_new l [].

(** l.90, the tuple of maps. *)
Record scalar_data (A B : Type) := mkScalars { ints : list (string * A); reals : list (string * B) }.
Arguments mkScalars {A B}. Arguments ints {A B}. Arguments reals {A B}.
(** l.16-20 *)
Definition scalars_new {A B} (is : list (string * A)) (rs : list (string * B)) : scalar_data A B := mkScalars (from_list is) (from_list rs).
(** l.22-54, get<int> and get<real_t>; None is the exception. *)
Definition get_int {A B} (s : scalar_data A B) (k : string) : option A := at_key k (ints s).
Definition get_real {A B} (s : scalar_data A B) (k : string) : option B := at_key k (reals s).
(** What a caller does: set<T> (l.56-60), or an assignment to the reference that get<T> gives (l.49-54). *)
Inductive action (A B : Type) := SetInt (k : string) (v : A) | SetReal (k : string) (v : B) | AssignInt (k : string) (v : A) | AssignReal (k : string) (v : B).
Arguments SetInt {A B}. Arguments SetReal {A B}. Arguments AssignInt {A B}. Arguments AssignReal {A B}.
(** An assignment through a reference throws, and does nothing, if the variable is not there. *)
Definition act {A B} (s : scalar_data A B) (a : action A B) : scalar_data A B :=
  match a with
  | SetInt k v => mkScalars (assign k v (ints s)) (reals s)
  | SetReal k v => mkScalars (ints s) (assign k v (reals s))
  | AssignInt k v => match get_int s k with Some _ => mkScalars (assign k v (ints s)) (reals s) | None => s end
  | AssignReal k v => match get_real s k with Some _ => mkScalars (ints s) (assign k v (reals s)) | None => s end
  end.
(** l.62-75, foreach_var: what the function is called with. *)
Definition visited {A B} (s : scalar_data A B) : list (string * (A + B)) :=
  map (fun e => (fst e, inl (snd e))) (ints s) ++ map (fun e => (fst e, inr (snd e))) (reals s).
