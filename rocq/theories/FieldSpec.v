(** Specification vocabulary for named fields: a dictionary of independent arrays. *)
From Coq Require String.
From Verif Require Import Base RefineModel.

(** Values of one field: one block per local octant and per ghost octant. *)
Definition array (X : Type) : Type := list (list X) * list (list X).
Definition dict (X : Type) : Type := list (String.string * array X).

Inductive field_op (X : Type) :=
| New (names : list String.string)
| Rename (dest src : String.string)
| Delete (name : String.string)
| Write (name : String.string) (ghost : bool) (octant cell : nat) (value : X).
Arguments New {X}. Arguments Rename {X}. Arguments Delete {X}. Arguments Write {X}.

Section Dict.
Context {X : Type}.
Fixpoint lookup (n : String.string) (m : dict X) : option (array X) :=
  match m with [] => None | (k, a) :: m => if String.eqb k n then Some a else lookup n m end.
Definition remove (n : String.string) (m : dict X) : dict X := filter (fun p => negb (String.eqb (fst p) n)) m.
Definition value (a : array X) (ghost : bool) (o c : nat) : option X :=
  match nth_error (if ghost then snd a else fst a) o with Some b => nth_error b c | None => None end.
Definition with_value (a : array X) (ghost : bool) (o c : nat) (x : X) : array X :=
  let w := upd_nth o (upd_nth c (fun _ => x)) in if ghost then (fst a, w (snd a)) else (w (fst a), snd a).

(** [fresh]: the array of a new field. At most [limit] fields exist at a time. *)
Definition step (fresh : array X) (limit : nat) (m : dict X) (o : field_op X) : option (dict X) :=
  match o with
  | New names =>
    if forallb (fun n => match lookup n m with None => true | Some _ => false end) names && (length m + length names <=? limit)%nat
    then Some (map (fun n => (n, fresh)) names ++ m) else None
  | Rename dest src =>
    match lookup src m with Some a => Some ((dest, a) :: remove src (remove dest m)) | None => None end
  | Delete n => Some (remove n m)
  | Write n ghost o c x =>
    match lookup n m with
    | Some a => match value a ghost o c with
                | Some _ => Some ((n, with_value a ghost o c x) :: remove n m)
                | None => None
                end
    | None => None
    end
  end.
Fixpoint run (fresh : array X) (limit : nat) (m : dict X) (ops : list (field_op X)) : option (dict X) :=
  match ops with [] => Some m | o :: ops => match step fresh limit m o with Some m => run fresh limit m ops | None => None end end.
(** New takes a set of names. *)
Definition set_op (o : field_op X) : Prop := match o with New names => NoDup names | _ => True end.
Definition renames_self (o : field_op X) : Prop := match o with Rename dest src => dest = src | _ => False end.
End Dict.
