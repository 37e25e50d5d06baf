(** Model of named cell fields (core/src/UserData_fields.h, core/src/FieldManager.h) and named
    particle attributes (core/src/UserData_particles.h).

    Simplifications: one process at a time except for load balancing; cell values are of
    an arbitrary type; the data of an octant is a list of slots, each a list of cell values
    (View U, layout (cell, variable, octant)). [None] is an exception, a failed release
    assertion or an out-of-range access. Debug assertions and assert() are not modelled
    (release build). Loop counters of the parallel kernels do not overflow. Accessors are used
    right after they are created: the API says that other operations invalidate them. *)
From Coq Require String.
From Verif Require Import Base OctreeModel RefineModel CommModel.
Notation string := String.string.

(** ** std::map<std::string, ...>: list sorted by key *)
Definition index := list (string * nat).
Fixpoint find_name (n : string) (m : index) : option nat :=
  match m with [] => None | (k, v) :: m => if String.eqb k n then Some v else find_name n m end.
Fixpoint set_name (n : string) (i : nat) (m : index) : index :=
  match m with
  | [] => [(n, i)]
  | (k, v) :: m' => match String.compare n k with
                    | Lt => (n, i) :: m
                    | Eq => (n, i) :: m'
                    | Gt => (k, v) :: set_name n i m'
                    end
  end.
Definition erase_name (n : string) (m : index) : index := filter (fun p => negb (String.eqb (fst p) n)) m.

(** FieldManager.h:24, 30-45: at most 64 fields in a FieldManager. *)
Definition max_index_count : nat := 64.
(** UserData_fields.h:200. *)
Definition max_field_count : nat := 32.

(** UserData_fields.h:86-101 (UserData_particles.h:62-77), first_free. *)
Definition is_free (m : index) (i : nat) : bool := negb (existsb (fun p => Nat.eqb (snd p) i) m).
Definition first_free (nbfields : nat) (m : index) : option nat := find (is_free m) (seq 0 nbfields).

Section Fields.
Context {X : Type}.
Variable zero : X.
(** Cells of a block. *)
Variable nbc : nat.

(** A block of values of one field in one octant, the data of an octant. *)
Definition zero_block : list X := repeat zero nbc.
Definition row := list (list X).

(** CellArray_global_ghosted: number of fields, octants and ghosts (extents). *)
Record view := mkView { v_n : nat; v_U : list row; v_G : list row }.
(** AMRBlockForeachCell.h:260-280, allocate_ghosted_array: Kokkos views are zero-initialised. *)
Definition alloc (n no ng : nat) : option view :=
  if (n <=? max_index_count)%nat
  then Some (mkView n (repeat (repeat zero_block n) no) (repeat (repeat zero_block n) ng)) else None.

Record fields := mkFields { f_view : view; f_index : index; f_max : nat }.
(** The constructor: nothing allocated. *)
Definition no_fields : fields := mkFields (mkView 0 [] []) [] 0.

(** l.43-60, extend_fields, when the mesh has [no] octants and [ng] ghosts; deep_copy throws
    when extents differ. *)
Definition grow (k : nat) (r : row) : row := r ++ repeat zero_block k.
Definition extend_fields (no ng : nat) (s : fields) : option fields :=
  let v := f_view s in
  match alloc (f_max s) no ng with
  | None => None
  | Some w =>
    if Nat.eqb (v_n v) 0 then Some (mkFields w (f_index s) (f_max s))
    else if (v_n v <=? f_max s)%nat && Nat.eqb (length (v_U v)) no && Nat.eqb (length (v_G v)) ng
    then let k := (f_max s - v_n v)%nat in
         Some (mkFields (mkView (f_max s) (map (grow k) (v_U v)) (map (grow k) (v_G v))) (f_index s) (f_max s))
    else None
  end.

(** l.80-121, the loop body of new_fields for one name. *)
Definition new_field (s : fields) (n : string) : option fields :=
  match find_name n (f_index s) with
  | Some _ => None
  | None =>
    let v := f_view s in
    match first_free (v_n v) (f_index s) with
    | Some i =>
      let clear := map (upd_nth i (fun _ => zero_block)) in
      Some (mkFields (mkView (v_n v) (clear (v_U v)) (clear (v_G v))) (set_name n i (f_index s)) (f_max s))
    | None => None
    end
  end.
Fixpoint new_each (s : fields) (names : list string) : option fields :=
  match names with [] => Some s | n :: names => match new_field s n with Some s => new_each s names | None => None end end.
(** l.66-122, new_fields; [names] in the order of the std::set. *)
Definition new_fields (no ng : nat) (names : list string) (s : fields) : option fields :=
  let v := f_view s in
  let nb := length (f_index s) in
  if negb (Nat.eqb nb 0) && negb (Nat.eqb (length (v_U v)) no && Nat.eqb (length (v_G v)) ng) then None else
  let needed := (nb + length names)%nat in
  let s1 := mkFields v (f_index s) (Nat.max (f_max s) needed) in
  match (if (v_n v <? needed)%nat then extend_fields no ng s1 else Some s1) with
  | Some s2 => new_each s2 names
  | None => None
  end.

(** l.141-156, getField: a copy of the local values; ghosts are left at zero. *)
Definition getField (no : nat) (n : string) (s : fields) : option (list (list X)) :=
  match find_name n (f_index s) with
  | Some i => if Nat.eqb (length (v_U (f_view s))) no then mapM (fun r : row => nth_error r i) (v_U (f_view s)) else None
  | None => None
  end.

(** l.158-165, move_field. *)
Definition move_field (dest src : string) (s : fields) : option fields :=
  match find_name src (f_index s) with
  | Some i => Some (mkFields (f_view s) (erase_name src (set_name dest i (f_index s))) (f_max s))
  | None => None
  end.
(** l.167-170. *)
Definition delete_field (n : string) (s : fields) : fields :=
  mkFields (f_view s) (erase_name n (f_index s)) (f_max s).

(** l.196-274, FieldAccessor: positions in the view by identifier (a later entry replaces an
    earlier one with the same identifier: the assert() is off and l.249 compares equal
    counts) and in the order of the request. *)
Record accessor := mkAccessor { a_ivar : list (nat * nat); a_active : list nat }.
Definition getAccessor (infos : list (string * nat)) (s : fields) : option accessor :=
  match infos with
  | [] => None
  | _ =>
    match mapM (fun x : string * nat => find_name (fst x) (f_index s)) infos with
    | Some idx =>
      if (length infos <=? max_field_count)%nat && forallb (fun x => (snd x <? max_index_count)%nat) infos
      then Some (mkAccessor (rev (combine (map snd infos) idx)) idx) else None
    | None => None
    end
  end.
Definition lookup_id (a : accessor) (id : nat) : option nat :=
  match find (fun p => Nat.eqb (fst p) id) (a_ivar a) with Some p => Some (snd p) | None => None end.

(** l.250-261, at / at_ivar: slot [i] of cell [c] of local (or ghost) octant [o]. *)
Definition read_at (s : fields) (ghost : bool) (o i c : nat) : option X :=
  match nth_error (if ghost then v_G (f_view s) else v_U (f_view s)) o with
  | Some r => match nth_error r i with Some b => nth_error b c | None => None end
  | None => None
  end.
Definition write_at (s : fields) (ghost : bool) (o i c : nat) (x : X) : option fields :=
  match read_at s ghost o i c with
  | None => None
  | Some _ =>
    let v := f_view s in
    let w := upd_nth o (upd_nth i (upd_nth c (fun _ => x))) in
    Some (mkFields (if ghost then mkView (v_n v) (v_U v) (w (v_G v)) else mkView (v_n v) (w (v_U v)) (v_G v))
                   (f_index s) (f_max s))
  end.
(** Access by name: getAccessor({name, id}) then at(cell, id). *)
Definition write_field (n : string) (ghost : bool) (o c : nat) (x : X) (s : fields) : option fields :=
  match getAccessor [(n, 0%nat)] s with
  | Some a => match lookup_id a 0 with Some i => write_at s ghost o i c x | None => None end
  | None => None
  end.
Definition read_field (n : string) (ghost : bool) (o c : nat) (s : fields) : option X :=
  match getAccessor [(n, 0%nat)] s with
  | Some a => match lookup_id a 0 with Some i => read_at s ghost o i c | None => None end
  | None => None
  end.

(** l.303-325, backup_and_realloc, when the mesh has now [no] octants and [ng] ghosts: old data
    with the positions of the fields in alphabetical order, new fields numbered in that order. *)
Definition renumber (m : index) : index := combine (map fst m) (seq 0 (length m)).
Definition backup_and_realloc (no ng : nat) (s : fields) : option (view * accessor * fields) :=
  match getAccessor (renumber (f_index s)) s, alloc (length (f_index s)) no ng with
  | Some a, Some w => Some (f_view s, a, mkFields w (renumber (f_index s)) (f_max s))
  | _, _ => None
  end.

(** l.278-296, exchange_loadbalance on rank [me]. [olds] are the fields of all the ranks before,
    [C] the communicators of all the ranks, [no] and [ng] the new sizes on [me]. *)
Fixpoint chunks {A} (k n : nat) (l : list A) : list (list A) :=
  match n with O => [] | S n => firstn k l :: chunks k n (skipn k l) end.
Definition raw_rows (nb : nat) (v : view) : list (list X) := map (fun r : row => concat (firstn nb r)) (v_U v).
Definition exchange_loadbalance (contiguous : bool) (sch : list (nat * X) -> list (nat * X)) (C : list comm) (me : nat)
    (no ng : nat) (olds : list fields) (B0 : list X) : option fields :=
  match nth_error olds me with
  | None => None
  | Some s =>
    match backup_and_realloc no ng s with
    | None => None
    | Some (_, _, s1) =>
      let nb := length (f_index s) in
      let e := (nb * nbc)%nat in
      match exchange_rank contiguous sch C me e (map (fun s => raw_rows nb (f_view s)) olds)
                          (concat (raw_rows nb (f_view s1))) B0 with
      | Some flat =>
        let rows := map (chunks nbc nb) (chunks e no flat) in
        extend_fields no ng (mkFields (mkView nb rows (v_G (f_view s1))) (f_index s1) (f_max s1))
      | None => None
      end
    end
  end.

(** ** Particle attributes, UserData_particles.h:30-146 *)

(** Columns of values, one per slot, [c_size] particles. Positions are not modelled here. *)
Record container := mkContainer { c_size : nat; c_cols : list (list X); c_attr : index }.
Definition new_container (n : nat) : container := mkContainer n [] [].
(** l.44-86, new_ParticleAttribute: the columns are always reallocated (l.49-50 compare the
    number of attributes with itself plus one); deep_copy throws when extents differ. *)
Definition new_attribute (n : string) (p : container) : option container :=
  let allocated := length (c_attr p) in
  let needed := S allocated in
  if (max_index_count <? needed)%nat then None else
  let fresh := repeat (repeat zero (c_size p)) in
  match (if Nat.eqb allocated 0 then Some (fresh needed)
         else if Nat.eqb (length (c_cols p)) allocated then Some (c_cols p ++ fresh 1%nat) else None) with
  | None => None
  | Some cols =>
    match find_name n (c_attr p) with
    | Some _ => None
    | None => match first_free needed (c_attr p) with
              | Some i => Some (mkContainer (c_size p) (upd_nth i (fun _ => repeat zero (c_size p)) cols) (set_name n i (c_attr p)))
              | None => None
              end
    end
  end.
(** l.121-131. *)
Definition move_attribute (dest src : string) (p : container) : option container :=
  match find_name src (c_attr p) with
  | Some i => Some (mkContainer (c_size p) (c_cols p) (erase_name src (set_name dest i (c_attr p))))
  | None => None
  end.
Definition delete_attribute (n : string) (p : container) : container :=
  mkContainer (c_size p) (c_cols p) (erase_name n (c_attr p)).
(** l.105-120 and accessors. *)
Definition read_attribute (n : string) (k : nat) (p : container) : option X :=
  match find_name n (c_attr p) with
  | Some i => match nth_error (c_cols p) i with Some l => nth_error l k | None => None end
  | None => None
  end.
Definition write_attribute (n : string) (k : nat) (x : X) (p : container) : option container :=
  match find_name n (c_attr p), read_attribute n k p with
  | Some i, Some _ => Some (mkContainer (c_size p) (upd_nth i (upd_nth k (fun _ => x)) (c_cols p)) (c_attr p))
  | _, _ => None
  end.
End Fields.
