(** Specification vocabulary for data exchanges between ranks. *)
From Verif Require Import Base.

(** Send lists [Ls] (by source, then destination) and data [Us] fit together: one list per
    rank, all indices in range, [e] values per octant. *)
Definition comm_ok {X} (e : nat) (Ls : list (list (list nat))) (Us : list (list (list X))) : Prop :=
  length Us = length Ls /\
  forall s L U, nth_error Ls s = Some L -> nth_error Us s = Some U ->
    length L = length Ls /\ (forall row, In row U -> length row = e) /\
    forall l o, In l L -> In o l -> (o < length U)%nat.

(** Slot [j] of the ghost array of rank [r] holds a copy of octant [snd x] of rank
    [fst x], where [x] is entry [j] of this list: source ranks in increasing order, and the
    octants a source lists for [r] in the order of its list. *)
Definition origins (Ls : list (list (list nat))) (r : nat) : list (nat * nat) :=
  concat (map (fun sL : nat * list (list nat) => map (pair (fst sL)) (nth r (snd sL) [])) (combine (seq 0 (length Ls)) Ls)).

(** Values held for value [i] of octant [o] of rank [s] in all ghost arrays: [Gs] gives
    for each rank the rows of its ghost slots. *)
Definition contributions {X} (d : X) (Ls : list (list (list nat))) (Gs : list (list (list X))) (s o i : nat) : list X :=
  flat_map (fun rG : nat * list (list X) =>
    flat_map (fun x : (nat * nat) * list X =>
                if (Nat.eqb (fst (fst x)) s && Nat.eqb (snd (fst x)) o)%bool then [nth i (snd x) d] else [])
             (combine (origins Ls (fst rG)) (snd rG)))
    (combine (seq 0 (length Ls)) Gs).

Definition sum {X} (add : X -> X -> X) (zero : X) (l : list X) : X := fold_right add zero l.

(** The items of a list whose destination is [r], in order. *)
Definition select {A} (r : nat) (items : list A) (dests : list nat) : list A :=
  map fst (filter (fun x => Nat.eqb (snd x) r) (combine items dests)).
(** Everything sent to [r], source by source. *)
Definition delivered {A} (r : nat) (items : list (list A)) (dests : list (list nat)) : list A :=
  concat (map (fun x => select r (fst x) (snd x)) (combine items dests)).
