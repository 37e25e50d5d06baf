(** Specification vocabulary for the time loop. *)
From Coq Require Import QArith.
From Verif Require Import Base.
Open Scope Z_scope.

(** A multiple of [I] lies after [a] and not after [b]. *)
Definition crosses (I a b : Q) : Prop := exists n : Z, (a < inject_Z n * I)%Q /\ (inject_Z n * I <= b)%Q.
(** The values never decrease. *)
Fixpoint increasing (v0 : Q) (vs : list Q) : Prop :=
  match vs with [] => True | v :: vs => (v0 <= v)%Q /\ increasing v vs end.
Definition zcrosses (I a b : Z) : Prop := exists n, a < n * I <= b.
Fixpoint zincreasing (v0 : Z) (vs : list Z) : Prop :=
  match vs with [] => True | v :: vs => v0 <= v /\ zincreasing v vs end.
