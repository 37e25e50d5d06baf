(** Model of core/src/Cosmo.h: tables of the expansion of the universe, their interpolation and
    Romberg's integration. Real numbers are exact rationals; the square root is a parameter. *)
From Coq Require Import QArith Qcanon.
From Verif Require Import Base OctreeModel HydroModel.
Open Scope Qc_scope.

(** std::lower_bound as in libstdc++: [len] elements starting at [first] remain. *)
Fixpoint lower_bound_loop (fuel : nat) (l : list Qc) (x : Qc) (first len : nat) : nat :=
  match fuel with
  | O => first
  | S f =>
    if (len =? 0)%nat then first else
    let half := Nat.div2 len in
    if ltb (nth (first + half) l 0) x then lower_bound_loop f l x (first + half + 1) (len - half - 1)
    else lower_bound_loop f l x first half
  end.
Definition lower_bound (l : list Qc) (x : Qc) : nat := lower_bound_loop (length l) l x 0 (length l).

(** operator[] of a vector with an int index: [None] is an access out of bounds. *)
Definition vec {X} (l : list X) (i : Z) : option X := if (i <? 0)%Z then None else nth_error l (Z.to_nat i).

(** Cosmo.h:14-21. *)
Definition lookup_interpolate (lookup_x lookup_y : list Qc) (x : Qc) : option Qc :=
  let i := Z.of_nat (lower_bound lookup_x x) in
  match vec lookup_x (i - 1), vec lookup_x i, vec lookup_y (i - 1), vec lookup_y i with
  | Some x0, Some x1, Some y0, Some y1 => Some (y0 + (x - x0) / (x1 - x0) * (y1 - y0))
  | _, _, _, _ => None
  end.

(** * Romberg's method (l.33-67) *)

Definition of_nat (n : nat) : Qc := Q2Qc (inject_Z (Z.of_nat n)).
(** l.44-47: new points of the refined trapezoidal rule. *)
Definition new_points (f : Qc -> Qc) (a h : Qc) (ep : nat) : Qc :=
  fold_left (fun c j => c + f (a + of_nat (2 * j - 1) * h)) (seq 1 ep) 0.
(** l.50-53: the rest of the row from its last entry [c] and the previous row; [j] is the index of
    the entry computed next. *)
Fixpoint extrapolate (j : nat) (c : Qc) (Rp : list Qc) : list Qc :=
  match Rp with
  | [] => []
  | p :: Rp => let n_k := Qcpower (of_nat 4) j in let c' := (n_k * c - p) / (n_k - 1) in c' :: extrapolate (S j) c' Rp
  end.
Definition next_row (f : Qc -> Qc) (a h : Qc) (i : nat) (Rp : list Qc) : list Qc :=
  let c0 := h * new_points f a h (2 ^ (i - 1)) + half_f * nth 0 Rp 0 in c0 :: extrapolate 1 c0 Rp.
Definition fabs (x : Qc) : Qc := if ltb x 0 then - x else x.
(** l.40-62: [steps] iterations are left, [i] is the next one and [Rp] has [i] entries. The
    result is the value returned from the loop (inl) or the last row (inr). *)
Fixpoint romberg_loop (steps i : nat) (f : Qc -> Qc) (a h acc : Qc) (Rp : list Qc) : Qc + list Qc :=
  match steps with
  | O => inr Rp
  | S s =>
    let h := h / (1 + 1) in
    let Rc := next_row f a h i Rp in
    if (1 <? i)%nat && ltb (fabs (nth (i - 1) Rp 0 - nth i Rc 0)) acc then inl (nth i Rc 0)
    else romberg_loop s (S i) f a h acc Rc
  end.
(** l.33-67. [None]: after the loop l.64 evaluates [Rc[max_steps]], one past the end of an array of
    [max_steps] elements. *)
Definition romberg (f : Qc -> Qc) (a b : Qc) (max_steps : nat) (acc : Qc) : option Qc :=
  match max_steps with
  | O => None
  | S s => match romberg_loop s 1 f a (b - a) acc [(f a + f b) * (b - a) * half_f] with inl v => Some v | inr _ => None end
  end.

(** * Tables *)

(** l.76-86. [sq] is the square root. *)
Definition da_dt (sq : Qc -> Qc) (omega_m omega_v a : Qc) : Qc :=
  1 / sq (Qcpower a 4 * (1 - omega_m - omega_v) + Qcpower a 3 * omega_m + Qcpower a 5 * omega_v).
Definition integrate_da_dt (sq : Qc -> Qc) (omega_m omega_v a b tol : Qc) : option Qc :=
  romberg (da_dt sq omega_m omega_v) a b 16 tol.
(** l.112-123: computeFLM. [frac11] is the constant 1.1. *)
Definition frac11 : Qc := Q2Qc (11 # 10).
Definition tol8 : Qc := Q2Qc (1 # 100000000).
Definition lookup_a (a_start a_end : Qc) (size : nat) : list Qc :=
  let delta_a := a_end * frac11 - a_start in map (fun i => a_start + of_nat i * delta_a / of_nat (size - 1)) (seq 0 size).
Definition lookup_t (sq : Qc -> Qc) (omega_m omega_v a_start a_end : Qc) (size : nat) : option (list Qc) :=
  mapM (fun a => option_map (fun v => - half_f * sq omega_m * v) (integrate_da_dt sq omega_m omega_v a 1 tol8)) (lookup_a a_start a_end size).
(** l.101-110. *)
Definition timeToExpansion (la lt : list Qc) (time : Qc) : option Qc := lookup_interpolate lt la time.
Definition expansionToTime (la lt : list Qc) (aexp : Qc) : option Qc := lookup_interpolate la lt aexp.
