(** Specification vocabulary for hydrodynamics. *)
(* HydroModel only for the names of the fields of states *)
From Coq Require Import QArith Qcanon.
From Verif Require Import Base OctreeSpec HydroModel.
Open Scope Qc_scope.

Definition two : Qc := 1 + 1.
Definition axis_eq_dec (a b : axis) : {a = b} + {a <> b}.
Proof. decide equality. Defined.

(** Momentum and velocity along an axis. *)
Definition mom (u : cons) (a : axis) : Qc := match a with AX => u_x u | AY => u_y u | AZ => u_z u end.
Definition vel (q : prim) (a : axis) : Qc := match a with AX => q_x q | AY => q_y q | AZ => q_z q end.
Definition sqnorm (f : axis -> Qc) : Qc := f AX * f AX + f AY * f AY + f AZ * f AZ.

(** Internal energy per volume: total minus kinetic. *)
Definition internal (u : cons) : Qc := u_e u - sqnorm (mom u) / (two * u_rho u).

(** [u] and [q] describe the same gas of adiabatic index [gamma]: same density, momentum =
    density * velocity, pressure = (gamma - 1) * internal energy. *)
Definition same_gas (gamma : Qc) (u : cons) (q : prim) : Prop :=
  u_rho u = q_rho q /\ (forall a, mom u a = q_rho q * vel q a) /\ q_p q = (gamma - 1) * internal u.

(** States of a simulation in 2D have nothing along the third axis. *)
Definition planar (d3 : bool) (z : Qc) : Prop := d3 = false -> z = 0.

(** Flux of the Euler equations along [d] for the gas [q]: mass, energy, momentum. *)
Definition physical_flux (gamma : Qc) (q : prim) (d : axis) (f : cons) : Prop :=
  let E := q_p q / (gamma - 1) + q_rho q * sqnorm (vel q) / two in
  u_rho f = q_rho q * vel q d /\
  u_e f = (E + q_p q) * vel q d /\
  forall a, mom f a = q_rho q * vel q d * vel q a + (if axis_eq_dec a d then q_p q else 0).

(** [x] lies between [a] and [b]. *)
Definition between (a x b : Qc) : Prop := (a <= x /\ x <= b) \/ (b <= x /\ x <= a).

(** The variables of a gas. *)
Inductive pvar := Vrho | Vp | Vx | Vy | Vz.
Definition pv (v : pvar) (q : prim) : Qc :=
  match v with Vrho => q_rho q | Vp => q_p q | Vx => q_x q | Vy => q_y q | Vz => q_z q end.

(** The conserved variables. *)
Inductive cvar := Mass | Energy | Mom (a : axis).
Definition cv (v : cvar) (u : cons) : Qc :=
  match v with Mass => u_rho u | Energy => u_e u | Mom a => mom u a end.
