(** Specification of a second order Runge-Kutta step (Heun): two forward steps of the
    finite-volume scheme of SchemeSpec, then the mean with the first state. *)
From Coq Require Import QArith Qcanon.
(* HydroModel for the records of states, OctreeModel for the record of a rank *)
From Verif Require Import Base OctreeSpec OctreeModel MeshSpec HydroModel HydroSpec CellSpec RemapSpec ConserveSpec SchemeSpec.
Open Scope Qc_scope.

(** Conservative state of a gas. *)
Definition state_of (gamma : Qc) (q : prim) : cons :=
  mkCons (q_rho q) (q_p q / (gamma - 1) + q_rho q * sqnorm (vel q) / two) (q_rho q * q_x q) (q_rho q * q_y q) (q_rho q * q_z q).
Definition negative (x : Qc) : bool := match x ?= 0 with Lt => true | _ => false end.
(** A state with a negative density or pressure gets the least density or pressure instead,
    and keeps its velocity. *)
Definition repaired (gamma least_rho least_p : Qc) (u : cons) : cons :=
  let q := gas gamma u in
  if negative (q_rho q) || negative (q_p q) then
    state_of gamma (mkPrim (if negative (q_rho q) then least_rho else q_rho q) (if negative (q_p q) then least_p else q_p q) (q_x q) (q_y q) (q_z q))
  else u.

Section RK.
(** As in SchemeSpec; [grav]: constant gravity applied with the fluxes; [acc]: field of
    accelerations applied afterwards. *)
Context (g : geom) (b : axis -> Z) (ext : axis -> Qc) (cells : list oct)
        (riem : prim -> prim -> cons) (gamma least_rho least_p dt : Qc) (grav : option (axis -> Qc)) (acc : option (oct -> axis -> Qc)).

(** Forward step of the scheme. *)
Definition forward (D : oct -> cons) (x : oct) (v : cvar) : Qc :=
  cv v (D x) + (net_flux g b ext cells D riem gamma least_rho dt v x +
    match grav with Some gr => gravity_source g b ext cells D riem gamma least_rho dt gr v x | None => 0 end).
Definition forward_state (D : oct -> cons) (x : oct) : cons :=
  let f := forward D x in mkCons (f Mass) (f Energy) (f (Mom AX)) (f (Mom AY)) (if g3d g then f (Mom AZ) else 0).
(** Kick by an acceleration: the mean of the old and new densities gains momentum, the internal
    energy stays. *)
Definition kicked (rho_old : Qc) (a : option (axis -> Qc)) (u : cons) : cons :=
  match a with
  | None => u
  | Some a =>
      let m e := mom u e + dt * a e * ((rho_old + u_rho u) / two) in
      let w := mkCons (u_rho u) 0 (m AX) (m AY) (if g3d g then m AZ else 0) in
      mkCons (u_rho w) (internal u + sqnorm (mom w) / (two * u_rho w)) (u_x w) (u_y w) (u_z w)
  end.
Definition unrepaired (D : oct -> cons) (x : oct) : cons :=
  kicked (u_rho (D x)) (option_map (fun G => G x) acc) (forward_state D x).
Definition stage (D : oct -> cons) (x : oct) : cons := repaired gamma least_rho least_p (unrepaired D x).
Definition heun (D : oct -> cons) (x : oct) (v : cvar) : Qc := (cv v (D x) + cv v (stage (stage D) x)) / two.
End RK.

(** The acceleration field as the arrays of the ranks hold it (octant, index in the block). *)
Definition holds_acceleration (b : axis -> Z) (M : mesh) (acc : option (oct -> axis -> Qc)) (gf : nat -> nat -> Z -> option (axis -> Qc)) : Prop :=
  forall r R i A q, nth_error M r = Some R -> nth_error (loc R) i = Some A -> in_block b q ->
    gf r i (q AX + q AY * b AX + q AZ * b AX * b AY)%Z = option_map (fun G => G (cell_of b A q)) acc.
(** No negative density or pressure. *)
Definition sound (gamma : Qc) (u : cons) : Prop := 0 <= u_rho u /\ 0 <= (gamma - 1) * internal u.
