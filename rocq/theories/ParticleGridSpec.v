(** Specification vocabulary for particles spread over the ranks and for the grid of particles. *)
From Coq Require Import QArith Qcanon.
(* HydroModel for the record of a state only *)
From Verif Require Import Base OctreeSpec HydroModel HydroSpec LookupSpec.
Open Scope Z_scope.

(** A particle: its three coordinates and its attributes. A distributed array is, per rank, the
    list of the coordinates and the list of the attributes. *)
Notation particle := (list Qc * list Qc)%type.
Definition coordinate (p : list Qc) (a : axis) : Qc := nth (match a with AX => 0 | AY => 1 | AZ => 2 end)%nat p 0%Qc.
Definition held (x : list (list Qc) * list (list Qc)) : list particle := combine (fst x) (snd x).
Definition all_particles (parts : list (list (list Qc) * list (list Qc))) : list particle := concat (map held parts).
(** Coordinates and attributes belong together: as many of one as of the other, three
    coordinates, [e] attributes. *)
Definition fits_array (e : nat) (x : list (list Qc) * list (list Qc)) : Prop :=
  length (fst x) = length (snd x) /\ (forall p, In p (fst x) -> length p = 3%nat) /\ (forall d, In d (snd x) -> length d = e).

(** In the box, lower sides included. *)
Definition in_bounds (lo hi : axis -> Qc) (p : list Qc) : Prop := forall a, (lo a <= coordinate p a /\ coordinate p a < hi a)%Qc.
(** Inside of the box, sides excluded; in 2D, in the plane of its lower side. *)
Definition strictly_in (g : geom) (lo hi : axis -> Qc) (p : list Qc) : Prop :=
  forall a, if flat g a then coordinate p a = lo a else (lo a < coordinate p a /\ coordinate p a < hi a)%Qc.
(** The octant contains the position. *)
Definition lies_in (g : geom) (lo hi : axis -> Qc) (A : oct) (p : list Qc) : Prop :=
  contains g A (fun a => this ((coordinate p a - lo a) / (hi a - lo a))%Qc).

(** Centres of the cells of a regular grid of the box. *)
Definition upto (n : Z) : list Z := map Z.of_nat (seq 0 (Z.to_nat n)).
Definition slice (lo hi : axis -> Qc) (a : axis) (n i : Z) : Qc :=
  (lo a + (Q2Qc (inject_Z i) + 1 / two) * (hi a - lo a) / Q2Qc (inject_Z n))%Qc.
Definition grid_points (nx ny nz : Z) (lo hi : axis -> Qc) : list (list Qc) :=
  flat_map (fun k => flat_map (fun j => map (fun i => [slice lo hi AX nx i; slice lo hi AY ny j; slice lo hi AZ nz k]) (upto nx)) (upto ny)) (upto nz).

(** Velocity of a state. *)
Definition speed (u : cons) (a : axis) : Qc := (match a with AX => u_x u | AY => u_y u | AZ => u_z u end / u_rho u)%Qc.
(** The particle [x] started at [p] in gas in state [u]: its attributes are the velocity of the
    gas and a mass, and it was moved by [dt] times this velocity, then brought back into the box
    by whole periods. *)
Definition started (lo hi : axis -> Qc) (m dt : Qc) (p : list Qc) (u : cons) (x : particle) : Prop :=
  snd x = [speed u AX; speed u AY; speed u AZ; m] /\ length (fst x) = 3%nat /\ in_bounds lo hi (fst x) /\
  forall a, exists k : Z, coordinate (fst x) a = (coordinate p a + dt * speed u a + Q2Qc (inject_Z k) * (hi a - lo a))%Qc.
