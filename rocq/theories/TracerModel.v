(** Model of the motion of tracers (particles/ParticleUpdate_tracers_move.cpp). Positions are exact. *)
From Coq Require Import QArith Qcanon.
From Verif Require Import Base OctreeSpec OctreeModel LookupModel CellModel HydroModel ParticleModel.
Open Scope Z_scope.

(** l.40-48, one tracer. [U]: rho, rho_vx, rho_vy, rho_vz of the rank. A density of 0 gives a
    position that is not a number: None. *)
Definition tracer (g : geom) (b : axis -> Z) (lo hi : point) (dt : Qc) (R : rank) (U : field) (p : point) : option point :=
  do found <- getCellFromPos g (loc R ++ gho R) (length (loc R)) b lo hi p ;
  do c <- in_array found ;
  let u := U (c_oct c) (flat_cell (c_blk c) (c_pos c)) in
  if Qc_eq_dec (u_rho u) 0 then None else
  Some (fun a => p a + dt * match a with AX => u_x u | AY => u_y u | AZ => u_z u end / u_rho u)%Qc.
(** l.21-50, update: all tracers of the rank, each changes its own position only. *)
Definition tracers (g : geom) (b : axis -> Z) (lo hi : point) (dt : Qc) (R : rank) (U : field) (ps : list point) : option (list point) :=
  mapM (tracer g b lo hi dt R U) ps.
