(** Model of the flux-flux cooling (cooling/CoolingUpdate_FF.cpp). Reals are exact. *)
From Coq Require Import String.
From Coq Require Import QArith Qcanon.
From Verif Require Import Base OctreeSpec OctreeModel CellModel HydroModel ParticleModel GravityModel.
Open Scope Z_scope.

(** l.24-27, the members. *)
Record cooler := mkCooler { k_one_cell : bool; k_flux : Qc; k_min : Qc; k_max : Qc }.
(** A value of the configuration, or its default. *)
Definition or_default {X} (v : option X) (d : X) : X := match v with Some x => x | None => d end.
(** l.29-59, the constructor: values of cooling/FF_fluxes, cooling/FF_layer, mesh/ndim, mesh/ymin,
    ymax, zmin, zmax, if they are given. [None]: the exception of l.47. *)
Definition make_cooler (fluxes : option Qc) (layer : option string) (ndim : option Z) (ymin ymax zmin zmax : option Qc) : option cooler :=
  let mode := or_default layer "one_cell"%string in
  do one_cell <- (if String.eqb mode "one_cell" then Some true else if String.eqb mode "layer" then Some false else None) ;
  Some (if or_default ndim 3 =? 2 then mkCooler one_cell (or_default fluxes 0%Qc) (or_default ymin 0%Qc) (or_default ymax 1%Qc)
        else mkCooler one_cell (or_default fluxes 0%Qc) (or_default zmin 0%Qc) (or_default zmax 1%Qc)).

(** l.84-106, one cell: new value of e_tot_next. [U] is the array of e_tot_next of the rank, [st] the
    octants of the rank. *)
Definition cool_cell (k : cooler) (g : geom) (lo hi : point) (st : list oct) (dt : Qc) (U : list Qc) (c : cidx) : option Qc :=
  do pos <- getCellCenter g st lo hi c ;
  do A <- nth_error st (c_oct c) ;
  let size := cell_size g (c_blk c) (extent lo hi) A in
  let d := if g3d g then pos AZ else pos AY in
  let dh := if g3d g then size AZ else size AY in
  let F := (k_flux k / dh)%Qc in
  let heating := if k_one_cell k then
                   if ltb d (k_min k + dh)%Qc then (- F)%Qc
                   else if ltb (k_max k - dh)%Qc d then F else 0%Qc
                 else 0%Qc in
  do e <- at_cell U c ;
  Some (e + dt * heating)%Qc.

(** l.63-110, update_aux on every rank: content of the owned part of e_tot_next. The cells only
    touch their own value, so the order of visits does not matter. *)
Definition cooling_update (k : cooler) (g : geom) (b : axis -> Z) (lo hi : point) (dt : Qc) (M : mesh) (Us : list (list Qc)) : option (list (list Qc)) :=
  mapM (fun RU : rank * list Qc => kernel b (fst RU) (cool_cell k g lo hi (loc (fst RU) ++ gho (fst RU)) dt (snd RU))) (combine M Us).
