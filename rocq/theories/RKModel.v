(** Model of the second order Runge-Kutta update (hydro/HydroUpdate_RK2.cpp).

    An array of states is the list, per rank, of the states stored for its cells: octants in
    storage order (owned, then ghosts), cells of a block in the order of flat_cell. *)
From Coq Require Import QArith Qcanon.
From Verif Require Import Base OctreeSpec OctreeModel CellModel HydroModel GravityModel.
Open Scope Z_scope.

(** CellArray.h:544-575, at: the states of an array by octant and index in the block. *)
Definition field_of (b : axis -> Z) (U : list cons) : field :=
  fun k j => nth (Z.to_nat (Z.of_nat k * block_len b + j)) U cons0.
Definition numbered {X} (l : list X) : list (nat * X) := combine (seq 0 (length l)) l.

(** l.172-250, rk_update on every rank. [h] is the context of a rank, [gf] the gravity field of
    each rank if gravity comes from a field (octant, index), [old] the former content of the
    output arrays (two of them are used: the temporary array and the _next fields). The copy of
    the ghost layers, the primitive variables, the sweeps and the gravity correction of a cell
    (l.209-246) are those of HydroUpdate_euler.cpp: update_cell. They only read the input, so
    the order of visits does not matter. l.248: the repair of negative values follows. *)
Definition rk_update (h : rank -> hctx) (ext : axis -> Qc) (dt smallp : Qc) (b : axis -> Z) (M : mesh)
    (gf : nat -> nat -> Z -> option (axis -> Qc)) (old : nat -> field) (Us : list (list cons)) : option (list (list cons)) :=
  mapM (fun rRU : nat * (rank * list cons) =>
    let r := fst rRU in let R := fst (snd rRU) in let U := snd (snd rRU) in
    do out <- kernel b R (fun c =>
      let k := flat_cell b (c_pos c) in
      update_cell (h R) ext dt (field_of b U) (gf r (c_oct c) k) (old r (c_oct c) k) c) ;
    Some (map (clean_negative (g3d (h_g (h R))) (h_gamma (h R)) (h_smallr (h R)) smallp) out)) (numbered (combine M Us)).

(** l.253-270, rk_correct: one cell. *)
Definition rk_correct_cell (d3 : bool) (uin uout : cons) : cons :=
  setCons d3 uout (cmap (fun x => half_f * x)%Qc (cmap2 Qcplus (getCons d3 uin) (getCons d3 uout))).
Definition rk_correct (d3 : bool) (Uin Uout : list (list cons)) : list (list cons) :=
  map (fun io : list cons * list cons => map (fun c : cons * cons => rk_correct_cell d3 (fst c) (snd c)) (combine (fst io) (snd io))) (combine Uin Uout).

(** l.136-169, update_aux: content of the owned part of the _next fields. *)
Definition rk2 (d3 : bool) (h : rank -> hctx) (ext : axis -> Qc) (dt smallp : Qc) (b : axis -> Z) (M : mesh)
    (gf : nat -> nat -> Z -> option (axis -> Qc)) (old_star old_next : nat -> field) (Uin : list (list cons)) : option (list (list cons)) :=
  do Ustar <- rk_update h ext dt smallp b M gf old_star Uin ;
  do Ustar <- exchange b M Ustar ;
  do Uout <- rk_update h ext dt smallp b M gf old_next Ustar ;
  Some (rk_correct d3 Uin Uout).
