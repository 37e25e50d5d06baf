(** Model of the initial conditions given by a formula: init/InitialConditions_analytical.h.

    The formula is a parameter: [need] (need_refine of AnalyticalFormula.h:13) and [value]; both get
    the centre and the size of a cell. The order in which a kernel visits the cells is a
    parameter [visit], the iteration orders of the hash tables are in [ords]. The mesh is newly
    built (a list of several initial conditions is not modelled), its markers are 0. *)
From Coq Require Import QArith Qcanon.
From Verif Require Import Base OctreeSpec OctreeModel MeshSpec LookupModel CellModel HydroModel ParticleModel OutputModel.
Open Scope Z_scope.

Definition triple : Type := Qc * Qc * Qc.
Definition coords (p : axis -> Qc) : triple := (p AX, p AY, p AZ).
(** A cell of the iteration (octant number, position in the block). *)
Definition icell : Type := Z * (axis -> Z).

(** l.70-71, l.113-114: centre and size of the cell [c]. *)
Definition formula_args (g : geom) (b : axis -> Z) (lo hi : point) (octs : list oct) (c : icell) : option (triple * triple) :=
  match nth_error octs (Z.to_nat (fst c)), getCellCenter g octs lo hi (mkCell (Z.to_nat (fst c)) (snd c) b LOCAL_TO_BLOCK) with
  | Some A, Some x => Some (coords x, coords (cell_size g b (extent lo hi) A))
  | _, _ => None
  end.

(** l.67-76: the marker of the octant of a cell is or-ed (atomically) with the answer of the formula.
    bool converted to int. *)
Definition mark_cell (need : triple -> triple -> bool) (g : geom) (b : axis -> Z) (lo hi : point) (octs : list oct)
    (markers : list Z) (c : icell) : option (list Z) :=
  match formula_args g b lo hi octs c, nth_error markers (Z.to_nat (fst c)) with
  | Some (x, s), Some m => write_at markers (fst c) (Z.lor m (if need x s then 1 else 0))
  | _, _ => None
  end.
(** l.64-87: markers of the octants of a rank. *)
Definition mark_octants (visit : list icell -> list icell) (need : triple -> triple -> bool) (g : geom) (b : axis -> Z) (lo hi : point) (octs : list oct) : option (list Z) :=
  match foldM (mark_cell need g b lo hi octs) (visit (foreach_cell b (length octs))) (repeat 0 (length octs)) with
  | Some markers => Some (map (fun m => if m =? 0 then 0 else 1) markers)
  | None => None
  end.

(** l.57-93: one round, adapt() then loadBalance(). [visits r] is the order on rank [r]. *)
Definition init_round (fuel : nat) (ords : bool -> order) (visits : nat -> list icell -> list icell) (need : triple -> triple -> bool)
    (g : geom) (b : axis -> Z) (lo hi : point) (M : mesh) : option mesh :=
  match mapM (fun rR : nat * rank => mark_octants (visits (fst rR)) need g b lo hi (loc (snd rR))) (combine (seq 0 (length M)) M) with
  | None => None
  | Some mk => match adapt fuel (ords false) g M mk with
               | None => None
               | Some M => loadBalance (ords true) g O M
               end
  end.
(** All rounds on a newly built mesh. *)
Definition init_mesh (fuel : nat) (ords : Z -> bool -> order) (visits : Z -> nat -> list icell -> list icell) (need : triple -> triple -> bool)
    (g : geom) (P : nat) (b : axis -> Z) (lo hi : point) : option mesh :=
  match private_init (ords (-1) false) g P with
  | None => None
  | Some M => foldM (fun M level => init_round fuel (ords level) (visits level) need g b lo hi M) (zrange (lmin g) (lmax g)) M
  end.

(** l.95-122: the values on the cells of a rank, in the order of the array (owned octants). [zero] is
    the content of a new field. *)
Definition fill_U {X} (zero : X) (visit : list icell -> list icell) (value : triple -> triple -> X) (g : geom) (b : axis -> Z) (lo hi : point) (octs : list oct) : option (list X) :=
  foldM (fun U c => match formula_args g b lo hi octs c with
                    | Some (x, s) => write_at U (fst c * (b AX * b AY * b AZ) + flat_cell b (snd c)) (value x s)
                    | None => None
                    end)
    (visit (foreach_cell b (length octs))) (repeat zero (length octs * Z.to_nat (b AX * b AY * b AZ))).

(** init/InitialConditions_sod.cpp:35-40, need_refine. *)
Definition sod_need (x0 : Qc) (c s : triple) : bool := ltb (if ltb (fst (fst c) - x0)%Qc 0%Qc then - (fst (fst c) - x0) else fst (fst c) - x0)%Qc (frac 11 10 * fst (fst s))%Qc.
