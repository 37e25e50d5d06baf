(** Specification vocabulary for fields of conservative states on a mesh of blocks. *)
From Coq Require Import QArith Qcanon.
(* HydroModel for the record of a state; OctreeModel for the record of a rank; CellModel for zrange *)
From Verif Require Import Base OctreeSpec OctreeModel MeshSpec CellSpec RemapSpec HydroModel HydroSpec.
Open Scope Z_scope.

(** The cells of a block, and all cells of the blocks of the octants [L]. As in RemapSpec a cell
    is written as its level and its position on the regular grid of that level. *)
Definition positions (b : axis -> Z) : list (axis -> Z) :=
  flat_map (fun z => flat_map (fun y => map (fun x => mkoff x y z) (zrange 0 (b AX))) (zrange 0 (b AY))) (zrange 0 (b AZ)).
Definition all_cells (b : axis -> Z) (L : list oct) : list oct :=
  flat_map (fun A => map (cell_of b A) (positions b)) L.

(** The arrays [U] of the ranks (storage index of the octant, index of the cell in the block)
    hold the field [D], ghosts included. *)
Definition holds_field (b : axis -> Z) (M : mesh) (D : oct -> cons) (U : nat -> field) : Prop :=
  forall r R k B q, nth_error M r = Some R -> nth_error (loc R ++ gho R) k = Some B -> in_block b q ->
    U r k (q AX + q AY * b AX + q AZ * b AX * b AY) = D (cell_of b B q).

(** Sums, means. *)
Definition csum (l : list Qc) : Qc := fold_right Qcplus 0%Qc l.
Definition cmean (f : cons -> Qc) (l : list cons) : Qc := (csum (map f l) / Q2Qc (inject_Z (Z.of_nat (length l))))%Qc.

(** Value of a field at a position of the grid of some level: the value of the cell there, or
    of the bigger cell that contains it, or the mean of the smaller cells it contains. *)
Definition resample (g : geom) (cells : list oct) (D : oct -> cons) (x : oct) : cons :=
  if existsb (oct_eqb x) cells then D x
  else if existsb (oct_eqb (parent g x)) cells then D (parent g x)
  else let l := map D (children g x) in mkCons (cmean u_rho l) (cmean u_e l) (cmean u_x l) (cmean u_y l) (cmean u_z l).

(** The position [d] cells away from [x] on the grid of its level, wrapped around. *)
Definition displaced (g : geom) (b : axis -> Z) (x : oct) (d : axis -> Z) : oct :=
  oct_of (lev x) (fun a => (coord x a + d a) mod ncells g b (lev x) a).

(** Periodic along every axis of the simulation. *)
Definition periodic (g : geom) : Prop := forall a, flat g a = false -> per g a = true.
(** Blocks of an even number of cells, at least 4. *)
Definition even_blocks (g : geom) (b : axis -> Z) : Prop := forall a, flat g a = false -> 4 <= b a /\ b a mod 2 = 0.

(** Volume of a cell in a domain of extents [ext], and total of a variable over the
    domain, as the arrays of the ranks hold it (owned octants only). *)
Definition volume (g : geom) (b : axis -> Z) (ext : axis -> Qc) (x : oct) : Qc :=
  let side a := (ext a / Q2Qc (inject_Z (ncells g b (lev x) a)))%Qc in (side AX * side AY * side AZ)%Qc.
Definition indexed {X} (l : list X) : list (nat * X) := combine (seq 0 (length l)) l.
Definition total_held (g : geom) (b : axis -> Z) (ext : axis -> Qc) (M : mesh) (v : cvar) (U : nat -> field) : Qc :=
  csum (map (fun rR : nat * rank =>
    csum (map (fun iA : nat * oct =>
      csum (map (fun q => (volume g b ext (cell_of b (snd iA) q) * cv v (U (fst rR) (fst iA) (q AX + q AY * b AX + q AZ * b AX * b AY)%Z))%Qc)
                (positions b))) (indexed (loc (snd rR))))) (indexed M)).

(** Variables that the simulation has: all but the third momentum in two dimensions. *)
Definition has_var (g : geom) (v : cvar) : Prop := g3d g = false -> v <> Mom AZ.
