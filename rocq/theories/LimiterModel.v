(** Model of the limit of the time step by thermal conduction and viscosity
    (compute_dt/Compute_dt_parabolic.cpp). The values are exact; the reduction is that of TimeModel. *)
From Coq Require Import QArith Qcanon.
From Verif Require Import Base OctreeSpec OctreeModel CellModel HydroModel ParticleModel GravityModel TimeModel.
Open Scope Z_scope.

(** l.83-99, the value of one term in a cell: 0 if the term is not solved explicitly, else the
    coefficient at the centre over the square of the smallest side. *)
Definition term_rate (d3 : bool) (size : axis -> Qc) (pos : point) (term : option (point -> Qc)) : Qc :=
  match term with
  | None => 0%Qc
  | Some coefficient =>
    let k := coefficient pos in
    let m := fmax (k / (size AX * size AX)) (k / (size AY * size AY)) in
    if d3 then fmax m (k / (size AZ * size AZ)) else m
  end.
(** l.74-103, what one cell brings to the maximum. [kappa]: the conductivity (any function of the
    position), [mu]: the viscosity. *)
Definition parabolic_rate (g : geom) (st : list oct) (lo hi : point) (kappa mu : option (point -> Qc)) (c : cidx) : option Qc :=
  do A <- nth_error st (c_oct c) ;
  do pos <- getCellCenter g st lo hi c ;
  let size := cell_size g (c_blk c) (extent lo hi) A in
  Some (fmax (term_rate (g3d g) size pos kappa) (term_rate (g3d g) size pos mu)).
(** l.43-60 and 62-108 on all processes. [lowest]: the initial value of Kokkos::Max. *)
Definition parabolic_dt (lowest : Q) (g : geom) (b : axis -> Z) (lo hi : point) (cfl : Qc) (kappa mu : option (point -> Qc)) (M : mesh) : option ext :=
  do rates <- mapM (fun R => do l <- mapM (parabolic_rate g (loc R ++ gho R) lo hi kappa mu) (owned_cells b R) ; Some (map this l)) M ;
  kernel_dt lowest (this cfl, rates).
