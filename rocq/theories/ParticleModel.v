(** Model of the kernels that couple particles and cells: cell of a position
    (foreach_cell/AMRBlockForeachCell.h), projection of the particle masses on the cells
    (particles/ParticleUpdate_CIC_density.cpp, ParticleUpdate_NGP_density.cpp) and motion of
    the particles in the acceleration field (particles/ParticleUpdate_CIC_move.cpp,
    ParticleUpdate_NGP_move.cpp).

    Reals are exact (canonical rationals). A kernel over particles is described for one
    particle; additions into the array are listed as (cell, value) pairs. [None] is a failed
    assertion or an access to a cell that is not in the array: a cell across a boundary that
    is not periodic, or no cell at all. [st] is the list of local octants then ghosts, of
    which [nloc] are local. *)
From Coq Require Import QArith Qround Qcanon.
From Verif Require Import Base OctreeSpec OctreeModel LookupModel CellModel HydroModel.
Open Scope Z_scope.

(** A position in the simulation box; [lo] and [hi] are its corners (xmin, xmax, ...). *)
Definition point := axis -> Qc.
Definition extent (lo hi : point) : point := fun a => (hi a - lo a)%Qc.

(** AMRBlockForeachCell.h:56-82, getCellCenter. *)
Definition getCellCenter (g : geom) (st : list oct) (lo hi : point) (c : cidx) : option point :=
  match nth_error st (c_oct c) with
  | Some A =>
    Some (fun a =>
      if flat g a then 0%Qc
      else (lo a + Q2Qc (getCenter g A a) * extent lo hi a
            + (frac (c_pos c a) 1 - frac (c_blk c a) 1 * half_f + half_f) * cell_size g (c_blk c) (extent lo hi) A a)%Qc)
  | None => None
  end.

(** l.84-129, getCellFromPos. The conversion of a negative number to uint32_t is undefined;
    the assertions on the position are l.103-105, the one on ghosts l.122. *)
Definition getCellFromPos (g : geom) (st : list oct) (nloc : nat) (b : axis -> Z) (lo hi p : point) : option cidx :=
  let x01 a := ((p a - lo a) / (hi a - lo a))%Qc in
  if negb (ltb 0 (x01 AX) && ltb (x01 AX) 1 && (ltb 0 (x01 AY) && ltb (x01 AY) 1) && (leb 0 (x01 AZ) && ltb (x01 AZ) 1)) then None
  else
    match getiOctFromPos g st (fun a => this (x01 a)) with
    | None => None
    | Some i =>
      match nth_error st i with
      | None => None
      | Some A =>
        let corner a := (lo a + Q2Qc (getCorner g A a) * (hi a - lo a))%Qc in
        let size a := (Q2Qc (getSize g A a) * (hi a - lo a) / frac (b a) 1)%Qc in
        let q a := Qfloor (this ((p a - corner a) / size a)%Qc) in
        if (i <? nloc)%nat && all3 (fun a => 0 <=? q a)
        then Some (mkCell i (fun a => u32 (q a)) b LOCAL_TO_BLOCK) else None
      end
    end.

(** Local position relative to the centre of the cell, in cells
    (CIC_density.cpp:67-71, CIC_move.cpp:72-76). *)
Definition cic_local (g : geom) (b : axis -> Z) (lo hi p centre : point) (A : oct) : point :=
  fun a => ((p a - centre a) / cell_size g b (extent lo hi) A a)%Qc.
(** CIC_density.cpp:72-76: direction of the neighbours, fractions outside and inside. *)
Definition cic_sign (x : Qc) : Z := if leb 0 x then 1 else -1.
Definition cic_out (x : Qc) : Qc := fabs x.
Definition cic_in (x : Qc) : Qc := (1 - fabs x)%Qc.
(** l.81-84, volume_fraction. *)
Definition cic_fraction (x : point) (d : axis -> Z) : Qc :=
  let c a := if d a =? 0 then cic_in (x a) else cic_out (x a) in (c AX * c AY * c AZ)%Qc.
(** l.113-120: the eight offsets in this order. *)
Definition cic_offsets (x : point) : list (axis -> Z) :=
  let s a := cic_sign (x a) in
  [mkoff 0 0 0; mkoff (s AX) 0 0; mkoff 0 (s AY) 0; mkoff (s AX) (s AY) 0;
   mkoff 0 0 (s AZ); mkoff (s AX) 0 (s AZ); mkoff 0 (s AY) (s AZ); mkoff (s AX) (s AY) (s AZ)].

(** A cell of the array, for at(). *)
Definition in_array (c : cidx) : option cidx := if is_valid c then Some c else None.

(** l.78-111, apply_rho_contrib: the additions for one offset. [V] is the volume of the cell
    of the particle, [m] the mass. *)
Definition ndim (g : geom) : Z := if g3d g then 3 else 2.
Definition cic_contrib (g : geom) (st : list oct) (m V : Qc) (x : point) (cell : cidx) (d : axis -> Z) : option (list (cidx * Qc)) :=
  match getNeighbor_ghost g st cell d with
  | None => None
  | Some n =>
    let vf := cic_fraction x d in
    if 0 <=? level_diff n then
      let rho := (m * vf / V)%Qc in
      let rho := if level_diff n =? 1 then (rho / frac (2 * 2 * (ndim g - 1)) 1)%Qc else rho in
      option_map (fun c => [(c, rho)]) (in_array n)
    else
      let rho := (frac 2 1 * (m * vf) / V)%Qc in
      match smaller_neighbors true g st n d with
      | None => None
      | Some l => mapM (fun c => option_map (fun c => (c, rho)) (in_array c)) l
      end
  end.
(** l.55-122, one particle of mass [m] at [p]. *)
Definition cic_deposit (g : geom) (st : list oct) (nloc : nat) (b : axis -> Z) (lo hi p : point) (m : Qc) : option (list (cidx * Qc)) :=
  match getCellFromPos g st nloc b lo hi p with
  | None => None
  | Some cell =>
    match nth_error st (c_oct cell), getCellCenter g st lo hi cell with
    | Some A, Some centre =>
      let size := cell_size g b (extent lo hi) A in
      let V := (size AX * size AY * size AZ)%Qc in
      let x := cic_local g b lo hi p centre A in
      option_map (@concat _) (mapM (cic_contrib g st m V x cell) (cic_offsets x))
    | _, _ => None
    end
  end.

(** ParticleUpdate_NGP_density.cpp:43-51. *)
Definition ngp_deposit (g : geom) (st : list oct) (nloc : nat) (b : axis -> Z) (lo hi p : point) (m : Qc) : option (list (cidx * Qc)) :=
  match getCellFromPos g st nloc b lo hi p with
  | None => None
  | Some cell =>
    match nth_error st (c_oct cell) with
    | Some A => let size := cell_size g b (extent lo hi) A in
                option_map (fun c => [(c, (m / (size AX * size AY * size AZ))%Qc)]) (in_array cell)
    | None => None
    end
  end.

(** ParticleUpdate_CIC_move.cpp:83-109, apply_g_contrib for one offset: cells and weights. *)
Definition cic_weights_at (g : geom) (st : list oct) (x : point) (cell : cidx) (d : axis -> Z) : option (list (cidx * Qc)) :=
  match getNeighbor_ghost g st cell d with
  | None => None
  | Some n =>
    let vf := cic_fraction x d in
    if 0 <=? level_diff n then option_map (fun c => [(c, vf)]) (in_array n)
    else
      match smaller_neighbors true g st n d with
      | None => None
      | Some l => mapM (fun c => option_map (fun c => (c, (vf / frac (2 * (ndim g - 1)) 1)%Qc)) (in_array c)) l
      end
  end.
(** l.61-119: the acceleration of a particle at [p]; [G] is the stored field. *)
Definition cic_gather (g : geom) (st : list oct) (nloc : nat) (b : axis -> Z) (lo hi p : point)
    (G : nat -> Z -> axis -> Qc) : option point :=
  match getCellFromPos g st nloc b lo hi p with
  | None => None
  | Some cell =>
    match nth_error st (c_oct cell), getCellCenter g st lo hi cell with
    | Some A, Some centre =>
      let x := cic_local g b lo hi p centre A in
      option_map (fun ws => fun a =>
          fold_left (fun s (w : cidx * Qc) => (s + G (c_oct (fst w)) (flat_cell (c_blk (fst w)) (c_pos (fst w))) a * snd w)%Qc) (concat ws) 0%Qc)
        (mapM (cic_weights_at g st x cell) (cic_offsets x))
    | _, _ => None
    end
  end.
(** ParticleUpdate_NGP_move.cpp:52-56: the acceleration is the value of the cell. *)
Definition ngp_gather (g : geom) (st : list oct) (nloc : nat) (b : axis -> Z) (lo hi p : point)
    (G : nat -> Z -> axis -> Qc) : option point :=
  match getCellFromPos g st nloc b lo hi p with
  | None => None
  | Some cell => option_map (fun c => G (c_oct c) (flat_cell (c_blk c) (c_pos c))) (in_array cell)
  end.
(** CIC_move.cpp:121-131 (NGP_move.cpp:54-64): new velocity and position. *)
Definition kick_drift (lo hi : point) (dt : Qc) (p v acc : point) : point * point :=
  let v' a := (v a + dt * acc a)%Qc in
  (fun a => Q2Qc (wrap_position (this (p a + dt * v' a)%Qc) (this (lo a)) (this (hi a))), v').
