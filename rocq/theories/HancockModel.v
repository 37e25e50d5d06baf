(** Model of the MUSCL-Hancock update (hydro/HydroUpdate_hancock.cpp), and of compute_source
    (hydro/HydroUpdate_utils.h). Magnetohydrodynamic states are not modelled. *)
From Coq Require Import QArith Qcanon.
From Verif Require Import Base OctreeSpec OctreeModel CellModel HydroModel GravityModel RKModel.
Open Scope Z_scope.

(** HydroUpdate_hancock.cpp:388-393, blocks of Sources (one layer of ghosts) and of SlopesX,
    SlopesY, SlopesZ (one layer along one axis). *)
Definition thin (g : geom) (b : axis -> Z) (a : axis) : Z := b a + (if flat g a then 0 else 2).
Definition tube (b : axis -> Z) (dir a : axis) : Z := b a + (if axis_eqb dir a then 2 else 0).

Open Scope Qc_scope.
Definition prim0 : prim := mkPrim 0 0 0 0 0.

(** HydroUpdate_utils.h:186-236, compute_source. *)
Definition compute_source (d3 : bool) (q slopeX slopeY slopeZ : prim) (dtdx dtdy dtdz gamma : Qc) : prim :=
  let r := q_rho q in let p := q_p q in let u := q_x q in let v := q_y q in let w := q_z q in
  let drx := q_rho slopeX * half_f in let dpx := q_p slopeX * half_f in
  let dux := q_x slopeX * half_f in let dvx := q_y slopeX * half_f in let dwx := q_z slopeX * half_f in
  let dry := q_rho slopeY * half_f in let dpy := q_p slopeY * half_f in
  let duy := q_x slopeY * half_f in let dvy := q_y slopeY * half_f in let dwy := q_z slopeY * half_f in
  let drz := q_rho slopeZ * half_f in let dpz := q_p slopeZ * half_f in
  let duz := q_x slopeZ * half_f in let dvz := q_y slopeZ * half_f in let dwz := q_z slopeZ * half_f in
  if d3 then
    mkPrim (r + (- u * drx - dux * r) * dtdx + (- v * dry - dvy * r) * dtdy + (- w * drz - dwz * r) * dtdz)
           (p + (- u * dpx - dux * gamma * p) * dtdx + (- v * dpy - dvy * gamma * p) * dtdy + (- w * dpz - dwz * gamma * p) * dtdz)
           (u + (- u * dux - dpx / r) * dtdx + (- v * duy) * dtdy + (- w * duz) * dtdz)
           (v + (- u * dvx) * dtdx + (- v * dvy - dpy / r) * dtdy + (- w * dvz) * dtdz)
           (w + (- u * dwx) * dtdx + (- v * dwy) * dtdy + (- w * dwz - dpz / r) * dtdz)
  else
    mkPrim (r + (- u * drx - dux * r) * dtdx + (- v * dry - dvy * r) * dtdy)
           (p + (- u * dpx - dux * gamma * p) * dtdx + (- v * dpy - dvy * gamma * p) * dtdy)
           (u + (- u * dux - dpx / r) * dtdx + (- v * duy) * dtdy)
           (v + (- u * dvx) * dtdx + (- v * dvy - dpy / r) * dtdy)
           0.

(** The parts of [hctx] about gravity in the step and user boundaries are not used here. *)
Definition h_prim (h : hctx) (U : field) (c : cidx) : option prim := Qgroup (h_g h) (h_st h) (h_b h) (h_bval h) (h_gamma h) U c.

(** HydroUpdate_hancock.cpp:57-94, compute_slopes: the slope along [dir] for the index [c] of
    Sources. *)
Definition slope_of (h : hctx) (U : field) (dir : axis) (c : cidx) : option prim :=
  do ib <- convert_index (wide (h_g h) (h_b h)) c ;
  do im <- getNeighbor ib (step dir (-1)) ;
  do ip <- getNeighbor ib (step dir 1) ;
  do qc <- h_prim h U ib ;
  do qm <- h_prim h U im ;
  do qp <- h_prim h U ip ;
  Some (compute_slope qm qc qp 1 1).
(** l.96-99, compute_slopes, then getPrimitiveState: value of Sources at its index [c]. [size]:
    getCellSize, the size of the cells of the block. Sources and the slopes of the whole block
    are computed before they are read in the code; here each is computed when it is read. *)
Definition source_of (h : hctx) (U : field) (dt : Qc) (size : axis -> Qc) (c : cidx) : option prim :=
  let d3 := g3d (h_g h) in
  do ib <- convert_index (wide (h_g h) (h_b h)) c ;
  do qc <- h_prim h U ib ;
  do sx <- slope_of h U AX c ;
  do sy <- slope_of h U AY c ;
  do sz <- (if d3 then slope_of h U AZ c else Some prim0) ;
  Some (getPrim d3 (compute_source d3 qc sx sy sz (dt / size AX) (dt / size AY) (dt / size AZ) (h_gamma h))).
(** l.64-66, 77-79, 91-93: value of the slopes along [dir] at the index [s] of their array,
    written from the index of Sources at the same place if it is valid there. *)
Definition slopes_at (h : hctx) (U : field) (dir : axis) (s : cidx) : option prim :=
  do c <- convert_index (thin (h_g h) (h_b h)) s ;
  if is_valid (convert_index_ghost_local (tube (h_b h) dir) c) then
    do q <- slope_of h U dir c ; Some (getPrim (g3d (h_g h)) q)
  else None.

(** l.112-122, reconstruct_state. *)
Definition reconstruct_state (source slope : prim) (sign smallr : Qc) : prim :=
  let r := pmap2 Qcplus source (pmap (fun x => sign * x * half_f) slope) in
  mkPrim (fmax smallr (q_rho r)) (q_p r) (q_x r) (q_y r) (q_z r).
(** l.138-161, compute_flux. *)
Definition hancock_flux (h : hctx) (sourceL sourceR slopeL slopeR : prim) (dir : axis) : cons :=
  let qL := reconstruct_state sourceL slopeL 1 (h_smallr h) in
  let qR := reconstruct_state sourceR slopeR (- (1)) (h_smallr h) in
  swapCons (fst (h_riem h (swapPrim qL dir) (swapPrim qR dir))) dir.
(** l.183-227, compute_fluxes: new value of the cell in Uout; [u] is its value read from Uout. *)
Definition hancock_sweep (h : hctx) (U : field) (dir : axis) (cell : cidx) (dt : Qc) (size : axis -> Qc) (u : cons) : option cons :=
  do iC <- convert_index (thin (h_g h) (h_b h)) cell ;
  do iL <- getNeighbor iC (step dir (-1)) ;
  do iR <- getNeighbor iC (step dir 1) ;
  do sC <- convert_index (tube (h_b h) dir) cell ;
  do sL <- getNeighbor sC (step dir (-1)) ;
  do sR <- getNeighbor sC (step dir 1) ;
  do sourceL <- source_of h U dt size iL ;
  do sourceC <- source_of h U dt size iC ;
  do sourceR <- source_of h U dt size iR ;
  do slopeL <- slopes_at h U dir sL ;
  do slopeC <- slopes_at h U dir sC ;
  do slopeR <- slopes_at h U dir sR ;
  let fluxL := hancock_flux h sourceL sourceC slopeL slopeC dir in
  let fluxR := hancock_flux h sourceC sourceR slopeC slopeR dir in
  Some (cmap2 Qcplus u (cmap (fun x => x * (dt / size dir)) (cmap2 Qcminus fluxL fluxR))).

(** l.444-457, one cell: stored value of Uout; [old] is what Uout held, [ga] the acceleration at
    the cell if there is gravity (from the field or the constant). apply_gravity_correction
    (l.247-296) is the function of HydroUpdate_euler.cpp. *)
Definition hancock_cell (h : hctx) (ext : axis -> Qc) (dt : Qc) (U : field) (ga : option (axis -> Qc)) (old : cons) (cell : cidx) : option cons :=
  let d3 := g3d (h_g h) in
  do A <- nth_error (h_st h) (c_oct cell) ;
  let size := cell_size (h_g h) (h_b h) ext A in
  let o := setCons d3 old (read d3 U cell) in
  let one dir o := do u <- hancock_sweep h U dir cell dt size (getCons d3 o) ; Some (setCons d3 o u) in
  do o <- one AX o ;
  do o <- one AY o ;
  do o <- (if d3 then one AZ o else Some o) ;
  match ga with
  | Some ga => Some (gravity_correction d3 dt (u_rho (U (c_oct cell) (flat_cell (c_blk cell) (c_pos cell)))) ga o)
  | None => Some o
  end.

(** l.351-464, update_aux on every rank: content of the owned part of the _next fields. The cells
    only read the input, so the order of visits does not matter. l.460: the repair of negative
    values follows. *)
Definition hancock_update (h : rank -> hctx) (ext : axis -> Qc) (dt smallp : Qc) (b : axis -> Z) (M : mesh)
    (gf : nat -> nat -> Z -> option (axis -> Qc)) (old : nat -> field) (Us : list (list cons)) : option (list (list cons)) :=
  mapM (fun rRU : nat * (rank * list cons) =>
    let r := fst rRU in let R := fst (snd rRU) in let U := snd (snd rRU) in
    do out <- kernel b R (fun c =>
      let k := flat_cell b (c_pos c) in
      hancock_cell (h R) ext dt (field_of b U) (gf r (c_oct c) k) (old r (c_oct c) k) c) ;
    Some (map (clean_negative (g3d (h_g (h R))) (h_gamma (h R)) (h_smallr (h R)) smallp) out)) (numbered (combine M Us)).
