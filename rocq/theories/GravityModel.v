(** Model of the conjugate gradient gravity solver (gravity/GravitySolver_cg.cpp).

    Numbers are exact rationals. An array of one variable is the list, per rank, of the values
    of its cells: octants in storage order (owned, then ghosts), cells of a block in the order
    of flat_cell. A read outside the array, a failed neighbour query, or a division by zero
    in alpha or beta is [None]. *)
From Coq Require Import QArith Qcanon.
From Verif Require Import Base OctreeSpec OctreeModel LookupModel CellModel HydroModel.
Open Scope Z_scope.

(** What the solver reads from the configuration (l.19-62): domain extents, whether the lower
    boundary of each axis is BC_ABSORBING (the only boundary type the solver looks at, for both
    sides), the expansion factor in a cosmological run, 4*Pi*G, CG_eps. *)
Record gconf := mkGconf { q_g : geom; q_b : axis -> Z; q_ext : axis -> Qc; q_absorbing : axis -> bool;
                          q_aexp : option Qc; q_4piG : Qc; q_eps : Qc }.

Definition array := list Qc.
Definition block_len (b : axis -> Z) : Z := b AX * b AY * b AZ.
(** CellArray.h:544-575, at. *)
Definition at_cell (U : array) (c : cidx) : option Qc :=
  if is_valid c then nth_error U (Z.to_nat (Z.of_nat (c_oct c) * block_len (c_blk c) + flat_cell (c_blk c) (c_pos c))) else None.
Definition total (l : list Qc) : Qc := fold_left Qcplus l 0%Qc.
Definition is_boundary (c : cidx) : bool := match c_status c with BOUNDARY => true | _ => false end.

(** l.91-118, get_value. *)
Definition get_value (g : geom) (st : list oct) (U : array) (n : cidx) (off : axis -> Z) : option Qc :=
  if is_boundary n then Some 0%Qc
  else if level_diff n >=? 0 then at_cell U n
  else
    do l <- smaller_neighbors true g st n off ;
    do vs <- mapM (at_cell U) l ;
    Some (total vs / frac (Z.of_nat (length vs)) 1)%Qc.

(** l.145-150 and 404-410: distance to the neighbour. *)
Definition distance (n : cidx) (h : Qc) : Qc :=
  if level_diff n =? -1 then (h * frac 3 4)%Qc else if level_diff n =? 1 then (h * frac 3 2)%Qc else h.

(** l.133-161, one direction of the loop of matprod: dvar_R - dvar_L. *)
Definition matprod_dir (q : gconf) (st : list oct) (U : array) (c : cidx) (size : axis -> Qc) (dir : axis) : option Qc :=
  let off_L := step dir (-1) in
  let off_R := step dir 1 in
  do iCell_L <- getNeighbor_ghost (q_g q) st c off_L ;
  do iCell_R <- getNeighbor_ghost (q_g q) st c off_R ;
  let S := (size AX * size AY * size AZ / size dir)%Qc in
  let hl := distance iCell_L (size dir) in
  let hr := distance iCell_R (size dir) in
  do u <- at_cell U c ;
  do vl <- get_value (q_g q) st U iCell_L off_L ;
  do vr <- get_value (q_g q) st U iCell_R off_R ;
  let dvar_L := if q_absorbing q dir && is_boundary iCell_L then 0%Qc else (S * (u - vl) / hl)%Qc in
  let dvar_R := if q_absorbing q dir && is_boundary iCell_R then 0%Qc else (S * (vr - u) / hr)%Qc in
  Some (dvar_R - dvar_L)%Qc.
(** l.132-163, matprod. *)
Definition matprod (q : gconf) (st : list oct) (U : array) (c : cidx) (size : axis -> Qc) : option Qc :=
  do x <- matprod_dir q st U c size AX ;
  do y <- matprod_dir q st U c size AY ;
  do z <- matprod_dir q st U c size AZ ;
  Some (- (0 + x + y + z))%Qc.

(** l.177-181, Aii. *)
Definition Aii (size : axis -> Qc) : Qc :=
  (size AX * size AY * size AZ * (frac 2 1 / (size AX * size AX) + frac 2 1 / (size AY * size AY) + frac 2 1 / (size AZ * size AZ)))%Qc.
(** l.195-199 (b) and 213-217 (b_cosmo), selected at l.290-294. *)
Definition rhs (q : gconf) (rho_mean rho : Qc) (size : axis -> Qc) : Qc :=
  match q_aexp q with
  | None => (- q_4piG q * (rho - rho_mean) * size AX * size AY * size AZ)%Qc
  | Some aexp => (- frac 6 1 * aexp * (rho / rho_mean - 1) * size AX * size AY * size AZ)%Qc
  end.

(** The cells of a block, and the owned cells of a rank, in the order of the arrays
    (AMRBlockForeachCell.h:311-333; C24 is about the real order of visits). *)
Definition block_positions (b : axis -> Z) : list (axis -> Z) :=
  flat_map (fun k => flat_map (fun j => map (fun i => mkoff i j k) (zrange 0 (b AX))) (zrange 0 (b AY))) (zrange 0 (b AZ)).
Definition owned_cells (b : axis -> Z) (R : rank) : list cidx :=
  flat_map (fun i => map (fun p => mkCell i p b LOCAL_TO_BLOCK) (block_positions b)) (seq 0 (length (loc R))).

(** A kernel over the owned cells of a rank that computes one value per cell. The kernels of
    the solver only write the variables of their own cell and only read, at other cells,
    variables they do not write, so the order of visits does not matter. *)
Definition kernel {X} (b : axis -> Z) (R : rank) (f : cidx -> option X) : option (list X) := mapM f (owned_cells b R).
(** The owned part of an array is overwritten, the ghosts stay. *)
Definition overwrite (old new : array) : array := new ++ skipn (length new) old.
(** MPI_Allreduce_scalar of the local sums (l.219-224). *)
Definition allreduce (locals : list (list Qc)) : Qc := total (map total locals).
Definition with_size (q : gconf) (R : rank) (c : cidx) : option (axis -> Qc) :=
  do A <- nth_error (loc R ++ gho R) (c_oct c) ; Some (cell_size (q_g q) (q_b q) (q_ext q) A).

(** exchange_ghosts of one variable: every ghost block receives the block of the rank that
    owns the octant (that the communicator delivers this is C19). *)
Definition blocks_of {X} (b : axis -> Z) (R : rank) (U : list X) : list (oct * list X) :=
  let n := Z.to_nat (block_len b) in
  combine (loc R) (map (fun i => firstn n (skipn (n * i) U)) (seq 0 (length (loc R)))).
Definition exchange {X} (b : axis -> Z) (M : mesh) (Us : list (list X)) : option (list (list X)) :=
  let owned := flat_map (fun RU : rank * list X => blocks_of b (fst RU) (snd RU)) (combine M Us) in
  mapM (fun RU : rank * list X =>
    do gs <- mapM (fun B => option_map snd (find (fun ov : oct * list X => oct_eqb B (fst ov)) owned)) (gho (fst RU)) ;
    Some (firstn (length (loc (fst RU)) * Z.to_nat (block_len b)) (snd RU) ++ concat gs)) (combine M Us).

(** Values of the solver: the variables CG_IP, CG_IR, CG_PHI and the scalars. *)
Record cg := mkCg { g_p : list array; g_r : list array; g_phi : list array; g_R : Qc; g_B : Qc; g_rz : Qc }.

(** l.255-266: mean density. *)
Definition mean_density (q : gconf) (M : mesh) (rho : list array) : option Qc :=
  do ms <- mapM (fun RU : rank * array => kernel (q_b q) (fst RU) (fun c =>
      do s <- with_size q (fst RU) c ; do v <- at_cell (snd RU) c ; Some (v * s AX * s AY * s AZ)%Qc)) (combine M rho) ;
  Some (allreduce ms / (q_ext q AX * q_ext q AY * q_ext q AZ))%Qc.

(** l.274-309: initial residual. One entry per owned cell: phi, b, r, z. *)
Definition init_cell (q : gconf) (rho_mean : Qc) (R : rank) (rho gphi : array) (c : cidx) : option (Qc * Qc * Qc * Qc) :=
  do phi <- at_cell gphi c ;
  do s <- with_size q R c ;
  do d <- at_cell rho c ;
  let bi := rhs q rho_mean d s in
  do Ax <- matprod q (loc R ++ gho R) gphi c s ;
  let r := (bi - Ax)%Qc in
  Some (phi, bi, r, (r / Aii s)%Qc).
Definition sum_of {X} (f : X -> Qc) (l : list (list X)) : Qc := allreduce (map (map f) l).
(** The array CGdata is allocated with no defined content: [junk] is what its ghosts hold. *)
Definition init (q : gconf) (M : mesh) (junk : list array) (rho gphi : list array) : option cg :=
  do rho_mean <- mean_density q M rho ;
  do vs <- mapM (fun RU : rank * (array * array) => kernel (q_b q) (fst RU) (init_cell q rho_mean (fst RU) (fst (snd RU)) (snd (snd RU)))) (combine M (combine rho gphi)) ;
  let put f := map (fun ov : array * list (Qc * Qc * Qc * Qc) => overwrite (fst ov) (map f (snd ov))) (combine junk vs) in
  Some (mkCg (put snd) (put (fun v => snd (fst v))) (put (fun v => fst (fst (fst v))))
             (sum_of (fun v => snd (fst v) * snd (fst v))%Qc vs)
             (sum_of (fun v => snd (fst (fst v)) * snd (fst (fst v)))%Qc vs)
             (sum_of (fun v => snd (fst v) * snd v)%Qc vs)).

(** l.315: the loop condition R/B > eps*eps in floating point: for B = 0 the quotient is infinite
    or, for R = 0 too, not a number. *)
Definition continue (q : gconf) (S : cg) : bool :=
  if Qc_eq_bool (g_B S) 0 then ltb 0 (g_R S) else ltb (q_eps q * q_eps q) (g_R S / g_B S).

(** l.316-377: one iteration. *)
Definition iterate (q : gconf) (M : mesh) (S : cg) : option cg :=
  let b := q_b q in
  do ps <- exchange b M (g_p S) ;
  do rs <- exchange b M (g_r S) ;
  do phis <- exchange b M (g_phi S) ;
  (* l.324-337 *)
  do es <- mapM (fun RU : rank * array => kernel b (fst RU) (fun c =>
      do s <- with_size q (fst RU) c ; do p <- at_cell (snd RU) c ;
      do Ap <- matprod q (loc (fst RU) ++ gho (fst RU)) (snd RU) c s ; Some (p * Ap)%Qc)) (combine M ps) ;
  let pAp := allreduce es in
  if Qc_eq_bool pAp 0 then None else
  (* l.343-359: phi, r, r*z per cell *)
  let alpha := (g_rz S / pAp)%Qc in
  do vs <- mapM (fun RU : rank * (array * (array * array)) => kernel b (fst RU) (fun c =>
      let '(p, (r, phi)) := snd RU in
      do s <- with_size q (fst RU) c ;
      do pi <- at_cell p c ; do ri <- at_cell r c ; do phii <- at_cell phi c ;
      do Ap <- matprod q (loc (fst RU) ++ gho (fst RU)) p c s ;
      let r' := (ri - alpha * Ap)%Qc in
      Some ((phii + alpha * pi)%Qc, r', (r' / Aii s)%Qc))) (combine M (combine ps (combine rs phis))) ;
  let put f olds := map (fun ov : array * list (Qc * Qc * Qc) => overwrite (fst ov) (map f (snd ov))) (combine olds vs) in
  let phis' := put (fun v => fst (fst v)) phis in
  let rs' := put (fun v => snd (fst v)) rs in
  let Rnext := sum_of (fun v => snd (fst v) * snd (fst v))%Qc vs in
  let rz_next := sum_of (fun v => snd (fst v) * snd v)%Qc vs in
  if Qc_eq_bool (g_rz S) 0 then None else
  (* l.362-372 *)
  let beta := (rz_next / g_rz S)%Qc in
  do zs <- mapM (fun RU : rank * (array * array) => kernel b (fst RU) (fun c =>
      do s <- with_size q (fst RU) c ; do p <- at_cell (fst (snd RU)) c ; do r <- at_cell (snd (snd RU)) c ;
      Some (r / Aii s + beta * p)%Qc)) (combine M (combine ps rs')) ;
  let ps' := map (fun ov : array * array => overwrite (fst ov) (snd ov)) (combine ps zs) in
  Some (mkCg ps' rs' phis' Rnext (g_B S) rz_next).

(** l.314-377: the loop, with the number of iterations done; [None] if [fuel] runs out. *)
Fixpoint cg_loop (fuel : nat) (q : gconf) (M : mesh) (S : cg) : option (nat * cg) :=
  if continue q S then
    match fuel with
    | O => None
    | Datatypes.S fuel => do S' <- iterate q M S ; do kS <- cg_loop fuel q M S' ; Some (Datatypes.S (fst kS), snd kS)
    end
  else Some (O, S).

(** l.395-424, gradient, one direction. *)
Definition gradient (q : gconf) (st : list oct) (phi : array) (c : cidx) (size : axis -> Qc) (dir : axis) : option Qc :=
  let off_L := step dir (-1) in
  let off_R := step dir 1 in
  do phi_C <- at_cell phi c ;
  do iCell_L <- getNeighbor_ghost (q_g q) st c off_L ;
  do iCell_R <- getNeighbor_ghost (q_g q) st c off_R ;
  do phi_L <- get_value (q_g q) st phi iCell_L off_L ;
  do phi_R <- get_value (q_g q) st phi iCell_R off_R ;
  let hl := distance iCell_L (size dir) in
  let hr := distance iCell_R (size dir) in
  let dphi_L := if q_absorbing q dir && is_boundary iCell_L then 0%Qc else ((phi_L - phi_C) / hl)%Qc in
  let dphi_R := if q_absorbing q dir && is_boundary iCell_R then 0%Qc else ((phi_C - phi_R) / hr)%Qc in
  Some ((dphi_L + dphi_R) / frac 2 1)%Qc.

(** l.232-435, update_gravity_field: potential and acceleration at the owned cells of every
    rank (their ghosts are not written), and the number of iterations. The solver refuses to
    run in two dimensions (l.58). [junk] as in [init]. *)
Definition update_gravity_field (fuel : nat) (q : gconf) (M : mesh) (junk : list array) (rho gphi : list array)
    : option (nat * list (list (Qc * (Qc * Qc * Qc)))) :=
  if negb (g3d (q_g q)) then None else
  do S0 <- init q M junk rho gphi ;
  do kS <- cg_loop fuel q M S0 ;
  do phis <- exchange (q_b q) M (g_phi (snd kS)) ;
  do out <- mapM (fun RU : rank * array => kernel (q_b q) (fst RU) (fun c =>
      do s <- with_size q (fst RU) c ; do phi <- at_cell (snd RU) c ;
      let gr := gradient q (loc (fst RU) ++ gho (fst RU)) (snd RU) c s in
      do gx <- gr AX ; do gy <- gr AY ; do gz <- gr AZ ; Some (phi, (gx, gy, gz)))) (combine M phis) ;
  Some (fst kS, out).
