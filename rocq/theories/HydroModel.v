(** Model of the hydrodynamics update: states (states/State_hydro.h), ghost layers of a block
    (hydro/CopyGhostBlockCellData.h), slopes and fluxes (hydro/HydroUpdate_utils.h), Riemann
    solver (RiemannSolvers.h) and the first order update (hydro/HydroUpdate_euler.cpp).

    Reals are exact (canonical rationals). The square root of the Riemann solver is a
    parameter. Magnetohydrodynamic states are not modelled. *)
From Coq Require Import QArith Qcanon.
From Verif Require Import Base OctreeSpec OctreeModel LookupModel CellModel.
Open Scope Qc_scope.

(** Literal constants. *)
Definition frac (n : Z) (d : positive) : Qc := Q2Qc (n # d).
Definition half_f : Qc := frac 1 2.
Definition ltb (x y : Qc) : bool := match x ?= y with Lt => true | _ => false end.
Definition leb (x y : Qc) : bool := match x ?= y with Gt => false | _ => true end.
(** real_type.h:25-26, FMAX and FMIN; on numbers fmax and fmin are the same. *)
Definition fmax (x y : Qc) : Qc := if ltb y x then x else y.
Definition fmin (x y : Qc) : Qc := if ltb x y then x else y.
Definition fabs (x : Qc) : Qc := if ltb x 0 then - x else x.

(** * States (State_hydro.h) *)

(** l.14-50. *)
Record cons := mkCons { u_rho : Qc; u_e : Qc; u_x : Qc; u_y : Qc; u_z : Qc }.
(** l.55-104. *)
Record prim := mkPrim { q_rho : Qc; q_p : Qc; q_x : Qc; q_y : Qc; q_z : Qc }.

(** states/State_Ops.h, operators on every variable (state_foreach_var). *)
Definition cmap2 (f : Qc -> Qc -> Qc) (a b : cons) : cons :=
  mkCons (f (u_rho a) (u_rho b)) (f (u_e a) (u_e b)) (f (u_x a) (u_x b)) (f (u_y a) (u_y b)) (f (u_z a) (u_z b)).
Definition cmap (f : Qc -> Qc) (a : cons) : cons := mkCons (f (u_rho a)) (f (u_e a)) (f (u_x a)) (f (u_y a)) (f (u_z a)).
Definition pmap2 (f : Qc -> Qc -> Qc) (a b : prim) : prim :=
  mkPrim (f (q_rho a) (q_rho b)) (f (q_p a) (q_p b)) (f (q_x a) (q_x b)) (f (q_y a) (q_y b)) (f (q_z a) (q_z b)).
Definition pmap (f : Qc -> Qc) (a : prim) : prim := mkPrim (f (q_rho a)) (f (q_p a)) (f (q_x a)) (f (q_y a)) (f (q_z a)).
Definition cons0 : cons := mkCons 0 0 0 0 0.

(** l.114-125, getConservativeState: what is read from the stored values ([d3]: 3D). *)
Definition getCons (d3 : bool) (u : cons) : cons := mkCons (u_rho u) (u_e u) (u_x u) (u_y u) (if d3 then u_z u else 0).
(** l.138-149, getPrimitiveState. *)
Definition getPrim (d3 : bool) (q : prim) : prim := mkPrim (q_rho q) (q_p q) (q_x q) (q_y q) (if d3 then q_z q else 0).
(** l.184-193, setConservativeState: the stored values after writing [u] over [old]. *)
Definition setCons (d3 : bool) (old u : cons) : cons := mkCons (u_rho u) (u_e u) (u_x u) (u_y u) (if d3 then u_z u else u_z old).

(** l.204-214. *)
Definition consToPrim (d3 : bool) (gamma : Qc) (u : cons) : prim :=
  let Ek := half_f * (u_x u * u_x u + u_y u * u_y u + u_z u * u_z u) / u_rho u in
  let p := (u_e u - Ek) * (gamma - 1) in
  mkPrim (u_rho u) p (u_x u / u_rho u) (u_y u / u_rho u) (if d3 then u_z u / u_rho u else 0).
(** l.225-235. *)
Definition primToCons (d3 : bool) (gamma : Qc) (q : prim) : cons :=
  let Ek := half_f * q_rho q * (q_x q * q_x q + q_y q * q_y q + q_z q * q_z q) in
  let E := Ek + q_p q / (gamma - 1) in
  mkCons (q_rho q) E (q_rho q * q_x q) (q_rho q * q_y q) (if d3 then q_rho q * q_z q else 0).
(** l.246-260. *)
Definition swapPrim (q : prim) (dir : axis) : prim :=
  match dir with
  | AX => q
  | AY => mkPrim (q_rho q) (q_p q) (q_y q) (q_x q) (q_z q)
  | AZ => mkPrim (q_rho q) (q_p q) (q_z q) (q_y q) (q_x q)
  end.
(** l.271-285. *)
Definition swapCons (u : cons) (dir : axis) : cons :=
  match dir with
  | AX => u
  | AY => mkCons (u_rho u) (u_e u) (u_y u) (u_x u) (u_z u)
  | AZ => mkCons (u_rho u) (u_e u) (u_z u) (u_y u) (u_x u)
  end.

(** * Slopes and fluxes (HydroUpdate_utils.h) *)

(** l.78-83, the limiter of one variable. *)
Definition limit (dvp dvm : Qc) : Qc :=
  if leb (dvp * dvm) 0 then 0 else if ltb (fabs dvm) (fabs dvp) then dvm else dvp.
(** l.67-87, compute_slope. *)
Definition compute_slope (qm q qp : prim) (dL dR : Qc) : prim :=
  let dqp := pmap (fun x => x / dR) (pmap2 Qcminus qp q) in
  let dqm := pmap (fun x => x / dL) (pmap2 Qcminus q qm) in
  pmap2 limit dqp dqm.
(** l.99-108, reconstruct_lin_state. *)
Definition reconstruct (q slope : prim) (sign smallr size : Qc) : prim :=
  let r := pmap2 Qcplus q (pmap (fun x => sign * size * x) slope) in
  mkPrim (fmax (q_rho r) smallr) (q_p r) (q_x r) (q_y r) (q_z r).

(** l.12-19, GravityInfo. *)
Record ginfo := mkG { gg : axis -> Qc; in_step : bool; well_balanced : bool }.

(** l.126-171, compute_euler_flux: flux and p_out. [riem] is riemann_hydro with its
    parameters applied. *)
Definition compute_euler_flux (riem : prim -> prim -> cons * Qc) (smallr : Qc) (gi : ginfo)
    (sourceL sourceR slopeL slopeR : prim) (dir : axis) (dL dR size : Qc) : cons * Qc :=
  let qL := if well_balanced gi
            then mkPrim (q_rho sourceL) (q_p sourceL + q_rho sourceL * gg gi dir * size * half_f) (q_x sourceL) (q_y sourceL) (q_z sourceL)
            else reconstruct sourceL slopeL 1 smallr dL in
  let qR := if well_balanced gi
            then mkPrim (q_rho sourceR) (q_p sourceR - q_rho sourceR * gg gi dir * size * half_f) (q_x sourceR) (q_y sourceR) (q_z sourceR)
            else reconstruct sourceR slopeR (- (1)) smallr dR in
  let (flux, p_out) := riem (swapPrim qL dir) (swapPrim qR dir) in
  (swapCons flux dir, p_out).

(** * Riemann solver (RiemannSolvers.h) *)

Record rparams := mkRP { gamma0 : Qc; smallr : Qc; smallp : Qc; smallc : Qc }.

(** l.107-205, riemann_hllc. [sq] is the square root. *)
Definition riemann_hllc (sq : Qc -> Qc) (P : rparams) (ql qr : prim) : cons * Qc :=
  let entho := 1 / (gamma0 P - 1) in
  let rl := fmax (q_rho ql) (smallr P) in
  let pl := fmax (q_p ql) (rl * smallp P) in
  let ul := q_x ql in let vl := q_y ql in let wl := q_z ql in
  let etotl := pl * entho + half_f * rl * (ul * ul + vl * vl + wl * wl) in
  let rr := fmax (q_rho qr) (smallr P) in
  let pr := fmax (q_p qr) (rr * smallp P) in
  let ur := q_x qr in let vr := q_y qr in let wr := q_z qr in
  let etotr := pr * entho + half_f * rr * (ur * ur + vr * vr + wr * wr) in
  let cfastl := sq (fmax (gamma0 P * pl / rl) (smallc P * smallc P)) in
  let cfastr := sq (fmax (gamma0 P * pr / rr) (smallc P * smallc P)) in
  let SL := fmin ul ur - fmax cfastl cfastr in
  let SR := fmax ul ur + fmax cfastl cfastr in
  let rcl := rl * (ul - SL) in
  let rcr := rr * (SR - ur) in
  let ustar := (rcr * ur + rcl * ul + (pl - pr)) / (rcr + rcl) in
  let ptotstar := (rcr * pl + rcl * pr + rcl * rcr * (ul - ur)) / (rcr + rcl) in
  let rstarl := rl * (SL - ul) / (SL - ustar) in
  let etotstarl := ((SL - ul) * etotl - pl * ul + ptotstar * ustar) / (SL - ustar) in
  let rstarr := rr * (SR - ur) / (SR - ustar) in
  let etotstarr := ((SR - ur) * etotr - pr * ur + ptotstar * ustar) / (SR - ustar) in
  (* sampled state: ro, uo, ptoto, etoto; p_out is ptoto *)
  let out ro uo ptoto etoto :=
    let f := ro * uo in
    let q := if ltb 0 f then ql else qr in
    (mkCons f ((etoto + ptoto) * uo) (ro * uo * uo + ptoto) (f * q_y q) (f * q_z q), ptoto) in
  if ltb 0 SL then out rl ul pl etotl
  else if ltb 0 ustar then out rstarl ustar ptotstar etotstarl
  else if ltb 0 SR then out rstarr ustar ptotstar etotstarr
  else out rr ur pr etotr.

(** * Ghost layers of a block (CopyGhostBlockCellData.h) *)

(** Values stored for each octant (storage index) and cell (position in the block). *)
Definition field := nat -> Z -> cons.
(** The value read for a cell. *)
Definition read (d3 : bool) (U : field) (c : cidx) : cons := getCons d3 (U (c_oct c) (flat_cell (c_blk c) (c_pos c))).

(** HydroUpdate_euler.cpp:184-185: blocks with two layers of ghosts. *)
Definition wide (g : geom) (b : axis -> Z) (a : axis) : Z := (b a + (if flat g a then 0 else 4))%Z.

(** l.22-64, copyGhostBlockCellData: value of the wide block for the index [c] of the wide
    block. [bval] is the value at a boundary (getBoundaryValue, cf. CellModel). In 2D the third
    momentum of the wide block is not stored; it is read as 0. *)
Definition Ugroup (g : geom) (st : list oct) (b : axis -> Z) (bval : cidx -> option cons) (U : field) (c : cidx) : option cons :=
  match convert_index_ghost g st b c with
  | None => None
  | Some n =>
    match c_status n with
    | BOUNDARY => option_map (getCons (g3d g)) (bval n)
    | INVALID => None
    | _ =>
      if (0 <=? level_diff n)%Z then Some (read (g3d g) U n)
      else match siblings true g st n with
           | None => None
           | Some l => Some (cmap (fun x => x / Q2Qc (inject_Z (Z.of_nat (length l))))
                                  (fold_left (cmap2 Qcplus) (map (read (g3d g) U) l) cons0))
           end
    end
  end.
(** HydroUpdate_utils.h:36-49, compute_primitives, then getPrimitiveState: value of Qgroup.
    The whole wide block is filled before it is read in the code; here each value is computed
    when it is read. *)
Definition Qgroup (g : geom) (st : list oct) (b : axis -> Z) (bval : cidx -> option cons) (gamma : Qc) (U : field) (c : cidx) : option prim :=
  option_map (fun u => getPrim (g3d g) (consToPrim (g3d g) gamma u)) (Ugroup g st b bval U c).

Notation "'do' x <- e ; k" := (match e with Some x => k | None => None end)
  (at level 200, x pattern, e at level 100, k at level 200).

(** * One-dimensional update (HydroUpdate_utils.h) *)

(** l.466-475, distances in units of the size of the cell, by level difference. *)
Definition ds0 (ld : Z) : Qc := if (ld <? 0)%Z then frac 1 2 else if (ld =? 0)%Z then 1 else frac 2 1.
Definition ds1 (ld : Z) : Qc := if (ld <? 0)%Z then frac 3 4 else if (ld =? 0)%Z then 1 else frac 3 2.
Definition df0 (ld : Z) : Qc := if (ld <? 0)%Z then frac 1 4 else if (ld =? 0)%Z then frac 1 2 else 1.
Definition df1 (ld : Z) : Qc := frac 1 2.

(** Sum of the fluxes through the faces shared with smaller cells, scaled (l.503-521 and
    545-563). [p0] is the uninitialised value of p_out. *)
Definition sum_fluxes (fac : Qc) (p0 : Qc) (l : list (cons * Qc)) : cons * Qc :=
  (cmap (fun x => x * fac) (fold_left (cmap2 Qcplus) (map fst l) cons0),
   fold_left Qcplus (map snd l) p0 * fac).

Definition set_mom (dir : axis) (f : Qc -> Qc) (u : cons) : cons :=
  match dir with
  | AX => mkCons (u_rho u) (u_e u) (f (u_x u)) (u_y u) (u_z u)
  | AY => mkCons (u_rho u) (u_e u) (u_x u) (f (u_y u)) (u_z u)
  | AZ => mkCons (u_rho u) (u_e u) (u_x u) (u_y u) (f (u_z u))
  end.
Definition is_boundary (c : cidx) : bool := match c_status c with BOUNDARY => true | _ => false end.

(** What the update of one cell depends on besides the direction. *)
Record hctx := mkH {
  h_g : geom; h_st : list oct; h_b : axis -> Z; (* mesh of the rank: owned octants then ghosts *)
  h_riem : prim -> prim -> cons * Qc; h_gamma : Qc; h_smallr : Qc; h_gi : ginfo;
  h_bval : cidx -> option cons; (* getBoundaryValue *)
  h_user : axis -> bool -> bool; (* bc_min[dir] or bc_max[dir] is BC_USER *)
  h_override : cons -> prim -> axis -> bool -> cons; (* overrideBoundaryFlux *)
  h_junk : Qc (* value of poutL and poutR before they are assigned *) }.

(** l.430-563, fluxes and pressures through both faces of cell [iin] along [dir]. *)
Definition faceL (h : hctx) (U : field) (dir : axis) (off : axis -> Z) (iin : cidx) (ddir : Qc)
    (qL qC qR : prim) (qLL2 : option prim) (nL : cidx) (ldL ldR : Z) : option (cons * Qc) :=
  let d3 := g3d (h_g h) in
  let P c := consToPrim d3 (h_gamma h) (read d3 U c) in
  let flux := compute_euler_flux (h_riem h) (h_smallr h) (h_gi h) in
  if (0 <=? ldL)%Z then
    do qLL <- (if (0 <? ldL)%Z then option_map P (getNeighbor nL off) else qLL2) ;
    let slopeL := compute_slope qLL qL qC (ds0 ldL) (ds1 ldL) in
    let slopeCL := compute_slope qL qC qR (ds1 ldL) 1 in
    Some (flux qL qC slopeL slopeCL dir (df0 ldL) (df1 ldL) ddir)
  else
    do l <- smaller_neighbors true (h_g h) (h_st h) nL off ;
    do fl <- mapM (fun x =>
        do xx <- getNeighbor x off ;
        let qL := P x in let qLL := P xx in
        let slopeC := compute_slope qL qC qR (ds1 ldL) (ds1 ldR) in
        let slopeL := compute_slope qLL qL qC (ds0 ldL) (ds1 ldL) in
        Some (flux qL qC slopeL slopeC dir (df0 ldL) (df1 ldL) ddir)) l ;
    Some (sum_fluxes (if d3 then frac 1 4 else frac 1 2) (h_junk h) fl).
Definition faceR (h : hctx) (U : field) (dir : axis) (off : axis -> Z) (iin : cidx) (ddir : Qc)
    (qL qC qR : prim) (qRR2 : option prim) (nR : cidx) (ldL ldR : Z) : option (cons * Qc) :=
  let d3 := g3d (h_g h) in
  let P c := consToPrim d3 (h_gamma h) (read d3 U c) in
  let flux := compute_euler_flux (h_riem h) (h_smallr h) (h_gi h) in
  if (0 <=? ldR)%Z then
    do qRR <- (if (0 <? ldR)%Z then option_map P (getNeighbor nR off) else qRR2) ;
    let slopeR := compute_slope qC qR qRR (ds1 ldR) (ds0 ldR) in
    let slopeCR := compute_slope qL qC qR 1 (ds1 ldR) in
    Some (flux qC qR slopeCR slopeR dir (df1 ldR) (df0 ldR) ddir)
  else
    do l <- smaller_neighbors true (h_g h) (h_st h) nR off ;
    do fl <- mapM (fun x =>
        do xx <- getNeighbor x off ;
        let qR := P x in let qRR := P xx in
        let slopeC := compute_slope qL qC qR (ds1 ldL) (ds1 ldR) in
        let slopeR := compute_slope qC qR qRR (ds1 ldR) (ds0 ldR) in
        Some (flux qC qR slopeC slopeR dir (df1 ldR) (df0 ldR) ddir)) l ;
    Some (sum_fluxes (if d3 then frac 1 4 else frac 1 2) (h_junk h) fl).

(** Offset of one cell along [dir]. *)
Definition step (dir : axis) (k : Z) (a : axis) : Z := if axis_eqb dir a then k else 0%Z.

(** l.565-597, boundary treatment of the fluxes. *)
Definition boundary_flux (h : hctx) (dir : axis) (qC : prim) (gval ddir : Qc) (minside : bool) (n : cidx)
    (flux : cons) (pother : Qc) : cons :=
  if is_boundary n then
    if h_user h dir minside then h_override h flux qC dir minside
    else if well_balanced (h_gi h) then
      let mom := if minside then pother - q_rho qC * gval * ddir else pother + q_rho qC * gval * ddir in
      set_mom dir (fun _ => mom) cons0
    else flux
  else flux.

(** l.369-625, euler_update: new value of the cell in Uout; [u] is its value read from Uout. *)
Definition euler_update (h : hctx) (U : field) (dir : axis) (cell : cidx) (dt ddir : Qc) (u : cons) : option cons :=
  let offm := step dir (-1) in let offp := step dir 1 in
  let Q c := Qgroup (h_g h) (h_st h) (h_b h) (h_bval h) (h_gamma h) U c in
  do ib <- convert_index (wide (h_g h) (h_b h)) cell ;
  do ibm <- getNeighbor ib offm ; do ibp <- getNeighbor ib offp ;
  do qC <- Q ib ; do qL <- Q ibm ; do qR <- Q ibp ;
  do iin <- convert_index (h_b h) cell ;
  do nL <- getNeighbor_ghost (h_g h) (h_st h) iin offm ;
  do nR <- getNeighbor_ghost (h_g h) (h_st h) iin offp ;
  let ldL := level_diff nL in let ldR := level_diff nR in
  do (fluxL, poutL) <- faceL h U dir offm iin ddir qL qC qR (do x <- getNeighbor ibm offm ; Q x) nL ldL ldR ;
  do (fluxR, poutR) <- faceR h U dir offp iin ddir qL qC qR (do x <- getNeighbor ibp offp ; Q x) nR ldL ldR ;
  let gval := if in_step (h_gi h) then gg (h_gi h) dir else 0 in
  let fluxL := boundary_flux h dir qC gval ddir true nL fluxL poutR in
  let fluxR := boundary_flux h dir qC gval ddir false nR fluxR poutL in
  let u := cmap2 Qcplus u (cmap (fun x => x * (dt / ddir)) (cmap2 Qcminus fluxL fluxR)) in
  if in_step (h_gi h) then
    let u := set_mom dir (fun m => m + dt * q_rho qC * gval) u in
    Some (mkCons (u_rho u) (u_e u + dt * half_f * (u_rho fluxR + u_rho fluxL) * gval) (u_x u) (u_y u) (u_z u))
  else Some u.

(** l.636-658, clean_negative_primitive_values, one cell. *)
Definition clean_negative (d3 : bool) (gamma smallr smallp : Qc) (stored : cons) : cons :=
  let q := consToPrim d3 gamma (getCons d3 stored) in
  if ltb (q_rho q) 0 || ltb (q_p q) 0 then
    let q := mkPrim (if ltb (q_rho q) 0 then smallr else q_rho q) (if ltb (q_p q) 0 then smallp else q_p q) (q_x q) (q_y q) (q_z q) in
    setCons d3 stored (primToCons d3 gamma q)
  else stored.

(** * The update of a cell (HydroUpdate_euler.cpp) *)

(** l.29-78, apply_gravity_correction: stored value of Uout after the correction. [rhoOld] is
    the density in Uin. *)
Definition gravity_correction (d3 : bool) (dt rhoOld : Qc) (ga : axis -> Qc) (u : cons) : cons :=
  let rhoNew := u_rho u in
  let rhou := u_x u in let rhov := u_y u in let rhow := u_z u in
  let k2 x y z := if d3 then x * x + y * y + z * z else x * x + y * y in
  let ekin_old := half_f * k2 rhou rhov rhow / rhoNew in
  let rhou' := rhou + half_f * dt * ga AX * (rhoOld + rhoNew) in
  let rhov' := rhov + half_f * dt * ga AY * (rhoOld + rhoNew) in
  let rhow' := rhow + half_f * dt * ga AZ * (rhoOld + rhoNew) in
  let ekin_new := half_f * k2 rhou' rhov' rhow' / rhoNew in
  mkCons rhoNew (u_e u + (ekin_new - ekin_old)) rhou' rhov' (if d3 then rhow' else rhow).

(** AMRBlockForeachCell.h:37-54, getCellSize: [ext a] is the length of the domain along [a]. *)
Definition cell_size (g : geom) (b : axis -> Z) (ext : axis -> Qc) (A : oct) (a : axis) : Qc :=
  Q2Qc (getSize g A a) * (ext a / Q2Qc (inject_Z (b a))).

(** l.208-223, one cell: stored value of Uout; [old] is what Uout held, [gfield] the gravity
    field at the cell if gravity is applied after the step. clean_negative_primitive_values is
    applied separately (l.227). *)
Definition update_cell (h : hctx) (ext : axis -> Qc) (dt : Qc) (U : field) (gfield : option (axis -> Qc)) (old : cons) (cell : cidx) : option cons :=
  let d3 := g3d (h_g h) in
  do A <- nth_error (h_st h) (c_oct cell) ;
  let size := cell_size (h_g h) (h_b h) ext A in
  let o := setCons d3 old (read d3 U cell) in
  let one dir o := do u <- euler_update h U dir cell dt (size dir) (getCons d3 o) ; Some (setCons d3 o u) in
  do o <- one AX o ;
  do o <- one AY o ;
  do o <- (if d3 then one AZ o else Some o) ;
  match gfield with
  | Some ga => Some (gravity_correction d3 dt (u_rho (U (c_oct cell) (flat_cell (c_blk cell) (c_pos cell)))) ga o)
  | None => Some o
  end.
