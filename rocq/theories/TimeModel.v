(** Model of the time loop: DyabloTimeLoop.h (Interval_trigger, IterationHandler, run, step)
    and of the reductions of compute_dt/*.cpp.

    Times are exact rationals (double in the code), iterations unbounded integers (int). The
    physics of a step is not modelled here: what it does to the time step is the list of
    values proposed by the dt kernels. *)
From Coq Require Import QArith Qround Qminmax.
From Verif Require Import Base OctreeModel.
Open Scope Z_scope.

(** * Interval_trigger<real_t>, l.32-67 *)
Record qtrigger := mkQT { qt_enabled : bool; qt_interval : Q; qt_last : Q }.
Definition Qlt_bool (x y : Q) : bool := negb (Qle_bool y x).
(** l.48-53. With interval 0 the quotient is infinite or NaN in the code and never used. *)
Definition qtrigger_new (interval val : Q) : qtrigger :=
  mkQT (Qlt_bool 0 interval) interval (inject_Z (Qfloor (val / interval)) * interval)%Q.
(** l.55-67 *)
Definition qtrigger_fire (t : qtrigger) (val : Q) : bool * qtrigger :=
  if negb (qt_enabled t) then (false, t)
  else if Qle_bool (qt_interval t) (val - qt_last t)
       then (true, mkQT (qt_enabled t) (qt_interval t) (inject_Z (Qfloor (val / qt_interval t)) * qt_interval t)%Q)
       else (false, t).

(** Successive calls, with the observed values. *)
Fixpoint qobserve (t : qtrigger) (vs : list Q) : list bool * qtrigger :=
  match vs with
  | [] => ([], t)
  | v :: vs => let '(f, t) := qtrigger_fire t v in let '(fs, t) := qobserve t vs in (f :: fs, t)
  end.

(** * Interval_trigger<int>: the quotient of two int truncates toward zero, std::floor of it
    changes nothing. [None]: integer division by zero. *)
Record itrigger := mkIT { it_enabled : bool; it_interval : Z; it_last : Z }.
Definition itrigger_new (interval val : Z) : option itrigger :=
  if interval =? 0 then None else Some (mkIT (interval >? 0) interval (Z.quot val interval * interval)).
Definition itrigger_fire (t : itrigger) (val : Z) : bool * itrigger :=
  if negb (it_enabled t) then (false, t)
  else if val - it_last t >=? it_interval t
       then (true, mkIT (it_enabled t) (it_interval t) (Z.quot val (it_interval t) * it_interval t))
       else (false, t).

Fixpoint iobserve (t : itrigger) (vs : list Z) : list bool * itrigger :=
  match vs with
  | [] => ([], t)
  | v :: vs => let '(f, t) := itrigger_fire t v in let '(fs, t) := iobserve t vs in (f :: fs, t)
  end.

(** * Scalar data: the entries "iter", "time", "aexp" and "dt". *)
Record scalars := mkSD { s_iter : Z; s_time : Q; s_aexp : Q; s_dt : Q }.
Inductive var := Time | Aexp.
Definition get_var (v : var) (s : scalars) : Q := match v with Time => s_time s | Aexp => s_aexp s end.

(** * IterationHandler, l.73-211 *)
Record handler := mkH {
  h_out_freq : itrigger; h_chk_freq : itrigger; h_lb_freq : itrigger; h_amr_freq : itrigger;
  h_slice_var : var; h_out_slice : qtrigger; h_chk_slice : qtrigger;
  h_first : bool; h_iter_end : Z; h_end_var : var; h_t_end : Q; h_use_t_end : bool; h_eps : Q }.

(** The entries of the configuration read by the constructor. The warnings and the deprecated
    output_expslice and checkpoint_expslice are left out. *)
Record config := mkCfg {
  c_out_freq : Z; c_chk_freq : Z; c_lb_freq : Z; c_amr_freq : Z;
  c_slice_var : var; c_out_slice : Q; c_chk_slice : Q;
  c_nstepmax : Z; c_end_var : var; c_t_end : Q; c_use_t_end : bool;
  c_enable_out : bool; c_enable_chk : bool }.

(** Constructor, l.91-134. t_end_epsilon is 2e-8 for aexp, 0 otherwise. *)
Definition handler_new (c : config) (s : scalars) : option handler :=
  match itrigger_new (c_out_freq c) (s_iter s), itrigger_new (c_chk_freq c) (s_iter s),
        itrigger_new (c_lb_freq c) (s_iter s), itrigger_new (c_amr_freq c) (s_iter s) with
  | Some o, Some k, Some l, Some a =>
    Some (mkH o k l a (c_slice_var c)
            (qtrigger_new (c_out_slice c) (get_var (c_slice_var c) s))
            (qtrigger_new (c_chk_slice c) (get_var (c_slice_var c) s))
            true (c_nstepmax c) (c_end_var c) (c_t_end c) (c_use_t_end c)
            (match c_end_var c with Aexp => 2 # 100000000 | Time => 0 end)%Q)
  | _, _, _, _ => None
  end.

(** l.137-146 *)
Definition stop_criterion (h : handler) (s : scalars) : bool :=
  ((h_iter_end h >? 0) && (s_iter s >=? h_iter_end h)) ||
  (h_use_t_end h && Qle_bool (h_t_end h - h_eps h) (get_var (h_end_var h) s)).

(** l.149-159: both triggers are evaluated, without short circuit. *)
Definition output_trigger (h : handler) (s : scalars) : bool * handler :=
  let '(f, o) := itrigger_fire (h_out_freq h) (s_iter s) in
  let '(t, q) := qtrigger_fire (h_out_slice h) (get_var (h_slice_var h) s) in
  (h_first h || f || t,
   mkH o (h_chk_freq h) (h_lb_freq h) (h_amr_freq h) (h_slice_var h) q (h_chk_slice h) false
       (h_iter_end h) (h_end_var h) (h_t_end h) (h_use_t_end h) (h_eps h)).
(** l.162-169 *)
Definition checkpoint_trigger (h : handler) (s : scalars) : bool * handler :=
  let '(f, o) := itrigger_fire (h_chk_freq h) (s_iter s) in
  let '(t, q) := qtrigger_fire (h_chk_slice h) (get_var (h_slice_var h) s) in
  (f || t,
   mkH (h_out_freq h) o (h_lb_freq h) (h_amr_freq h) (h_slice_var h) (h_out_slice h) q (h_first h)
       (h_iter_end h) (h_end_var h) (h_t_end h) (h_use_t_end h) (h_eps h)).
(** l.172-175 and 178-181 *)
Definition amr_cycle_trigger (h : handler) (s : scalars) : bool * handler :=
  let '(f, o) := itrigger_fire (h_amr_freq h) (s_iter s) in
  (f, mkH (h_out_freq h) (h_chk_freq h) (h_lb_freq h) o (h_slice_var h) (h_out_slice h) (h_chk_slice h) (h_first h)
       (h_iter_end h) (h_end_var h) (h_t_end h) (h_use_t_end h) (h_eps h)).
Definition loadbalance_trigger (h : handler) (s : scalars) : bool * handler :=
  let '(f, o) := itrigger_fire (h_lb_freq h) (s_iter s) in
  (f, mkH (h_out_freq h) (h_chk_freq h) o (h_amr_freq h) (h_slice_var h) (h_out_slice h) (h_chk_slice h) (h_first h)
       (h_iter_end h) (h_end_var h) (h_t_end h) (h_use_t_end h) (h_eps h)).

(** l.184-203. [cosmo_dt a da]: CosmoManager::static_compute_cosmo_dt. *)
Definition correct_dt_end (cosmo_dt : Q -> Q -> Q) (h : handler) (s : scalars) : scalars :=
  if h_use_t_end h then
    match h_end_var h with
    | Time => if Qlt_bool (h_t_end h) (s_time s + s_dt s)
              then mkSD (s_iter s) (s_time s) (s_aexp s) (h_t_end h - s_time s) else s
    | Aexp => let dt_max := cosmo_dt (s_aexp s) (h_t_end h / s_aexp s)%Q in
              mkSD (s_iter s) (s_time s) (s_aexp s) (Qmin (s_dt s) dt_max)
    end
  else s.

(** l.206-210 *)
Definition next_iter (s : scalars) : scalars := mkSD (s_iter s + 1) (s_time s + s_dt s) (s_aexp s) (s_dt s).

(** * One step, l.563-805, and the loop, l.510-545 *)
(** What is observable: snapshots, checkpoints, AMR cycles and load balancing, with the
    iteration at which they happen. *)
Inductive event := Output (iter : Z) | Checkpoint (iter : Z) | AmrCycle (iter : Z) | LoadBalance (iter : Z).
Record universe := mkU {
  u_expansion : option (Q -> Q);   (* Some timeToExpansion for a cosmological run *)
  u_cosmo_dt : Q -> Q -> Q }.

(** [dt]: the minimum of the values proposed by the kernels at this step (l.606-616). *)
Definition step (c : config) (u : universe) (dt : Q) (h : handler) (s : scalars) : list event * (handler * scalars) :=
  let '(e1, h) := if c_enable_out c then let '(f, h) := output_trigger h s in (if f then [Output (s_iter s)] else [], h) else ([], h) in
  let '(e2, h) := if c_enable_chk c then let '(f, h) := checkpoint_trigger h s in (if f then [Checkpoint (s_iter s)] else [], h) else ([], h) in
  let s := match u_expansion u with Some f => mkSD (s_iter s) (s_time s) (f (s_time s)) (s_dt s) | None => s end in
  let s := mkSD (s_iter s) (s_time s) (s_aexp s) dt in
  let s := correct_dt_end (u_cosmo_dt u) h s in
  let s := next_iter s in
  let '(f3, h) := amr_cycle_trigger h s in
  let '(f4, h) := loadbalance_trigger h s in
  (e1 ++ e2 ++ (if f3 then [AmrCycle (s_iter s)] else []) ++ (if f4 then [LoadBalance (s_iter s)] else []), (h, s)).

(** The loop: [dts], time steps proposed at the successive steps; [intr], whether some
    process has been interrupted at the end of the successive steps. Result: the events, the
    scalars at the beginning of every step and at the end. [None]: still running after
    [fuel] steps. *)
Fixpoint run_loop (fuel : nat) (c : config) (u : universe) (dts : nat -> Q) (intr : nat -> bool) (k : nat) (h : handler) (s : scalars)
    : option (list event * list scalars) :=
  match fuel with
  | O => None
  | S fuel =>
    let '(ev, (h, s')) := step c u (dts k) h s in
    if stop_criterion h s' || intr k then
      Some (ev ++ (if c_enable_out c then [Output (s_iter s')] else []) ++ (if c_enable_chk c then [Checkpoint (s_iter s')] else []), [s; s'])
    else match run_loop fuel c u dts intr (S k) h s' with
         | Some (evs, ss) => Some (ev ++ evs, s :: ss)
         | None => None
         end
  end.
(** DyabloTimeLoop constructor (the handler, l.299) and run. [s]: scalars at the start. *)
Definition run (fuel : nat) (c : config) (u : universe) (dts : nat -> Q) (intr : nat -> bool) (s : scalars) : option (list event * list scalars) :=
  match handler_new c s with
  | Some h => run_loop fuel c u dts intr 0 h s
  | None => None
  end.

(** * The time step: compute_dt/*.cpp, and the minimum over the kernels (l.606-616) *)
Inductive ext := Fin (q : Q) | Infinite.
Definition ext_min (a b : ext) : ext :=
  match a, b with Fin x, Fin y => Fin (Qmin x y) | Infinite, y => y | x, Infinite => x end.
(** One kernel on one process. [rates]: for every cell (Compute_dt_hydro.cpp:71-120,
    Compute_dt_parabolic.cpp:78-106) or particle (Compute_dt_particle_velocity.cpp:56-78) the
    inverse time step; reduced with Kokkos::Max, whose initial value is [lowest] (the most
    negative number). Then dt = cfl / inv_dt, which must be positive (release assertion). *)
Definition local_dt (lowest cfl : Q) (rates : list Q) : option ext :=
  let inv := fold_left Qmax rates lowest in
  if Qeq_bool inv 0 then (if Qlt_bool 0 cfl then Some Infinite else None)
  else if Qlt_bool 0 (cfl / inv) then Some (Fin (cfl / inv)) else None.
(** MPI_Allreduce MIN over the processes. [rates]: one list per process. *)
Definition kernel_dt (lowest : Q) (k : Q * list (list Q)) : option ext :=
  match mapM (local_dt lowest (fst k)) (snd k) with
  | Some l => Some (fold_left ext_min l Infinite)
  | None => None
  end.
(** DyabloTimeLoop.h l.606-616; [dmax]: std::numeric_limits<real_t>::max(). *)
Definition compute_dt (lowest dmax : Q) (kernels : list (Q * list (list Q))) : option Q :=
  match mapM (kernel_dt lowest) kernels with
  | Some l => match fold_left ext_min l (Fin dmax) with Fin q => Some q | Infinite => None end
  | None => None
  end.
