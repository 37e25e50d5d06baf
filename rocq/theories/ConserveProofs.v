(** Fluxes through the faces of the cells and their sums (used for C39). *)
From Coq Require Import QArith Qcanon Permutation.
From Verif Require Import Base OctreeSpec OctreeGeom OctreeModel FindNeighbors MeshSpec GhostExchange
  LookupModel CellModel CellSpec CellProofs CellProps RemapModel RemapSpec RemapProofs RemapProps HydroModel HydroSpec HydroProps ConserveSpec BlockGhost ConserveFaces.
Open Scope Z_scope.

(** * Sums *)
Lemma csum_app l l' : csum (l ++ l') = (csum l + csum l')%Qc.
Proof. unfold csum. induction l as [|x l IH]; cbn [app fold_right]; [ring|]. rewrite IH. ring. Qed.
Lemma csum_perm l l' : Permutation l l' -> csum l = csum l'.
Proof. induction 1; unfold csum in *; cbn [fold_right]; [reflexivity|rewrite IHPermutation; reflexivity|ring|congruence]. Qed.
Lemma csum_plus {X} (f h : X -> Qc) l : csum (map (fun x => (f x + h x)%Qc) l) = (csum (map f l) + csum (map h l))%Qc.
Proof. unfold csum. induction l as [|x l IH]; cbn [map fold_right]; [ring|]. rewrite IH. ring. Qed.
Lemma csum_scale {X} (f : X -> Qc) k l : csum (map (fun x => (k * f x)%Qc) l) = (k * csum (map f l))%Qc.
Proof. unfold csum. induction l as [|x l IH]; cbn [map fold_right]; [ring|]. rewrite IH. ring. Qed.
Lemma csum_ext {X} (f h : X -> Qc) l : (forall x, In x l -> f x = h x) -> csum (map f l) = csum (map h l).
Proof. intros H. f_equal. apply map_ext_in, H. Qed.
Lemma csum_zero {X} (l : list X) : csum (map (fun _ => 0%Qc) l) = 0%Qc.
Proof. unfold csum. induction l as [|x l IH]; cbn [map fold_right]; [reflexivity|]. rewrite IH. ring. Qed.
Lemma csum_filter {X} (p : X -> bool) (f : X -> Qc) l : csum (map f (filter p l)) = csum (map (fun x => if p x then f x else 0%Qc) l).
Proof. unfold csum. induction l as [|x l IH]; cbn [filter map fold_right]; [reflexivity|]. destruct (p x); cbn [map fold_right]; rewrite IH; [reflexivity|ring]. Qed.
Lemma csum_swap {X Y} (f : X -> Y -> Qc) l l' : csum (map (fun x => csum (map (f x) l')) l) = csum (map (fun y => csum (map (fun x => f x y) l)) l').
Proof.
  induction l as [|x l IH]; cbn [map].
  - symmetry. apply csum_zero.
  - transitivity (csum (map (f x) l') + csum (map (fun x => csum (map (f x) l')) l))%Qc; [reflexivity|]. rewrite IH, <- csum_plus. apply csum_ext. intros y _. reflexivity.
Qed.
Lemma filter_perm {X} (p : X -> bool) l zs : NoDup l -> NoDup zs -> (forall z, In z zs <-> In z l /\ p z = true) -> Permutation zs (filter p l).
Proof. intros N1 N2 H. apply NoDup_Permutation; [exact N2|apply NoDup_filter, N1|]. intros z. rewrite filter_In. apply H. Qed.

Lemma Forall2_and_r {X Y} (Q : X -> Y -> Prop) (S : Y -> Prop) l l' : Forall2 Q l l' -> (forall y, In y l' -> S y) -> Forall2 (fun x y => Q x y /\ S y) l l'.
Proof. induction 1; intros H'; constructor; [split; [assumption|apply H'; left; reflexivity]|]. apply IHForall2. intros. apply H'. right. assumption. Qed.

(** * Slopes on a twice finer scale *)
Lemma limit_half x y : (limit (x / two) (y / two) = limit x y / two)%Qc.
Proof.
  assert (T2 : (0 < two)%Qc) by reflexivity. assert (TN := two_nz).
  assert (LT : forall a c, ltb (a / two) (c / two) = ltb a c).
  { intros a c. assert (K : forall a c, (a < c)%Qc -> (a / two < c / two)%Qc).
    { intros a0 c0 H. unfold Qcdiv. apply Qcmult_lt_compat_r; [apply Qcinv_lt_0, T2|exact H]. }
    destruct (ltb a c) eqn:E.
    - apply ltb_spec. apply K. apply ltb_spec, E.
    - apply ltb_false. apply ltb_false in E. destruct (Qcle_lt_or_eq _ _ E) as [H| ->]; [apply Qclt_le_weak, K, H|apply Qcle_refl]. }
  assert (AB : forall a, fabs (a / two) = (fabs a / two)%Qc).
  { intros a. unfold fabs. replace 0%Qc with (0 / two)%Qc at 1 by (field; exact TN). rewrite LT. destruct (ltb a 0); field; exact TN. }
  assert (LE : leb (x / two * (y / two)) 0 = leb (x * y) 0).
  { destruct (leb (x * y) 0) eqn:E.
    - apply leb_spec. apply leb_spec in E. replace (x / two * (y / two))%Qc with ((x * y) * / (two * two))%Qc by (field; exact TN).
      replace 0%Qc with (0 * / (two * two))%Qc by ring. apply Qcmult_le_compat_r; [exact E|]. apply Qclt_le_weak, Qcinv_lt_0. reflexivity.
    - apply leb_false. apply leb_false in E. replace (x / two * (y / two))%Qc with ((x * y) * / (two * two))%Qc by (field; exact TN).
      apply Qcmult_lt_0; [exact E|]. apply Qcinv_lt_0. reflexivity. }
  unfold limit. rewrite LE, !AB, LT. destruct (leb (x * y) 0); [field; exact TN|]. destruct (ltb _ _); reflexivity.
Qed.
Lemma slope_half qm q qp d d' : d <> 0%Qc -> d' <> 0%Qc -> compute_slope qm q qp (two * d) (two * d') = pmap (fun x => (x / two)%Qc) (compute_slope qm q qp d d').
Proof.
  intros H1 H2. assert (TN := two_nz). unfold compute_slope, pmap2, pmap. cbn [q_rho q_p q_x q_y q_z].
  assert (K : forall x y, limit (x / (two * d')) (y / (two * d)) = (limit (x / d') (y / d) / two)%Qc).
  { intros x y. rewrite <- limit_half. f_equal; field; auto. }
  rewrite !K. reflexivity.
Qed.
Lemma reconstruct_half q sl sign r f : reconstruct q (pmap (fun x => (x / two)%Qc) sl) sign r (two * f) = reconstruct q sl sign r f.
Proof.
  assert (TN := two_nz). unfold reconstruct, pmap2, pmap. cbn [q_rho q_p q_x q_y q_z].
  assert (K : forall x, (sign * (two * f) * (x / two) = sign * f * x)%Qc) by (intros; field; exact TN). rewrite !K. reflexivity.
Qed.

Section CP.
Context (g : geom) (WF : wf_geom g) (M : mesh) (OK : mesh_ok g M) (b : axis -> Z) (BO : block_ok g b)
        (PER : periodic g) (EV : even_blocks g b) (D : oct -> cons) (U : nat -> field) (HF : holds_field b M D U)
        (riem : prim -> prim -> cons * Qc) (gamma smallr : Qc) (gi : ginfo) (WB : well_balanced gi = false)
        (bval : cidx -> option cons) (user : axis -> bool -> bool) (ovr : cons -> prim -> axis -> bool -> cons) (junk : Qc).
Local Notation L := (leaves M).
Local Notation cells := (all_cells b (leaves M)).
Local Notation N := (ncells g b).
Local Notation d3 := (g3d g).
Local Notation disp := (disp g b).
Local Notation flux := (compute_euler_flux riem smallr gi).

Definition hc (R : rank) : hctx := mkH g (loc R ++ gho R) b riem gamma smallr gi bval user ovr junk.
Definition Pc (x : oct) : prim := consToPrim d3 gamma (getCons d3 (D x)).
Definition QR (x : oct) : prim := consToPrim d3 gamma (getCons d3 (resample g cells D x)).
Lemma QR_cell x : In x cells -> QR x = Pc x.
Proof. intros H. unfold QR, Pc. rewrite resample_same by exact H. reflexivity. Qed.
Lemma QR_parent x : In (parent g x) cells -> QR x = Pc (parent g x).
Proof. intros H. unfold QR, Pc. rewrite (resample_bigger g M OK b BO D x H). reflexivity. Qed.

(** Flux through the face shared by the cells [lo] and [hi], neighbours along [e]. *)
Definition pair_dists (k : Z) : Qc * Qc * Qc * Qc * Qc :=
  if k =? 0 then (1, 1, 1, frac 1 2, frac 1 2)%Qc
  else if k <? 0 then (1, frac 3 4, frac 1 2, frac 1 2, frac 1 4)%Qc
  else (frac 1 2, frac 3 4, 1, frac 1 4, frac 1 2)%Qc.
Definition F (e : axis) (lo hi : oct) : cons :=
  let '(d1, d2, d4, f1, f2) := pair_dists (lev lo - lev hi) in
  fst (flux (Pc lo) (Pc hi) (compute_slope (QR (disp lo e (-1))) (Pc lo) (Pc hi) d1 d2)
            (compute_slope (Pc lo) (Pc hi) (QR (disp hi e 1)) d2 d4) e f1 f2 0%Qc).

Lemma flux_size a c sa sc e f1 f2 s s' : flux a c sa sc e f1 f2 s = flux a c sa sc e f1 f2 s'.
Proof. unfold compute_euler_flux. rewrite WB. reflexivity. Qed.
Lemma flux_scaled qll ql qr qrr d1 d2 d4 f1 f2 e s s' : d1 <> 0%Qc -> d2 <> 0%Qc -> d4 <> 0%Qc ->
  flux ql qr (compute_slope qll ql qr (two * d1) (two * d2)) (compute_slope ql qr qrr (two * d2) (two * d4)) e (two * f1) (two * f2) s =
  flux ql qr (compute_slope qll ql qr d1 d2) (compute_slope ql qr qrr d2 d4) e f1 f2 s'.
Proof.
  intros H1 H2 H3. rewrite !slope_half by assumption. unfold compute_euler_flux. rewrite WB, !reconstruct_half. reflexivity.
Qed.

(** * The wide block *)
Lemma wide_props a : wide g b a = b a + 2 * wd g a /\ 0 <= wd g a <= 2 /\ 1 <= b a <= 2^14 /\ (flat g a = false -> wd g a = 2).
Proof. pose proof (proj1 (BO a)). unfold wide, wd. destruct (flat g a); repeat split; try lia; congruence. Qed.

Section OneCell.
Context (r : nat) (R : rank) (HR : nth_error M r = Some R) (i : nat) (A : oct) (HA : nth_error (loc R) i = Some A) (c : axis -> Z) (IB : in_block b c)
        (e : axis) (FE : flat g e = false).
Local Notation st := (loc R ++ gho R).
Local Notation x := (cell_of b A c).
Local Notation cell := (mkCell i c b LOCAL_TO_BLOCK).
Local Notation Q w := (Qgroup g st b bval gamma (U r) w).

Lemma HRM : In R M. Proof. eapply nth_error_In, HR. Qed.
Lemma x_in : In x cells. Proof. apply (own_in M b R HRM i A HA c IB). Qed.

Lemma wide_value p k : Z.abs k <= 2 -> (forall a, p a = c a + wd g a + step e k a) ->
  in_block (wide g b) p /\ Q (mkCell i p (wide g b) LOCAL_TO_BLOCK) = Some (QR (disp x e k)).
Proof.
  intros K HP. assert (IP : in_block (wide g b) p).
  { intros a. rewrite HP. destruct (wide_props a) as (-> & W1 & W2 & W3). specialize (IB a). destruct (axis_case a e) as [->|Ha].
    - rewrite step_on. rewrite (W3 FE) in *. lia.
    - rewrite step_off by exact Ha. lia. }
  split; [exact IP|]. unfold Qgroup. rewrite (ghost_layer g WF M OK b BO PER EV D U HF r R i A p bval HR HA IP). cbn [option_map]. f_equal.
  assert (displaced g b (cell_of b A (fun _ => 0)) (fun a => p a - wd g a) = disp x e k) as ->.
  { apply oct_ext; [reflexivity|]. intros a. unfold ConserveFaces.disp, displaced. rewrite !coord_oct_of. unfold cell_of. rewrite !coord_oct_of. cbn [oct_of lev]. f_equal.
    unfold gpos. rewrite HP. lia. }
  unfold QR, getPrim, consToPrim. cbn [q_rho q_p q_x q_y q_z]. f_equal. destruct d3; reflexivity.
Qed.
Lemma wide_step p k s : Z.abs (k + s) <= 2 -> Z.abs k <= 2 -> (forall a, p a = c a + wd g a + step e k a) ->
  exists p', getNeighbor (mkCell i p (wide g b) LOCAL_TO_BLOCK) (step e s) = Some (mkCell i p' (wide g b) LOCAL_TO_BLOCK) /\
    forall a, p' a = c a + wd g a + step e (k + s) a.
Proof.
  intros K K0 HP. destruct (wide_value (fun a => c a + wd g a + step e (k + s) a) (k + s) K (fun a => eq_refl)) as (IP & _).
  assert (E : forall a, p a + step e s a = c a + wd g a + step e (k + s) a).
  { intros a. rewrite HP. destruct (axis_case a e) as [->|Ha]; [rewrite !step_on; lia|rewrite !step_off by exact Ha; lia]. }
  assert (UU : forall a, u32 (p a + step e s a) = c a + wd g a + step e (k + s) a).
  { intros a. rewrite E. apply u32_small. specialize (IP a). destruct (wide_props a) as (W & W1 & W2 & _). change (2^14) with 16384 in W2. change (2^32) with 4294967296. lia. }
  exists (fun a => u32 (p a + step e s a)). split; [|exact UU]. unfold getNeighbor. cbn [c_pos c_blk c_oct is_local c_status].
  assert (E3 : all3 (fun a => u32 (p a + step e s a) <? wide g b a) = true) by (apply all3_spec; intros a; rewrite UU; specialize (IP a); lia).
  rewrite E3. reflexivity.
Qed.
Lemma wide_cell : exists p, convert_index (wide g b) cell = Some (mkCell i p (wide g b) LOCAL_TO_BLOCK) /\ forall a, p a = c a + wd g a + step e 0 a.
Proof.
  assert (Z0 : forall a, step e 0 a = 0) by (intros a; unfold step; destruct (axis_eqb e a); reflexivity).
  unfold convert_index. cbn [c_blk c_pos c_oct].
  assert (SB : same_block b (wide g b) = false).
  { destruct (same_block b (wide g b)) eqn:E; [|reflexivity]. pose proof (proj1 (same_block_spec _ _) E AX) as K. unfold wide in K. cbn [flat] in K. lia. }
  rewrite SB. set (p := fun a => s32 (c a + Z.quot (wide g b a - b a) 2)).
  assert (P1 : forall a, p a = c a + wd g a).
  { intros a. unfold p. destruct (wide_props a) as (W & W1 & W2 & _). replace (wide g b a - b a) with (2 * wd g a) by lia. rewrite quot2.
    apply s32_small. specialize (IB a). change (2^31) with 2147483648. change (2^14) with 16384 in W2. lia. }
  change (all3 (fun a => (0 <=? s32 (c a + Z.quot (wide g b a - b a) 2)) && (s32 (c a + Z.quot (wide g b a - b a) 2) <? wide g b a)))
    with (all3 (fun a => (0 <=? p a) && (p a <? wide g b a))).
  assert (E3 : all3 (fun a => (0 <=? p a) && (p a <? wide g b a)) = true).
  { apply all3_spec. intros a. rewrite P1. destruct (wide_props a) as (W & W1 & W2 & _). specialize (IB a). lia. }
  rewrite E3. eexists. split; [reflexivity|]. intros a. cbv beta. change (u32 (p a) = c a + wd g a + step e 0 a). rewrite Z0, P1, Z.add_0_r. apply u32_small. destruct (wide_props a) as (W & W1 & W2 & _). specialize (IB a).
  change (2^32) with 4294967296. change (2^14) with 16384 in W2. lia.
Qed.

Lemma read_P w y : is_cell M b st w y -> consToPrim d3 gamma (read d3 (U r) w) = Pc y.
Proof. intros IC. unfold Pc. f_equal. apply (read_cell g M b D U HF r R w y HR IC). Qed.

(** Sum of the fluxes through the side [s] of the cell. *)
Definition weight (y z : oct) : Qc := if lev y <? lev z then (if d3 then frac 1 4 else frac 1 2) else 1%Qc.
Definition side_flux (v : cvar) (s : Z) (y : oct) : Qc :=
  csum (map (fun z => (weight y z * cv v (if s =? 1 then F e y z else F e z y))%Qc) (filter (relb g b e s y) cells)).

Lemma side_flux_list v s y zs : NoDup zs -> (forall z, In z zs <-> In z cells /\ rel g b e s y z) ->
  side_flux v s y = csum (map (fun z => (weight y z * cv v (if s =? 1 then F e y z else F e z y))%Qc) zs).
Proof.
  intros ND H. apply csum_perm, Permutation_map, Permutation_sym, filter_perm; [apply (cells_NoDup g M OK b BO)|exact ND|].
  intros z. rewrite relb_spec. apply H.
Qed.
Lemma side_flux_one v s y z : In z cells -> (forall z', In z' cells -> (rel g b e s y z' <-> z' = z)) -> 
  side_flux v s y = (weight y z * cv v (if s =? 1 then F e y z else F e z y))%Qc.
Proof.
  intros HZ H. rewrite (side_flux_list v s y [z]).
  - cbn [map csum fold_right]. ring.
  - repeat constructor. intros [].
  - intros z'. split; [intros [<-|[]]; split; [exact HZ|apply H; [exact HZ|reflexivity]]|]. intros (H1 & H2). left. symmetry. apply H; assumption.
Qed.

Lemma cv_plus v u w : cv v (cmap2 Qcplus u w) = (cv v u + cv v w)%Qc. Proof. destruct v as [| |[]]; reflexivity. Qed.
Lemma cv_minus v u w : cv v (cmap2 Qcminus u w) = (cv v u - cv v w)%Qc. Proof. destruct v as [| |[]]; reflexivity. Qed.
Lemma cv_scale v k u : cv v (cmap (fun x => x * k)%Qc u) = (cv v u * k)%Qc. Proof. destruct v as [| |[]]; reflexivity. Qed.
Lemma sum_fluxes_cv v fac l : cv v (fst (sum_fluxes fac junk l)) = csum (map (fun f => (fac * cv v (fst f))%Qc) l).
Proof.
  unfold sum_fluxes. cbn [fst]. rewrite cv_scale, (fold_csum (cv v)) by (apply cv_plus). rewrite map_map, csum_scale.
  replace (cv v cons0) with 0%Qc by (destruct v as [| |[]]; reflexivity). ring.
Qed.

Lemma frac2 : frac 2 1 = (two * 1)%Qc. Proof. apply Qc_is_canon. reflexivity. Qed.
Lemma frac32 : frac 3 2 = (two * frac 3 4)%Qc. Proof. apply Qc_is_canon. reflexivity. Qed.
Lemma one2 : 1%Qc = (two * frac 1 2)%Qc. Proof. apply Qc_is_canon. reflexivity. Qed.
Lemma half4 : frac 1 2 = (two * frac 1 4)%Qc. Proof. apply Qc_is_canon. reflexivity. Qed.
Lemma nz1 : 1%Qc <> 0%Qc. Proof. intros H. apply (f_equal this) in H. vm_compute in H. discriminate. Qed.
Lemma nz34 : frac 3 4 <> 0%Qc. Proof. intros H. apply (f_equal this) in H. vm_compute in H. discriminate. Qed.
Lemma nz12 : frac 1 2 <> 0%Qc. Proof. intros H. apply (f_equal this) in H. vm_compute in H. discriminate. Qed.

(** The cell of the other side when the neighbour has another level. *)
Lemma other_side s n n' : unit_step s -> getNeighbor_ghost g st cell (step e s) = Some n -> ~ 0 <= c e + s < b e ->
  getNeighbor_ghost g st cell (step e (- s)) = Some n' -> level_diff n' = 0.
Proof.
  intros US E H E'. destruct (edge_case g b EV c IB e s US FE H) as (K & _).
  assert (US' : unit_step (- s)) by (destruct US as [-> | ->]; [right|left]; reflexivity).
  destruct (in_block_case g M OK b BO R HRM i A HA c IB e (- s) US' FE K) as (m & EM & _ & S). rewrite E' in EM. injection EM as <-. unfold level_diff. rewrite S. reflexivity.
Qed.

Lemma faceL_value nL nR ddir qLL2 : 
  getNeighbor_ghost g st cell (step e (-1)) = Some nL -> getNeighbor_ghost g st cell (step e 1) = Some nR ->
  qLL2 = Some (QR (disp (disp x e (-1)) e (-1))) ->
  exists f p, faceL (hc R) (U r) e (step e (-1)) cell ddir (QR (disp x e (-1))) (Pc x) (QR (disp x e 1)) qLL2 nL (level_diff nL) (level_diff nR) = Some (f, p) /\
    forall v, cv v f = side_flux v (-1) x.
Proof.
  intros EL ER ->. assert (US : unit_step (-1)) by (right; reflexivity).
  destruct (face_query g WF M OK b BO PER EV R HRM i A HA c IB e (-1) US FE) as (n & y & EQ & IC & PR & CASE).
  rewrite EL in EQ. injection EQ as <-. pose proof (is_cell_in M b _ _ _ IC) as YC. set (T := disp x e (-1)) in *.
  unfold faceL. cbn [hc h_g h_st h_gamma h_riem h_smallr h_gi h_junk].
  destruct CASE as [(LD & -> & RL)|[(LD & -> & NB & RL & m & GM & ICM)|(LD & NB & l & zs & SL & F2 & ND & _ & LZ & RL)]]; rewrite LD.
  - cbn [Z.leb Z.ltb Z.compare]. eexists _, _. split; [rewrite surjective_pairing at 1; reflexivity|]. intros v. rewrite (side_flux_one v (-1) x T YC RL).
    unfold weight. change (lev T) with (lev x). rewrite Z.ltb_irrefl. cbn [Z.eqb]. unfold F. change (lev T) with (lev x). rewrite Z.sub_diag. cbn [pair_dists Z.eqb ds0 ds1 df0 df1 Z.ltb Z.compare].
    rewrite (QR_cell T YC), Qcmult_1_l. rewrite (flux_size _ _ _ _ _ _ _ ddir 0%Qc). reflexivity.
  - change (0 <=? 1) with true. change (0 <? 1) with true. cbv iota. rewrite GM. cbn [option_map]. eexists _, _. split; [rewrite surjective_pairing at 1; reflexivity|].
    intros v. rewrite (side_flux_one v (-1) x _ YC RL). rewrite (QR_parent T YC), (read_P m _ ICM).
    assert (LP : lev (parent g T) = lev x - 1) by reflexivity.
    unfold weight. rewrite LP. replace (lev x <? lev x - 1) with false by lia. cbn [Z.eqb]. rewrite Qcmult_1_l. unfold F. rewrite LP. replace (lev x - 1 - lev x) with (-1) by lia.
    change (pair_dists (-1)) with (1, frac 3 4, frac 1 2, frac 1 2, frac 1 4)%Qc. cbv iota beta zeta.
    rewrite (QR_cell (disp (parent g T) e (-1))) by (apply (is_cell_in M b _ _ _ ICM)).
    change (ds0 1) with (frac 2 1). change (ds1 1) with (frac 3 2). change (df0 1) with 1%Qc. change (df1 1) with (frac 1 2).
    rewrite <- (flux_scaled _ _ _ _ 1 (frac 3 4) (frac 1 2) (frac 1 2) (frac 1 4) e ddir) by (apply nz1 || apply nz34 || apply nz12).
    rewrite <- frac2, <- frac32, <- one2, <- half4. reflexivity.
  - change (0 <=? -1) with false. cbv iota. rewrite SL.
    pose proof (other_side (-1) nL nR US EL NB ER) as LR. rewrite LR.
    match goal with |- context [mapM ?f l] => set (body := f) end.
    assert (ML : exists fl, mapM body l = Some fl /\ Forall2 (fun f z => fst f = F e z x) fl zs).
    { assert (F2' : Forall2 (fun k z => (is_cell M b st k z /\ exists m, getNeighbor k (step e (-1)) = Some m /\ is_cell M b st m (disp z e (-1))) /\ lev z = lev x + 1) l zs)
        by (apply Forall2_and_r; assumption).
      clear SL F2 ND RL LZ. induction F2' as [|k z l zs ((ICK & m & GM & ICM) & LZ) F2 IH]; [exists []; split; [reflexivity|constructor]|].
      destruct IH as (fl & E1 & E2). cbn [mapM]. unfold body at 1. rewrite GM. rewrite (read_P k z ICK), (read_P m _ ICM). rewrite E1. eexists. split; [reflexivity|]. constructor; [|exact E2].
      unfold F. rewrite LZ. replace (lev x + 1 - lev x) with 1 by lia. change (pair_dists 1) with (frac 1 2, frac 3 4, 1, frac 1 4, frac 1 2)%Qc. cbv iota beta zeta.
      rewrite (QR_cell (disp z e (-1))) by (apply (is_cell_in M b _ _ _ ICM)). rewrite (flux_size _ _ _ _ _ _ _ ddir 0%Qc). reflexivity. }
    destruct ML as (fl & EM & F3). rewrite EM. eexists _, _. split; [rewrite surjective_pairing at 1; reflexivity|]. intros v. rewrite sum_fluxes_cv, (side_flux_list v (-1) x zs ND RL).
    cbn [Z.eqb]. f_equal. clear EM SL F2 ND RL. induction F3 as [|f z fl zs H3 F3 IH]; [reflexivity|]. cbn [map]. f_equal; [|apply IH; intros; apply LZ; right; assumption].
    rewrite H3. f_equal. unfold weight. rewrite (LZ z (or_introl eq_refl)). replace (lev x <? lev x + 1) with true by lia. reflexivity.
Qed.

Lemma faceR_value nL nR ddir qRR2 : 
  getNeighbor_ghost g st cell (step e (-1)) = Some nL -> getNeighbor_ghost g st cell (step e 1) = Some nR ->
  qRR2 = Some (QR (disp (disp x e 1) e 1)) ->
  exists f p, faceR (hc R) (U r) e (step e 1) cell ddir (QR (disp x e (-1))) (Pc x) (QR (disp x e 1)) qRR2 nR (level_diff nL) (level_diff nR) = Some (f, p) /\
    forall v, cv v f = side_flux v 1 x.
Proof.
  intros EL ER ->. assert (US : unit_step 1) by (left; reflexivity).
  destruct (face_query g WF M OK b BO PER EV R HRM i A HA c IB e 1 US FE) as (n & y & EQ & IC & PR & CASE).
  rewrite ER in EQ. injection EQ as <-. pose proof (is_cell_in M b _ _ _ IC) as YC. set (T := disp x e 1) in *.
  unfold faceR. cbn [hc h_g h_st h_gamma h_riem h_smallr h_gi h_junk].
  destruct CASE as [(LD & -> & RL)|[(LD & -> & NB & RL & m & GM & ICM)|(LD & NB & l & zs & SL & F2 & ND & _ & LZ & RL)]]; rewrite LD.
  - cbn [Z.leb Z.ltb Z.compare]. eexists _, _. split; [rewrite surjective_pairing at 1; reflexivity|]. intros v. rewrite (side_flux_one v 1 x T YC RL).
    unfold weight. change (lev T) with (lev x). rewrite Z.ltb_irrefl. change (1 =? 1) with true. cbv iota. unfold F. change (lev T) with (lev x). rewrite Z.sub_diag. cbn [pair_dists Z.eqb ds0 ds1 df0 df1 Z.ltb Z.compare].
    rewrite (QR_cell T YC), Qcmult_1_l. rewrite (flux_size _ _ _ _ _ _ _ ddir 0%Qc). reflexivity.
  - change (0 <=? 1) with true. change (0 <? 1) with true. cbv iota. rewrite GM. cbn [option_map]. eexists _, _. split; [rewrite surjective_pairing at 1; reflexivity|].
    intros v. rewrite (side_flux_one v 1 x _ YC RL). rewrite (QR_parent T YC), (read_P m _ ICM).
    assert (LP : lev (parent g T) = lev x - 1) by reflexivity.
    unfold weight. rewrite LP. replace (lev x <? lev x - 1) with false by lia. change (1 =? 1) with true. cbv iota. rewrite Qcmult_1_l. unfold F. rewrite LP. replace (lev x - (lev x - 1)) with 1 by lia.
    change (pair_dists 1) with (frac 1 2, frac 3 4, 1, frac 1 4, frac 1 2)%Qc. cbv iota beta zeta.
    rewrite (QR_cell (disp (parent g T) e 1)) by (apply (is_cell_in M b _ _ _ ICM)).
    change (ds0 1) with (frac 2 1). change (ds1 1) with (frac 3 2). change (df0 1) with 1%Qc. change (df1 1) with (frac 1 2).
    rewrite <- (flux_scaled _ _ _ _ (frac 1 2) (frac 3 4) 1 (frac 1 4) (frac 1 2) e ddir) by (apply nz1 || apply nz34 || apply nz12).
    rewrite <- frac2, <- frac32, <- one2, <- half4. reflexivity.
  - change (0 <=? -1) with false. cbv iota. rewrite SL.
    pose proof (other_side 1 nR nL US ER NB EL) as LR. rewrite LR.
    match goal with |- context [mapM ?f l] => set (body := f) end.
    assert (ML : exists fl, mapM body l = Some fl /\ Forall2 (fun f z => fst f = F e x z) fl zs).
    { assert (F2' : Forall2 (fun k z => (is_cell M b st k z /\ exists m, getNeighbor k (step e 1) = Some m /\ is_cell M b st m (disp z e 1)) /\ lev z = lev x + 1) l zs)
        by (apply Forall2_and_r; assumption).
      clear SL F2 ND RL LZ. induction F2' as [|k z l zs ((ICK & m & GM & ICM) & LZ) F2 IH]; [exists []; split; [reflexivity|constructor]|].
      destruct IH as (fl & E1 & E2). cbn [mapM]. unfold body at 1. rewrite GM. rewrite (read_P k z ICK), (read_P m _ ICM). rewrite E1. eexists. split; [reflexivity|]. constructor; [|exact E2].
      unfold F. rewrite LZ. replace (lev x - (lev x + 1)) with (-1) by lia. change (pair_dists (-1)) with (1, frac 3 4, frac 1 2, frac 1 2, frac 1 4)%Qc. cbv iota beta zeta.
      rewrite (QR_cell (disp z e 1)) by (apply (is_cell_in M b _ _ _ ICM)). rewrite (flux_size _ _ _ _ _ _ _ ddir 0%Qc). reflexivity. }
    destruct ML as (fl & EM & F3). rewrite EM. eexists _, _. split; [rewrite surjective_pairing at 1; reflexivity|]. intros v. rewrite sum_fluxes_cv, (side_flux_list v 1 x zs ND RL).
    change (1 =? 1) with true. cbv iota. f_equal. clear EM SL F2 ND RL. induction F3 as [|f z fl zs H3 F3 IH]; [reflexivity|]. cbn [map]. f_equal; [|apply IH; intros; apply LZ; right; assumption].
    rewrite H3. f_equal. unfold weight. rewrite (LZ z (or_introl eq_refl)). replace (lev x <? lev x + 1) with true by lia. reflexivity.
Qed.

(** * The update of one cell along one axis *)
Lemma proper_not_boundary n : proper n -> is_boundary n = false.
Proof. intros (H & _). unfold is_boundary. destruct (c_status n); congruence || reflexivity. Qed.

Lemma same_block_refl q : same_block q q = true.
Proof. apply same_block_spec. reflexivity. Qed.

Definition source (dt : Qc) (v : cvar) (y : oct) : Qc :=
  if in_step gi then
    match v with
    | Mass => 0%Qc
    | Energy => (dt * half_f * (side_flux Mass 1 y + side_flux Mass (-1) y) * gg gi e)%Qc
    | Mom a => if axis_eqb e a then (dt * q_rho (Pc y) * gg gi e)%Qc else 0%Qc
    end
  else 0%Qc.
Lemma euler_value dt ddir u : exists u', euler_update (hc R) (U r) e cell dt ddir u = Some u' /\
  (forall v, cv v u' = cv v u + ((side_flux v (-1) x - side_flux v 1 x) * (dt / ddir) + source dt v x))%Qc.
Proof.
  unfold euler_update. cbn [hc h_g h_st h_b h_bval h_gamma h_gi].
  assert (USm : unit_step (-1)) by (right; reflexivity). assert (USp : unit_step 1) by (left; reflexivity).
  destruct wide_cell as (p & EW & HP). rewrite EW.
  destruct (wide_step p 0 (-1) ltac:(lia) ltac:(lia) HP) as (pm & EWm & HPm). rewrite EWm.
  destruct (wide_step p 0 1 ltac:(lia) ltac:(lia) HP) as (pp & EWp & HPp). rewrite EWp.
  destruct (wide_step pm (-1) (-1) ltac:(lia) ltac:(lia) HPm) as (pmm & EWmm & HPmm).
  destruct (wide_step pp 1 1 ltac:(lia) ltac:(lia) HPp) as (ppp & EWpp & HPpp).
  rewrite (proj2 (wide_value p 0 ltac:(lia) HP)), (proj2 (wide_value pm (-1) ltac:(lia) HPm)), (proj2 (wide_value pp 1 ltac:(lia) HPp)).
  assert (X0 : disp x e 0 = x).
  { pose proof (cells_inside g M OK b BO x x_in) as IX. apply disp_ext; [reflexivity| |exact IX|exact IX]. intros a. unfold step. destruct (axis_eqb e a); lia. }
  rewrite X0, (QR_cell x x_in).
  unfold convert_index at 1. cbn [c_blk]. rewrite same_block_refl.
  destruct (face_query g WF M OK b BO PER EV R HRM i A HA c IB e (-1) USm FE) as (nL & yL & EL & _ & PRL & _).
  destruct (face_query g WF M OK b BO PER EV R HRM i A HA c IB e 1 USp FE) as (nR & yR & ER & _ & PRR & _).
  rewrite EL, ER, EWmm, EWpp, (proj2 (wide_value pmm (-2) ltac:(lia) HPmm)), (proj2 (wide_value ppp 2 ltac:(lia) HPpp)).
  assert (DD : forall s, disp x e (s + s) = disp (disp x e s) e s).
  { intros s. pose proof (cells_inside g M OK b BO x x_in) as IX. apply oct_ext; [reflexivity|]. intros a. destruct (axis_case a e) as [->|Ha].
    - rewrite !disp_on, disp_lev, Zplus_mod_idemp_l. f_equal. lia.
    - rewrite !disp_off; try assumption; try reflexivity. apply disp_inside; assumption. }
  change (-2) with (-1 + -1). change 2 with (1 + 1) at 1. rewrite !DD.
  destruct (faceL_value nL nR ddir _ EL ER eq_refl) as (fL & pL & EFL & VL). rewrite EFL.
  destruct (faceR_value nL nR ddir _ EL ER eq_refl) as (fR & pR & EFR & VR). rewrite EFR.
  unfold boundary_flux. rewrite (proper_not_boundary nL PRL), (proper_not_boundary nR PRR).
  unfold source. destruct (in_step gi) eqn:IS.
  - eexists. split; [reflexivity|]. intros v. rewrite <- !(VL Mass), <- !(VR Mass), <- (VL v), <- (VR v).
    destruct v as [| |a]; [destruct e; cbn; ring..|]. destruct e, a; cbn; ring.
  - eexists. split; [reflexivity|]. intros v. rewrite cv_plus, cv_scale, cv_minus, VL, VR. ring.
Qed.
End OneCell.

(** * The update of one cell *)
Definition axes : list axis := if d3 then [AX; AY; AZ] else [AX; AY].
Lemma axes_flat e : In e axes <-> flat g e = false.
Proof. unfold axes. destruct e; cbn [flat]; destruct (g3d g); cbn; intuition congruence. Qed.
(** Variables that are stored. *)
Definition stored_var (v : cvar) : Prop := d3 = false -> v <> Mom AZ.

Lemma cv_getset v o u : stored_var v -> cv v (getCons d3 (setCons d3 o u)) = cv v u.
Proof. intros SV. destruct v as [| |[]]; cbn; try reflexivity. destruct d3 eqn:E; [reflexivity|]. exfalso. apply (SV E). reflexivity. Qed.
Lemma cv_set v o u : stored_var v -> cv v (setCons d3 o u) = cv v u.
Proof. intros SV. destruct v as [| |[]]; cbn; try reflexivity. destruct d3 eqn:E; [reflexivity|]. exfalso. apply (SV E). reflexivity. Qed.
Lemma cv_get v u : stored_var v -> cv v (getCons d3 u) = cv v u.
Proof. intros SV. destruct v as [| |[]]; cbn; try reflexivity. destruct d3 eqn:E; [reflexivity|]. exfalso. apply (SV E). reflexivity. Qed.

Definition change (ext : axis -> Qc) (dt : Qc) (v : cvar) (x : oct) (A : oct) : Qc :=
  csum (map (fun e => ((side_flux e v (-1) x - side_flux e v 1 x) * (dt / cell_size g b ext A e) + source e dt v x)%Qc) axes).
Definition base (ext : axis -> Qc) (dt : Qc) (x A : oct) : cons :=
  let w v := (cv v (D x) + change ext dt v x A)%Qc in mkCons (w Mass) (w Energy) (w (Mom AX)) (w (Mom AY)) (w (Mom AZ)).
Lemma cv_base ext dt x A v : cv v (base ext dt x A) = (cv v (D x) + change ext dt v x A)%Qc.
Proof. destruct v as [| |[]]; reflexivity. Qed.
Definition corrected (ext : axis -> Qc) (dt : Qc) (gfield : option (axis -> Qc)) (x A : oct) : cons :=
  match gfield with Some ga => gravity_correction d3 dt (u_rho (D x)) ga (base ext dt x A) | None => base ext dt x A end.

Lemma update_value r R i A c ext dt gfield old : nth_error M r = Some R -> nth_error (loc R) i = Some A -> in_block b c ->
  exists o, update_cell (hc R) ext dt (U r) gfield old (mkCell i c b LOCAL_TO_BLOCK) = Some o /\
    forall v, stored_var v -> cv v o = cv v (corrected ext dt gfield (cell_of b A c) A).
Proof.
  intros HR HA IB. unfold update_cell. cbn [hc h_g h_st h_b c_oct].
  assert (HA' : nth_error (loc R ++ gho R) i = Some A) by (rewrite nth_error_app1; [exact HA|apply nth_error_Some; congruence]). rewrite HA'.
  fold (hc R). set (cell := mkCell i c b LOCAL_TO_BLOCK). set (x := cell_of b A c).
  set (o0 := setCons d3 old (read d3 (U r) cell)).
  assert (V0 : forall v, stored_var v -> cv v (getCons d3 o0) = cv v (D x)).
  { intros v SV. unfold o0. rewrite cv_getset by exact SV. rewrite (read_cell g M b D U HF r R cell x HR); [apply cv_get, SV|]. apply (own_cell M b R (HRM r R HR) i A HA c IB). }
  assert (ONE : forall e o, flat g e = false -> exists o', 
     match euler_update (hc R) (U r) e cell dt (cell_size g b ext A e) (getCons d3 o) with Some u => Some (setCons d3 o u) | None => None end = Some o' /\
     forall v, stored_var v -> cv v (getCons d3 o') = (cv v (getCons d3 o) + ((side_flux e v (-1) x - side_flux e v 1 x) * (dt / cell_size g b ext A e) + source e dt v x))%Qc).
  { intros e o FE. destruct (euler_value r R HR i A HA c IB e FE dt (cell_size g b ext A e) (getCons d3 o)) as (u & EU & HU). fold cell in EU. rewrite EU. eexists. split; [reflexivity|].
    intros v SV. rewrite cv_getset by exact SV. apply HU. }
  destruct (ONE AX o0 eq_refl) as (o1 & E1 & H1). rewrite E1.
  destruct (ONE AY o1 eq_refl) as (o2 & E2 & H2). rewrite E2.
  assert (THREE : exists o3, (if d3 then match euler_update (hc R) (U r) AZ cell dt (cell_size g b ext A AZ) (getCons d3 o2) with Some u => Some (setCons d3 o2 u) | None => None end else Some o2) = Some o3 /\
    forall v, stored_var v -> cv v (getCons d3 o3) = (cv v (D x) + change ext dt v x A)%Qc).
  { assert (AZF : d3 = true -> flat g AZ = false) by (intros E; cbn [flat]; rewrite E; reflexivity).
    unfold change, axes. destruct d3 eqn:ED.
    - destruct (ONE AZ o2 (AZF eq_refl)) as (o3 & E3 & H3). exists o3. split; [exact E3|]. intros v SV. rewrite H3, H2, H1, V0 by assumption. cbn [map csum fold_right]. ring.
    - exists o2. split; [reflexivity|]. intros v SV. rewrite H2, H1, V0 by assumption. cbn [map csum fold_right]. ring. }
  destruct THREE as (o3 & E3 & H3). rewrite E3.
  assert (H4 : forall v, stored_var v -> cv v o3 = cv v (base ext dt x A)) by (intros v SV; rewrite cv_base, <- (H3 v SV); symmetry; apply cv_get, SV).
  unfold corrected. destruct gfield as [ga|]; (eexists; split; [reflexivity|]); [|exact H4].
  assert (RHO : u_rho (U r i (flat_cell b c)) = u_rho (D x)) by (unfold flat_cell; rewrite (HF r R i A c HR HA' IB); reflexivity).
  cbn [cell c_blk c_pos]. rewrite RHO. generalize (base ext dt x A) H4. intros w H5.
  assert (S1 : forall v, v <> Mom AZ -> stored_var v) by (intros v Hv _; exact Hv).
  pose proof (H5 Mass (S1 Mass (fun K => ltac:(discriminate K)))) as K1. pose proof (H5 Energy (S1 Energy (fun K => ltac:(discriminate K)))) as K2.
  pose proof (H5 (Mom AX) (S1 (Mom AX) (fun K => ltac:(discriminate K)))) as K3. pose proof (H5 (Mom AY) (S1 (Mom AY) (fun K => ltac:(discriminate K)))) as K4. pose proof (H5 (Mom AZ)) as K5. unfold stored_var in K5 |- *.
  cbn [cv mom] in K1, K2, K3, K4, K5. clear -K1 K2 K3 K4 K5. intros v SV.
  destruct v as [| |[]]; unfold gravity_correction; cbn [cv mom u_rho u_e u_x u_y u_z]; rewrite ?K1, ?K2, ?K3, ?K4; destruct d3; try (rewrite K5 by (intros K; discriminate K)); try reflexivity.
  exfalso. apply SV; reflexivity.
Qed.

(** * Areas *)
Context (ext : axis -> Qc) (EXT : forall a, ext a <> 0%Qc).
Definition zq (z : Z) : Qc := Q2Qc (inject_Z z).
Definition side_len (l : Z) (a : axis) : Qc := (ext a / zq (N l a))%Qc.
Lemma zq_mult a c : zq (a * c) = (zq a * zq c)%Qc.
Proof. apply Qc_is_canon. unfold zq. cbn [Qcmult Q2Qc this]. rewrite !Qred_correct. rewrite inject_Z_mult. reflexivity. Qed.
Lemma zq_nz z : z <> 0 -> zq z <> 0%Qc.
Proof. intros H K. apply (f_equal this) in K. unfold zq in K. cbn [Q2Qc this] in K. assert (K2 : (inject_Z z == 0)%Q) by (rewrite <- Qred_correct; rewrite K; reflexivity). unfold Qeq in K2. cbn in K2. lia. Qed.
Lemma cell_size_eq A a : In A L -> flat g a = false -> cell_size g b ext A a = side_len (lev A) a.
Proof.
  intros HA FA. pose proof (leaf_valid g M OK A HA) as VA. unfold cell_size, side_len, getSize, ncells.
  rewrite (cell_count_eq g WF a (lev A)) by (try exact FA; destruct VA; lia).
  pose proof (ncell_pos g WF a (lev A) ltac:(apply VA)) as P1. pose proof (b_pos g b BO a) as P2. rewrite zq_mult.
  assert (Q2Qc (1 / inject_Z (ncell g a (lev A))) = (1 / zq (ncell g a (lev A)))%Qc) as ->.
  { apply Qc_is_canon. unfold zq, Qcdiv, Qcinv, Qcmult. cbn [Q2Qc this]. rewrite !Qred_correct. reflexivity. }
  fold (zq (b a)). field. split; apply zq_nz; lia.
Qed.
Definition area (e : axis) (l : Z) : Qc :=
  match e with AX => (side_len l AY * side_len l AZ)%Qc | AY => (side_len l AX * side_len l AZ)%Qc | AZ => (side_len l AX * side_len l AY)%Qc end.
Lemma side_len_nz l a : lmin g <= l -> side_len l a <> 0%Qc.
Proof.
  intros H K. unfold side_len in K. apply (EXT a). assert (Z1 := zq_nz (N l a) ltac:(pose proof (N_pos g WF b BO l a H); lia)).
  replace (ext a) with (ext a / zq (N l a) * zq (N l a))%Qc by (field; exact Z1). rewrite K. ring.
Qed.
Lemma volume_area x e : lmin g <= lev x -> volume g b ext x = (area e (lev x) * side_len (lev x) e)%Qc.
Proof. intros _. unfold volume, area. fold (zq (N (lev x) AX)) (zq (N (lev x) AY)) (zq (N (lev x) AZ)). fold (side_len (lev x) AX) (side_len (lev x) AY) (side_len (lev x) AZ). destruct e; ring. Qed.
Lemma side_len_half l a : lmin g <= l -> side_len (l + 1) a = (if flat g a then side_len l a else side_len l a / two)%Qc.
Proof.
  intros H. unfold side_len. destruct (flat g a) eqn:FA; [rewrite !(N_flat g b BO) by exact FA; reflexivity|]. rewrite (N_double g b) by assumption. rewrite zq_mult.
  replace (zq 2) with two by (apply Qc_is_canon; reflexivity). pose proof (N_pos g WF b BO l a H). field. split; [apply zq_nz; lia|apply two_nz].
Qed.
Lemma area_fac e l : flat g e = false -> lmin g <= l -> (area e l * (if d3 then frac 1 4 else frac 1 2) = area e (l + 1))%Qc.
Proof.
  intros FE H. replace (frac 1 4) with (1 / (two * two))%Qc by (apply Qc_is_canon; reflexivity). replace (frac 1 2) with (1 / two)%Qc by (apply Qc_is_canon; reflexivity).
  unfold area. destruct e; rewrite !side_len_half by exact H; cbn [flat] in *; destruct (g3d g); cbn [negb] in *; try discriminate FE; field; apply two_nz.
Qed.

(** Area of the smaller of two neighbours. *)
Lemma weight_area e x z : In x cells -> In z cells -> flat g e = false -> rel g b e 1 x z \/ rel g b e (-1) x z -> (area e (lev x) * weight x z)%Qc = area e (Z.max (lev x) (lev z)).
Proof.
  intros HX HZ FE RR. unfold weight. pose proof (cell_lev g M OK b x HX) as LX.
  assert (LD : lev z <= lev x + 1).
  { destruct RR as [RR|RR]; destruct RR as [E|[E|E]]; apply (f_equal lev) in E; rewrite ?parent_lev, ?disp_lev in E; lia. }
  destruct (lev x <? lev z) eqn:E.
  - replace (Z.max (lev x) (lev z)) with (lev x + 1) by lia. apply area_fac; [exact FE|lia].
  - replace (Z.max (lev x) (lev z)) with (lev x) by lia. ring.
Qed.

(** * What one cell gains through its lower faces, another loses through its upper faces *)
Lemma fluxes_cancel e v : flat g e = false ->
  csum (map (fun x => (area e (lev x) * side_flux e v (-1) x)%Qc) cells) = csum (map (fun x => (area e (lev x) * side_flux e v 1 x)%Qc) cells).
Proof.
  intros FE.
  set (T := fun x z => if relb g b e (-1) x z then (area e (Z.max (lev x) (lev z)) * cv v (F e z x))%Qc else 0%Qc).
  transitivity (csum (map (fun x => csum (map (fun z => T x z) cells)) cells)).
  - apply csum_ext. intros x HX. unfold side_flux, T. rewrite <- csum_scale, <- (csum_filter (fun z => relb g b e (-1) x z)). apply csum_ext. intros z HZ. apply filter_In in HZ. destruct HZ as (HZ & RB).
    cbn [Z.eqb]. rewrite Qcmult_assoc. rewrite weight_area; [reflexivity|exact HX|exact HZ|exact FE|]. right. apply relb_spec, RB.
  - rewrite csum_swap. apply csum_ext. intros z HZ. unfold side_flux. rewrite <- csum_scale.
    rewrite (csum_ext (fun x => T x z) (fun x => if relb g b e 1 z x then (area e (Z.max (lev z) (lev x)) * cv v (F e z x))%Qc else 0%Qc)).
    + rewrite <- (csum_filter (fun x => relb g b e 1 z x)). apply csum_ext. intros x HX. apply filter_In in HX. destruct HX as (HX & RB). change (1 =? 1) with true. cbv iota. rewrite Qcmult_assoc.
      rewrite weight_area; [reflexivity|exact HZ|exact HX|exact FE|]. left. apply relb_spec, RB.
    + intros x HX. unfold T. rewrite (relb_sym g WF b BO e (-1) x z) by (apply (cells_inside g M OK b BO); assumption). change (- (-1)) with 1.
      rewrite (Z.max_comm (lev x)). reflexivity.
Qed.

Lemma change_total dt v (own : oct -> oct) : v = Mass \/ in_step gi = false -> (forall x, In x cells -> In (own x) L /\ lev (own x) = lev x) ->
  csum (map (fun x => (volume g b ext x * change ext dt v x (own x))%Qc) cells) = 0%Qc.
Proof.
  intros CV HO.
  assert (S0 : forall e x, source e dt v x = 0%Qc) by (intros e x; unfold source; destruct CV as [-> | ->]; [destruct (in_step gi)|]; reflexivity).
  transitivity (csum (map (fun e => csum (map (fun x => (dt * (area e (lev x) * side_flux e v (-1) x) + - dt * (area e (lev x) * side_flux e v 1 x))%Qc) cells)) axes)).
  - rewrite csum_swap. apply csum_ext. intros x HX. unfold change. rewrite <- csum_scale. apply csum_ext. intros e He. apply axes_flat in He.
    destruct (HO x HX) as (OL & OV). rewrite S0, (cell_size_eq (own x) e OL He), OV. pose proof (cell_lev g M OK b x HX) as LX. rewrite (volume_area x e) by lia.
    field. apply side_len_nz. lia.
  - rewrite <- (csum_zero axes). apply csum_ext. intros e He. apply axes_flat in He. rewrite csum_plus, !csum_scale, (fluxes_cancel e v He). ring.
Qed.

(** * A uniform field *)
Lemma resample_uniform u : (forall x, D x = u) -> forall x, resample g cells D x = u.
Proof.
  intros HU x. unfold resample. rewrite !HU. destruct (existsb _ _); [reflexivity|]. destruct (existsb _ _); [reflexivity|].
  assert (CM : forall f, cmean f (map D (children g x)) = f u).
  { intros f. unfold cmean. rewrite map_map, map_length, children_length. rewrite (csum_ext (fun y => f (D y)) (fun _ => (f u * 1)%Qc)) by (intros; rewrite HU; ring).
    rewrite csum_scale. pose proof (children_length g x) as LN. 
    assert (SUM : forall X (l : list X), csum (map (fun _ => 1%Qc) l) = zq (Z.of_nat (length l))).
    { intros X l. induction l as [|y l IH]; [apply Qc_is_canon; reflexivity|]. change (1 + csum (map (fun _ => 1%Qc) l) = zq (Z.of_nat (length (y :: l))))%Qc. rewrite IH. cbn [length]. rewrite Nat2Z.inj_succ.
      unfold Z.succ. apply Qc_is_canon. unfold zq. cbn [Qcplus Q2Qc this]. rewrite !Qred_correct. rewrite inject_Z_plus. apply Qplus_comm. }
    rewrite SUM, LN. fold (zq (Z.of_nat (if d3 then 8 else 4))). field. apply zq_nz. destruct d3; discriminate. }
  rewrite !CM. destruct u; reflexivity.
Qed.
Lemma limit0 : limit 0 0 = 0%Qc. Proof. apply Qc_is_canon. vm_compute. reflexivity. Qed.
Lemma slope_uniform q d d' : compute_slope q q q d d' = mkPrim 0 0 0 0 0.
Proof.
  assert (K : forall x, limit ((x - x) / d) ((x - x) / d') = 0%Qc).
  { intros x. unfold Qcdiv. replace (x - x)%Qc with 0%Qc by ring. rewrite !Qcmult_0_l. apply limit0. }
  assert (K' : forall x, limit ((x - x) / d') ((x - x) / d) = 0%Qc).
  { intros x. unfold Qcdiv. replace (x - x)%Qc with 0%Qc by ring. rewrite !Qcmult_0_l. apply limit0. }
  unfold compute_slope, pmap2, pmap. cbn [q_rho q_p q_x q_y q_z]. rewrite !K'. reflexivity.
Qed.
Lemma F_uniform u : (forall x, D x = u) -> forall e, exists f, forall lo hi, F e lo hi = f.
Proof.
  intros HU e. set (q := consToPrim d3 gamma (getCons d3 u)).
  exists (fst (flux q q (mkPrim 0 0 0 0 0) (mkPrim 0 0 0 0 0) e 0 0 0)%Qc). intros lo hi. unfold F, Pc, QR. rewrite !(resample_uniform u HU), !HU. fold q.
  destruct (pair_dists (lev lo - lev hi)) as ((((d1 & d2) & d4) & f1) & f2). rewrite !slope_uniform. unfold compute_euler_flux. rewrite WB.
  assert (RC : forall s f, reconstruct q (mkPrim 0 0 0 0 0) s smallr f = reconstruct q (mkPrim 0 0 0 0 0) s smallr 0).
  { intros s f. unfold reconstruct, pmap2, pmap. cbn [q_rho q_p q_x q_y q_z]. rewrite !Qcmult_0_r. reflexivity. }
  rewrite (RC _ f1), (RC _ f2). reflexivity.
Qed.
Lemma side_uniform u : (forall x, D x = u) -> forall e, flat g e = false -> exists f, forall R i A c v s, In R M -> nth_error (loc R) i = Some A -> in_block b c ->
  unit_step s -> side_flux e v s (cell_of b A c) = cv v f.
Proof.
  intros HU e FE. destruct (F_uniform u HU e) as (f & HFU). exists f. intros R i A c v s HR HA IB US.
  set (x := cell_of b A c).
  assert (SW : forall zs, NoDup zs -> (forall z, In z zs <-> In z cells /\ rel g b e s x z) -> csum (map (weight x) zs) = 1%Qc -> side_flux e v s x = cv v f).
  { intros zs ND HZ HW. rewrite (side_flux_list e v s x zs ND HZ), (csum_ext _ (fun z => (cv v f * weight x z)%Qc)).
    - rewrite csum_scale, HW. ring.
    - intros z _. destruct (s =? 1); rewrite HFU; ring. }
  destruct (face_query g WF M OK b BO PER EV R HR i A HA c IB e s US FE) as (n & y & _ & IC & _ & CASE). pose proof (is_cell_in M b _ _ _ IC) as YC.
  assert (ONE : forall z, In z cells -> lev z <= lev x -> (forall z', In z' cells -> (rel g b e s x z' <-> z' = z)) -> side_flux e v s x = cv v f).
  { intros z HZ LZ RL. rewrite (side_flux_one e v s x z HZ RL). unfold weight. replace (lev x <? lev z) with false by lia. destruct (s =? 1); rewrite HFU; ring. }
  destruct CASE as [(_ & -> & RL)|[(_ & -> & _ & RL & _)|(_ & _ & l & zs & _ & _ & ND & LEN & LZ & RL)]].
  - apply (ONE _ YC); [rewrite disp_lev; unfold x; lia|exact RL].
  - apply (ONE _ YC); [rewrite parent_lev, disp_lev; unfold x; lia|exact RL].
  - apply (SW zs ND RL). rewrite (csum_ext _ (fun _ => ((if d3 then frac 1 4 else frac 1 2) * 1)%Qc)).
    + rewrite csum_scale. destruct d3; do 5 (try (destruct zs as [|? zs]; try discriminate LEN)); apply Qc_is_canon; vm_compute; reflexivity.
    + intros z Hz. unfold weight. specialize (LZ z Hz). fold x in LZ. replace (lev x <? lev z) with true by lia. ring.
Qed.
Lemma change_uniform u r R i A c ext' dt v : (forall x, D x = u) -> nth_error M r = Some R -> nth_error (loc R) i = Some A -> in_block b c ->
  v = Mass \/ in_step gi = false -> change ext' dt v (cell_of b A c) A = 0%Qc.
Proof.
  intros HU HR HA IB CV. unfold change. rewrite (csum_ext _ (fun _ => 0%Qc)); [apply csum_zero|]. intros e He. apply axes_flat in He.
  destruct (side_uniform u HU e He) as (f & Hf). pose proof (nth_error_In _ _ HR) as HRM.
  rewrite (Hf R i A c v (-1) HRM HA IB (or_intror eq_refl)), (Hf R i A c v 1 HRM HA IB (or_introl eq_refl)).
  assert (source e dt v (cell_of b A c) = 0%Qc) as -> by (unfold source; destruct CV as [-> | ->]; [destruct (in_step gi)|]; reflexivity).
  ring.
Qed.
End CP.

(** * The same cells shared out differently *)
Section Share.
Context (g : geom) (M M' : mesh) (b : axis -> Z) (BO : block_ok g b) (OK : mesh_ok g M) (OK' : mesh_ok g M') (D : oct -> cons)
        (SAME : forall A, In A (leaves M) <-> In A (leaves M')) (riem : prim -> prim -> cons * Qc) (gamma smallr : Qc) (gi : ginfo).
Lemma cells_same x : In x (all_cells b (leaves M)) <-> In x (all_cells b (leaves M')).
Proof. unfold all_cells. rewrite !in_flat_map. split; intros (A & HA & H); exists A; (split; [apply SAME, HA|exact H]). Qed.
Lemma existsb_same x : existsb (oct_eqb x) (all_cells b (leaves M)) = existsb (oct_eqb x) (all_cells b (leaves M')).
Proof. apply Bool.eq_iff_eq_true. rewrite !existsb_exists. split; intros (y & H & E); exists y; (split; [apply cells_same, H|exact E]). Qed.
Lemma QR_same x : QR g M b D gamma x = QR g M' b D gamma x.
Proof. unfold QR, resample. rewrite !existsb_same. reflexivity. Qed.
Lemma F_same e lo hi : F g M b D riem gamma smallr gi e lo hi = F g M' b D riem gamma smallr gi e lo hi.
Proof. unfold F. rewrite !QR_same. reflexivity. Qed.
Lemma side_same e v s x : side_flux g M b D riem gamma smallr gi e v s x = side_flux g M' b D riem gamma smallr gi e v s x.
Proof.
  unfold side_flux. rewrite (csum_ext _ (fun z => (weight g x z * cv v (if s =? 1 then F g M' b D riem gamma smallr gi e x z else F g M' b D riem gamma smallr gi e z x))%Qc)).
  - apply csum_perm, Permutation_map, NoDup_Permutation; [apply NoDup_filter, (cells_NoDup g M OK b BO)|apply NoDup_filter, (cells_NoDup g M' OK' b BO)|].
    intros z. rewrite !filter_In, cells_same. reflexivity.
  - intros z _. rewrite !F_same. reflexivity.
Qed.
Lemma change_same ext dt v x A : change g M b D riem gamma smallr gi ext dt v x A = change g M' b D riem gamma smallr gi ext dt v x A.
Proof. unfold change. apply csum_ext. intros e _. unfold source. rewrite !side_same. reflexivity. Qed.
Lemma corrected_same ext dt gf x A : corrected g M b D riem gamma smallr gi ext dt gf x A = corrected g M' b D riem gamma smallr gi ext dt gf x A.
Proof. unfold corrected, base. rewrite !change_same. reflexivity. Qed.
End Share.
