(** GravityFaces for two and three dimensions: the neighbour queries of the code find exactly the
    cells that touch a face, for every block size and boundary type. *)
From Coq Require Import QArith Qcanon.
From Verif Require Import Base OctreeSpec OctreeGeom OctreeModel FindNeighbors MeshSpec GhostExchange
  LookupModel CellModel CellSpec CellProofs CellProps RemapModel RemapSpec RemapProofs RemapProps HydroModel HydroSpec HydroProps ConserveSpec BlockGhost ConserveFaces GravitySpec GravityFaces.
Open Scope Z_scope.

Section FT.
Context (g : geom) (WF : wf_geom g) (M : mesh) (OK : mesh_ok g M) (b : axis -> Z) (BO : block_ok g b).
Local Notation L := (leaves M).
Local Notation cells := (all_cells b (leaves M)).
Local Notation N := (ncells g b).
Local Notation w l := (2 ^ (lmax g - l)).
Local Notation disp := (disp g b).
Local Notation inside := (inside g b).
Local Notation goes := (goes g b).
Local Notation beyond := (beyond g b).

Lemma width l : l <= lmax g -> 0 < w l. Proof. intros; apply Z.pow_pos_nonneg; lia. Qed.
Lemma width_half l : l + 1 <= lmax g -> w l = 2 * w (l + 1).
Proof. intros. replace (lmax g - l) with (lmax g - (l + 1) + 1) by lia. rewrite Z.pow_add_r by lia. change (2^1) with 2. ring. Qed.
Lemma finest l a : flat g a = false -> lmin g <= l <= lmax g -> N (lmax g) a = N l a * w l.
Proof.
  intros FA H. destruct (Z.eq_dec l (lmax g)) as [->|NE]; [rewrite Z.sub_diag; change (2^0) with 1; ring|].
  assert (E : forall n : nat, l + Z.of_nat n <= lmax g -> N (l + Z.of_nat n) a = N l a * 2 ^ Z.of_nat n).
  { induction n as [|n IH]; intros LE; [rewrite Z.add_0_r; change (2 ^ Z.of_nat 0) with 1; ring|].
    replace (l + Z.of_nat (S n)) with (l + Z.of_nat n + 1) by lia. rewrite (N_double g b) by (try exact FA; lia). rewrite IH by lia.
    rewrite Nat2Z.inj_succ, Z.pow_succ_r by lia. ring. }
  specialize (E (Z.to_nat (lmax g - l))). replace (l + Z.of_nat (Z.to_nat (lmax g - l))) with (lmax g) in E by lia.
  replace (Z.of_nat (Z.to_nat (lmax g - l))) with (lmax g - l) in E by lia. apply E. lia.
Qed.
Lemma flat_zero x a : inside x -> flat g a = true -> coord x a = 0.
Proof. intros (_ & H) F. specialize (H a). rewrite (N_flat g b BO _ a F) in H. lia. Qed.
Lemma flat_overlap x y a : inside x -> inside y -> flat g a = true -> lower g x a < upper g y a /\ lower g y a < upper g x a.
Proof.
  intros IX IY F. unfold lower, upper. rewrite (flat_zero x a IX F), (flat_zero y a IY F). pose proof (width (lev x) ltac:(destruct IX; lia)). pose proof (width (lev y) ltac:(destruct IY; lia)). lia.
Qed.

(** ** Points of the finest grid *)
Definition within_box (x : oct) (P : axis -> Z) : Prop := forall a, flat g a = false -> lower g x a <= P a < upper g x a.
Lemma within_unique x y P : In x cells -> In y cells -> within_box x P -> within_box y P -> x = y.
Proof.
  assert (G : forall x y, In x cells -> In y cells -> lev x <= lev y -> within_box x P -> within_box y P -> x = y).
  { clear x y. intros x y HX HY LE BX BY. pose proof (cells_inside g M OK b BO x HX) as IX. pose proof (cells_inside g M OK b BO y HY) as IY. pose proof (cell_lev g M OK b x HX) as LX. pose proof (cell_lev g M OK b y HY) as LY.
    apply cells_in in HX, HY. destruct HX as (A & q & HA & IA & ->), HY as (B & p & HB & IB & ->).
    assert (EX : forall a, coord (cell_of b A q) a = gpos b A q a) by (intros a; unfold cell_of; rewrite coord_oct_of; reflexivity).
    assert (EY : forall a, coord (cell_of b B p) a = gpos b B p a) by (intros a; unfold cell_of; rewrite coord_oct_of; reflexivity).
    change (lev (cell_of b A q)) with (lev A) in *. change (lev (cell_of b B p)) with (lev B) in *.
    destruct (cell_overlap g M OK b BO A q B p HA IA HB IB LE) as (-> & E).
    { intros a. destruct (flat g a) eqn:FA; [rewrite <- EX, <- EY, (flat_zero _ a IX FA), (flat_zero _ a IY FA); reflexivity|].
      specialize (BX a FA). specialize (BY a FA). unfold lower, upper in BX, BY. rewrite EX in BX. rewrite EY in BY.
      change (lev (cell_of b A q)) with (lev A) in *. change (lev (cell_of b B p)) with (lev B) in *.
      set (u := gpos b A q a) in *. set (v := gpos b B p a) in *.
      replace (lmax g - lev A) with ((lmax g - lev B) + (lev B - lev A)) in BX by lia. rewrite Z.pow_add_r in BX by lia.
      pose proof (width (lev B) ltac:(lia)) as W. set (k := 2 ^ (lev B - lev A)) in *. assert (K : 0 < k) by (apply Z.pow_pos_nonneg; lia).
      set (ww := w (lev B)) in *. apply Z.div_unique with (v - u * k); [|ring]. left.
      assert (u * k < v + 1) by (apply (Z.mul_lt_mono_pos_r ww); [exact W|]; replace (u * k * ww) with (u * (ww * k)) by ring; lia).
      assert (v < (u + 1) * k) by (apply (Z.mul_lt_mono_pos_r ww); [exact W|]; replace ((u + 1) * k * ww) with ((u + 1) * (ww * k)) by ring; lia). lia. }
    unfold cell_of, gpos. apply oct_ext; [reflexivity|]. intros a. rewrite !coord_oct_of, E. reflexivity. }
  intros HX HY BX BY. destruct (Z.le_ge_cases (lev x) (lev y)) as [LE|LE]; [apply G; assumption|symmetry; apply G; assumption].
Qed.
Lemma fine_edges x a : flat g a = false -> inside x -> 0 <= lower g x a /\ lower g x a < upper g x a /\ upper g x a <= N (lmax g) a.
Proof.
  intros FA (HL & H). specialize (H a). rewrite (finest (lev x)) by assumption. unfold lower, upper. pose proof (width (lev x) ltac:(lia)). nia.
Qed.

Section Face.
Context (e : axis) (FE : flat g e = false) (up : bool).
Lemma touching_point x y : inside x -> inside y -> touches g b e up x y = true ->
  exists P, within_box y P /\ P e = beyond x e up /\ forall a, a <> e -> flat g a = false -> lower g x a <= P a < upper g x a.
Proof.
  intros IX IY T. unfold touches in T. apply andb_true_iff in T. destruct T as (PL & OV). rewrite others_spec in OV.
  exists (fun a => if axis_eqb a e then beyond x e up else Z.max (lower g x a) (lower g y a)).
  assert (EE : axis_eqb e e = true) by (apply axis_eqb_spec; reflexivity).
  assert (NE : forall a, a <> e -> axis_eqb a e = false) by (intros a Ha; destruct (axis_eqb a e) eqn:E; [apply axis_eqb_spec in E; congruence|reflexivity]).
  pose proof (fine_edges x e FE IX) as FX. pose proof (fine_edges y e FE IY) as FY.
  assert (BY : lower g y e <= beyond x e up < upper g y e).
  { unfold GravityFaces.beyond, same_plane in *. set (n := N (lmax g) e) in *.
    destruct up; apply orb_true_iff in PL; destruct PL as [PL|PL].
    - apply Z.eqb_eq in PL. rewrite PL, Z.mod_small; lia.
    - apply andb_true_iff in PL. destruct PL as (_ & PL). apply Z.eqb_eq in PL.
      rewrite <- (Z.mod_small (lower g y e) n) by lia.
      replace (upper g x e mod n) with (lower g y e mod n); [rewrite Z.mod_small; lia|].
      apply Z.mod_divide in PL; [|lia]. destruct PL as (k & PL). replace (upper g x e) with (lower g y e + k * n) by lia. symmetry. apply Z_mod_plus_full.
    - apply Z.eqb_eq in PL. rewrite <- PL, Z.mod_small; lia.
    - apply andb_true_iff in PL. destruct PL as (_ & PL). apply Z.eqb_eq in PL. apply Z.mod_divide in PL; [|lia]. destruct PL as (k & PL).
      replace (lower g x e - 1) with (upper g y e - 1 + (- k) * n) by lia. rewrite Z_mod_plus_full, Z.mod_small; lia. }
  split; [|split].
  - intros a FA. destruct (axis_case a e) as [->|Ha]; [rewrite EE; exact BY|]. rewrite NE by exact Ha.
    specialize (OV a Ha). apply overlaps_spec in OV. pose proof (fine_edges y a FA IY). lia.
  - rewrite EE. reflexivity.
  - intros a Ha FA. rewrite NE by exact Ha. specialize (OV a Ha). apply overlaps_spec in OV. pose proof (fine_edges x a FA IX). lia.
Qed.

(** ** The position beyond the face *)
Lemma boundary_goes x : inside x -> (at_boundary g b e up x = true <-> ~ goes x e up).
Proof.
  intros (HL & H). specialize (H e). unfold at_boundary, GravityFaces.goes, lower, upper. rewrite (finest (lev x) e FE HL). pose proof (width (lev x) ltac:(lia)) as W.
  rewrite andb_true_iff, negb_true_iff. destruct up; cbn [sg]; rewrite Z.eqb_eq.
  - split; [intros (P & E) [K|K]; [congruence|nia]|]. intros K. split; [destruct (per g e); [exfalso; auto|reflexivity]|].
    assert (coord x e + 1 = N (lev x) e); [|nia]. destruct (Z.eq_dec (coord x e + 1) (N (lev x) e)) as [E|E]; [exact E|]. exfalso; apply K; right; lia.
  - split; [intros (P & E) [K|K]; [congruence|nia]|]. intros K. split; [destruct (per g e); [exfalso; auto|reflexivity]|].
    assert (coord x e = 0); [|nia]. destruct (Z.eq_dec (coord x e) 0) as [E|E]; [exact E|]. exfalso; apply K; right; lia.
Qed.
Lemma beyond_lower x : inside x -> beyond x e up = lower g (disp x e (sg up)) e + (if up then 0 else w (lev x) - 1).
Proof.
  intros IX. pose proof IX as (HL & H). specialize (H e). unfold GravityFaces.beyond, lower, upper. rewrite (finest (lev x) e FE HL), disp_on, disp_lev.
  pose proof (width (lev x) ltac:(lia)) as W. set (n := N (lev x) e) in *. set (ww := w (lev x)) in *. set (c := coord x e) in *.
  destruct up; cbn [sg].
  - rewrite Z.mul_mod_distr_r by lia. lia.
  - destruct (Z.eq_dec c 0) as [->|NE].
    + replace ((0 + -1) mod n) with (n - 1) by (apply (Z.mod_unique _ _ (-1)); lia).
      symmetry. apply (Z.mod_unique _ _ (-1)); nia.
    + rewrite (Z.mod_small (c + -1)) by lia. rewrite Z.mod_small by nia. ring.
Qed.
Lemma within_disp x P : inside x -> P e = beyond x e up -> (forall a, a <> e -> flat g a = false -> lower g x a <= P a < upper g x a) -> within_box (disp x e (sg up)) P.
Proof.
  intros IX PE PO a FA. pose proof IX as (HL & _). destruct (axis_case a e) as [->|Ha].
  - rewrite PE, (beyond_lower x IX). unfold upper, lower. rewrite disp_lev. pose proof (width (lev x) ltac:(lia)). destruct up; lia.
  - specialize (PO a Ha FA). unfold lower, upper in *. rewrite disp_lev, (disp_off g b x e (sg up) a IX Ha). exact PO.
Qed.
Lemma within_parent x P : lmin g <= lev x - 1 -> lev x <= lmax g -> within_box x P -> within_box (parent g x) P.
Proof.
  intros L1 L2 H a FA. specialize (H a FA). unfold lower, upper in *. rewrite parent_lev, parent_coord, FA. rewrite (width_half (lev x - 1)) by lia.
  replace (lev x - 1 + 1) with (lev x) by lia. pose proof (width (lev x) L2). set (ww := w (lev x)) in *. pose proof (Z.div_mod (coord x a) 2 ltac:(lia)). pose proof (Z.mod_pos_bound (coord x a) 2 ltac:(lia)). nia.
Qed.
Lemma plane_beyond x : inside x -> goes x e up ->
  (if up then same_plane g b e (upper g x e) (lower g (disp x e (sg up)) e) else same_plane g b e (upper g (disp x e (sg up)) e) (lower g x e)) = true.
Proof.
  intros IX GO. pose proof IX as (HL & H). specialize (H e). unfold same_plane, lower, upper. rewrite (finest (lev x) e FE HL), disp_on, disp_lev.
  pose proof (width (lev x) ltac:(lia)) as W. set (n := N (lev x) e) in *. set (ww := w (lev x)) in *. set (c := coord x e) in *.
  unfold GravityFaces.goes in GO. fold n c in GO.
  destruct up; cbn [sg] in *; apply orb_true_iff.
  - destruct (Z.eq_dec (c + 1) n) as [E|E].
    + right. destruct GO as [->|GO]; [|lia]. cbn [andb]. rewrite E, Z.mod_same by lia. apply Z.eqb_eq. replace (n * ww - 0 * ww) with (1 * (n * ww)) by ring. apply Z.mod_mul. nia.
    + left. apply Z.eqb_eq. rewrite Z.mod_small by lia. reflexivity.
  - destruct (Z.eq_dec c 0) as [E|E].
    + right. destruct GO as [->|GO]; [|lia]. cbn [andb]. rewrite E. replace ((0 + -1) mod n) with (n - 1) by (apply (Z.mod_unique _ _ (-1)); lia).
      apply Z.eqb_eq. replace ((n - 1 + 1) * ww - 0 * ww) with (1 * (n * ww)) by ring. apply Z.mod_mul. nia.
    + left. apply Z.eqb_eq. rewrite Z.mod_small by lia. ring.
Qed.
(** A cell with the same plane as the position beyond the face, overlapping it along the others. *)
Lemma touches_like x y : inside x -> inside y -> goes x e up ->
  (if up then lower g y e = lower g (disp x e (sg up)) e else upper g y e = upper g (disp x e (sg up)) e) ->
  (forall a, a <> e -> flat g a = false -> lower g x a < upper g y a /\ lower g y a < upper g x a) -> touches g b e up x y = true.
Proof.
  intros IX IY GO PL OV. unfold touches. pose proof (plane_beyond x IX GO) as K.
  replace (if up then same_plane g b e (upper g x e) (lower g y e) else same_plane g b e (upper g y e) (lower g x e)) with true.
  - apply others_spec. intros a Ha. apply overlaps_spec. destruct (flat g a) eqn:FA; [apply flat_overlap; assumption|apply OV; assumption].
  - symmetry. destruct up; rewrite PL; exact K.
Qed.
Lemma touches_disp x : inside x -> inside (disp x e (sg up)) -> goes x e up -> touches g b e up x (disp x e (sg up)) = true.
Proof.
  intros IX ID GO. apply touches_like; try assumption; [destruct up; reflexivity|]. intros a Ha _.
  unfold lower, upper. rewrite disp_lev, (disp_off g b x e (sg up) a IX Ha). pose proof IX as (HL & _). pose proof (width (lev x) ltac:(lia)). lia.
Qed.
Lemma touches_parent x : In x cells -> goes x e up -> In (parent g (disp x e (sg up))) cells -> touches g b e up x (parent g (disp x e (sg up))) = true.
Proof.
  intros HX GO HP. pose proof (cells_inside g M OK b BO x HX) as IX. pose proof (cells_inside g M OK b BO _ HP) as IP. pose proof (cell_lev g M OK b _ HP) as LP. rewrite parent_lev, disp_lev in LP.
  pose proof IX as (HL & HR). assert (W2 : w (lev x - 1) = 2 * w (lev x)) by (rewrite (width_half (lev x - 1)) by lia; f_equal; f_equal; lia).
  pose proof (width (lev x) ltac:(lia)) as W.
  assert (NE : coord (disp x e (sg up)) e / 2 <> coord x e / 2).
  { intro K. apply (parent_overlap g M OK b BO _ _ HP HX). apply oct_ext; [rewrite !parent_lev, disp_lev; reflexivity|].
    intros a. rewrite !parent_coord. destruct (axis_case a e) as [->|Ha]; [rewrite FE; exact K|]. rewrite (disp_off g b x e (sg up) a IX Ha). reflexivity. }
  assert (N2 : N (lev x) e = 2 * N (lev x - 1) e).
  { rewrite <- (N_double g b (lev x - 1) e) by (try exact FE; lia). f_equal; lia. }
  rewrite disp_on in NE. pose proof (HR e) as HE. set (T := disp x e (sg up)) in *.
  assert (TE : coord T e = (coord x e + sg up) mod N (lev x) e) by apply disp_on.
  assert (PAR : coord T e = 2 * (coord T e / 2) + (if up then 0 else 1)).
  { rewrite TE. rewrite N2 in *. set (m := N (lev x - 1) e) in *. set (c := coord x e) in *. clearbody c m. clear - NE HE.
    pose proof (Z.div_mod c 2 ltac:(lia)). pose proof (Z.mod_pos_bound c 2 ltac:(lia)).
    pose proof (Z.div_mod ((c + sg up) mod (2 * m)) 2 ltac:(lia)). pose proof (Z.mod_pos_bound ((c + sg up) mod (2 * m)) 2 ltac:(lia)).
    destruct up; cbn [sg] in *.
    - destruct (Z.eq_dec (c + 1) (2 * m)) as [E|E]; [rewrite E, Z.mod_same in * by lia; lia|]. rewrite (Z.mod_small (c + 1)) in * by lia. lia.
    - destruct (Z.eq_dec c 0) as [E|E].
      + rewrite E in *. replace ((0 + -1) mod (2 * m)) with (2 * m - 1) in * by (apply (Z.mod_unique _ _ (-1)); lia). lia.
      + rewrite (Z.mod_small (c + -1)) in * by lia. lia. }
  apply (touches_like x _ IX IP GO); fold T.
  - unfold lower, upper. rewrite parent_lev, parent_coord, FE. unfold T at 2 4. rewrite disp_lev. fold T. change (lev T) with (lev x). rewrite !W2. clear - PAR. clearbody T. set (k := coord T e / 2) in *. clearbody k. rewrite PAR.
    destruct up; ring.
  - intros a Ha FA. unfold lower, upper. rewrite parent_lev, parent_coord, FA. unfold T. rewrite disp_lev, (disp_off g b x e (sg up) a IX Ha), W2.
    pose proof (Z.div_mod (coord x a) 2 ltac:(lia)). pose proof (Z.mod_pos_bound (coord x a) 2 ltac:(lia)). nia.
Qed.

(** ** The queries *)
Section Query.
Context (R : rank) (HR : In R M) (i : nat) (A : oct) (HA : nth_error (loc R) i = Some A) (c : axis -> Z) (IB : in_block b c).
Local Notation st := (loc R ++ gho R).
Local Notation x := (cell_of b A c).
Local Notation T := (disp x e (sg up)).
Local Notation cell := (mkCell i c b LOCAL_TO_BLOCK).
Local Notation is_cell := (is_cell M b st).

Lemma query_in : In x cells. Proof. apply (own_in M b R HR i A HA c IB). Qed.
Lemma query_inside : inside x. Proof. apply (cells_inside g M OK b BO), query_in. Qed.
Lemma goes_stays : stays g b A c (step e (sg up)) <-> goes x e up.
Proof.
  unfold stays, GravityFaces.goes. rewrite x_coord. change (lev x) with (lev A). split.
  - intros H. specialize (H e). rewrite step_on in H. exact H.
  - intros H a. destruct (axis_case a e) as [->|Ha]; [rewrite step_on; exact H|]. rewrite step_off by exact Ha. right.
    pose proof (proj2 query_inside a) as K. rewrite x_coord in K. change (lev x) with (lev A) in K. lia.
Qed.
Lemma step_reach : reach_offset g b (step e (sg up)).
Proof.
  intros a. pose proof (proj1 (BO a)). destruct (axis_case a e) as [->|Ha]; [rewrite step_on, FE; split; [destruct up; cbn; lia|discriminate]|].
  rewrite step_off by exact Ha. split; [lia|reflexivity].
Qed.
Lemma query_boundary : at_boundary g b e up x = true ->
  exists n, getNeighbor_ghost g st cell (step e (sg up)) = Some n /\ c_status n = BOUNDARY.
Proof.
  intros H. apply boundary_goes in H; [|exact query_inside]. rewrite <- goes_stays in H.
  destruct (C26_boundary g M R i A b c _ WF OK HR HA BO IB step_reach H) as (n & E & S & _). exists n. split; assumption.
Qed.
Lemma wanted_beyond a : wanted g b A c (step e (sg up)) a = coord T a.
Proof. unfold wanted, ConserveFaces.disp, displaced. rewrite coord_oct_of, x_coord. reflexivity. Qed.

(** What a query through a face that is not on the boundary finds: the only cell that touches the
    face, or the smaller cells that touch it. *)
Theorem query_found : at_boundary g b e up x = false ->
  exists n, getNeighbor_ghost g st cell (step e (sg up)) = Some n /\ proper n /\
    ((0 <= level_diff n /\ exists y, is_cell n y /\ (forall z, In z cells /\ touches g b e up x z = true <-> z = y)) \/
     (level_diff n = -1 /\ exists l zs, smaller_neighbors true g st n (step e (sg up)) = Some l /\ Forall2 is_cell l zs /\
        (forall k, In k l -> is_valid k = true) /\ (forall z, In z cells /\ touches g b e up x z = true <-> In z zs))).
Proof.
  intros NB. assert (GO : goes x e up).
  { destruct (classic_stays g b A c (step e (sg up))) as [S|(a & P & K)]; [apply goes_stays, S|].
    exfalso. assert (~ goes x e up) as NG by (rewrite <- goes_stays; intros S; destruct (S a) as [Q|Q]; [congruence|contradiction]).
    apply (boundary_goes x query_inside) in NG. congruence. }
  pose proof (proj2 goes_stays GO) as ST. pose proof query_in as XC. pose proof query_inside as IX.
  destruct (C25_neighbour g M R i A b c _ WF OK HR HA BO IB step_reach ST) as (n & B & E & EB & NTH & BL & IQ & DES).
  assert (ICN : is_cell n (cell_of b B (c_pos n))) by (split; [exact EB|split; [exact IQ|exists B; auto]]).
  set (y := cell_of b B (c_pos n)) in *. assert (YC : In y cells) by exact (is_cell_in M b _ _ _ ICN).
  assert (GY : forall a, coord y a = gpos b B (c_pos n) a) by (intros a; unfold y, cell_of; rewrite coord_oct_of; reflexivity).
  exists n. split; [exact E|].
  assert (ONE : forall y, In y cells -> touches g b e up x y = true ->
     (forall P, within_box T P -> P e = beyond x e up -> within_box y P) -> forall z, In z cells /\ touches g b e up x z = true <-> z = y).
  { clear y ICN YC GY. intros y YC TY H z. split; [|intros ->; split; assumption]. intros (ZC & TZ).
    destruct (touching_point x z IX (cells_inside g M OK b BO z ZC) TZ) as (P & BZ & PE & PO).
    apply (within_unique z y P ZC YC BZ). apply H; [apply (within_disp x P IX PE PO)|exact PE]. }
  assert (SAME : lev B = lev A -> (forall a, gpos b B (c_pos n) a = wanted g b A c (step e (sg up)) a) -> y = T).
  { intros LV G. apply oct_ext; [exact LV|]. intros a. rewrite GY, G. apply wanted_beyond. }
  destruct (c_status n) eqn:SN; cbn [designates] in DES; try contradiction; destruct DES as (DL & DP).
  - split; [split; congruence|]. left. split; [unfold level_diff; rewrite SN; lia|]. assert (ET : y = T) by (apply SAME; [congruence|exact DP]).
    exists y. split; [exact ICN|]. rewrite ET in *. apply ONE; [exact YC|apply touches_disp; [assumption|apply (cells_inside g M OK b BO), YC|assumption]|]. intros P H _. exact H.
  - split; [split; congruence|]. left. split; [unfold level_diff; rewrite SN; lia|]. assert (ET : y = T) by (apply SAME; [exact DL|exact DP]).
    exists y. split; [exact ICN|]. rewrite ET in *. apply ONE; [exact YC|apply touches_disp; [assumption|apply (cells_inside g M OK b BO), YC|assumption]|]. intros P H _. exact H.
  - split; [split; congruence|]. right. split; [unfold level_diff; rewrite SN; reflexivity|].
    assert (FD : face_dir g (step e (sg up)) e) by (split; [rewrite step_on; destruct up; reflexivity|split; [exact FE|intros a Ha; apply step_off, Ha]]).
    destruct (C25_smaller_neighbours g M R i A b c _ e n true WF OK HR HA BO IB FD ST E SN (or_introl eq_refl)) as (l & EL & LEN & SOUND & COMPL).
    set (zof := fun k => match nth_error st (c_oct k) with Some B => cell_of b B (c_pos k) | None => y end).
    assert (F2 : Forall2 is_cell l (map zof l)).
    { clear - SOUND. induction l as [|k l IH]; constructor.
      - destruct (SOUND k (or_introl eq_refl)) as (K1 & _ & Bk & K2 & K3 & K4 & K5 & _). split; [exact K1|split; [exact K5|]]. exists Bk. unfold zof. rewrite K2. auto.
      - apply IH. intros k' H. apply SOUND. right. exact H. }
    assert (HALF : forall z, In z (map zof l) -> lev z = lev A + 1 /\ half_facing g (step e (sg up)) (wanted g b A c (step e (sg up))) (coord z)).
    { intros z HZ. apply in_map_iff in HZ. destruct HZ as (k & <- & Hk). destruct (SOUND k Hk) as (_ & _ & Bk & K2 & _ & K4 & _ & K6). unfold zof. rewrite K2.
      split; [exact K4|]. intros a. replace (coord (cell_of b Bk (c_pos k)) a) with (gpos b Bk (c_pos k) a) by (unfold cell_of; rewrite coord_oct_of; reflexivity). apply K6. }
    assert (FULL : forall z, lev z = lev A + 1 -> half_facing g (step e (sg up)) (wanted g b A c (step e (sg up))) (coord z) -> In z (map zof l)).
    { intros z LZ HZ. destruct (COMPL (coord z) HZ) as (k & Bk & Hk & K2 & K3). apply in_map_iff. exists k. split; [|exact Hk]. unfold zof. rewrite K2.
      destruct (SOUND k Hk) as (_ & _ & Bk' & K2' & _ & K4 & _). assert (Bk' = Bk) as -> by congruence.
      apply oct_ext; [unfold cell_of; cbn [oct_of lev]; lia|]. intros a. unfold cell_of. rewrite coord_oct_of. apply K3. }
    exists l, (map zof l). split; [exact EL|]. split; [exact F2|].
    split; [intros k Hk; apply (SOUND k Hk)|].
    assert (ZC : forall z, In z (map zof l) -> In z cells).
    { intros z HZ. destruct (Forall2_in_r _ _ _ z F2 HZ) as (k & _ & K). exact (is_cell_in M b _ _ _ K). }
    assert (LM : lev A + 1 <= lmax g).
    { pose proof (cell_lev g M OK b y YC) as K. unfold y, cell_of in K. cbn [oct_of lev] in K. lia. }
    pose proof (width_half (lev A) LM) as WH. pose proof (width (lev A + 1) LM) as W2.
    intros z. split.
    + intros (HZC & TZ). destruct (touching_point x z IX (cells_inside g M OK b BO z HZC) TZ) as (P & BZ & PE & PO).
      pose proof (within_disp x P IX PE PO) as BT.
      set (z1 := oct_of (lev A + 1) (fun a => if flat g a then 0 else P a / w (lev A + 1))).
      assert (B1 : within_box z1 P).
      { intros a FA. unfold lower, upper, z1. rewrite coord_oct_of, FA. cbn [oct_of lev]. pose proof (Z.div_mod (P a) (w (lev A + 1)) ltac:(lia)). pose proof (Z.mod_pos_bound (P a) (w (lev A + 1)) W2). lia. }
      assert (H1 : In z1 (map zof l)).
      { apply FULL; [reflexivity|]. intros a. rewrite wanted_beyond. unfold z1. rewrite coord_oct_of. unfold half. destruct (flat g a) eqn:FA.
        - assert (NEA : a <> e) by congruence. rewrite (disp_off g b x e (sg up) a IX NEA), (flat_zero x a IX FA). rewrite step_off by exact NEA. split; [reflexivity|split; intros K; lia].
        - specialize (BT a FA). unfold lower, upper in BT. rewrite disp_lev in BT. change (lev x) with (lev A) in BT. rewrite WH in BT.
          split.
          + rewrite Z.div_div by lia. rewrite (Z.mul_comm (w (lev A + 1)) 2). symmetry. apply Z.div_unique with (P a - coord T a * (2 * w (lev A + 1))); [left; lia|ring].
          + split; intros SA; (destruct (axis_case a e) as [->|Ha]; [|rewrite step_off in SA by exact Ha; lia]); rewrite step_on in SA; rewrite PE, (beyond_lower x IX); unfold lower; rewrite disp_lev; change (lev x) with (lev A); rewrite WH; destruct up; cbn in SA; try lia.
            * symmetry. apply Z.div_unique with 0; [lia|ring].
            * symmetry. apply Z.div_unique with (w (lev A + 1) - 1); [lia|ring]. }
      assert (z = z1) as -> by (apply (within_unique z z1 P HZC (ZC z1 H1) BZ B1)). exact H1.
    + intros HZ. split; [apply ZC, HZ|]. destruct (HALF z HZ) as (LZ & HF). apply (touches_like x z IX (cells_inside g M OK b BO z (ZC z HZ)) GO).
      * specialize (HF e). rewrite step_on, wanted_beyond in HF. unfold lower, upper. rewrite disp_lev, LZ. change (lev x) with (lev A). rewrite WH. destruct up; cbn [sg] in HF |- *.
        -- rewrite (proj1 (proj2 HF) eq_refl). ring.
        -- rewrite (proj2 (proj2 HF) eq_refl). ring.
      * intros a Ha FA. specialize (HF a). destruct HF as (HF & _). rewrite wanted_beyond, (disp_off g b x e (sg up) a IX Ha) in HF. unfold half in HF. rewrite FA in HF.
        unfold lower, upper. rewrite LZ. change (lev x) with (lev A). rewrite WH. pose proof (Z.div_mod (coord z a) 2 ltac:(lia)). pose proof (Z.mod_pos_bound (coord z a) 2 ltac:(lia)). nia.
  - split; [split; congruence|]. left. split; [unfold level_diff; rewrite SN; lia|].
    assert (ET : y = parent g T).
    { apply oct_ext; [exact DL|]. intros a. rewrite GY, DP, wanted_beyond, parent_coord. reflexivity. }
    exists y. split; [exact ICN|]. rewrite ET in *.
    apply ONE; [exact YC|apply touches_parent; assumption|]. intros P H _. pose proof (cell_lev g M OK b _ YC) as K. rewrite parent_lev, disp_lev in K.
    apply within_parent; [rewrite disp_lev; lia|rewrite disp_lev; apply IX|exact H].
Qed.
End Query.
End Face.
End FT.
