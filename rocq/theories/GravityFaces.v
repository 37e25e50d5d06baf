(** Which cells touch a face of a cell, and that the neighbour queries of the code find exactly
    them, for every block size and boundary type (3D). *)
From Coq Require Import QArith Qcanon.
From Verif Require Import Base OctreeSpec OctreeGeom OctreeModel FindNeighbors MeshSpec GhostExchange
  LookupModel CellModel CellSpec CellProofs CellProps RemapModel RemapSpec RemapProofs RemapProps HydroModel HydroSpec HydroProps ConserveSpec BlockGhost ConserveFaces GravitySpec.
Open Scope Z_scope.

Section GF.
Context (g : geom) (D3 : g3d g = true) (WF : wf_geom g) (M : mesh) (OK : mesh_ok g M) (b : axis -> Z) (BO : block_ok g b).
Local Notation L := (leaves M).
Local Notation cells := (all_cells b (leaves M)).
Local Notation N := (ncells g b).
Local Notation w l := (2 ^ (lmax g - l)).
Local Notation disp := (disp g b).
Local Notation inside := (inside g b).

Lemma nflat a : flat g a = false. Proof. unfold flat. rewrite D3. destruct a; reflexivity. Qed.
Lemma w_pos l : l <= lmax g -> 0 < w l. Proof. intros; apply Z.pow_pos_nonneg; lia. Qed.
Lemma w_half l : l + 1 <= lmax g -> w l = 2 * w (l + 1).
Proof. intros. replace (lmax g - l) with (lmax g - (l + 1) + 1) by lia. rewrite Z.pow_add_r by lia. change (2^1) with 2. ring. Qed.
Lemma N_fine l a : lmin g <= l <= lmax g -> N (lmax g) a = N l a * w l.
Proof.
  intros H. destruct (Z.eq_dec l (lmax g)) as [->|NE]; [rewrite Z.sub_diag; change (2^0) with 1; ring|].
  assert (E : forall n : nat, l + Z.of_nat n <= lmax g -> N (l + Z.of_nat n) a = N l a * 2 ^ Z.of_nat n).
  { induction n as [|n IH]; intros LE; [rewrite Z.add_0_r; change (2 ^ Z.of_nat 0) with 1; ring|].
    replace (l + Z.of_nat (S n)) with (l + Z.of_nat n + 1) by lia. rewrite (N_double g b) by (try apply nflat; lia). rewrite IH by lia.
    rewrite Nat2Z.inj_succ, Z.pow_succ_r by lia. ring. }
  specialize (E (Z.to_nat (lmax g - l))). replace (l + Z.of_nat (Z.to_nat (lmax g - l))) with (lmax g) in E by lia.
  replace (Z.of_nat (Z.to_nat (lmax g - l))) with (lmax g - l) in E by lia. apply E. lia.
Qed.

(** ** Points of the finest grid *)
Definition box (x : oct) (P : axis -> Z) : Prop := forall a, lower g x a <= P a < upper g x a.
Lemma box_unique x y P : In x cells -> In y cells -> box x P -> box y P -> x = y.
Proof.
  assert (G : forall x y, In x cells -> In y cells -> lev x <= lev y -> box x P -> box y P -> x = y).
  { clear x y. intros x y HX HY LE BX BY. pose proof (cell_lev g M OK b x HX) as LX. pose proof (cell_lev g M OK b y HY) as LY.
    apply cells_in in HX, HY. destruct HX as (A & q & HA & IA & ->), HY as (B & p & HB & IB & ->).
    unfold cell_of in LE, LX, LY. cbn [oct_of lev] in LE, LX, LY.
    destruct (cell_overlap g M OK b BO A q B p HA IA HB IB LE) as (-> & E).
    { intros a. rewrite nflat. specialize (BX a). specialize (BY a). unfold lower, upper, cell_of in BX, BY. rewrite !coord_oct_of in BX, BY. cbn [oct_of lev] in BX, BY.
      set (u := gpos b A q a) in *. set (v := gpos b B p a) in *.
      replace (lmax g - lev A) with ((lmax g - lev B) + (lev B - lev A)) in BX by lia. rewrite Z.pow_add_r in BX by lia.
      pose proof (w_pos (lev B) ltac:(lia)) as W. set (k := 2 ^ (lev B - lev A)) in *. assert (K : 0 < k) by (apply Z.pow_pos_nonneg; lia).
      set (ww := w (lev B)) in *. apply Z.div_unique with (v - u * k); [|ring]. left.
      assert (u * k < v + 1) by (apply (Z.mul_lt_mono_pos_r ww); [exact W|]; replace (u * k * ww) with (u * (ww * k)) by ring; lia).
      assert (v < (u + 1) * k) by (apply (Z.mul_lt_mono_pos_r ww); [exact W|]; replace ((u + 1) * k * ww) with ((u + 1) * (ww * k)) by ring; lia). lia. }
    unfold cell_of, gpos. apply oct_ext; [reflexivity|]. intros a. rewrite !coord_oct_of, E. reflexivity. }
  intros HX HY BX BY. destruct (Z.le_ge_cases (lev x) (lev y)) as [LE|LE]; [apply G; assumption|symmetry; apply G; assumption].
Qed.

(** ** Planes *)
Definition sg (up : bool) : Z := if up then 1 else -1.
Lemma sg_unit up : unit_step (sg up). Proof. destruct up; [left|right]; reflexivity. Qed.
Lemma sg_neg up : sg (negb up) = - sg up. Proof. destruct up; reflexivity. Qed.
Lemma others_in e a : In a (others e) <-> a <> e.
Proof. destruct e, a; cbn; split; intros H; try discriminate; auto; try (exfalso; intuition discriminate); try (exfalso; apply H; reflexivity). Qed.
Lemma others_spec e f : forallb f (others e) = true <-> forall a, a <> e -> f a = true.
Proof. rewrite forallb_forall. split; intros H a K; apply H, others_in, K. Qed.
Lemma overlaps_spec x y a : overlaps g x y a = true <-> lower g x a < upper g y a /\ lower g y a < upper g x a.
Proof. unfold overlaps. rewrite andb_true_iff, !Z.ltb_lt. reflexivity. Qed.
Lemma overlaps_sym x y a : overlaps g x y a = overlaps g y x a. Proof. unfold overlaps. apply andb_comm. Qed.
Lemma touches_sym e up x y : touches g b e up x y = touches g b e (negb up) y x.
Proof.
  unfold touches. f_equal; [destruct up; reflexivity|]. apply Bool.eq_iff_eq_true. rewrite !others_spec.
  split; intros H a Ha; rewrite overlaps_sym; apply H, Ha.
Qed.
(** The layer of the finest grid just beyond a face. *)
Definition beyond (x : oct) (e : axis) (up : bool) : Z := (if up then upper g x e else lower g x e - 1) mod N (lmax g) e.
Lemma fine_range x a : inside x -> 0 <= lower g x a /\ lower g x a < upper g x a /\ upper g x a <= N (lmax g) a.
Proof.
  intros (HL & H). specialize (H a). rewrite (N_fine (lev x)) by exact HL. unfold lower, upper. pose proof (w_pos (lev x) ltac:(lia)). nia.
Qed.
Lemma touches_beyond x y e up : inside x -> inside y -> touches g b e up x y = true ->
  exists P, box y P /\ P e = beyond x e up /\ forall a, a <> e -> lower g x a <= P a < upper g x a.
Proof.
  intros IX IY T. unfold touches in T. apply andb_true_iff in T. destruct T as (PL & OV). rewrite others_spec in OV.
  exists (fun a => if axis_eqb a e then beyond x e up else Z.max (lower g x a) (lower g y a)).
  assert (EE : axis_eqb e e = true) by (apply axis_eqb_spec; reflexivity).
  assert (NE : forall a, a <> e -> axis_eqb a e = false) by (intros a Ha; destruct (axis_eqb a e) eqn:E; [apply axis_eqb_spec in E; congruence|reflexivity]).
  pose proof (fine_range x e IX) as FX. pose proof (fine_range y e IY) as FY.
  assert (BY : lower g y e <= beyond x e up < upper g y e).
  { unfold beyond, same_plane in *. set (n := N (lmax g) e) in *.
    destruct up; apply orb_true_iff in PL; destruct PL as [PL|PL].
    - apply Z.eqb_eq in PL. rewrite PL, Z.mod_small; lia.
    - apply andb_true_iff in PL. destruct PL as (_ & PL). apply Z.eqb_eq in PL.
      rewrite <- (Z.mod_small (lower g y e) n) by lia.
      replace (upper g x e mod n) with (lower g y e mod n); [rewrite Z.mod_small; lia|].
      apply Z.mod_divide in PL; [|lia]. destruct PL as (k & PL). replace (upper g x e) with (lower g y e + k * n) by lia. symmetry. apply Z_mod_plus_full.
    - apply Z.eqb_eq in PL. rewrite <- PL, Z.mod_small; lia.
    - apply andb_true_iff in PL. destruct PL as (_ & PL). apply Z.eqb_eq in PL. apply Z.mod_divide in PL; [|lia]. destruct PL as (k & PL).
      replace (lower g x e - 1) with (upper g y e - 1 + (- k) * n) by lia. rewrite Z_mod_plus_full, Z.mod_small; lia. }
  split; [|split].
  - intros a. destruct (axis_case a e) as [->|Ha]; [rewrite EE; exact BY|]. rewrite NE by exact Ha.
    specialize (OV a Ha). apply overlaps_spec in OV. pose proof (fine_range y a IY). lia.
  - rewrite EE. reflexivity.
  - intros a Ha. rewrite NE by exact Ha. specialize (OV a Ha). apply overlaps_spec in OV. pose proof (fine_range x a IX). lia.
Qed.

(** ** The position beyond the face *)
Definition goes (x : oct) (e : axis) (up : bool) : Prop := per g e = true \/ 0 <= coord x e + sg up < N (lev x) e.
Lemma goes_boundary x e up : inside x -> (at_boundary g b e up x = true <-> ~ goes x e up).
Proof.
  intros (HL & H). specialize (H e). unfold at_boundary, goes, lower, upper. rewrite (N_fine (lev x) e HL). pose proof (w_pos (lev x) ltac:(lia)) as W.
  rewrite andb_true_iff, negb_true_iff. destruct up; cbn [sg]; rewrite Z.eqb_eq.
  - split; [intros (P & E) [K|K]; [congruence|nia]|]. intros K. split; [destruct (per g e); [exfalso; auto|reflexivity]|].
    assert (coord x e + 1 = N (lev x) e); [|nia]. destruct (Z.eq_dec (coord x e + 1) (N (lev x) e)) as [E|E]; [exact E|]. exfalso; apply K; right; lia.
  - split; [intros (P & E) [K|K]; [congruence|nia]|]. intros K. split; [destruct (per g e); [exfalso; auto|reflexivity]|].
    assert (coord x e = 0); [|nia]. destruct (Z.eq_dec (coord x e) 0) as [E|E]; [exact E|]. exfalso; apply K; right; lia.
Qed.
Lemma beyond_disp x e up : inside x -> beyond x e up = lower g (disp x e (sg up)) e + (if up then 0 else w (lev x) - 1).
Proof.
  intros IX. pose proof IX as (HL & H). specialize (H e). unfold beyond, lower, upper. rewrite (N_fine (lev x) e HL), disp_on, disp_lev.
  pose proof (w_pos (lev x) ltac:(lia)) as W. set (n := N (lev x) e) in *. set (ww := w (lev x)) in *. set (c := coord x e) in *.
  destruct up; cbn [sg].
  - rewrite Z.mul_mod_distr_r by lia. lia.
  - destruct (Z.eq_dec c 0) as [->|NE].
    + replace ((0 + -1) mod n) with (n - 1) by (apply (Z.mod_unique _ _ (-1)); lia).
      symmetry. apply (Z.mod_unique _ _ (-1)); nia.
    + rewrite (Z.mod_small (c + -1)) by lia. rewrite Z.mod_small by nia. ring.
Qed.
(** A cell that touches the face meets every cell that contains the part of the position beyond
    the face next to it. *)
Lemma disp_box x e up P : inside x -> P e = beyond x e up -> (forall a, a <> e -> lower g x a <= P a < upper g x a) -> box (disp x e (sg up)) P.
Proof.
  intros IX PE PO a. pose proof IX as (HL & _). destruct (axis_case a e) as [->|Ha].
  - rewrite PE, (beyond_disp x e up IX). unfold upper, lower. rewrite disp_lev. pose proof (w_pos (lev x) ltac:(lia)). destruct up; lia.
  - specialize (PO a Ha). unfold lower, upper in *. rewrite disp_lev, (disp_off g b x e (sg up) a IX Ha). exact PO.
Qed.
Lemma parent_box x P : lmin g <= lev x - 1 -> lev x <= lmax g -> box x P -> box (parent g x) P.
Proof.
  intros L1 L2 H a. specialize (H a). unfold lower, upper in *. rewrite parent_lev, parent_coord, nflat. rewrite (w_half (lev x - 1)) by lia.
  replace (lev x - 1 + 1) with (lev x) by lia. pose proof (w_pos (lev x) L2). set (ww := w (lev x)) in *. pose proof (Z.div_mod (coord x a) 2 ltac:(lia)). pose proof (Z.mod_pos_bound (coord x a) 2 ltac:(lia)). nia.
Qed.

(** Touching from one's own position. *)
Lemma plane_disp x e up : inside x -> goes x e up ->
  (if up then same_plane g b e (upper g x e) (lower g (disp x e (sg up)) e) else same_plane g b e (upper g (disp x e (sg up)) e) (lower g x e)) = true.
Proof.
  intros IX GO. pose proof IX as (HL & H). specialize (H e). unfold same_plane, lower, upper. rewrite (N_fine (lev x) e HL), disp_on, disp_lev.
  pose proof (w_pos (lev x) ltac:(lia)) as W. set (n := N (lev x) e) in *. set (ww := w (lev x)) in *. set (c := coord x e) in *.
  unfold goes in GO. fold n c in GO.
  destruct up; cbn [sg] in *; apply orb_true_iff.
  - destruct (Z.eq_dec (c + 1) n) as [E|E].
    + right. destruct GO as [->|GO]; [|lia]. cbn [andb]. rewrite E, Z.mod_same by lia. apply Z.eqb_eq. replace (n * ww - 0 * ww) with (1 * (n * ww)) by ring. apply Z.mod_mul. nia.
    + left. apply Z.eqb_eq. rewrite Z.mod_small by lia. reflexivity.
  - destruct (Z.eq_dec c 0) as [E|E].
    + right. destruct GO as [->|GO]; [|lia]. cbn [andb]. rewrite E. replace ((0 + -1) mod n) with (n - 1) by (apply (Z.mod_unique _ _ (-1)); lia).
      apply Z.eqb_eq. replace ((n - 1 + 1) * ww - 0 * ww) with (1 * (n * ww)) by ring. apply Z.mod_mul. nia.
    + left. apply Z.eqb_eq. rewrite Z.mod_small by lia. ring.
Qed.
Lemma touch_disp x e up : inside x -> goes x e up -> touches g b e up x (disp x e (sg up)) = true.
Proof.
  intros IX GO. unfold touches. rewrite (plane_disp x e up IX GO). apply others_spec. intros a Ha. apply overlaps_spec.
  unfold lower, upper. rewrite disp_lev, (disp_off g b x e (sg up) a IX Ha). pose proof IX as (HL & _). pose proof (w_pos (lev x) ltac:(lia)). lia.
Qed.
(** A cell with the same plane as the position beyond the face, overlapping it along the others. *)
Lemma touch_like x e up y : inside x -> goes x e up ->
  (if up then lower g y e = lower g (disp x e (sg up)) e else upper g y e = upper g (disp x e (sg up)) e) ->
  (forall a, a <> e -> lower g x a < upper g y a /\ lower g y a < upper g x a) -> touches g b e up x y = true.
Proof.
  intros IX GO PL OV. unfold touches. pose proof (plane_disp x e up IX GO) as K.
  replace (if up then same_plane g b e (upper g x e) (lower g y e) else same_plane g b e (upper g y e) (lower g x e)) with true.
  - apply others_spec. intros a Ha. apply overlaps_spec, OV, Ha.
  - symmetry. destruct up; rewrite PL; exact K.
Qed.
Lemma touch_parent x e up : In x cells -> goes x e up -> In (parent g (disp x e (sg up))) cells -> touches g b e up x (parent g (disp x e (sg up))) = true.
Proof.
  intros HX GO HP. pose proof (cells_inside g M OK b BO x HX) as IX. pose proof (cell_lev g M OK b _ HP) as LP. rewrite parent_lev, disp_lev in LP.
  pose proof IX as (HL & HR). assert (W2 : w (lev x - 1) = 2 * w (lev x)) by (rewrite (w_half (lev x - 1)) by lia; f_equal; f_equal; lia).
  pose proof (w_pos (lev x) ltac:(lia)) as W.
  assert (NE : coord (disp x e (sg up)) e / 2 <> coord x e / 2).
  { intro K. apply (parent_overlap g M OK b BO _ _ HP HX). apply oct_ext; [rewrite !parent_lev, disp_lev; reflexivity|].
    intros a. rewrite !parent_coord, nflat. destruct (axis_case a e) as [->|Ha]; [exact K|]. rewrite (disp_off g b x e (sg up) a IX Ha). reflexivity. }
  assert (N2 : N (lev x) e = 2 * N (lev x - 1) e).
  { rewrite <- (N_double g b (lev x - 1) e) by (try apply nflat; lia). f_equal; lia. }
  rewrite disp_on in NE. pose proof (HR e) as HE. set (T := disp x e (sg up)) in *.
  assert (TE : coord T e = (coord x e + sg up) mod N (lev x) e) by apply disp_on.
  assert (PAR : coord T e = 2 * (coord T e / 2) + (if up then 0 else 1)).
  { rewrite TE. rewrite N2 in *. set (m := N (lev x - 1) e) in *. set (c := coord x e) in *. clearbody c m. clear - NE HE.
    pose proof (Z.div_mod c 2 ltac:(lia)). pose proof (Z.mod_pos_bound c 2 ltac:(lia)).
    pose proof (Z.div_mod ((c + sg up) mod (2 * m)) 2 ltac:(lia)). pose proof (Z.mod_pos_bound ((c + sg up) mod (2 * m)) 2 ltac:(lia)).
    destruct up; cbn [sg] in *.
    - destruct (Z.eq_dec (c + 1) (2 * m)) as [E|E]; [rewrite E, Z.mod_same in * by lia; lia|]. rewrite (Z.mod_small (c + 1)) in * by lia. lia.
    - destruct (Z.eq_dec c 0) as [E|E].
      + rewrite E in *. replace ((0 + -1) mod (2 * m)) with (2 * m - 1) in * by (apply (Z.mod_unique _ _ (-1)); lia). lia.
      + rewrite (Z.mod_small (c + -1)) in * by lia. lia. }
  apply (touch_like x e up _ IX GO); fold T.
  - unfold lower, upper. rewrite parent_lev, parent_coord, nflat. unfold T at 2 4. rewrite disp_lev. fold T. change (lev T) with (lev x). rewrite !W2. clear - PAR. clearbody T. set (k := coord T e / 2) in *. clearbody k. rewrite PAR.
    destruct up; ring.
  - intros a Ha. unfold lower, upper. rewrite parent_lev, parent_coord, nflat. unfold T. rewrite disp_lev, (disp_off g b x e (sg up) a IX Ha), W2.
    pose proof (Z.div_mod (coord x a) 2 ltac:(lia)). pose proof (Z.mod_pos_bound (coord x a) 2 ltac:(lia)). nia.
Qed.

(** ** The queries *)
Section Query.
Context (R : rank) (HR : In R M) (i : nat) (A : oct) (HA : nth_error (loc R) i = Some A) (c : axis -> Z) (IB : in_block b c)
        (e : axis) (up : bool).
Local Notation st := (loc R ++ gho R).
Local Notation x := (cell_of b A c).
Local Notation T := (disp x e (sg up)).
Local Notation cell := (mkCell i c b LOCAL_TO_BLOCK).
Local Notation is_cell := (is_cell M b st).

Lemma own_cells : In x cells. Proof. apply (own_in M b R HR i A HA c IB). Qed.
Lemma own_inside : inside x. Proof. apply (cells_inside g M OK b BO), own_cells. Qed.
Lemma x_coord a : coord x a = gpos b A c a. Proof. unfold cell_of. rewrite coord_oct_of. reflexivity. Qed.
Lemma stays_goes : stays g b A c (step e (sg up)) <-> goes x e up.
Proof.
  unfold stays, goes. rewrite x_coord. change (lev x) with (lev A). split.
  - intros H. specialize (H e). rewrite step_on in H. exact H.
  - intros H a. destruct (axis_case a e) as [->|Ha]; [rewrite step_on; exact H|]. rewrite step_off by exact Ha. right.
    pose proof (proj2 own_inside a) as K. rewrite x_coord in K. change (lev x) with (lev A) in K. lia.
Qed.
Lemma reach : reach_offset g b (step e (sg up)).
Proof.
  intros a. pose proof (proj1 (BO a)). rewrite nflat. split; [|discriminate]. destruct (axis_case a e) as [->|Ha]; [rewrite step_on|rewrite step_off by exact Ha; lia].
  destruct up; cbn; lia.
Qed.
Lemma face_boundary : at_boundary g b e up x = true ->
  exists n, getNeighbor_ghost g st cell (step e (sg up)) = Some n /\ c_status n = BOUNDARY.
Proof.
  intros H. apply goes_boundary in H; [|exact own_inside]. rewrite <- stays_goes in H.
  destruct (C26_boundary g M R i A b c _ WF OK HR HA BO IB reach H) as (n & E & S & _). exists n. split; assumption.
Qed.
Lemma wanted_T a : wanted g b A c (step e (sg up)) a = coord T a.
Proof. unfold wanted, ConserveFaces.disp, displaced. rewrite coord_oct_of, x_coord. reflexivity. Qed.

(** What a query through a face that is not on the boundary finds: the position itself, the
    bigger cell that contains it, or the four smaller cells of it that touch the face. *)
Theorem face_found : at_boundary g b e up x = false ->
  exists n, getNeighbor_ghost g st cell (step e (sg up)) = Some n /\ proper n /\
    ((level_diff n = 0 /\ exists y, is_cell n y /\ lev y = lev x /\ (forall z, In z cells /\ touches g b e up x z = true <-> z = y)) \/
     (level_diff n = 1 /\ exists y, is_cell n y /\ lev y = lev x - 1 /\ (forall z, In z cells /\ touches g b e up x z = true <-> z = y)) \/
     (level_diff n = -1 /\ exists l zs, smaller_neighbors true g st n (step e (sg up)) = Some l /\ Forall2 is_cell l zs /\ NoDup zs /\ length zs = 4%nat /\
        (forall k, In k l -> is_valid k = true) /\
        (forall z, In z zs -> lev z = lev x + 1) /\ (forall z, In z cells /\ touches g b e up x z = true <-> In z zs))).
Proof.
  intros NB. assert (GO : goes x e up).
  { destruct (classic_stays g b A c (step e (sg up))) as [S|(a & P & K)]; [apply stays_goes, S|].
    exfalso. assert (~ goes x e up) as NG by (rewrite <- stays_goes; intros S; destruct (S a) as [Q|Q]; [congruence|contradiction]).
    apply (goes_boundary x e up own_inside) in NG. congruence. }
  pose proof (proj2 stays_goes GO) as ST. pose proof own_cells as XC. pose proof own_inside as IX.
  destruct (C25_neighbour g M R i A b c _ WF OK HR HA BO IB reach ST) as (n & B & E & EB & NTH & BL & IQ & DES).
  assert (ICN : is_cell n (cell_of b B (c_pos n))) by (split; [exact EB|split; [exact IQ|exists B; auto]]).
  set (y := cell_of b B (c_pos n)) in *. assert (YC : In y cells) by exact (is_cell_in M b _ _ _ ICN).
  assert (GY : forall a, coord y a = gpos b B (c_pos n) a) by (intros a; unfold y, cell_of; rewrite coord_oct_of; reflexivity).
  exists n. split; [exact E|].
  assert (ONE : forall y, In y cells -> touches g b e up x y = true ->
     (forall P, box T P -> P e = beyond x e up -> box y P) -> forall z, In z cells /\ touches g b e up x z = true <-> z = y).
  { clear y ICN YC GY. intros y YC TY H z. split; [|intros ->; split; assumption]. intros (ZC & TZ).
    destruct (touches_beyond x z e up IX (cells_inside g M OK b BO z ZC) TZ) as (P & BZ & PE & PO).
    apply (box_unique z y P ZC YC BZ). apply H; [apply (disp_box x e up P IX PE PO)|exact PE]. }
  assert (SAME : lev B = lev A -> (forall a, gpos b B (c_pos n) a = wanted g b A c (step e (sg up)) a) -> y = T).
  { intros LV G. apply oct_ext; [exact LV|]. intros a. rewrite GY, G. apply wanted_T. }
  destruct (c_status n) eqn:SN; cbn [designates] in DES; try contradiction; destruct DES as (DL & DP).
  - split; [split; congruence|]. left. split; [unfold level_diff; rewrite SN; reflexivity|]. assert (ET : y = T) by (apply SAME; [congruence|exact DP]).
    exists y. split; [exact ICN|]. split; [rewrite ET; apply disp_lev|]. rewrite ET in *. apply ONE; [exact YC|apply touch_disp; assumption|]. intros P H _. exact H.
  - split; [split; congruence|]. left. split; [unfold level_diff; rewrite SN; reflexivity|]. assert (ET : y = T) by (apply SAME; [exact DL|exact DP]).
    exists y. split; [exact ICN|]. split; [rewrite ET; apply disp_lev|]. rewrite ET in *. apply ONE; [exact YC|apply touch_disp; assumption|]. intros P H _. exact H.
  - split; [split; congruence|]. right. right. split; [unfold level_diff; rewrite SN; reflexivity|].
    assert (FD : face_dir g (step e (sg up)) e) by (split; [rewrite step_on; destruct up; reflexivity|split; [apply nflat|intros a Ha; apply step_off, Ha]]).
    destruct (C25_smaller_neighbours g M R i A b c _ e n true WF OK HR HA BO IB FD ST E SN (or_introl eq_refl)) as (l & EL & LEN & SOUND & COMPL).
    set (zof := fun k => match nth_error st (c_oct k) with Some B => cell_of b B (c_pos k) | None => y end).
    assert (F2 : Forall2 is_cell l (map zof l)).
    { clear - SOUND. induction l as [|k l IH]; constructor.
      - destruct (SOUND k (or_introl eq_refl)) as (K1 & _ & Bk & K2 & K3 & K4 & K5 & _). split; [exact K1|split; [exact K5|]]. exists Bk. unfold zof. rewrite K2. auto.
      - apply IH. intros k' H. apply SOUND. right. exact H. }
    assert (HALF : forall z, In z (map zof l) -> lev z = lev A + 1 /\ half_facing g (step e (sg up)) (wanted g b A c (step e (sg up))) (coord z)).
    { intros z HZ. apply in_map_iff in HZ. destruct HZ as (k & <- & Hk). destruct (SOUND k Hk) as (_ & _ & Bk & K2 & _ & K4 & _ & K6). unfold zof. rewrite K2.
      split; [exact K4|]. intros a. replace (coord (cell_of b Bk (c_pos k)) a) with (gpos b Bk (c_pos k) a) by (unfold cell_of; rewrite coord_oct_of; reflexivity). apply K6. }
    assert (FULL : forall z, lev z = lev A + 1 -> half_facing g (step e (sg up)) (wanted g b A c (step e (sg up))) (coord z) -> In z (map zof l)).
    { intros z LZ HZ. destruct (COMPL (coord z) HZ) as (k & Bk & Hk & K2 & K3). apply in_map_iff. exists k. split; [|exact Hk]. unfold zof. rewrite K2.
      destruct (SOUND k Hk) as (_ & _ & Bk' & K2' & _ & K4 & _). assert (Bk' = Bk) as -> by congruence.
      apply oct_ext; [unfold cell_of; cbn [oct_of lev]; lia|]. intros a. unfold cell_of. rewrite coord_oct_of. apply K3. }
    rewrite D3 in LEN.
    set (z0 := oct_of (lev A + 1) (fun a => 2 * wanted g b A c (step e (sg up)) a + (if axis_eqb e a then facing (sg up) else 0))).
    assert (SUB : incl (ConserveFaces.side g z0 e (sg up)) (map zof l)).
    { intros z HZ. unfold ConserveFaces.side in HZ. apply in_map_iff in HZ. destruct HZ as (o & <- & Ho).
      apply side_offsets_in in Ho; [|apply sg_unit|apply nflat]. destruct Ho as (O0 & O1). apply FULL; [reflexivity|].
      intros a. rewrite coord_oct_of. unfold z0. rewrite coord_oct_of. set (Ta := wanted g b A c (step e (sg up)) a).
      specialize (O1 a). destruct O1 as (O1 & _). unfold half. rewrite nflat. destruct (axis_case a e) as [->|Ha].
      - rewrite (proj2 (axis_eqb_spec e e) eq_refl), O0, step_on. unfold facing.
        split; [|split; [|]]; [|intros S1; rewrite S1; cbn [Z.eqb Pos.eqb]; lia|intros S1; rewrite S1; cbn [Z.eqb]; lia].
        symmetry. destruct (sg up =? 1); [apply (Z.div_unique _ _ _ 0)|apply (Z.div_unique _ _ _ 1)]; lia.
      - replace (axis_eqb e a) with false by (symmetry; destruct (axis_eqb e a) eqn:E0; [apply axis_eqb_spec in E0; congruence|reflexivity]).
        rewrite step_off by exact Ha. split; [|split; intros; lia]. symmetry. apply (Z.div_unique _ _ _ (o a)); lia. }
    assert (ND : NoDup (map zof l)).
    { apply (NoDup_incl_NoDup (l := ConserveFaces.side g z0 e (sg up))); [apply side_NoDup; [apply sg_unit|apply nflat]| |exact SUB].
      rewrite map_length, LEN, side_length by (try apply sg_unit; apply nflat). rewrite D3. lia. }
    exists l, (map zof l). split; [exact EL|]. split; [exact F2|]. split; [exact ND|]. split; [rewrite map_length; exact LEN|].
    split; [intros k Hk; apply (SOUND k Hk)|].
    split; [intros z HZ; apply (HALF z HZ)|].
    assert (ZC : forall z, In z (map zof l) -> In z cells).
    { intros z HZ. destruct (Forall2_in_r _ _ _ z F2 HZ) as (k & _ & K). exact (is_cell_in M b _ _ _ K). }
    assert (LM : lev A + 1 <= lmax g).
    { pose proof (cell_lev g M OK b y YC) as K. unfold y, cell_of in K. cbn [oct_of lev] in K. lia. }
    pose proof (w_half (lev A) LM) as WH. pose proof (w_pos (lev A + 1) LM) as W2.
    intros z. split.
    + intros (HZC & TZ). destruct (touches_beyond x z e up IX (cells_inside g M OK b BO z HZC) TZ) as (P & BZ & PE & PO).
      pose proof (disp_box x e up P IX PE PO) as BT.
      set (z1 := oct_of (lev A + 1) (fun a => P a / w (lev A + 1))).
      assert (B1 : box z1 P).
      { intros a. unfold lower, upper, z1. rewrite coord_oct_of. cbn [oct_of lev]. pose proof (Z.div_mod (P a) (w (lev A + 1)) ltac:(lia)). pose proof (Z.mod_pos_bound (P a) (w (lev A + 1)) W2). lia. }
      assert (H1 : In z1 (map zof l)).
      { apply FULL; [reflexivity|]. intros a. rewrite wanted_T. unfold z1. rewrite coord_oct_of. unfold half. rewrite nflat. specialize (BT a). unfold lower, upper in BT. rewrite disp_lev in BT. change (lev x) with (lev A) in BT. rewrite WH in BT.
        split.
        - rewrite Z.div_div by lia. rewrite (Z.mul_comm (w (lev A + 1)) 2). symmetry. apply Z.div_unique with (P a - coord T a * (2 * w (lev A + 1))); [left; lia|ring].
        - split; intros SA; (destruct (axis_case a e) as [->|Ha]; [|rewrite step_off in SA by exact Ha; lia]); rewrite step_on in SA; rewrite PE, (beyond_disp x e up IX); unfold lower; rewrite disp_lev; change (lev x) with (lev A); rewrite WH; destruct up; cbn in SA; try lia.
          + symmetry. apply Z.div_unique with 0; [lia|ring].
          + symmetry. apply Z.div_unique with (w (lev A + 1) - 1); [lia|ring]. }
      assert (z = z1) as -> by (apply (box_unique z z1 P HZC (ZC z1 H1) BZ B1)). exact H1.
    + intros HZ. split; [apply ZC, HZ|]. destruct (HALF z HZ) as (LZ & HF). apply (touch_like x e up z IX GO).
      * specialize (HF e). rewrite step_on, wanted_T in HF. unfold lower, upper. rewrite disp_lev, LZ. change (lev x) with (lev A). rewrite WH. destruct up; cbn [sg] in HF |- *.
        -- rewrite (proj1 (proj2 HF) eq_refl). ring.
        -- rewrite (proj2 (proj2 HF) eq_refl). ring.
      * intros a Ha. specialize (HF a). destruct HF as (HF & _). rewrite wanted_T, (disp_off g b x e (sg up) a IX Ha) in HF. unfold half in HF. rewrite nflat in HF.
        unfold lower, upper. rewrite LZ. change (lev x) with (lev A). rewrite WH. pose proof (Z.div_mod (coord z a) 2 ltac:(lia)). pose proof (Z.mod_pos_bound (coord z a) 2 ltac:(lia)). nia.
  - split; [split; congruence|]. right. left. split; [unfold level_diff; rewrite SN; reflexivity|].
    assert (ET : y = parent g T).
    { apply oct_ext; [exact DL|]. intros a. rewrite GY, DP, wanted_T, parent_coord. reflexivity. }
    exists y. split; [exact ICN|]. split; [rewrite ET, parent_lev, disp_lev; reflexivity|]. rewrite ET in *.
    apply ONE; [exact YC|apply touch_parent; assumption|]. intros P H _. pose proof (cell_lev g M OK b _ YC) as K. rewrite parent_lev, disp_lev in K.
    apply parent_box; [rewrite disp_lev; lia|rewrite disp_lev; apply IX|exact H].
Qed.
End Query.
End GF.
