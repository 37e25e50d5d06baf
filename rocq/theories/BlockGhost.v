(** Ghost layers of a block: which cells are read (used for C39 and C66). *)
From Coq Require Import QArith Qcanon.
From Verif Require Import Base OctreeSpec OctreeGeom OctreeModel FindNeighbors MeshSpec GhostExchange
  CommProps LookupModel CellModel CellSpec CellProofs CellProps RemapModel RemapSpec RemapProofs HydroModel HydroSpec HydroProps ConserveSpec.
Open Scope Z_scope.

Section BG.
Context (g : geom) (WF : wf_geom g) (M : mesh) (OK : mesh_ok g M) (b : axis -> Z) (BO : block_ok g b)
        (PER : periodic g) (EV : even_blocks g b).
Local Notation L := (leaves M).
Local Notation cells := (all_cells b (leaves M)).
Local Notation N := (ncells g b).

Lemma positions_in p : In p (positions b) -> in_block b p.
Proof.
  unfold positions. intros H. apply in_flat_map in H. destruct H as (z & Hz & H). apply in_flat_map in H. destruct H as (y & Hy & H).
  apply in_map_iff in H. destruct H as (x & <- & Hx). apply in_zrange in Hx, Hy, Hz. intros []; cbn [mkoff]; lia.
Qed.
Lemma positions_all p : in_block b p -> exists p', In p' (positions b) /\ forall a, p' a = p a.
Proof.
  intros H. exists (mkoff (p AX) (p AY) (p AZ)). split; [|intros []; reflexivity].
  unfold positions. apply in_flat_map. exists (p AZ). split; [apply in_zrange; specialize (H AZ); lia|].
  apply in_flat_map. exists (p AY). split; [apply in_zrange; specialize (H AY); lia|].
  apply in_map_iff. exists (p AX). split; [reflexivity|]. apply in_zrange. specialize (H AX). lia.
Qed.
Lemma cells_in x : In x cells <-> exists A q, In A L /\ in_block b q /\ x = cell_of b A q.
Proof.
  unfold all_cells. rewrite in_flat_map. split.
  - intros (A & HA & H). apply in_map_iff in H. destruct H as (q & <- & Hq). exists A, q. split; [exact HA|]. split; [apply positions_in, Hq|reflexivity].
  - intros (A & q & HA & Hq & ->). exists A. split; [exact HA|]. destruct (positions_all q Hq) as (q' & Hq' & E).
    apply in_map_iff. exists q'. split; [apply cell_of_ext, E|exact Hq'].
Qed.

Lemma leaf_valid A : In A L -> valid g A.
Proof. intros H. apply (tiles_valid g L A (ok_tiles g M OK) H). Qed.
Lemma b_pos a : 1 <= b a. Proof. apply BO. Qed.

Lemma gpos_div A q a : in_block b q -> gpos b A q a / b a = coord A a.
Proof. intros H. unfold gpos. specialize (H a). pose proof (b_pos a). rewrite Z.div_add_l by lia. rewrite Z.div_small by lia. lia. Qed.
Lemma gpos_range A q a : In A L -> in_block b q -> 0 <= gpos b A q a < N (lev A) a.
Proof.
  intros HA H. unfold gpos, ncells. specialize (H a). pose proof (proj2 (leaf_valid A HA) a). pose proof (b_pos a). nia.
Qed.
Lemma cell_range x a : In x cells -> 0 <= coord x a < N (lev x) a.
Proof. intros H. apply cells_in in H. destruct H as (A & q & HA & Hq & ->). unfold cell_of. rewrite coord_oct_of. cbn [oct_of lev]. apply gpos_range; assumption. Qed.
Lemma cell_lev x : In x cells -> lmin g <= lev x <= lmax g.
Proof. intros H. apply cells_in in H. destruct H as (A & q & HA & Hq & ->). unfold cell_of. cbn [oct_of lev]. apply (leaf_valid A HA). Qed.
Lemma N_pos l a : lmin g <= l -> 0 < N l a.
Proof. intros H. unfold ncells. pose proof (ncell_pos g WF a l H). pose proof (b_pos a). nia. Qed.
Lemma N_double l a : lmin g <= l -> flat g a = false -> N (l + 1) a = 2 * N l a.
Proof. intros H F. unfold ncells. rewrite ncell_split by lia. rewrite F. change (2^1) with 2. lia. Qed.
Lemma N_flat l a : flat g a = true -> N l a = 1.
Proof. intros F. unfold ncells, ncell. rewrite F. rewrite (proj2 (BO a) F). lia. Qed.

(** Two cells that overlap are the same. *)
Lemma cell_overlap A q B p : In A L -> in_block b q -> In B L -> in_block b p -> lev A <= lev B ->
  (forall a, gpos b A q a = if flat g a then gpos b B p a else gpos b B p a / 2^(lev B - lev A)) -> A = B /\ forall a, q a = p a.
Proof.
  intros HA Hq HB Hp HL H.
  pose proof (leaf_valid A HA) as VA. pose proof (leaf_valid B HB) as VB.
  assert (C : forall a, coord A a = if flat g a then coord B a else coord B a / 2^(lev B - lev A)).
  { intros a. rewrite <- (gpos_div A q a Hq), H, <- (gpos_div B p a Hp). pose proof (b_pos a). pose proof (pow2_pos (lev B - lev A) ltac:(lia)).
    destruct (flat g a); [reflexivity|]. rewrite !Z.div_div by lia. f_equal. lia. }
  assert (E : A = B).
  { apply (tiles_unique g L (corner g B) A B (ok_tiles g M OK)); [apply corner_in_dom; assumption|assumption|assumption| |apply corner_covers; assumption].
    intros a. pose proof (corner_covers g B VB a) as K.
    rewrite <- (div_nest g (pc (corner g B) a) (lev A) (lev B)) by (destruct VA, VB; lia). rewrite K. rewrite C.
    destruct (flat g a) eqn:F; [|reflexivity]. assert (coord B a = 0) as ->.
    { pose proof (proj2 VB a) as V. unfold ncell in V. rewrite F in V. lia. }
    apply Z.div_0_l. pose proof (pow2_pos (lev B - lev A) ltac:(lia)). lia. }
  split; [exact E|]. subst B. intros a. specialize (H a). rewrite Z.sub_diag in H. change (2^0) with 1 in H. rewrite Z.div_1_r in H.
  unfold gpos in H. destruct (flat g a); lia.
Qed.
Lemma overlap x y : In x cells -> In y cells -> lev x <= lev y ->
  (forall a, coord x a = if flat g a then coord y a else coord y a / 2^(lev y - lev x)) -> x = y.
Proof.
  intros Hx Hy HL H. apply cells_in in Hx, Hy. destruct Hx as (A & q & HA & Hq & ->), Hy as (B & p & HB & Hp & ->).
  unfold cell_of in *. cbn [oct_of lev] in *.
  destruct (cell_overlap A q B p HA Hq HB Hp HL) as (-> & E).
  - intros a. specialize (H a). rewrite !coord_oct_of in H. exact H.
  - apply (cell_of_ext b B q p E).
Qed.
Lemma parent_overlap x y : In x cells -> In y cells -> x <> parent g y.
Proof.
  intros Hx Hy E. assert (x = y) as ->.
  { apply overlap; [exact Hx|exact Hy|subst x; unfold parent; cbn [oct_of lev]; lia|]. intros a. subst x. unfold parent. rewrite coord_oct_of. unfold half. cbn [oct_of lev].
    replace (lev y - (lev y - 1)) with 1 by lia. reflexivity. }
  apply (f_equal lev) in E. unfold parent in E. cbn [oct_of lev] in E. lia.
Qed.
Lemma parent2_overlap x y : In x cells -> In y cells -> x <> parent g (parent g y).
Proof.
  intros Hx Hy E. assert (x = y) as ->.
  { apply overlap; [exact Hx|exact Hy|subst x; unfold parent; cbn [oct_of lev]; lia|]. intros a. subst x. unfold parent. rewrite !coord_oct_of. unfold half. cbn [oct_of lev].
    replace (lev y - (lev y - 1 - 1)) with 2 by lia. destruct (flat g a); [reflexivity|]. rewrite Z.div_div by lia. reflexivity. }
  apply (f_equal lev) in E. unfold parent in E. cbn [oct_of lev] in E. lia.
Qed.

Lemma existsb_cells x l : existsb (oct_eqb x) l = true <-> In x l.
Proof. rewrite existsb_exists. split; [intros (y & H & E); apply oct_eqb_eq in E; subst; exact H|intros H; exists x; split; [exact H|apply oct_eqb_eq; reflexivity]]. Qed.
Lemma resample_same D x : In x cells -> resample g cells D x = D x.
Proof. intros H. unfold resample. apply existsb_cells in H. rewrite H. reflexivity. Qed.
Lemma resample_bigger D x : In (parent g x) cells -> resample g cells D x = D (parent g x).
Proof.
  intros H. unfold resample. destruct (existsb (oct_eqb x) cells) eqn:E.
  - apply existsb_cells in E. exfalso. exact (parent_overlap _ _ H E eq_refl).
  - apply existsb_cells in H. rewrite H. reflexivity.
Qed.
Definition cmeans (l : list cons) : cons := mkCons (cmean u_rho l) (cmean u_e l) (cmean u_x l) (cmean u_y l) (cmean u_z l).
Lemma resample_smaller D x y : In y cells -> parent g y = x -> resample g cells D x = cmeans (map D (children g x)).
Proof.
  intros H P. unfold resample. destruct (existsb (oct_eqb x) cells) eqn:E.
  - apply existsb_cells in E. exfalso. exact (parent_overlap _ _ E H (eq_sym P)).
  - destruct (existsb (oct_eqb (parent g x)) cells) eqn:E2; [|reflexivity].
    apply existsb_cells in E2. exfalso. apply (parent2_overlap _ _ E2 H). rewrite P. reflexivity.
Qed.

(** Cell [n] of the arrays of a rank with octants [st] is the cell [y]. *)
Definition is_cell (st : list oct) (n : cidx) (y : oct) : Prop :=
  c_blk n = b /\ in_block b (c_pos n) /\ exists B, nth_error st (c_oct n) = Some B /\ In B L /\ cell_of b B (c_pos n) = y.
Lemma is_cell_in st n y : is_cell st n y -> In y cells.
Proof. intros (_ & H & B & _ & HB & <-). apply cells_in. exists B, (c_pos n). auto. Qed.

Definition wd (a : axis) : Z := if flat g a then 0 else 2.

Lemma displaced_wanted A c d : In A L -> in_block b c -> forall a, coord (displaced g b (cell_of b A c) d) a = wanted g b A c d a.
Proof. intros HA Hc a. unfold displaced. rewrite coord_oct_of. unfold cell_of at 1. rewrite coord_oct_of. reflexivity. Qed.

Lemma stays_all A c d : In A L -> in_block b c -> (forall a, flat g a = true -> d a = 0) -> stays g b A c d.
Proof.
  intros HA Hc F a. destruct (flat g a) eqn:E; [right|left; apply PER, E]. rewrite (F a E), Z.add_0_r. apply gpos_range; assumption.
Qed.

Definition proper (n : cidx) : Prop := c_status n <> BOUNDARY /\ c_status n <> INVALID.
(** Answers of neighbour queries, as cells of the grid. *)
Lemma query R i A c d : In R M -> nth_error (loc R) i = Some A -> in_block b c -> reach_offset g b d ->
  let X := displaced g b (cell_of b A c) d in
  exists n y, getNeighbor_ghost g (loc R ++ gho R) (mkCell i c b LOCAL_TO_BLOCK) d = Some n /\ is_cell (loc R ++ gho R) n y /\ proper n /\
    ((level_diff n = 0 /\ y = X) \/ (level_diff n = 1 /\ y = parent g X) \/
     (c_status n = SMALLER /\ lev y = lev A + 1 /\ forall a, coord y a = if flat g a then coord X a else 2 * coord X a + (if c a + d a <? 0 then 1 else 0))).
Proof.
  intros HR HA Hc RO X. assert (HAL : In A L) by (unfold leaves; apply in_concat; exists (loc R); split; [apply in_map, HR|eapply nth_error_In, HA]).
  destruct (C25_neighbour g M R i A b c d WF OK HR HA BO Hc RO (stays_all A c d HAL Hc (fun a => proj2 (RO a)))) as (n & B & E & EB & HB & HBL & IB & DES).
  exists n, (cell_of b B (c_pos n)). split; [exact E|]. split; [split; [exact EB|split; [exact IB|exists B; auto]]|].
  assert (W : forall a, coord X a = wanted g b A c d a) by (apply displaced_wanted; assumption).
  split; [split; intro K; rewrite K in DES; exact DES|].
  destruct (c_status n) eqn:ES; unfold level_diff; rewrite ES; cbn [designates] in DES; try contradiction.
  - left. split; [reflexivity|]. destruct DES as (-> & P). apply oct_ext; [reflexivity|]. intros a. rewrite W. unfold cell_of. rewrite coord_oct_of. apply P.
  - left. split; [reflexivity|]. destruct DES as (EL & P). apply oct_ext; [exact EL|]. intros a. rewrite W. unfold cell_of. rewrite coord_oct_of. apply P.
  - right. right. split; [reflexivity|]. destruct DES as (EL & P). split; [exact EL|]. intros a. rewrite W. unfold cell_of. rewrite coord_oct_of. apply P.
  - right. left. split; [reflexivity|]. destruct DES as (EL & P). apply oct_ext; [exact EL|]. intros a. unfold parent. rewrite !coord_oct_of, W. unfold cell_of. rewrite coord_oct_of. apply P.
Qed.

(** Position of a cell of even number in an even block. *)
Lemma even_pos A q a T : flat g a = false -> in_block b q -> gpos b A q a = 2 * T -> q a mod 2 = 0 /\ q a + 1 < b a.
Proof.
  intros F Hq E. destruct (EV a F) as (E1 & E2). specialize (Hq a). unfold gpos in E.
  pose proof (Z.div_mod (b a) 2 ltac:(lia)) as DM. rewrite E2 in DM. set (h := b a / 2) in *.
  assert (Q : q a = 2 * (T - coord A a * h)) by nia.
  assert (q a mod 2 = 0) by (rewrite Q, Z.mul_comm; apply Z.mod_mul; lia). split; [assumption|].
  pose proof (Z.div_mod (q a) 2 ltac:(lia)). lia.
Qed.

(** Steps that stay in the block. *)
Lemma step_in st n y e : is_cell st n y -> (forall a, 0 <= c_pos n a + e a < b a) ->
  exists r y', getNeighbor n e = Some r /\ getNeighbor_ghost g st n e = Some r /\ is_cell st r y' /\ lev y' = lev y /\
    (forall a, coord y' a = coord y a + e a) /\ c_status r = (if is_local n then LOCAL_TO_BLOCK else SAME_SIZE) /\ c_oct r = c_oct n /\
    (forall a, c_pos r a = c_pos n a + e a).
Proof.
  intros (CB & IQ & B & HB & HBL & EY) ST.
  assert (SM : forall a, 0 <= c_pos n a + e a < 2^14) by (intros a; specialize (ST a); pose proof (proj1 (BO a)); lia).
  assert (UU : forall a, u32 (c_pos n a + e a) = c_pos n a + e a).
  { intros a. apply u32_small. specialize (SM a). change (2^32) with 4294967296. change (2^14) with 16384 in *. lia. }
  assert (SS : forall a, s32 (c_pos n a + e a) = c_pos n a + e a).
  { intros a. apply s32_small. specialize (SM a). change (2^31) with 2147483648. change (2^14) with 16384 in *. lia. }
  set (y' := oct_of (lev B) (fun a => coord y a + e a)).
  assert (LY : lev y = lev B) by (rewrite <- EY; reflexivity).
  assert (GY : forall a, gpos b B (c_pos n) a = coord y a) by (intros a; rewrite <- EY; unfold cell_of; rewrite coord_oct_of; reflexivity).
  exists (mkCell (c_oct n) (fun a => u32 (c_pos n a + e a)) (c_blk n) (if is_local n then LOCAL_TO_BLOCK else SAME_SIZE)), y'.
  assert (G1 : getNeighbor n e = Some (mkCell (c_oct n) (fun a => u32 (c_pos n a + e a)) (c_blk n) (if is_local n then LOCAL_TO_BLOCK else SAME_SIZE))).
  { unfold getNeighbor. assert (E3 : all3 (fun a => u32 (c_pos n a + e a) <? c_blk n a) = true) by (apply all3_spec; intros a; rewrite UU, CB; specialize (ST a); lia).
    rewrite E3. reflexivity. }
  split; [exact G1|]. split.
  { unfold getNeighbor_ghost. assert (E3 : all3 (fun a => s32 (c_pos n a + e a) / c_blk n a =? 0) = true) by (apply all3_spec; intros a; rewrite SS, CB, Z.div_small; [reflexivity|apply ST]).
    rewrite E3. exact G1. }
  split.
  { split; [exact CB|]. cbn [c_pos c_oct]. split; [intros a; rewrite UU; apply ST|]. exists B. split; [exact HB|]. split; [exact HBL|].
    apply oct_ext; [reflexivity|]. intros a. unfold cell_of, y'. rewrite !coord_oct_of. rewrite <- GY. unfold gpos. rewrite UU. lia. }
  split; [symmetry; exact LY|]. split; [intros a; unfold y'; rewrite coord_oct_of; reflexivity|]. cbn [c_status c_oct c_pos].
  split; [reflexivity|]. split; [reflexivity|]. exact UU.
Qed.

(** Index of the wide block: the cell that copyGhostBlockCellData reads first. *)
Lemma ghost_index R i A p : In R M -> nth_error (loc R) i = Some A -> in_block (wide g b) p ->
  let X := displaced g b (cell_of b A (fun _ => 0)) (fun a => p a - wd a) in
  exists n y, convert_index_ghost g (loc R ++ gho R) b (mkCell i p (wide g b) LOCAL_TO_BLOCK) = Some n /\ is_cell (loc R ++ gho R) n y /\ proper n /\
    ((level_diff n = 0 /\ y = X) \/ (level_diff n = 1 /\ y = parent g X) \/
     (c_status n = SMALLER /\ y = plus_off X (fun _ => 0) g)).
Proof.
  intros HR HA IP X. assert (HAL : In A L) by (unfold leaves; apply in_concat; exists (loc R); split; [apply in_map, HR|eapply nth_error_In, HA]).
  assert (SM : forall a, 0 <= p a < wide g b a /\ wide g b a = b a + 2 * wd a /\ 0 <= wd a <= 2 /\ 1 <= b a <= 2^14).
  { intros a. specialize (IP a). pose proof (proj1 (BO a)). unfold wide, wd in *. destruct (flat g a); lia. }
  assert (SB : same_block (wide g b) b = false).
  { destruct (same_block (wide g b) b) eqn:E; [|reflexivity]. pose proof (proj1 (same_block_spec _ _) E AX) as K. unfold wide in K. cbn [flat] in K. lia. }
  assert (P1 : forall a, s32 (p a + Z.quot (b a - wide g b a) 2) = p a - wd a).
  { intros a. specialize (SM a). replace (b a - wide g b a) with (- (2 * wd a)) by lia. rewrite Z.quot_opp_l, quot2 by lia.
    replace (p a + - wd a) with (p a - wd a) by lia. apply s32_small. change (2^31) with 2147483648. change (2^14) with 16384 in SM. lia. }
  set (z := fun a => s32 (p a + Z.quot (b a - wide g b a) 2)).
  assert (PZ : forall a, z a = p a - wd a) by exact P1.
  destruct (all3 (fun a => (0 <=? z a) && (z a <? b a))) eqn:IN.
  - (* in the block *)
    assert (IZ : in_block b z) by (intros a; pose proof (proj1 (all3_spec _) IN a) as K; cbv beta in K; lia).
    exists (mkCell i z b LOCAL_TO_BLOCK), X. split.
    { unfold convert_index_ghost, convert_index_ghost_aux. cbn [c_blk c_pos c_oct is_local c_status]. rewrite SB. cbv zeta.
      unfold z in IN. rewrite IN. reflexivity. }
    split; [|split; [split; discriminate|left; split; reflexivity]]. split; [reflexivity|]. split; [exact IZ|]. cbn [c_oct c_pos]. exists A.
    split; [rewrite nth_error_app1; [exact HA|apply nth_error_Some; congruence]|]. split; [exact HAL|].
    apply oct_ext; [reflexivity|]. intros a. unfold X, displaced. rewrite coord_oct_of. unfold cell_of. rewrite !coord_oct_of. cbn [oct_of lev].
    rewrite Z.mod_small.
    + unfold gpos. rewrite <- PZ. lia.
    + pose proof (gpos_range A z a HAL IZ) as K. unfold gpos in *. rewrite <- PZ. lia.
  - set (inp := fun a => if z a <? 0 then 0 else if b a <=? z a then b a - 1 else z a).
    set (d := fun a => if z a <? 0 then z a else if b a <=? z a then z a - b a + 1 else 0).
    assert (ID : forall a, 0 <= inp a < b a /\ inp a + d a = z a /\ Z.abs (d a) <= wd a /\ (d a < 0 <-> inp a + d a < 0)).
    { intros a. specialize (SM a). specialize (PZ a). unfold inp, d. destruct (z a <? 0) eqn:E1; [lia|]. destruct (b a <=? z a) eqn:E2; lia. }
    assert (IB : in_block b inp) by (intros a; apply (ID a)).
    assert (RO : reach_offset g b d).
    { intros a. specialize (ID a). unfold wd in ID. destruct (flat g a) eqn:F; [|destruct (EV a F)]; lia. }
    assert (XX : displaced g b (cell_of b A inp) d = X).
    { apply oct_ext; [reflexivity|]. intros a. unfold X, displaced. rewrite !coord_oct_of. unfold cell_of. rewrite !coord_oct_of. cbn [oct_of lev]. f_equal.
      unfold gpos. specialize (ID a). specialize (PZ a). lia. }
    destruct (query R i A inp d HR HA IB RO) as (n & y & EQ & IC & PR & CASE). rewrite XX in CASE.
    assert (AUX : convert_index_ghost_aux g (loc R ++ gho R) b (mkCell i p (wide g b) LOCAL_TO_BLOCK) = Some (n, d)).
    { unfold convert_index_ghost_aux. cbn [c_blk c_pos c_oct is_local c_status]. rewrite SB. cbv zeta. unfold z in IN. rewrite IN. cbn [negb].
      change (match getNeighbor_ghost g (loc R ++ gho R) (mkCell i inp b LOCAL_TO_BLOCK) d with Some r => Some (r, d) | None => None end = Some (n, d)).
      rewrite EQ. reflexivity. }
    unfold convert_index_ghost. rewrite AUX. cbv zeta. clear AUX. clearbody z inp. set (o := fun a => if d a <? 0 then -1 else 0).
    change (all3 (fun a => (if d a <? 0 then -1 else 0) =? 0)) with (all3 (fun a => o a =? 0)).
    destruct CASE as [(LD & ->)|[(LD & ->)|(ST & LY & CY)]].
    + rewrite LD. exists n, X. split; [reflexivity|]. split; [exact IC|]. split; [exact PR|]. left. auto.
    + rewrite LD. exists n, (parent g X). split; [reflexivity|]. split; [exact IC|]. split; [exact PR|]. right. left. auto.
    + assert (LD : level_diff n = -1) by (unfold level_diff; rewrite ST; reflexivity). rewrite LD, Z.eqb_refl, andb_true_l.
      set (Y := plus_off X (fun _ => 0) g).
      assert (CO : forall a, coord Y a = coord y a + o a).
      { intros a. unfold Y, plus_off. rewrite coord_oct_of, CY. unfold o. destruct (ID a) as (_ & _ & K1 & K2).
        destruct (flat g a) eqn:F; [unfold wd in K1; rewrite F in K1; replace (d a <? 0) with false by lia; lia|].
        destruct (d a <? 0) eqn:E1, (inp a + d a <? 0) eqn:E2; lia. }
      pose proof IC as (CB & IN2 & B & HB & HBL & EY).
      assert (GY : forall a, gpos b B (c_pos n) a = coord y a) by (intros a; rewrite <- EY; unfold cell_of; rewrite coord_oct_of; reflexivity).
      destruct (all3 (fun a => o a =? 0)) eqn:OZ; cbn [negb].
      * exists n, y. split; [reflexivity|]. split; [exact IC|]. split; [exact PR|]. right. right. split; [exact ST|].
        apply oct_ext; [exact LY|]. intros a. fold Y. rewrite CO. pose proof (proj1 (all3_spec _) OZ a) as K. cbv beta in K. lia.
      * assert (Q0 : forall a, 0 <= c_pos n a + o a < b a).
        { intros a. pose proof (IN2 a). unfold o. destruct (d a <? 0) eqn:E1; [|lia].
          destruct (ID a) as (_ & _ & K1 & K2). assert (F : flat g a = false) by (destruct (flat g a) eqn:F; [unfold wd in K1; rewrite F in K1; lia|reflexivity]).
          specialize (CY a). rewrite F in CY. replace (inp a + d a <? 0) with true in CY by lia. specialize (GY a). rewrite CY in GY.
          assert (c_pos n a <> 0); [|lia]. intro Z0. destruct (EV a F) as (E3 & E4). unfold gpos in GY. rewrite Z0 in GY.
          pose proof (Z.div_mod (b a) 2 ltac:(lia)) as DM. rewrite E4 in DM. set (h := b a / 2) in *. clear -GY DM. rewrite DM in GY. replace (coord B a * (2 * h + 0) + 0) with (2 * (coord B a * h)) in GY by ring. lia. }
        destruct (step_in (loc R ++ gho R) n y o IC Q0) as (r & y' & G1 & _ & (CB' & IN' & B' & HB') & LY' & CY' & _). rewrite G1.
        eexists. exists Y. split; [reflexivity|]. cbn [c_status]. split; [|split; [split; discriminate|right; right; split; reflexivity]].
        assert (y' = Y) as <- by (apply oct_ext; [rewrite LY'; exact LY|intros a; rewrite CY', CO; reflexivity]).
        split; [exact CB'|]. cbn [c_pos c_oct]. split; [exact IN'|]. exists B'. exact HB'.
Qed.

(** All halves of a position, from its first one. *)
Lemma sibling_cells st n X : is_cell st n (plus_off X (fun _ => 0) g) -> 
  exists l, siblings true g st n = Some l /\ Forall2 (is_cell st) l (children g X).
Proof.
  intros IC. pose proof IC as (CB & IQ & B & HB & HBL & EY). unfold siblings.
  rewrite children_offsets.
  assert (EO : flat_map (fun dk => flat_map (fun dj => map (fun di => mkoff di dj dk) (zrange 0 2)) (zrange 0 2)) (zrange 0 (if g3d g then 2 else 1)) = subcell_offsets (ndim g)).
  { unfold subcell_offsets, ndim. destruct (g3d g); reflexivity. }
  rewrite EO.
  destruct (mapM_exists (get_sibling_cell true g st n) (fun e r => is_cell st r (plus_off X e g)) (subcell_offsets (ndim g))) as (l & E & F2).
  - intros e He. apply subcell_offset_in in He. destruct He as (H01 & HF).
    assert (GY : forall a, gpos b B (c_pos n) a = if flat g a then coord X a else 2 * coord X a).
    { intros a. transitivity (coord (plus_off X (fun _ => 0) g) a); [rewrite <- EY; unfold cell_of; rewrite coord_oct_of; reflexivity|]. unfold plus_off. rewrite coord_oct_of. lia. }
    assert (Q1 : forall a, 0 <= c_pos n a + e a < b a).
    { intros a. specialize (H01 a). pose proof (IQ a) as IQa. destruct (flat g a) eqn:F; [rewrite (HF a F); lia|].
      specialize (GY a). rewrite F in GY. pose proof (even_pos B (c_pos n) a _ F IQ GY). lia. }
    destruct (step_in st n _ e IC Q1) as (r & y' & _ & G2 & IC' & LY & CY & _). exists r. split; [exact G2|].
    assert (y' = plus_off X e g) as <-; [|exact IC']. apply oct_ext; [exact LY|]. intros a. rewrite CY. unfold plus_off. rewrite !coord_oct_of. lia.
  - exists l. split; [exact E|]. clear -F2. induction F2; cbn [map]; constructor; auto.
Qed.

(** What is read for a cell of the arrays. *)
Context (D : oct -> cons) (U : nat -> field) (HF : holds_field b M D U).
Lemma read_cell r R n y : nth_error M r = Some R -> is_cell (loc R ++ gho R) n y -> read (g3d g) (U r) n = getCons (g3d g) (D y).
Proof. intros HR (CB & IQ & B & HB & HBL & <-). unfold read. f_equal. rewrite CB. apply (HF r R (c_oct n) B (c_pos n) HR HB IQ). Qed.

Lemma fold_csum (f : cons -> Qc) l u : (forall a c, f (cmap2 Qcplus a c) = (f a + f c)%Qc) ->
  f (fold_left (cmap2 Qcplus) l u) = (f u + csum (map f l))%Qc.
Proof.
  intros H. revert u. induction l as [|a l IH]; intros u; cbn [fold_left map csum fold_right]; [ring|]. rewrite IH, H. unfold csum. ring.
Qed.
Lemma mean_code l : l <> [] ->
  cmap (fun x => (x / Q2Qc (inject_Z (Z.of_nat (length l))))%Qc) (fold_left (cmap2 Qcplus) (map (getCons (g3d g)) l) cons0)
  = getCons (g3d g) (cmeans l).
Proof.
  intros NE. assert (NZ : Q2Qc (inject_Z (Z.of_nat (length l))) <> 0%Qc).
  { destruct l; [congruence|]. intro K. apply (f_equal this) in K. cbn [Q2Qc this] in K. assert (K2 : (inject_Z (Z.of_nat (length (c :: l))) == 0)%Q) by (rewrite <- Qred_correct; rewrite K; reflexivity).
    unfold Qeq in K2. cbn [inject_Z Qnum Qden] in K2. rewrite Z.mul_1_r in K2. cbn [length] in K2. lia. }
  assert (Z0 : forall c : Qc, (0 / c = 0)%Qc) by (intros; unfold Qcdiv; ring).
  unfold cmap, getCons at 6, cmeans, cmean. cbn [u_rho u_e u_x u_y u_z].
  f_equal; (rewrite fold_csum by reflexivity); rewrite map_map; cbn [cons0 u_rho u_e u_x u_y u_z getCons]; rewrite Qcplus_0_l; try reflexivity.
  destruct (g3d g); [reflexivity|]. transitivity (0 / Q2Qc (inject_Z (Z.of_nat (length l))))%Qc; [|apply Z0]. f_equal. clear. induction l; cbn [map csum fold_right]; [reflexivity|]. unfold csum in IHl. rewrite IHl. ring.
Qed.
Lemma children_nonempty x : children g x <> [].
Proof. intro K. pose proof (children_length g x) as H. rewrite K in H. destruct (g3d g); discriminate H. Qed.

Theorem ghost_layer r R i A p bval : nth_error M r = Some R -> nth_error (loc R) i = Some A -> in_block (wide g b) p ->
  Ugroup g (loc R ++ gho R) b bval (U r) (mkCell i p (wide g b) LOCAL_TO_BLOCK) =
  Some (getCons (g3d g) (resample g cells D (displaced g b (cell_of b A (fun _ => 0)) (fun a => p a - wd a)))).
Proof.
  intros HR HA IP. pose proof (nth_error_In _ _ HR) as HRM.
  destruct (ghost_index R i A p HRM HA IP) as (n & y & E & IC & (PR1 & PR2) & CASE). set (X := displaced _ _ _ _) in *.
  unfold Ugroup. rewrite E. pose proof (is_cell_in _ _ _ IC) as YC.
  destruct CASE as [(LD & ->)|[(LD & ->)|(ST & ->)]].
  - rewrite (resample_same D X YC), <- (read_cell r R n X HR IC). destruct (c_status n) eqn:ST; unfold level_diff in *; rewrite ST in *; try discriminate LD; try congruence; reflexivity.
  - rewrite (resample_bigger D X YC), <- (read_cell r R n _ HR IC). destruct (c_status n) eqn:ST; unfold level_diff in *; rewrite ST in *; try discriminate LD; try congruence; reflexivity.
  - assert (PX : parent g (plus_off X (fun _ => 0) g) = X).
    { apply oct_ext; [unfold parent, plus_off; cbn [oct_of lev]; lia|]. intros a. unfold parent, plus_off. rewrite !coord_oct_of. unfold half. destruct (flat g a); [lia|].
      rewrite Z.add_0_r, Z.mul_comm. apply Z.div_mul. lia. }
    rewrite (resample_smaller D X _ YC PX).
    destruct (sibling_cells (loc R ++ gho R) n X IC) as (l & EL & F2). rewrite ST. unfold level_diff. rewrite ST.
    change (0 <=? -1) with false. cbv iota. rewrite EL. f_equal.
    assert (LL : length l = length (map D (children g X))) by (rewrite map_length; apply (Forall2_len _ _ _ F2)).
    rewrite LL. rewrite <- mean_code by (intro K; apply (children_nonempty X); destruct (children g X); [reflexivity|discriminate K]).
    do 2 f_equal. clear -F2 HF HR HRM. induction F2; cbn [map]; [reflexivity|]. f_equal; [eapply read_cell; eassumption|exact IHF2].
Qed.
End BG.
