(** Where the mass of a particle goes (used for C48 and C76). *)
From Coq Require Import QArith Qround Qcanon Lqa.
From Verif Require Import Base OctreeSpec OctreeGeom OctreeModel FindNeighbors MeshSpec GhostExchange LookupModel LookupSpec LookupProps
  CellModel CellSpec CellProofs CellProps SmallerProps RemapModel RemapSpec RemapProofs HydroModel HydroSpec HydroProps ConserveSpec BlockGhost ConserveProofs
  ParticleSpec ParticleModel ParticleProofs ParticleProps HistorySpec HistoryProofs.
Open Scope Z_scope.

(** * Linear inequalities in Qc *)
Lemma this_plus x y : (this (x + y)%Qc == this x + this y)%Q. Proof. unfold Qcplus. cbn [Q2Qc this]. apply Qred_correct. Qed.
Lemma this_opp x : (this (- x)%Qc == - this x)%Q. Proof. unfold Qcopp. cbn [Q2Qc this]. apply Qred_correct. Qed.
Lemma this_minus x y : (this (x - y)%Qc == this x - this y)%Q. Proof. unfold Qcminus. rewrite this_plus, this_opp. reflexivity. Qed.
Lemma this_mult x y : (this (x * y)%Qc == this x * this y)%Q. Proof. unfold Qcmult. cbn [Q2Qc this]. apply Qred_correct. Qed.
Lemma this_0 : (this 0%Qc == 0)%Q. Proof. reflexivity. Qed.
Lemma this_1 : (this 1%Qc == 1)%Q. Proof. reflexivity. Qed.
Lemma this_two : (this two == 2)%Q. Proof. reflexivity. Qed.
Lemma Qc_this x y : x = y <-> (this x == this y)%Q.
Proof. split; [intros ->; reflexivity|apply Qc_is_canon]. Qed.
Ltac qlin := rewrite ?Qc_this in *; unfold Qcle, Qclt in *; repeat (rewrite this_minus in * || rewrite this_plus in * || rewrite this_opp in * || rewrite this_mult in * || rewrite this_two in * || rewrite this_0 in * || rewrite this_1 in *); lra.

(** * Shares of the cloud along an axis *)
Section Axis.
Context (h c p : Qc) (H : (0 < h)%Qc) (P1 : (c - h / two <= p)%Qc) (P2 : (p < c + h / two)%Qc).
Lemma half_twice : h = (h / two + h / two)%Qc. Proof. unfold two. field. exact two_nz. Qed.
Notation x := ((p - c) / h)%Qc.
Lemma h_nz : h <> 0%Qc. Proof. apply Qc_pos_nz, H. Qed.
Lemma x_sign : (0 <= x)%Qc <-> (c <= p)%Qc.
Proof.
  split; intros K.
  - rewrite Qcle_sub. replace (p - c)%Qc with (x * h)%Qc by (field; apply h_nz). apply Qcmult_nonneg; [exact K|apply Qclt_le_weak, H].
  - unfold Qcdiv. apply Qcmult_nonneg; [rewrite <- Qcle_sub; exact K|apply Qclt_le_weak, Qcinv_lt_0, H].
Qed.
Lemma meet_same : (meet (p - h / two) (p + h / two) (c - h / two) (c + h / two) / h = cic_in x)%Qc.
Proof.
  unfold cic_in, meet. pose proof half_twice as HH. set (k := (h / two)%Qc) in *. assert (HN := h_nz).
  destruct (Qclt_le_dec p c) as [L|L].
  - assert (X : (x < 0)%Qc) by (apply Qcnot_le_lt; intros Q; apply x_sign in Q; exact (Qclt_not_le _ _ L Q)).
    rewrite (fabs_neg _ X). destruct (Qclt_le_dec (p + k) (c + k)) as [_|Q]; [|exfalso; clearbody k; qlin].
    destruct (Qclt_le_dec (p - k) (c - k)) as [_|Q]; [|exfalso; clearbody k; qlin].
    replace (p + k - (c - k))%Qc with (p - c + (k + k))%Qc by ring. rewrite <- HH. field. exact HN.
  - assert (X : (0 <= x)%Qc) by (apply x_sign, L). rewrite (fabs_pos _ X).
    destruct (Qclt_le_dec (p + k) (c + k)) as [Q|_]; [exfalso; clearbody k; qlin|].
    destruct (Qclt_le_dec (p - k) (c - k)) as [Q|_]; [exfalso; clearbody k; qlin|].
    replace (c + k - (p - k))%Qc with (c - p + (k + k))%Qc by ring. rewrite <- HH. field. exact HN.
Qed.
Lemma meet_up : (c <= p)%Qc -> (meet (p - h / two) (p + h / two) (c + h / two) (c + h / two + h) / h = cic_out x)%Qc.
Proof.
  intros L. unfold cic_out, meet. pose proof half_twice as HH. set (k := (h / two)%Qc) in *. assert (HN := h_nz).
  rewrite (fabs_pos _ (proj2 x_sign L)).
  assert (Q1 : (p + k < c + k + h)%Qc) by (clearbody k; qlin).
  assert (Q2 : (p - k < c + k)%Qc) by (clearbody k; qlin).
  destruct (Qclt_le_dec (p + k) (c + k + h)) as [_|Q]; [|exfalso; exact (Qclt_not_le _ _ Q1 Q)].
  destruct (Qclt_le_dec (p - k) (c + k)) as [_|Q]; [|exfalso; exact (Qclt_not_le _ _ Q2 Q)].
  field. exact HN.
Qed.
Lemma meet_down : (p < c)%Qc -> (meet (p - h / two) (p + h / two) (c - h / two - h) (c - h / two) / h = cic_out x)%Qc.
Proof.
  intros L. unfold cic_out, meet. pose proof half_twice as HH. set (k := (h / two)%Qc) in *. assert (HN := h_nz).
  assert (X : (x < 0)%Qc) by (apply Qcnot_le_lt; intros Q; apply x_sign in Q; exact (Qclt_not_le _ _ L Q)). rewrite (fabs_neg _ X).
  assert (Q1 : (c - k <= p + k)%Qc) by (clearbody k; qlin).
  assert (Q2 : (c - k - h <= p - k)%Qc) by (clearbody k; qlin).
  destruct (Qclt_le_dec (p + k) (c - k)) as [Q|_]; [exfalso; exact (Qclt_not_le _ _ Q Q1)|].
  destruct (Qclt_le_dec (p - k) (c - k - h)) as [Q|_]; [exfalso; exact (Qclt_not_le _ _ Q Q2)|].
  field. exact HN.
Qed.
Lemma x_small : (cic_out x <= 1 / two)%Qc.
Proof.
  unfold cic_out. pose proof half_twice as HH. set (k := (h / two)%Qc) in *. assert (HN := h_nz).
  assert (E : (1 / two = k / h)%Qc) by (unfold k; field; split; [exact two_nz|exact HN]).
  rewrite E, Qcle_sub.
  destruct (Qclt_le_dec p c) as [L|L].
  - assert (X : (x < 0)%Qc) by (apply Qcnot_le_lt; intros Q; apply x_sign in Q; exact (Qclt_not_le _ _ L Q)). rewrite (fabs_neg _ X).
    replace (k / h - - x)%Qc with ((k + (p - c)) * / h)%Qc by (field; exact HN). apply Qcmult_nonneg; [|apply Qclt_le_weak, Qcinv_lt_0, H].
    clearbody k. qlin.
  - rewrite (fabs_pos _ (proj2 x_sign L)). replace (k / h - x)%Qc with ((k - (p - c)) * / h)%Qc by (field; exact HN).
    apply Qcmult_nonneg; [|apply Qclt_le_weak, Qcinv_lt_0, H]. clearbody k. qlin.
Qed.
End Axis.

(** * The eight contributions *)
Section Cloud.
Context (g : geom) (D3 : g3d g = true) (WF : wf_geom g) (M : mesh) (OK : mesh_ok g M) (b : axis -> Z) (BO : block_ok g b).
Context (R : rank) (HR : In R M) (i : nat) (A : oct) (HA : nth_error (loc R) i = Some A) (q : axis -> Z) (IQ : in_block b q).
Notation st := (loc R ++ gho R).
Notation cell := (mkCell i q b LOCAL_TO_BLOCK).

Lemma nflat a : flat g a = false. Proof. destruct a; cbn [flat]; rewrite ?D3; reflexivity. Qed.
Lemma VA : valid g A. Proof. apply (leaf_ok g M OK). destruct (mesh_local g M R i A WF OK HR HA) as (I & N & _). apply I. eapply nth_error_In, N. Qed.
Lemma HA' : nth_error st i = Some A. Proof. apply (mesh_local g M R i A WF OK HR HA). Qed.

(** No leaf contains another. *)
Lemma nested_cells B B0 q' q0 j : In B (leaves M) -> In B0 (leaves M) -> in_block b q' -> in_block b q0 -> 0 < j ->
  lev B0 = lev B - j -> (forall a, gpos b B0 q0 a = gpos b B q' a / 2^j) -> False.
Proof.
  intros HB HB0 I1 I0 J LV E. pose proof (leaf_ok g M OK B HB) as VB. pose proof (leaf_ok g M OK B0 HB0) as VB0.
  assert (P2 : 0 < 2^j) by (apply Z.pow_pos_nonneg; lia).
  assert (CO : forall a, coord B0 a = coord B a / 2^j).
  { intros a. specialize (E a). pose proof (BO a) as (B1 & _). unfold gpos in E.
    assert (E1 : (coord B0 a * b a + q0 a) / b a = coord B0 a) by (rewrite Z.div_add_l, Z.div_small by (try apply I0; lia); lia).
    assert (E2 : (coord B a * b a + q' a) / b a = coord B a) by (rewrite Z.div_add_l, Z.div_small by (try apply I1; lia); lia).
    rewrite <- E1, E, Z.div_div, (Z.mul_comm (2^j)), <- Z.div_div, E2 by lia. reflexivity. }
  assert (K : B = B0).
  { apply (tiles_unique g _ (corner g B) B B0 (ok_tiles g M OK)); [apply corner_in_dom, VB|exact HB|exact HB0|apply corner_covers, VB|].
    intros a. pose proof (corner_covers g B VB a) as C. rewrite CO, <- C. replace (lmax g - lev B0) with (lmax g - lev B + j) by lia.
    rewrite Z.pow_add_r, Z.div_div by (try apply Z.pow_pos_nonneg; destruct VB; lia). reflexivity. }
  rewrite K in LV. lia.
Qed.

(** The box at a displacement. *)
Lemma half2 a z : half g a z = z / 2. Proof. unfold half. rewrite nflat. reflexivity. Qed.
Lemma box_lev d : lev (displaced g b (cell_of b A q) d) = lev A. Proof. reflexivity. Qed.
Lemma box_coord d a : coord (displaced g b (cell_of b A q) d) a = wanted g b A q d a. Proof. destruct a; reflexivity. Qed.
Lemma cell_coord B q' a : coord (cell_of b B q') a = gpos b B q' a. Proof. destruct a; reflexivity. Qed.
Lemma oct_ext' x y : lev x = lev y -> (forall a, coord x a = coord y a) -> x = y.
Proof. intros E C. destruct x as [l1 x1 y1 z1], y as [l2 x2 y2 z2]. pose proof (C AX) as CX. pose proof (C AY) as CY. pose proof (C AZ) as CZ. cbn in *. congruence. Qed.
Lemma finer_iff d : finer g b (leaves M) A q d <-> exists B q', In B (leaves M) /\ in_block b q' /\ lev B = lev A + 1 /\ forall a, gpos b B q' a / 2 = wanted g b A q d a.
Proof.
  unfold finer. split.
  - intros (B & q' & HB & I & E). exists B, q'. split; [exact HB|]. split; [exact I|]. split.
    + apply (f_equal lev) in E. change (lev B - 1 = lev A) in E. lia.
    + intros a. apply (f_equal (fun x => coord x a)) in E. rewrite box_coord in E. rewrite <- E. unfold parent. rewrite coord_oct_of, half2, cell_coord. reflexivity.
  - intros (B & q' & HB & I & LV & E). exists B, q'. split; [exact HB|]. split; [exact I|]. apply oct_ext'.
    + change (lev B - 1 = lev A). lia.
    + intros a. rewrite box_coord. unfold parent. rewrite coord_oct_of, half2, cell_coord. apply E.
Qed.

(** Cells reached by a displacement of one cell at most along each axis. *)
Definition reached (d : axis -> Z) (c : cidx) (l : Z) : Prop :=
  c_blk c = b /\ is_valid c = true /\ in_block b (c_pos c) /\
  exists B, nth_error st (c_oct c) = Some B /\ In B (leaves M) /\ lev B = l /\ at_box g (displaced g b (cell_of b A q) d) (cell_of b B (c_pos c)).

Lemma visits d : visited g d AX * visited g d AY * visited g d AZ = 2^(3 - moves d).
Proof. unfold visited, moves. rewrite !nflat. destruct (d AX =? 0), (d AY =? 0), (d AZ =? 0); reflexivity. Qed.

Lemma neighbour_cases d : (forall a, Z.abs (d a) <= 1) -> stays g b A q d ->
  exists n, getNeighbor_ghost g st cell d = Some n /\
    ((level_diff n = 0 /\ ~ finer g b (leaves M) A q d /\ reached d n (lev A)) \/
     (level_diff n = 1 /\ ~ finer g b (leaves M) A q d /\ reached d n (lev A - 1)) \/
     (level_diff n = -1 /\ finer g b (leaves M) A q d /\ 1 <= moves d /\
      exists l, smaller_neighbors true g st n d = Some l /\ Z.of_nat (length l) = 2^(3 - moves d) /\ forall x, In x l -> reached d x (lev A + 1))).
Proof.
  intros D1 ST.
  assert (RO : reach_offset g b d) by (intros a; split; [pose proof (BO a); specialize (D1 a); lia|rewrite nflat; discriminate]).
  destruct (C25_neighbour g M R i A b q d WF OK HR HA BO IQ RO ST) as (n & B & E & EB & HB & HBL & IB & DES).
  exists n. split; [exact E|].
  assert (NF : forall j, (j = 0 \/ j = 1) -> lev B = lev A - j -> (forall a, gpos b B (c_pos n) a = wanted g b A q d a / 2^j) -> ~ finer g b (leaves M) A q d).
  { intros j J LV G F. apply finer_iff in F. destruct F as (B' & q' & HB' & I' & LV' & G').
    apply (nested_cells B' B q' (c_pos n) (j + 1) HB' HBL I' IB); [lia|lia|]. intros a. rewrite G, <- G'. rewrite Z.pow_add_r, (Z.mul_comm (2^j)), Z.div_div by lia. reflexivity. }
  assert (CV : forall s, c_status n = s -> (s = LOCAL_TO_BLOCK \/ s = SAME_SIZE \/ s = BIGGER) -> is_valid n = true).
  { intros s <- [Q|[Q|Q]]; unfold is_valid; rewrite Q; reflexivity. }
  destruct (c_status n) eqn:S; cbn [designates] in DES; try contradiction.
  - left. destruct DES as (-> & G). split; [unfold level_diff; rewrite S; reflexivity|]. split; [apply (NF 0); [auto|lia|intros a; rewrite G, Z.div_1_r; reflexivity]|].
    split; [exact EB|]. split; [apply (CV _ eq_refl); auto|]. split; [exact IB|]. exists A. split; [exact HB|]. split; [exact HBL|]. split; [reflexivity|].
    left. apply oct_ext'; [reflexivity|]. intros a. rewrite box_coord, cell_coord. apply G.
  - left. destruct DES as (LV & G). split; [unfold level_diff; rewrite S; reflexivity|]. split; [apply (NF 0); [auto|lia|intros a; rewrite G, Z.div_1_r; reflexivity]|].
    split; [exact EB|]. split; [apply (CV _ eq_refl); auto|]. split; [exact IB|]. exists B. split; [exact HB|]. split; [exact HBL|]. split; [exact LV|].
    left. apply oct_ext'; [exact LV|]. intros a. rewrite box_coord, cell_coord. apply G.
  - right; right. split; [unfold level_diff; rewrite S; reflexivity|].
    destruct DES as (LV & G).
    assert (FI : finer g b (leaves M) A q d).
    { apply finer_iff. exists B, (c_pos n). split; [exact HBL|]. split; [exact IB|]. split; [exact LV|]. intros a. rewrite G, nflat.
      rewrite Z.mul_comm, Z.div_add_l by lia. destruct (q a + d a <? 0); cbn; lia. }
    split; [exact FI|]. split.
    { assert (MN : 0 <= moves d) by (unfold moves; destruct (d AX =? 0), (d AY =? 0), (d AZ =? 0); lia).
      assert (moves d <> 0); [|lia]. intros M0.
      assert (DZ : forall a, d a = 0). { unfold moves in M0. destruct (d AX =? 0) eqn:X, (d AY =? 0) eqn:Y, (d AZ =? 0) eqn:Z0; try lia. intros []; lia. }
      apply finer_iff in FI. destruct FI as (B' & q' & HB' & I' & LV' & G').
      apply (nested_cells B' A q' q 1 HB'); [apply (proj1 (mesh_local g M R i A WF OK HR HA)); eapply nth_error_In, HA'|exact I'|exact IQ|lia|lia|].
      intros a. change (2^1) with 2. rewrite G'. unfold wanted. rewrite DZ, Z.add_0_r. symmetry. apply Z.mod_small. unfold gpos, ncells. pose proof (proj2 VA a). pose proof (IQ a). nia. }
    destruct (C25_smaller_any g M R i A b q d n WF OK HR HA BO IQ D1 ltac:(intros a; rewrite nflat; discriminate) ST E S) as (l & EL & LL & HL).
    exists l. split; [exact EL|]. split; [rewrite LL; apply visits|]. intros x HX. destruct (HL x HX) as (X1 & X2 & B' & N' & HB' & LV' & I' & G').
    split; [exact X1|]. split; [exact X2|]. split; [exact I'|]. exists B'. split; [exact N'|]. split; [exact HB'|]. split; [exact LV'|].
    right; right. apply oct_ext'; [change (lev B' - 1 = lev A); lia|]. intros a. rewrite box_coord. unfold parent. rewrite coord_oct_of, cell_coord. apply G'.
  - right; left. destruct DES as (LV & G). split; [unfold level_diff; rewrite S; reflexivity|]. split; [apply (NF 1); [auto|lia|intros a; rewrite G, half2; reflexivity]|].
    split; [exact EB|]. split; [apply (CV _ eq_refl); auto|]. split; [exact IB|]. exists B. split; [exact HB|]. split; [exact HBL|]. split; [exact LV|].
    right; left. apply oct_ext'; [exact LV|]. intros a. rewrite cell_coord. unfold parent. rewrite coord_oct_of, box_coord. apply G.
Qed.

(** Masses of the contributions. *)
Context (lo hi p : point) (LH : forall a, (lo a < hi a)%Qc).
Notation ext := (extent lo hi).
Definition len (l : Z) (a : axis) : Qc := (ext a / zq (ncells g b l a))%Qc.
Definition vol (l : Z) : Qc := (len l AX * len l AY * len l AZ)%Qc.
Lemma len_pos l a : lmin g <= l -> (0 < len l a)%Qc.
Proof. intros H. apply Qcdiv_lt_0; [apply ext_pos, LH|apply zq_pos, (N_pos g WF b BO l a H)]. Qed.
Lemma vol_pos l : lmin g <= l -> (0 < vol l)%Qc.
Proof. intros H. unfold vol. apply Qcmult_lt_0; [apply Qcmult_lt_0|]; apply len_pos, H. Qed.
Lemma len_half l a : lmin g <= l -> len (l + 1) a = (len l a / two)%Qc.
Proof.
  intros H. unfold len. rewrite (N_double g b l a H (nflat a)), zq_mult, zq_2. field.
  split; [exact two_nz|apply Qc_pos_nz, zq_pos, (N_pos g WF b BO l a H)] || (split; [apply Qc_pos_nz, zq_pos, (N_pos g WF b BO l a H)|exact two_nz]).
Qed.
Lemma vol_half l : lmin g <= l -> vol (l + 1) = (vol l / zq 8)%Qc.
Proof.
  intros H. unfold vol. rewrite !len_half by exact H. assert (zq 8 = two * two * two)%Qc as -> by qceq. field. exact two_nz.
Qed.
Lemma volume_vol B q' : volume g b ext (cell_of b B q') = vol (lev B). Proof. reflexivity. Qed.

Lemma mass_const d l rho ws : (forall w, In w ws -> snd w = rho /\ reached d (fst w) l) ->
  mass_in g b ext st ws = (zq (Z.of_nat (length ws)) * (rho * vol l))%Qc.
Proof.
  unfold mass_in. induction ws as [|w ws IH]; intros H; [cbn [map csum fold_right length Z.of_nat]; rewrite zq_0; ring|].
  cbn [map length]. rewrite Nat2Z.inj_succ, <- Z.add_1_r, zq_plus, zq_1. unfold csum in *. cbn [fold_right]. rewrite IH by (intros; apply H; right; assumption).
  destruct (H w (or_introl eq_refl)) as (E & _ & _ & _ & B & HB & _ & LB & _). rewrite HB, volume_vol, E, LB. ring.
Qed.
Lemma in_array_all rho l : (forall x, In x l -> is_valid x = true) ->
  mapM (fun c => option_map (fun c => (c, rho : Qc)) (in_array c)) l = Some (map (fun c => (c, rho)) l).
Proof.
  induction l as [|x l IH]; intros H; [reflexivity|]. cbn [mapM map]. unfold in_array at 1. rewrite (H x (or_introl eq_refl)).
  rewrite IH by (intros; apply H; right; assumption). reflexivity.
Qed.

Definition contribution (d : axis -> Z) (w : cidx) : Prop :=
  in_storage b st (w, 0%Qc) /\ exists B, nth_error st (c_oct w) = Some B /\ at_box g (displaced g b (cell_of b A q) d) (cell_of b B (c_pos w)).
Lemma reached_contribution d c l : reached d c l -> contribution d c.
Proof.
  intros (H1 & H2 & H3 & B & H4 & H5 & H6 & H7). split.
  - split; [exact H1|]. split; [exact H2|]. split; [exact H3|]. exists B. exact H4.
  - exists B. split; assumption.
Qed.
Lemma moves_le d : 0 <= moves d <= 3. Proof. unfold moves. destruct (d AX =? 0), (d AY =? 0), (d AZ =? 0); lia. Qed.
Lemma power_cases k : 1 <= k <= 3 -> (zq (2^(3 - k)) * zq (2^(k - 1)) = zq 4)%Qc.
Proof. intros H. rewrite <- zq_mult, <- Z.pow_add_r by lia. replace (3 - k + (k - 1)) with 2 by lia. reflexivity. Qed.
Lemma zq_nz8 : zq 8 <> 0%Qc. Proof. apply Qc_pos_nz, zq_pos. lia. Qed.

Lemma contrib_mass d x m : (forall a, Z.abs (d a) <= 1) -> stays g b A q d ->
  exists ws, cic_contrib g st m (vol (lev A)) x cell d = Some ws /\
    (forall w, In w ws -> contribution d (fst w) /\ ((0 <= m)%Qc -> (0 <= cic_fraction x d)%Qc -> (0 <= snd w)%Qc)) /\
    (~ finer g b (leaves M) A q d -> mass_in g b ext st ws = (m * cic_fraction x d)%Qc) /\
    (finer g b (leaves M) A q d -> 1 <= moves d /\ mass_in g b ext st ws = (m * cic_fraction x d / zq (2^(moves d - 1)))%Qc).
Proof.
  intros D1 ST. unfold cic_contrib. destruct (neighbour_cases d D1 ST) as (n & -> & CS).
  assert (LA : lmin g <= lev A) by apply VA. pose proof (vol_pos (lev A) LA) as VP. set (V := vol (lev A)) in *. assert (VN := Qc_pos_nz _ VP).
  set (f := cic_fraction x d).
  assert (NN : (0 <= m)%Qc -> (0 <= f)%Qc -> (0 <= m * f / V)%Qc).
  { intros H1 H2. unfold Qcdiv. apply Qcmult_nonneg; [apply Qcmult_nonneg; assumption|apply Qclt_le_weak, Qcinv_lt_0, VP]. }
  destruct CS as [(LD & NF & RE)|[(LD & NF & RE)|(LD & FI & MV & l & EL & LL & HL)]]; rewrite LD; cbn [Z.leb Z.eqb Z.compare].
  - unfold in_array. destruct RE as (R1 & R2 & R3). rewrite R2. cbn [option_map]. assert (RE : reached d n (lev A)) by (split; [exact R1|]; split; [exact R2|exact R3]).
    eexists. split; [reflexivity|]. split; [|split; [|contradiction]].
    + intros w [<-|[]]. cbn [fst snd]. split; [apply (reached_contribution _ _ _ RE)|exact NN].
    + intros _. rewrite (mass_const d (lev A) (m * f / V)%Qc) by (intros w [<-|[]]; split; [reflexivity|exact RE]). cbn [length]. change (Z.of_nat 1) with 1. rewrite zq_1. fold V. field. exact VN.
  - unfold in_array. destruct RE as (R1 & R2 & R3). rewrite R2. cbn [option_map]. assert (RE : reached d n (lev A - 1)) by (split; [exact R1|]; split; [exact R2|exact R3]).
    assert (E8 : frac (2 * 2 * (ndim g - 1)) 1 = zq 8) by (unfold ndim; rewrite D3; reflexivity). rewrite E8.
    eexists. split; [reflexivity|]. split; [|split; [|contradiction]].
    + intros w [<-|[]]. cbn [fst snd]. split; [apply (reached_contribution _ _ _ RE)|]. intros H1 H2. unfold Qcdiv at 1. apply Qcmult_nonneg; [apply NN; assumption|apply Qclt_le_weak, Qcinv_lt_0, zq_pos; lia].
    + intros _. rewrite (mass_const d (lev A - 1) (m * f / V / zq 8)%Qc) by (intros w [<-|[]]; split; [reflexivity|exact RE]). cbn [length]. change (Z.of_nat 1) with 1. rewrite zq_1.
      destruct RE as (_ & _ & _ & B & _ & HB & LB & _). pose proof (proj1 (leaf_ok g M OK B HB)) as VB.
      assert (E : V = (vol (lev A - 1) / zq 8)%Qc) by (unfold V; replace (lev A) with (lev A - 1 + 1) at 1 by lia; apply vol_half; lia).
      assert (E' : vol (lev A - 1) = (V * zq 8)%Qc) by (rewrite E; field; apply zq_nz8). rewrite E'. field. split; [exact VN|apply zq_nz8] || (split; [apply zq_nz8|exact VN]).
  - rewrite EL. assert (E2 : frac 2 1 = two) by qceq. rewrite E2. rewrite in_array_all by (intros y Hy; apply (HL y Hy)).
    eexists. split; [reflexivity|]. split; [|split; [contradiction|]].
    + intros w HW. apply in_map_iff in HW. destruct HW as (y & <- & HY). cbn [fst snd]. split; [apply (reached_contribution _ _ _ (HL y HY))|].
      intros H1 H2. replace (two * (m * f) / V)%Qc with (two * (m * f / V))%Qc by (field; exact VN). apply Qcmult_nonneg; [discriminate|apply NN; assumption].
    + intros _. split; [exact MV|].
      rewrite (mass_const d (lev A + 1) (two * (m * f) / V)%Qc) by (intros w HW; apply in_map_iff in HW; destruct HW as (y & <- & HY); split; [reflexivity|exact (HL y HY)]).
      rewrite map_length, LL, (vol_half (lev A) LA). fold V. pose proof (moves_le d) as ML.
      assert (P1 : zq (2 ^ (moves d - 1)) <> 0%Qc) by (apply Qc_pos_nz, zq_pos; pose proof (Z.pow_pos_nonneg 2 (moves d - 1)); lia).
      assert (P4 : (zq (2 ^ (3 - moves d)) = zq 4 / zq (2 ^ (moves d - 1)))%Qc).
      { rewrite <- (power_cases (moves d)) by lia. field. exact P1. }
      rewrite P4. assert (zq 4 = two * two)%Qc as -> by qceq. assert (zq 8 = two * two * two)%Qc as -> by qceq. field.
      repeat split; try exact two_nz; assumption.
Qed.

Lemma weights_sum d x : (forall a, Z.abs (d a) <= 1) -> stays g b A q d ->
  exists cs w, cic_weights_at g st x cell d = Some (map (fun c => (c, w)) cs) /\ cs <> [] /\
    (forall c, In c cs -> contribution d c) /\
    (~ finer g b (leaves M) A q d -> (zq (Z.of_nat (length cs)) * w)%Qc = cic_fraction x d) /\
    (finer g b (leaves M) A q d -> 1 <= moves d /\ (zq (Z.of_nat (length cs)) * w)%Qc = (cic_fraction x d / zq (2^(moves d - 1)))%Qc).
Proof.
  intros D1 ST. unfold cic_weights_at. destruct (neighbour_cases d D1 ST) as (n & -> & CS).
  set (f := cic_fraction x d).
  destruct CS as [(LD & NF & RE)|[(LD & NF & RE)|(LD & FI & MV & l & EL & LL & HL)]]; rewrite LD; cbn [Z.leb Z.eqb Z.compare].
  1,2: unfold in_array; rewrite (proj1 (proj2 RE)); cbn [option_map]; exists [n], f; split; [reflexivity|]; split; [discriminate|]; split; [|split; [|contradiction]];
    [intros w [<-|[]]; apply (reached_contribution _ _ _ RE)|intros _; cbn [length]; change (Z.of_nat 1) with 1; rewrite zq_1; ring].
  rewrite EL. assert (E4 : frac (2 * (ndim g - 1)) 1 = zq 4) by (unfold ndim; rewrite D3; reflexivity). rewrite E4.
  rewrite in_array_all by (intros y Hy; apply (HL y Hy)).
  exists l. eexists. split; [reflexivity|]. pose proof (moves_le d) as ML. split; [|split; [|split; [contradiction|]]].
  - intros ->. cbn [length] in LL. pose proof (Z.pow_pos_nonneg 2 (3 - moves d)). lia.
  - intros y HY. apply (reached_contribution _ _ _ (HL y HY)).
  - intros _. split; [exact MV|]. rewrite LL.
    assert (P1 : zq (2 ^ (moves d - 1)) <> 0%Qc) by (apply Qc_pos_nz, zq_pos; pose proof (Z.pow_pos_nonneg 2 (moves d - 1)); lia).
    assert (P4 : (zq (2 ^ (3 - moves d)) = zq 4 / zq (2 ^ (moves d - 1)))%Qc).
    { rewrite <- (power_cases (moves d)) by lia. field. exact P1. }
    assert (P0 : zq 4 <> 0%Qc) by (apply Qc_pos_nz, zq_pos; lia). rewrite P4. field. split; assumption.
Qed.

(** * Fractions and shares *)
Context (IC : in_cell g b lo hi A q p).
Notation ctr := (centre g b lo hi A q).
Lemma LAm : lmin g <= lev A. Proof. apply VA. Qed.
Lemma zqN a : zq (ncells g b (lev A) a) <> 0%Qc. Proof. apply Qc_pos_nz, zq_pos, (N_pos g WF b BO _ a LAm). Qed.
Lemma line_len a z : grid_line g b lo hi (lev A) a z = (lo a + zq z * (len (lev A) a / two))%Qc.
Proof. unfold grid_line. fold (zq z). fold (zq (2 * ncells g b (lev A) a)). rewrite zq_mult, zq_2. unfold len, extent. field. split; [exact two_nz|apply zqN] || (split; [apply zqN|exact two_nz]). Qed.
Lemma line_centre a z k : grid_line g b lo hi (lev A) a (2 * (gpos b A q a + k) + z) = (ctr a + (zq (2 * k + z) - 1) * (len (lev A) a / two))%Qc.
Proof. unfold centre. rewrite !line_len. rewrite !zq_plus, !zq_mult, !zq_plus, zq_1. ring. Qed.
Lemma size_len_at a : flat g a = false -> cell_size g b ext A a = len (lev A) a.
Proof.
  clear D3. intros FA. unfold cell_size, getSize, len, ncells. rewrite (cell_count_eq g WF a (lev A)) by (try exact FA; pose proof VA as (? & _); lia).
  rewrite Q2Qc_div1, zq_mult. fold (zq (b a)). pose proof (ncell_pos g WF a (lev A) LAm) as P1. pose proof (BO a) as (P2 & _). field.
  split; apply Qc_pos_nz, zq_pos; lia.
Qed.
Lemma size_len a : cell_size g b ext A a = len (lev A) a. Proof. apply size_len_at, nflat. Qed.
Lemma center_eq_at a : flat g a = false -> (lo a + Q2Qc (getCenter g A a) * ext a + (frac (q a) 1 - frac (b a) 1 * half_f + half_f) * cell_size g b ext A a)%Qc = ctr a.
Proof.
  clear D3. intros FA. rewrite size_len_at by exact FA. unfold centre. rewrite line_len. unfold getCenter, getSize. rewrite FA, (cell_count_eq g WF a (lev A)) by (try exact FA; pose proof VA as (? & _); lia).
  pose proof (ncell_pos g WF a (lev A) LAm) as P1. pose proof (BO a) as (P2 & _).
  assert (E : Q2Qc (inject_Z (coord A a) * (1 / inject_Z (ncell g a (lev A))) + 1 / inject_Z (ncell g a (lev A)) / 2) = (zq (coord A a) * (1 / zq (ncell g a (lev A))) + 1 / zq (ncell g a (lev A)) / two)%Qc).
  { apply Qc_is_canon. unfold zq, Qcdiv, Qcinv, Qcmult, Qcplus. cbn [Q2Qc this]. rewrite !Qred_correct. reflexivity. }
  rewrite E, !frac_zq. unfold len, ncells, gpos. rewrite !zq_plus, !zq_mult, !zq_plus, !zq_mult, zq_1, zq_2, half_two. unfold two. field.
  repeat split; try exact two_nz; apply Qc_pos_nz, zq_pos; lia.
Qed.
Lemma center_eq a : (lo a + Q2Qc (getCenter g A a) * ext a + (frac (q a) 1 - frac (b a) 1 * half_f + half_f) * cell_size g b ext A a)%Qc = ctr a.
Proof. apply center_eq_at, nflat. Qed.
Lemma cell_box a : (ctr a - len (lev A) a / two <= p a)%Qc /\ (p a < ctr a + len (lev A) a / two)%Qc.
Proof.
  destruct (IC a) as (H1 & H2). split.
  - replace (2 * gpos b A q a) with (2 * (gpos b A q a + 0) + 0) in H1 by lia. rewrite line_centre in H1. change (2 * 0 + 0) with 0 in H1. rewrite zq_0 in H1.
    replace (ctr a - len (lev A) a / two)%Qc with (ctr a + (0 - 1) * (len (lev A) a / two))%Qc by ring. exact H1.
  - replace (2 * gpos b A q a + 2) with (2 * (gpos b A q a + 0) + 2) in H2 by lia. rewrite line_centre in H2. change (2 * 0 + 2) with 2 in H2. rewrite zq_2 in H2.
    replace (ctr a + len (lev A) a / two)%Qc with (ctr a + (two - 1) * (len (lev A) a / two))%Qc by (unfold two; ring). exact H2.
Qed.

Context (x : point) (X : forall a, x a = ((p a - ctr a) / len (lev A) a)%Qc).
Lemma sign_side a : cic_sign (x a) = side ctr p a.
Proof.
  unfold cic_sign, side. rewrite X. pose proof (x_sign (len (lev A) a) (ctr a) (p a) (len_pos _ a LAm)) as S.
  destruct (Qclt_le_dec (p a) (ctr a)) as [L|L].
  - replace (leb 0 _) with false; [reflexivity|]. symmetry. apply leb_false. apply Qcnot_le_lt. intros K. apply S in K. exact (Qclt_not_le _ _ L K).
  - replace (leb 0 _) with true; [reflexivity|]. symmetry. apply leb_spec, S, L.
Qed.
Lemma offsets_directions : cic_offsets x = cloud_directions ctr p.
Proof. unfold cic_offsets. rewrite !sign_side. reflexivity. Qed.
Definition chosen (d : axis -> Z) : Prop := forall a, d a = 0 \/ d a = side ctr p a.
Lemma directions_chosen d : In d (cloud_directions ctr p) -> chosen d.
Proof. cbn. intros H. repeat destruct H as [<-|H]; try contradiction; intros []; cbn; auto. Qed.
Lemma side_one a : Z.abs (side ctr p a) = 1. Proof. unfold side. destruct (Qclt_le_dec _ _); reflexivity. Qed.
Lemma part_share d a : (d a = 0 \/ d a = side ctr p a) ->
  (meet (p a - len (lev A) a / two) (p a + len (lev A) a / two) (grid_line g b lo hi (lev A) a (2 * (gpos b A q a + d a))) (grid_line g b lo hi (lev A) a (2 * (gpos b A q a + d a) + 2)) / len (lev A) a)%Qc
  = if d a =? 0 then cic_in (x a) else cic_out (x a).
Proof.
  intros C. rewrite X. set (h := len (lev A) a). pose proof (len_pos (lev A) a LAm) as HP. fold h in HP. destruct (cell_box a) as (B1 & B2). fold h in B1, B2.
  pose proof (half_twice h) as HH.
  replace (2 * (gpos b A q a + d a)) with (2 * (gpos b A q a + d a) + 0) at 1 by lia. rewrite !line_centre. fold h.
  destruct C as [->| C].
  - cbn [Z.eqb]. rewrite <- (meet_same h (ctr a) (p a) HP). change (2 * 0 + 0) with 0. change (2 * 0 + 2) with 2. rewrite zq_0, zq_2.
    assert (E1 : (ctr a + (0 - 1) * (h / two) = ctr a - h / two)%Qc) by ring.
    assert (E2 : (ctr a + (two - 1) * (h / two) = ctr a + h / two)%Qc) by (unfold two at 1; ring).
    rewrite E1, E2. reflexivity.
  - pose proof (side_one a) as S1. replace (d a =? 0) with false by lia. rewrite C. unfold side in *. destruct (Qclt_le_dec (p a) (ctr a)) as [L|L].
    + rewrite <- (meet_down h (ctr a) (p a) HP B1 B2 L). change (2 * -1 + 0) with (-2). change (2 * -1 + 2) with 0. rewrite zq_0.
      assert (zq (-2) = - two)%Qc as -> by qceq.
      assert (E1 : (ctr a + (- two - 1) * (h / two) = ctr a - h / two - h)%Qc) by (rewrite HH at 3; unfold two at 1; ring).
      assert (E2 : (ctr a + (0 - 1) * (h / two) = ctr a - h / two)%Qc) by ring.
      rewrite E1, E2. reflexivity.
    + rewrite <- (meet_up h (ctr a) (p a) HP B1 B2 L). change (2 * 1 + 0) with 2. change (2 * 1 + 2) with (2 + 2). rewrite zq_plus, zq_2.
      assert (E1 : (ctr a + (two - 1) * (h / two) = ctr a + h / two)%Qc) by (unfold two at 1; ring).
      assert (E2 : (ctr a + (two + two - 1) * (h / two) = ctr a + h / two + h)%Qc) by (rewrite HH at 3; unfold two at 1 2; ring).
      rewrite E1, E2. reflexivity.
Qed.
Lemma share_fraction d : chosen d -> cloud_share g b lo hi A q p d = cic_fraction x d.
Proof. intros C. unfold cloud_share, cic_fraction. fold (zq (ncells g b (lev A) AX)) (zq (ncells g b (lev A) AY)) (zq (ncells g b (lev A) AZ)). pose proof (part_share d AX (C AX)) as PX. pose proof (part_share d AY (C AY)) as PY. pose proof (part_share d AZ (C AZ)) as PZ. unfold len, extent in PX, PY, PZ. rewrite PX, PY, PZ. reflexivity. Qed.
Lemma out_bounds a : (0 <= cic_out (x a))%Qc /\ (0 < cic_in (x a))%Qc.
Proof.
  rewrite X. destruct (cell_box a) as (B1 & B2). pose proof (x_small _ _ _ (len_pos (lev A) a LAm) B1 B2) as S. set (y := ((p a - ctr a) / len (lev A) a)%Qc) in *. clearbody y.
  split.
  - unfold cic_out. destruct (Qclt_le_dec y 0) as [L|L]; [rewrite (fabs_neg _ L)|rewrite (fabs_pos _ L)]; clear -L; qlin.
  - unfold cic_in. unfold cic_out in S. set (z := fabs y) in *. clearbody z. assert (E : (1 / two < 1)%Qc) by reflexivity. clear -S E. set (e := (1 / two)%Qc) in *. clearbody e. qlin.
Qed.
Lemma fraction_nonneg d : (0 <= cic_fraction x d)%Qc.
Proof.
  unfold cic_fraction. assert (H : forall a, (0 <= (if (d a =? 0)%Z then cic_in (x a) else cic_out (x a)))%Qc).
  { intros a. destruct (out_bounds a) as (H1 & H2). destruct (d a =? 0); [apply Qclt_le_weak, H2|exact H1]. }
  apply Qcmult_nonneg; [apply Qcmult_nonneg|]; apply H.
Qed.
Lemma fractions_sum : csum (map (cic_fraction x) (cic_offsets x)) = 1%Qc.
Proof.
  assert (S : forall a, cic_sign (x a) =? 0 = false) by (intros a; unfold cic_sign; destruct (leb 0 (x a)); reflexivity).
  unfold csum, cic_offsets. cbn [map fold_right]. unfold cic_fraction. cbn [mkoff]. rewrite !S. cbn [Z.eqb]. unfold cic_in, cic_out. ring.
Qed.
End Cloud.
