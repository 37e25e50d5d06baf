(** C22: cells exchanged for a face mask. *)
From Verif Require Import Base OctreeSpec OctreeGeom OctreeModel FindNeighbors MarkerProofs MarkerLoop GhostExchange InitProofs RefineModel RefineProps
  CommSpec CommModel CommProofs LookupModel CellModel CellSpec CellProofs FaceMaskModel.

(** * Vocabulary *)
Definition lower_face (a : axis) : Z := match a with AX => 0 | AY => 2 | AZ => 4 end.
Definition upper_face (a : axis) : Z := match a with AX => 1 | AY => 3 | AZ => 5 end.
(** Cell [c] lies within [gc] layers of one of the faces of the mask. *)
Definition near_face (b : axis -> Z) (gc mask : Z) (c : axis -> Z) : Prop :=
  exists a, (Z.testbit mask (lower_face a) = true /\ c a < gc) \/
            (Z.testbit mask (upper_face a) = true /\ b a - gc <= c a).
(** Number of a cell in its block, x fastest. *)
Definition cell_number (b c : axis -> Z) : Z := c AX + b AX * c AY + b AX * b AY * c AZ.
(** Block sizes the 32-bit cell numbers can represent. *)
Definition small_block (b : axis -> Z) : Prop := (forall a, 1 <= b a < 2^31) /\ b AX * b AY * b AZ < 2^32.

(** * Boxes *)
Definition in_box3 (box : (Z * Z) * (Z * Z) * (Z * Z)) (c : axis -> Z) : Prop :=
  let '((x0, x1), (y0, y1), (z0, z1)) := box in x0 <= c AX < x1 /\ y0 <= c AY < y1 /\ z0 <= c AZ < z1.
Definition box_ok (b : axis -> Z) (box : (Z * Z) * (Z * Z) * (Z * Z)) : Prop :=
  let '((x0, x1), (y0, y1), (z0, z1)) := box in 0 <= x0 <= x1 /\ x1 <= b AX /\ 0 <= y0 <= y1 /\ y1 <= b AY /\ 0 <= z0 <= z1 /\ z1 <= b AZ.

Definition vec (x y z : Z) (a : axis) : Z := match a with AX => x | AY => y | AZ => z end.

Lemma mix_lt m n x y : 0 <= x < m -> 0 <= y < n -> 0 <= x + m * y < m * n.
Proof. nia. Qed.
Lemma mix_inj m x y x' y' : 0 <= x < m -> 0 <= x' < m -> x + m * y = x' + m * y' -> x = x' /\ y = y'.
Proof. intros H H' E. assert (y = y') by nia. subst. lia. Qed.
Lemma cell_number_range b c : in_block b c -> 0 <= cell_number b c < b AX * b AY * b AZ.
Proof.
  intros H. pose proof (H AX). pose proof (H AY). pose proof (H AZ). unfold cell_number. apply mix_lt; [|assumption]. apply mix_lt; assumption.
Qed.
Lemma cell_number_inj b c c' : in_block b c -> in_block b c' -> cell_number b c = cell_number b c' -> forall a, c a = c' a.
Proof.
  intros H H' E. unfold cell_number in E. pose proof (mix_lt _ _ _ _ (H AX) (H AY)). pose proof (mix_lt _ _ _ _ (H' AX) (H' AY)).
  apply mix_inj in E; [|assumption..]. destruct E as [E EZ]. apply mix_inj in E; [|apply H|apply H']. destruct E as [EX EY]. intros []; assumption.
Qed.
Lemma decode_nat dx dy dz i : 0 < dx -> 0 < dy -> 0 <= i < dx * dy * dz ->
  0 <= i mod dx < dx /\ 0 <= (i / dx) mod dy < dy /\ 0 <= i / dx / dy < dz /\ i = i mod dx + dx * ((i / dx) mod dy) + dx * dy * (i / dx / dy).
Proof.
  intros Dx Dy Hi. pose proof (Z.div_mod i dx ltac:(lia)). pose proof (Z.mod_pos_bound i dx Dx). pose proof (Z.div_mod (i / dx) dy ltac:(lia)).
  pose proof (Z.mod_pos_bound (i / dx) dy Dy). repeat split; try lia; try nia.
  - apply Z.div_pos; [apply Z.div_pos; lia|lia].
  - apply Z.div_lt_upper_bound; [lia|]. apply Z.div_lt_upper_bound; [lia|]. nia.
Qed.
Lemma encode_div dx dy x y z : 0 <= x < dx -> 0 <= y < dy -> 
  let i := x + dx * y + dx * dy * z in i mod dx = x /\ (i / dx) mod dy = y /\ i / dx / dy = z.
Proof.
  intros Hx Hy i. assert (E : i = x + (y + dy * z) * dx) by (unfold i; ring).
  assert (E1 : i / dx = y + z * dy) by (rewrite E, Z.div_add, Z.div_small by lia; ring).
  split; [rewrite E, Z_mod_plus_full; apply Z.mod_small; lia|]. rewrite E1. split; [rewrite Z_mod_plus_full; apply Z.mod_small; lia|].
  rewrite Z.div_add, Z.div_small by lia. reflexivity.
Qed.

Lemma NoDup_glue {A} (l1 l2 : list A) : NoDup l1 -> NoDup l2 -> (forall x, In x l1 -> In x l2 -> False) -> NoDup (l1 ++ l2).
Proof.
  induction 1 as [|x l NI ND IH]; intros N2 D; [exact N2|]. cbn. constructor.
  - intros HI. apply in_app_or in HI. destruct HI as [HI|HI]; [exact (NI HI)|exact (D x (or_introl eq_refl) HI)].
  - apply IH; [exact N2|]. intros y Hy. apply D. right. exact Hy.
Qed.

Section Mask.
Variable b : axis -> Z.
Hypothesis SB : small_block b.

Lemma box_row box : box_ok b box -> exists l, (forall row, Z.of_nat (length row + length l) <= b AX * b AY * b AZ -> add_cells b (b AX * b AY * b AZ) row box = Some (row ++ l)) /\
  NoDup l /\ forall i, In i l <-> exists c, in_box3 box c /\ i = cell_number b c.
Proof.
  destruct box as [[[x0 x1] [y0 y1]] [z0 z1]]. intros (X0 & X1 & Y0 & Y1 & Z0 & Z1). destruct SB as (SB1 & SB2).
  pose proof (SB1 AX) as BX. pose proof (SB1 AY) as BY. pose proof (SB1 AZ) as BZ.
  set (dx := x1 - x0). set (dy := y1 - y0). set (dz := z1 - z0).
  assert (VOL : 0 <= dx * dy * dz <= b AX * b AY * b AZ).
  { assert (0 <= dx * dy <= b AX * b AY) by (unfold dx, dy; nia). split; [unfold dz; nia|]. apply Z.mul_le_mono_nonneg; unfold dz; lia. }
  set (f := fun i => icell b (i mod dx + x0) ((i / dx) mod dy + y0) ((i / dx) / dy + z0)).
  assert (FI : forall i, 0 <= i < dx * dy * dz -> exists c, in_box3 ((x0,x1),(y0,y1),(z0,z1)) c /\ f i = cell_number b c /\
            i = (c AX - x0) + dx * (c AY - y0) + dx * dy * (c AZ - z0)).
  { intros i Hi. assert (0 < dx /\ 0 < dy) as [D1 D2].
    { assert (0 <= dx) by (unfold dx; lia). assert (0 <= dy) by (unfold dy; lia). assert (0 <= dz) by (unfold dz; lia). nia. }
    destruct (decode_nat dx dy dz i D1 D2 Hi) as (M1 & M2 & M3 & M4).
    set (c := vec (i mod dx + x0) ((i / dx) mod dy + y0) ((i / dx) / dy + z0)).
    assert (IB : in_block b c) by (intros []; cbn; unfold dx, dy, dz in *; lia).
    exists c. split; [cbn; unfold dx, dy, dz in *; lia|]. split.
    - unfold f, icell. change (u32 (cell_number b c) = cell_number b c). apply u32_small. pose proof (cell_number_range b c IB). lia.
    - unfold c. cbn [vec]. rewrite M4 at 1. ring. }
  exists (map f (zrange 0 (dx * dy * dz))). split; [|split].
  - intros row HR. unfold add_cells. rewrite map_length in HR.
    assert (LZ : Z.of_nat (length (zrange 0 (dx * dy * dz))) = dx * dy * dz) by (rewrite zrange_length; lia).
    assert (E1 : u32 (x1 - x0) = dx) by (apply u32_small; unfold dx; lia).
    assert (E2 : u32 (y1 - y0) = dy) by (apply u32_small; unfold dy; lia).
    assert (E3 : u32 (z1 - z0) = dz) by (apply u32_small; unfold dz; lia).
    rewrite E1, E2, E3. rewrite (u32_small (dx * dy * dz)) by lia.
    replace (Z.of_nat (length row) + dx * dy * dz <=? b AX * b AY * b AZ) with true by lia. reflexivity.
  - assert (INJ : forall i j, In i (zrange 0 (dx * dy * dz)) -> In j (zrange 0 (dx * dy * dz)) -> f i = f j -> i = j).
    { intros i j Hi Hj E. apply in_zrange in Hi, Hj. destruct (FI i Hi) as (c & C1 & C2 & C3). destruct (FI j Hj) as (c' & C1' & C2' & C3').
      rewrite C2, C2' in E.
      assert (Q : forall a, c a = c' a) by (apply (cell_number_inj b); [intros []; cbn in C1; lia|intros []; cbn in C1'; lia|exact E]).
      rewrite C3, C3', !Q. reflexivity. }
    pose proof (NoDup_map_inv (fun x : Z => x) (zrange 0 (dx * dy * dz))) as _.
    assert (ND : NoDup (zrange 0 (dx * dy * dz))).
    { pose proof (zrange_sorted 0 (dx * dy * dz)) as S. induction S as [|x l S IH F]; [constructor|]. constructor; [|apply IH].
      - intros HI. rewrite Forall_forall in F. specialize (F x HI). lia.
      - intros i j Hi Hj. apply INJ; right; assumption. }
    revert ND INJ. induction (zrange 0 (dx * dy * dz)) as [|x l IH]; intros ND INJ; cbn [map]; constructor.
    + intros HI. apply in_map_iff in HI. destruct HI as (y & E & Hy). inversion ND as [|? ? NI ND']; subst. apply NI.
      rewrite <- (INJ y x); [exact Hy|right; exact Hy|left; reflexivity|exact E].
    + inversion ND; subst. apply IH; [assumption|]. intros i j Hi Hj. apply INJ; right; assumption.
  - intros i. rewrite in_map_iff. split.
    + intros (k & E & Hk). apply in_zrange in Hk. destruct (FI k Hk) as (c & C1 & C2 & _). exists c. split; [exact C1|congruence].
    + intros (c & (C1 & C2 & C3) & ->). exists ((c AX - x0) + dx * (c AY - y0) + dx * dy * (c AZ - z0)).
      destruct (encode_div dx dy (c AX - x0) (c AY - y0) (c AZ - z0)) as (Q1 & Q2 & Q3); [unfold dx; lia|unfold dy; lia|].
      set (k := c AX - x0 + dx * (c AY - y0) + dx * dy * (c AZ - z0)) in *.
      split.
      * unfold f. rewrite Q1, Q2, Q3, !Z.sub_add. change (u32 (cell_number b c) = cell_number b c). apply u32_small.
        assert (IB : in_block b c) by (clear -C1 C2 C3 X0 X1 Y0 Y1 Z0 Z1; intros []; lia). pose proof (cell_number_range b c IB). lia.
      * apply in_zrange. pose proof (cell_number_range (vec dx dy dz) (vec (c AX - x0) (c AY - y0) (c AZ - z0))) as R. unfold cell_number in R. cbn [vec] in R. fold k in R.
        apply R. intros []; cbn; unfold dx, dy, dz; lia.
Qed.

Definition apart (p q : (Z * Z) * (Z * Z) * (Z * Z)) : Prop := forall c, in_box3 p c -> in_box3 q c -> False.

Lemma boxes_row boxes : forall row, Forall (box_ok b) boxes -> ForallOrdPairs apart boxes -> NoDup row ->
  (forall i, In i row -> exists c, in_block b c /\ (forall box, In box boxes -> ~ in_box3 box c) /\ i = cell_number b c) ->
  exists l, fold_left (fun r box => match r with Some row => add_cells b (b AX * b AY * b AZ) row box | None => None end) boxes (Some row) = Some l /\
    NoDup l /\ (length l <= Z.to_nat (b AX * b AY * b AZ))%nat /\ forall i, In i l <-> In i row \/ exists box c, In box boxes /\ in_box3 box c /\ i = cell_number b c.
Proof.
  assert (CAP : forall l : list Z, NoDup l -> (forall i, In i l -> 0 <= i < b AX * b AY * b AZ) -> (length l <= Z.to_nat (b AX * b AY * b AZ))%nat).
  { intros l ND H. pose proof (zrange_length 0 (b AX * b AY * b AZ)) as LZ. destruct SB as (SB1 & _). pose proof (SB1 AX). pose proof (SB1 AY). pose proof (SB1 AZ).
    assert (0 <= b AX * b AY * b AZ) by nia. specialize (LZ ltac:(lia)).
    pose proof (NoDup_incl_length ND (l' := zrange 0 (b AX * b AY * b AZ))). assert (incl l (zrange 0 (b AX * b AY * b AZ))) by (intros i Hi; apply in_zrange, H, Hi). lia. }
  assert (BIN : forall box c, box_ok b box -> in_box3 box c -> in_block b c).
  { intros [[[? ?] [? ?]] [? ?]] c H1 H2 []; cbn in H1, H2; lia. }
  induction boxes as [|box boxes IH]; intros row F FO ND HR; cbn [fold_left].
  - exists row. split; [reflexivity|]. split; [exact ND|]. split.
    + apply CAP; [exact ND|]. intros i Hi. destruct (HR i Hi) as (c & C1 & _ & ->). apply cell_number_range, C1.
    + intros i. split; [auto|]. intros [H|(box & c & [] & _)]. exact H.
  - inversion F as [|? ? BO F']; subst. inversion FO as [|? ? AP FO']; subst. destruct (box_row box BO) as (l & L1 & L2 & L3).
    assert (ND' : NoDup (row ++ l)).
    { apply NoDup_glue; [exact ND|exact L2|]. intros i Hi Hi'. destruct (HR i Hi) as (c & C1 & C2 & ->). apply L3 in Hi'. destruct Hi' as (c' & C' & E).
      apply (C2 box (or_introl eq_refl)). pose proof (cell_number_inj b c c' C1 (BIN _ _ BO C') E) as Q. destruct box as [[[? ?] [? ?]] [? ?]]. cbn in *. rewrite !Q. exact C'. }
    rewrite L1.
    2: { rewrite <- app_length. pose proof (CAP (row ++ l) ND'). destruct SB as (SB1 & _). pose proof (SB1 AX). pose proof (SB1 AY). pose proof (SB1 AZ).
      assert (0 <= b AX * b AY * b AZ) by nia. enough (length (row ++ l) <= Z.to_nat (b AX * b AY * b AZ))%nat by lia. apply H. intros i Hi. apply in_app_or in Hi.
      destruct Hi as [Hi|Hi]; [destruct (HR i Hi) as (c & C1 & _ & ->); apply cell_number_range, C1|apply L3 in Hi; destruct Hi as (c & C1 & ->); apply cell_number_range; eapply BIN; eassumption]. }
    destruct (IH (row ++ l) F' FO' ND') as (l' & E & N & LE & HI).
    { intros i Hi. apply in_app_or in Hi. destruct Hi as [Hi|Hi].
      - destruct (HR i Hi) as (c & C1 & C2 & ->). exists c. split; [exact C1|]. split; [|reflexivity]. intros q Hq. apply C2. right. exact Hq.
      - apply L3 in Hi. destruct Hi as (c & C1 & ->). exists c. split; [eapply BIN; eassumption|]. split; [|reflexivity].
        intros q Hq HC. rewrite Forall_forall in AP. exact (AP q Hq c C1 HC). }
    exists l'. split; [exact E|]. split; [exact N|]. split; [exact LE|]. intros i. rewrite HI, in_app_iff, L3. split.
    + intros [[H|(c & C1 & ->)]|(q & c & Q1 & Q2 & ->)]; [left; exact H|right; exists box, c; cbn; auto|right; exists q, c; cbn; auto].
    + intros [H|(q & c & [<-|Q1] & Q2 & ->)]; [auto|left; right; eauto|right; eauto].
Qed.

(** Each cell near a masked face is listed exactly once, and no other. *)
Theorem C22_cells gc mask : 0 <= gc -> gc <= b AX -> gc <= b AY -> gc < 2^31 ->
  exists l, mask_cells b gc mask = Some l /\ NoDup l /\
    forall i, In i l <-> exists c, in_block b c /\ near_face b gc mask c /\ i = cell_number b c.
Proof.
  intros G0 GX GY G31. destruct SB as (SB1 & SB2). pose proof (SB1 AX) as BX. pose proof (SB1 AY) as BY. pose proof (SB1 AZ) as BZ.
  assert (EB : mask_boxes b gc mask = 
    let h f := Z.testbit mask f in
    let xmin := if h 0 then gc else 0 in let xr := Z.max (b AX - gc) xmin in let xmax := if h 1 then xr else b AX in
    let ymin := if h 2 then gc else 0 in let yr := Z.max (b AY - gc) ymin in let ymax := if h 3 then yr else b AY in
    let zl := Z.min gc (b AZ) in let zmin := if h 4 then zl else 0 in let zr := Z.max (b AZ - gc) zmin in
    (if h 0 then [((0, gc), (0, b AY), (0, b AZ))] else []) ++ (if h 1 then [((xr, b AX), (0, b AY), (0, b AZ))] else []) ++
    (if h 2 then [((xmin, xmax), (0, gc), (0, b AZ))] else []) ++ (if h 3 then [((xmin, xmax), (yr, b AY), (0, b AZ))] else []) ++
    (if h 4 then [((xmin, xmax), (ymin, ymax), (0, zl))] else []) ++ (if h 5 then [((xmin, xmax), (ymin, ymax), (zr, b AZ))] else [])).
  { unfold mask_boxes, has_face. cbv zeta. rewrite (u32_small (b AX - gc)), (u32_small (b AY - gc)) by lia.
    rewrite (s32_small (b AZ)), (s32_small gc) by lia. 
    assert (ZM : 0 <= (if Z.testbit mask 4 then Z.min gc (b AZ) else 0) < 2^31) by (destruct (Z.testbit mask 4); lia).
    rewrite s32_small by lia. rewrite (u32_small (Z.max _ _)) by lia. reflexivity. }
  unfold mask_cells. rewrite EB. clear EB. cbv zeta.
  edestruct boxes_row as (l & E & N & _ & HI); [| | |
    |exists l; split; [exact E|]; split; [exact N|]; intros i; rewrite HI].
  - destruct (Z.testbit mask 0), (Z.testbit mask 1), (Z.testbit mask 2), (Z.testbit mask 3), (Z.testbit mask 4), (Z.testbit mask 5); cbn [app];
      repeat constructor; lia.
  - destruct (Z.testbit mask 0), (Z.testbit mask 1), (Z.testbit mask 2), (Z.testbit mask 3), (Z.testbit mask 4), (Z.testbit mask 5); cbn [app];
      repeat constructor; intros c (? & ? & ?) (? & ? & ?); lia.
  - constructor.
  - intros i [].
  - assert (NF : forall c, near_face b gc mask c <->
       (Z.testbit mask 0 = true /\ c AX < gc) \/ (Z.testbit mask 1 = true /\ b AX - gc <= c AX) \/ (Z.testbit mask 2 = true /\ c AY < gc) \/
       (Z.testbit mask 3 = true /\ b AY - gc <= c AY) \/ (Z.testbit mask 4 = true /\ c AZ < gc) \/ (Z.testbit mask 5 = true /\ b AZ - gc <= c AZ)).
    { intros c. split.
      - intros ([] & H); cbn in H; tauto.
      - intros [H|[H|[H|[H|[H|H]]]]]; [exists AX|exists AX|exists AY|exists AY|exists AZ|exists AZ]; cbn; tauto. }
    assert (KEY : forall boxes, (forall c, (exists box, In box boxes /\ in_box3 box c) <-> in_block b c /\ near_face b gc mask c) ->
      ((In i [] \/ exists box c, In box boxes /\ in_box3 box c /\ i = cell_number b c) <-> exists c, in_block b c /\ near_face b gc mask c /\ i = cell_number b c)).
    { intros boxes H. split.
      - intros [[]|(box & c & B1 & B2 & ->)]. exists c. destruct (proj1 (H c)) as (A1 & A2); [eauto|auto].
      - intros (c & A1 & A2 & ->). right. destruct (proj2 (H c) (conj A1 A2)) as (box & B1 & B2). eauto. }
    apply KEY. intros c. rewrite NF.
    assert (IB : in_block b c <-> (0 <= c AX < b AX /\ 0 <= c AY < b AY /\ 0 <= c AZ < b AZ)) by (split; [intros H; pose proof (H AX); pose proof (H AY); pose proof (H AZ); auto|intros H []; lia]).
    rewrite IB. clear -BX BY BZ G0 GX GY.
    assert (EXL : forall (x : Z * Z * (Z * Z) * (Z * Z)) (h : bool) l, (exists box, In box ((if h then [x] else []) ++ l) /\ in_box3 box c) <-> (h = true /\ in_box3 x c) \/ (exists box, In box l /\ in_box3 box c)).
    { intros x [] l; cbn [app In]; split; intros H.
      - destruct H as (q & [<-|H] & I); eauto.
      - destruct H as [[_ H]|(q & H & I)]; eauto.
      - right. exact H.
      - destruct H as [[? _]|H]; [discriminate|exact H]. }
    rewrite !EXL. rewrite <- (app_nil_r (if Z.testbit mask 5 then _ else _)), EXL. cbn [in_box3 In].
    destruct (Z.testbit mask 0), (Z.testbit mask 1), (Z.testbit mask 2), (Z.testbit mask 3), (Z.testbit mask 4), (Z.testbit mask 5);
      (split; [intros [H|[H|[H|[H|[H|[H|(q & [] & _)]]]]]]; lia|intros H]);
      repeat match goal with H : _ /\ _ |- _ => destruct H end;
      lia.
Qed.
End Mask.
