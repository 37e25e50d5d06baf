(** Conversion of cell indices across octants (C24), boundary values (C43), block-local
    neighbour queries (C55). *)
From Verif Require Import Base OctreeSpec OctreeGeom OctreeModel FindNeighbors MeshSpec
  HistorySpec HistoryProofs OctreeProps CellModel CellSpec CellProofs CellProps.
Open Scope Z_scope.

(** * C24: from a wide array to the arrays of the octants *)

(** Position [p] of the wide array of [A] is the cell [p - w] counted from the block of [A]. *)
Definition unlayer (w p : axis -> Z) : axis -> Z := fun a => p a - w a.
Definition zero_off : axis -> Z := fun _ => 0.

Section Convert.
Context (g : geom) (M : mesh) (R : rank) (i : nat) (A : oct).
Context (WF : wf_geom g) (OK : mesh_ok g M) (HRM : In R M) (HA : nth_error (loc R) i = Some A).
Context (b w b' p : axis -> Z) (BO : block_ok g b) (LW : layered b w b') (IP : in_block b' p).
Context (WS : forall a, 2 * w a - 1 <= b a) (FW : forall a, flat g a = true -> w a = 0).

Lemma conv_aux : exists r d, convert_index_ghost_aux g (loc R ++ gho R) b (mkCell i p b' LOCAL_TO_BLOCK) = Some (r, d) /\
  (forall a, d a < 0 <-> p a - w a < 0) /\ (forall a, c_blk r a = b a) /\
  (~ stays g b A (unlayer w p) zero_off -> c_status r = BOUNDARY /\ c_oct r = i /\ forall a, c_pos r a = u32 (p a - w a + b a)) /\
  (stays g b A (unlayer w p) zero_off ->
     exists B, nth_error (loc R ++ gho R) (c_oct r) = Some B /\ In B (leaves M) /\ in_block b (c_pos r) /\
       designates g b A B (c_pos r) (wanted g b A (unlayer w p) zero_off) (fun a => p a - w a <? 0) (c_status r)).
Proof.
  destruct (mesh_local g M R i A WF OK HRM HA) as (INC & HA' & NB).
  assert (VA : valid g A) by (apply (tiles_valid g _ A (ok_tiles g M OK)), INC; eapply nth_error_In, HA').
  assert (SM : forall a, 0 <= p a < b' a /\ 0 <= w a /\ b' a = b a + 2 * w a /\ b' a <= 16384 /\ 1 <= b a) by (intros a; specialize (LW a); specialize (IP a); change (2^14) with 16384 in LW; lia).
  unfold convert_index_ghost_aux. cbn [c_blk c_pos c_oct is_local c_status].
  assert (LOCAL : in_block b (unlayer w p) -> forall q, (forall a, q a = unlayer w p a) ->
    stays g b A (unlayer w p) zero_off /\ in_block b q /\ designates g b A A q (wanted g b A (unlayer w p) zero_off) (fun a => p a - w a <? 0) LOCAL_TO_BLOCK).
  { intros IU q EQ.
    assert (RG : forall a, 0 <= gpos b A (unlayer w p) a + 0 < ncells g b (lev A) a).
    { intros a. unfold gpos, ncells. specialize (IU a). pose proof (proj2 VA a). pose proof (SM a). nia. }
    split; [intros a; right; apply RG|]. split; [intros a; rewrite EQ; apply IU|].
    cbn [designates]. split; [reflexivity|]. intros a. unfold wanted, zero_off. rewrite Z.mod_small by apply RG. unfold gpos. rewrite EQ. lia. }
  destruct (same_block b' b) eqn:SB.
  - pose proof (proj1 (same_block_spec b' b) SB) as EQ. assert (W0 : forall a, w a = 0) by (intros a; specialize (SM a); specialize (EQ a); lia).
    assert (IU : in_block b (unlayer w p)) by (intros a; unfold unlayer; specialize (SM a); rewrite W0 in *; lia).
    destruct (LOCAL IU p) as (L1 & L2 & L3); [intros a; unfold unlayer; rewrite W0; lia|].
    eexists. eexists. split; [reflexivity|]. split; [intros a; specialize (SM a); rewrite W0 in *; lia|]. split; [exact EQ|]. split; [contradiction|].
    intros _. exists A. cbn [c_oct c_pos c_status]. split; [exact HA'|]. split; [apply INC; eapply nth_error_In, HA'|]. split; [exact L2|exact L3].
  - assert (P1 : forall a, s32 (p a + Z.quot (b a - b' a) 2) = p a - w a).
    { intros a. specialize (SM a). replace (b a - b' a) with (- (2 * w a)) by lia. rewrite Z.quot_opp_l, quot2 by lia. apply s32_small. change (2^31) with 2147483648. lia. }
    set (pp := fun a => s32 (p a + Z.quot (b a - b' a) 2)) in *.
    destruct (all3 (fun a => (0 <=? s32 (p a + Z.quot (b a - b' a) 2)) && (s32 (p a + Z.quot (b a - b' a) 2) <? b a))) eqn:E; cbn [negb].
    + assert (IU : in_block b (unlayer w p)).
      { intros a. pose proof (proj1 (all3_spec _) E a) as K. cbv beta in K. rewrite P1 in K. unfold unlayer. lia. }
      destruct (LOCAL IU pp) as (L1 & L2 & L3); [exact P1|].
      eexists. eexists. split; [reflexivity|]. split; [intros a; specialize (IU a); unfold unlayer in IU; lia|]. split; [reflexivity|]. split; [contradiction|].
      intros _. exists A. cbn [c_oct c_pos c_status]. split; [exact HA'|]. split; [apply INC; eapply nth_error_In, HA'|]. split; [exact L2|exact L3].
    + set (inp := fun a => if s32 (p a + Z.quot (b a - b' a) 2) <? 0 then 0 else if b a <=? s32 (p a + Z.quot (b a - b' a) 2) then b a - 1 else s32 (p a + Z.quot (b a - b' a) 2)).
      set (d := fun a => if s32 (p a + Z.quot (b a - b' a) 2) <? 0 then s32 (p a + Z.quot (b a - b' a) 2) else if b a <=? s32 (p a + Z.quot (b a - b' a) 2) then s32 (p a + Z.quot (b a - b' a) 2) - b a + 1 else 0).
      assert (SP : forall a, 0 <= inp a < b a /\ inp a + d a = p a - w a /\ Z.abs (d a) <= w a /\ (d a < 0 <-> p a - w a < 0)).
      { intros a. unfold inp, d. rewrite P1. specialize (SM a). destruct (p a - w a <? 0) eqn:Q1; [lia|]. destruct (b a <=? p a - w a) eqn:Q2; lia. }
      assert (IB : in_block b inp) by (intros a; apply SP).
      destruct (gn_correct g WF (leaves M) (loc R ++ gho R) i A (ok_tiles g M OK) (ok_balanced g M OK) INC HA' NB b inp d BO IB) as (r & ER & EB & H1 & H2 & _).
      { intros a. specialize (SP a). specialize (WS a). lia. }
      { intros a F. specialize (SP a). specialize (FW a F). lia. }
      rewrite ER. exists r, d. split; [reflexivity|]. split; [intros a; apply SP|]. split; [rewrite EB; reflexivity|].
      assert (GP : forall a, gpos b A inp a + d a = gpos b A (unlayer w p) a + zero_off a) by (intros a; unfold gpos, unlayer, zero_off; specialize (SP a); lia).
      split.
      * intros NS. destruct H1 as (H1a & H1b & H1c).
        { destruct (classic_stays g b A inp d) as [K|K]; [|exact K]. exfalso. apply NS. intros a. rewrite <- GP. apply K. }
        split; [exact H1a|]. split; [exact H1b|]. intros a. rewrite H1c. f_equal. specialize (SP a). lia.
      * intros S0. destruct H2 as (B & HB1 & HB2 & HB3 & HB4); [intros a; rewrite GP; apply S0|].
        exists B. split; [exact HB1|]. split; [exact HB2|]. split; [exact HB3|].
        destruct (c_status r); cbn [designates] in HB4 |- *; try contradiction; destruct HB4 as (Q1 & Q2); (split; [exact Q1|]); intros a; rewrite Q2; unfold wanted; rewrite <- GP; try reflexivity.
        destruct (flat g a); [reflexivity|]. f_equal. specialize (SP a). replace (inp a + d a) with (p a - w a) by lia. reflexivity.
Qed.
End Convert.

(** The cell found for a position of the wide array of a local octant. *)
Theorem C24_wide_neighbour g M R i A b w b' p : wf_geom g -> mesh_ok g M -> In R M -> nth_error (loc R) i = Some A ->
  block_ok g b -> layered b w b' -> in_block b' p -> (forall a, 2 * w a - 1 <= b a) -> (forall a, flat g a = true -> w a = 0) ->
  exists r, convert_index_getNeighbor g (loc R ++ gho R) b (mkCell i p b' LOCAL_TO_BLOCK) = Some r /\ (forall a, c_blk r a = b a) /\
    (~ stays g b A (unlayer w p) zero_off -> c_status r = BOUNDARY /\ c_oct r = i /\ forall a, c_pos r a = u32 (p a - w a + b a)) /\
    (stays g b A (unlayer w p) zero_off ->
       exists B, nth_error (loc R ++ gho R) (c_oct r) = Some B /\ In B (leaves M) /\ in_block b (c_pos r) /\
         designates g b A B (c_pos r) (wanted g b A (unlayer w p) zero_off) (fun a => p a - w a <? 0) (c_status r)).
Proof.
  intros WF OK HRM HA BO LW IP WS FW. destruct (conv_aux g M R i A WF OK HRM HA b w b' p BO LW IP WS FW) as (r & d & E & _ & H).
  exists r. unfold convert_index_getNeighbor. rewrite E. split; [reflexivity|exact H].
Qed.

Lemma wide_odd bb ww V pp x q : 1 <= bb -> 2 * ww <= bb -> - ww <= pp < 0 -> 0 <= q < bb ->
  x * bb + q = 2 * ((V - 1) * bb + (bb + pp)) + 1 -> 1 <= q.
Proof.
  intros B1 W P Q E. destruct (Z.eq_dec q 0) as [->|]; [exfalso|lia].
  assert (K : (x - 2 * V) * bb = 2 * pp + 1) by lia. assert (x - 2 * V < 0) by nia. assert (-1 < x - 2 * V) by nia. lia.
Qed.
(** The conversion for ghosted arrays gives the first of the smaller cells. *)
Theorem C24_wide_first g M R i A b w b' p : wf_geom g -> mesh_ok g M -> In R M -> nth_error (loc R) i = Some A ->
  block_ok g b -> layered b w b' -> in_block b' p -> (forall a, 2 * w a <= b a) -> (forall a, flat g a = true -> w a = 0) ->
  exists r, convert_index_ghost g (loc R ++ gho R) b (mkCell i p b' LOCAL_TO_BLOCK) = Some r /\ (forall a, c_blk r a = b a) /\
    (~ stays g b A (unlayer w p) zero_off -> c_status r = BOUNDARY /\ c_oct r = i /\ forall a, c_pos r a = u32 (p a - w a + b a)) /\
    (stays g b A (unlayer w p) zero_off ->
       exists B, nth_error (loc R ++ gho R) (c_oct r) = Some B /\ In B (leaves M) /\ in_block b (c_pos r) /\
         designates g b A B (c_pos r) (wanted g b A (unlayer w p) zero_off) (fun _ => false) (c_status r)).
Proof.
  intros WF OK HRM HA BO LW IP WS FW. assert (WS' : forall a, 2 * w a - 1 <= b a) by (intros a; specialize (WS a); lia).
  destruct (conv_aux g M R i A WF OK HRM HA b w b' p BO LW IP WS' FW) as (r & d & E & HS & EB & H1 & H2).
  destruct (mesh_local g M R i A WF OK HRM HA) as (INC & HA' & NB).
  assert (VA : valid g A) by (apply (tiles_valid g _ A (ok_tiles g M OK)), INC; eapply nth_error_In, HA').
  unfold convert_index_ghost. rewrite E.
  set (o := fun a => if d a <? 0 then -1 else 0).
  destruct ((level_diff r =? -1) && negb (all3 (fun a => (if d a <? 0 then -1 else 0) =? 0))) eqn:C.
  - apply andb_prop in C. destruct C as (C1 & C2).
    assert (ES : c_status r = SMALLER) by (unfold level_diff in C1; destruct (c_status r); try discriminate; reflexivity).
    assert (DEC : stays g b A (unlayer w p) zero_off).
    { destruct (classic_stays g b A (unlayer w p) zero_off) as [K|(a & K1 & K2)]; [exact K|]. destruct H1 as (K3 & _); [intros K; destruct (K a); congruence|]. congruence. }
    destruct (H2 DEC) as (B & HB1 & HB2 & HB3 & HB4). rewrite ES in HB4. cbn [designates] in HB4. destruct HB4 as (LB & HP).
    assert (Q1 : forall a, flat g a = false -> p a - w a < 0 -> 1 <= c_pos r a).
    { intros a F PN. pose proof (HP a) as P. rewrite F in P. replace (p a - w a <? 0) with true in P by lia. pose proof (proj1 (BO a)) as B1.
      pose proof (IP a) as I1. pose proof (LW a) as L1. pose proof (WS a) as W1.
      pose proof (ncell_pos g WF a (lev A) ltac:(destruct VA; lia)) as NP.
      assert (TV : wanted g b A (unlayer w p) zero_off a = ((coord A a + -1) mod ncell g a (lev A)) * b a + (b a + (p a - w a))).
      { unfold wanted, ncells, gpos, unlayer, zero_off. replace (coord A a * b a + (p a - w a) + 0) with ((coord A a + -1) * b a + (b a + (p a - w a))) by lia.
        apply mod_pos; lia. }
      rewrite TV in P. unfold gpos in P.
      apply (wide_odd (b a) (w a) ((coord A a + -1) mod ncell g a (lev A) + 1) (p a - w a) (coord B a) (c_pos r a)); [lia|lia|lia|apply HB3|].
      rewrite P. do 3 f_equal. lia. }
    assert (OF : forall a, flat g a = true -> o a = 0).
    { intros a F. unfold o. specialize (HS a). pose proof (IP a). pose proof (FW a F). destruct (d a <? 0) eqn:Q; [|reflexivity]. lia. }
    assert (UU : forall a, u32 (c_pos r a + o a) = c_pos r a + o a /\ 0 <= c_pos r a + o a < b a).
    { intros a. assert (RG : 0 <= c_pos r a + o a < b a).
      { pose proof (HB3 a). unfold o. destruct (d a <? 0) eqn:Q; [|lia]. destruct (flat g a) eqn:F.
        - specialize (OF a F). unfold o in OF. rewrite Q in OF. discriminate.
        - assert (p a - w a < 0) by (apply HS; lia). pose proof (Q1 a F ltac:(lia)). lia. }
      split; [|exact RG]. apply u32_small. pose proof (proj1 (BO a)). change (2^32) with 4294967296. change (2^14) with 16384 in *. lia. }
    unfold getNeighbor. fold o.
    assert (EA : all3 (fun a => u32 (c_pos r a + o a) <? c_blk r a) = true).
    { apply all3_spec. intros a. rewrite EB. destruct (UU a) as (U1 & U2). rewrite U1. lia. }
    change (fun a : axis => u32 (c_pos r a + (if d a <? 0 then -1 else 0)) <? c_blk r a) with (fun a => u32 (c_pos r a + o a) <? c_blk r a). rewrite EA.
    eexists. split; [reflexivity|]. cbn [c_blk c_oct c_pos c_status]. split; [exact EB|]. split; [contradiction|].
    intros _. exists B. split; [exact HB1|]. split; [exact HB2|].
    split; [intros a; destruct (UU a) as (U1 & U2); change (0 <= u32 (c_pos r a + o a) < b a); rewrite U1; exact U2|].
    cbn [designates]. split; [exact LB|]. intros a. unfold gpos. destruct (UU a) as (U1 & U2).
    change (coord B a * b a + u32 (c_pos r a + o a) = (if flat g a then wanted g b A (unlayer w p) zero_off a else 2 * wanted g b A (unlayer w p) zero_off a + 0)).
    rewrite U1. pose proof (HP a) as P. unfold gpos in P.
    destruct (flat g a) eqn:F; [rewrite (OF a F); lia|].
    unfold o. specialize (HS a). destruct (d a <? 0) eqn:Q; [replace (p a - w a <? 0) with true in P by lia|replace (p a - w a <? 0) with false in P by lia]; lia.
  - exists r. split; [reflexivity|]. split; [exact EB|]. split; [exact H1|]. intros S0. destruct (H2 S0) as (B & HB1 & HB2 & HB3 & HB4).
    exists B. split; [exact HB1|]. split; [exact HB2|]. split; [exact HB3|].
    destruct (c_status r) eqn:ES; cbn [designates] in HB4 |- *; try contradiction; try exact HB4.
    destruct HB4 as (Q1 & Q2). split; [exact Q1|]. intros a. rewrite Q2. destruct (flat g a); [reflexivity|]. f_equal.
    unfold level_diff in C. rewrite ES in C. cbn [Z.eqb andb] in C. change (-1 =? -1) with true in C. cbn [andb] in C. apply negb_false_iff in C.
    pose proof (proj1 (all3_spec _) C a) as K. cbv beta in K. specialize (HS a). destruct (d a <? 0) eqn:Q; [discriminate|].
    replace (p a - w a <? 0) with false by lia. reflexivity.
Qed.

(** * C55: neighbour query of a block-local array *)

(** The query is expected to return the cell when the offset stays in the block and an
    invalid index when it leaves it. It does the contrary. *)
Theorem C55_refuted_inside g b o c d : block_ok g b -> in_block b c -> in_block b (fun a => c a + d a) ->
  exists r, getNeighbor_ghost_local (mkCell o c b LOCAL_TO_BLOCK) d = Some r /\ is_valid r = false.
Proof.
  intros BO IC ID. unfold getNeighbor_ghost_local. cbn [c_pos c_blk].
  assert (E : all3 (fun a => u32 (c a + d a) <? b a) = true).
  { apply all3_spec. intros a. specialize (ID a). cbv beta in ID. pose proof (proj1 (BO a)).
    rewrite u32_small by (change (2^32) with 4294967296; change (2^14) with 16384 in *; lia). lia. }
  rewrite E. eexists. split; reflexivity.
Qed.
Theorem C55_refuted_outside g b o c d : block_ok g b -> in_block b c -> (forall a, - 2^31 <= d a < 2^31) ->
  ~ in_block b (fun a => c a + d a) -> getNeighbor_ghost_local (mkCell o c b LOCAL_TO_BLOCK) d = None.
Proof.
  intros BO IC RD ND. unfold getNeighbor_ghost_local, getNeighbor. cbn [c_pos c_blk].
  destruct (all3 (fun a => u32 (c a + d a) <? b a)) eqn:E; [|reflexivity]. exfalso. apply ND. intros a.
  pose proof (proj1 (all3_spec _) E a) as K. cbv beta in K. specialize (RD a). specialize (IC a). pose proof (proj1 (BO a)).
  unfold u32 in K. change (2^32) with 4294967296 in K. change (2^31) with 2147483648 in RD. change (2^14) with 16384 in *.
  destruct (Z_lt_dec (c a + d a) 0) as [N|N]; [|rewrite Z.mod_small in K by lia; lia].
  rewrite <- (Z.mod_add _ 1) in K by lia. rewrite Z.mod_small in K by lia. lia.
Qed.
Theorem C55_refuted : ~ (forall g b o c d, block_ok g b -> in_block b c -> in_block b (fun a => c a + d a) ->
  exists r, getNeighbor_ghost_local (mkCell o c b LOCAL_TO_BLOCK) d = Some r /\ is_valid r = true /\ forall a, c_pos r a = c a + d a).
Proof.
  intros H. pose (z := fun _ : axis => 0).
  assert (I : in_block dg_b z) by (intros []; vm_compute; split; congruence). assert (I' : in_block dg_b (fun a => z a + z a)) by (intros []; vm_compute; split; congruence).
  destruct (H dg_g dg_b O z z dg_block I I') as (r & E & V & _).
  destruct (C55_refuted_inside dg_g dg_b O z z dg_block I I') as (r' & E' & V'). congruence.
Qed.

(** * C43: boundary values *)

(** Position [P], counted from the corner of the block, mirrored across the sides of the block. *)
Definition mirrored (b P : axis -> Z) (a : axis) : Z :=
  if P a <? 0 then -1 - P a else if b a <=? P a then 2 * b a - 1 - P a else P a.
(** Side that position [P] crosses along [a]: boundary condition to use. *)
Definition side_bc (b P : axis -> Z) (bc_min bc_max : axis -> bctype) (a : axis) : option bctype :=
  if P a <? 0 then Some (bc_min a) else if b a <=? P a then Some (bc_max a) else None.
Definition no_user (bc : axis -> bctype) : Prop := forall a, bc a <> BC_USER.
(** What the value must be: the mirrored state, the momentum reversed along the axes that
    cross a reflecting side. *)
Definition boundary_state {X Y} (neg : X -> X) (b P : axis -> Z) (bc_min bc_max : axis -> bctype) (ref v : cons_state X Y) : Prop :=
  others v = others ref /\
  forall a, momentum v a = match side_bc b P bc_min bc_max a with
                           | Some BC_REFLECTING => neg (momentum ref a) | _ => momentum ref a end.

Lemma act_bc {X Y} (neg : X -> X) user bc_min bc_max (ref res : cons_state X Y) off a : no_user bc_min -> no_user bc_max ->
  let v := apply_bc neg user bc_min bc_max ref off res a in
  others v = others res /\ forall a', momentum v a' = if axis_eqb a a' then
     match (if off a >? 0 then Some (bc_min a) else if off a <? 0 then Some (bc_max a) else None) with
     | Some BC_REFLECTING => neg (momentum ref a) | _ => momentum res a' end else momentum res a'.
Proof.
  intros N1 N2. unfold apply_bc. pose proof (N1 a). pose proof (N2 a).
  destruct (off a >? 0); [destruct (bc_min a)|destruct (off a <? 0); [destruct (bc_max a)|]]; cbn [others momentum set_momentum]; split; try reflexivity;
    try contradiction; intros a'; destruct (axis_eqb a a'); reflexivity.
Qed.

(** The boundary cell is at position [P], at most one block away. The value is computed from
    the mirrored cell, which is in the block; nothing but the momenta along the crossed axes
    changes. But the condition of the upper side is used for the lower side and vice versa. *)
Theorem C43_swapped {X Y} (neg : X -> X) user g b P o bc_min bc_max (U : cidx -> cons_state X Y) :
  block_ok g b -> (forall a, - b a <= P a < 2 * b a) -> (forall a, flat g a = true -> P a = 0) ->
  no_user bc_min -> no_user bc_max ->
  exists m v, getBoundaryValue neg user (g3d g) bc_min bc_max U (mkCell o (fun a => u32 (P a + b a)) b BOUNDARY) = Some v /\
    c_oct m = o /\ c_blk m = b /\ c_status m = LOCAL_TO_BLOCK /\ (forall a, c_pos m a = mirrored b P a) /\ in_block b (c_pos m) /\
    boundary_state neg b P bc_max bc_min (U m) v.
Proof.
  intros BO RP FP N1 N2. unfold getBoundaryValue.
  destruct (getBoundaryPosAndOffset (mkCell o (fun a => u32 (P a + b a)) b BOUNDARY)) as (inn, off) eqn:ED.
  destruct (decode_boundary g b (mkCell o (fun a => u32 (P a + b a)) b BOUNDARY) P BO eq_refl RP (fun a => eq_refl) inn off ED) as (Q1 & Q2 & Q3 & Q4 & Q5).
  assert (SO : forall a, symmetric_offset off a = - off a + Z.sgn (off a)).
  { intros a. unfold symmetric_offset. apply s16_small. rewrite Q5, Q4. pose proof (proj1 (BO a)). specialize (RP a). change (2^15) with 32768. change (2^14) with 16384 in *. lia. }
  assert (PM : forall a, c_pos inn a + symmetric_offset off a = mirrored b P a /\ 0 <= mirrored b P a < b a).
  { intros a. rewrite SO, Q5, Q4. unfold mirrored. pose proof (proj1 (BO a)). specialize (RP a). destruct (P a <? 0) eqn:C1; [lia|]. destruct (b a <=? P a) eqn:C2; lia. }
  unfold getNeighbor. rewrite Q2.
  assert (UU : forall a, u32 (c_pos inn a + symmetric_offset off a) = mirrored b P a).
  { intros a. destruct (PM a) as (E1 & E2). rewrite E1. apply u32_small. pose proof (proj1 (BO a)). change (2^32) with 4294967296. change (2^14) with 16384 in *. lia. }
  assert (EA : all3 (fun a => u32 (c_pos inn a + symmetric_offset off a) <? b a) = true) by (apply all3_spec; intros a; rewrite UU; destruct (PM a); lia).
  rewrite EA. unfold is_local. rewrite Q3. cbn [c_oct] in Q1.
  exists (mkCell (c_oct inn) (fun a => u32 (c_pos inn a + symmetric_offset off a)) b LOCAL_TO_BLOCK). eexists. split; [reflexivity|]. cbn [c_oct c_blk c_status c_pos]. split; [exact Q1|]. split; [reflexivity|]. split; [reflexivity|].
  split; [exact UU|]. split; [intros a; rewrite UU; apply PM|].
  match goal with |- boundary_state _ _ _ _ _ (U ?m) _ => set (ref := U m) end.
  assert (SB : forall a, (if off a >? 0 then Some (bc_min a) else if off a <? 0 then Some (bc_max a) else None) = side_bc b P bc_max bc_min a).
  { intros a. unfold side_bc. rewrite Q5, Q4. pose proof (proj1 (BO a)). specialize (RP a).
    destruct (P a <? 0) eqn:C1.
    - replace (P a - Z.min (Z.max (P a) 0) (b a - 1) >? 0) with false by lia. replace (P a - Z.min (Z.max (P a) 0) (b a - 1) <? 0) with true by lia. reflexivity.
    - destruct (b a <=? P a) eqn:C2.
      + replace (P a - Z.min (Z.max (P a) 0) (b a - 1) >? 0) with true by lia. reflexivity.
      + replace (P a - Z.min (Z.max (P a) 0) (b a - 1) >? 0) with false by lia. replace (P a - Z.min (Z.max (P a) 0) (b a - 1) <? 0) with false by lia. reflexivity. }
  assert (ACT : forall res a, let v := apply_bc neg user bc_min bc_max ref off res a in others v = others res /\
     forall a', momentum v a' = if axis_eqb a a' then match side_bc b P bc_max bc_min a with Some BC_REFLECTING => neg (momentum ref a) | _ => momentum res a' end else momentum res a').
  { intros res a. rewrite <- SB. exact (act_bc neg user bc_min bc_max ref res off a N1 N2). }
  destruct (g3d g) eqn:G3; cbn [fold_left].
  - destruct (ACT ref AX) as (A1 & A2). set (v1 := apply_bc _ _ _ _ _ _ ref AX) in *.
    destruct (ACT v1 AY) as (B1 & B2). set (v2 := apply_bc _ _ _ _ _ _ v1 AY) in *.
    destruct (ACT v2 AZ) as (C1 & C2). set (v3 := apply_bc _ _ _ _ _ _ v2 AZ) in *.
    split; [congruence|]. intros []; rewrite C2; cbn [axis_eqb]; rewrite B2; cbn [axis_eqb]; rewrite A2; cbn [axis_eqb]; reflexivity.
  - destruct (ACT ref AX) as (A1 & A2). set (v1 := apply_bc _ _ _ _ _ _ ref AX) in *.
    destruct (ACT v1 AY) as (B1 & B2). set (v2 := apply_bc _ _ _ _ _ _ v1 AY) in *.
    split; [congruence|]. intros []; rewrite B2; cbn [axis_eqb]; rewrite A2; cbn [axis_eqb]; try reflexivity.
    assert (FZ : flat g AZ = true) by (cbn [flat]; rewrite G3; reflexivity). unfold side_bc. rewrite (FP AZ FZ), (proj2 (BO AZ) FZ). reflexivity.
Qed.

(** Hence the value is right when both sides of every axis have the same condition. Missing:
    the other cases, where it is wrong ([C43_refuted]). *)
Theorem C43_mirror_partial {X Y} (neg : X -> X) user g b P o bc_min bc_max (U : cidx -> cons_state X Y) :
  block_ok g b -> (forall a, - b a <= P a < 2 * b a) -> (forall a, flat g a = true -> P a = 0) ->
  no_user bc_min -> no_user bc_max -> (forall a, bc_min a = bc_max a) ->
  exists m v, getBoundaryValue neg user (g3d g) bc_min bc_max U (mkCell o (fun a => u32 (P a + b a)) b BOUNDARY) = Some v /\
    c_oct m = o /\ c_blk m = b /\ c_status m = LOCAL_TO_BLOCK /\ (forall a, c_pos m a = mirrored b P a) /\ in_block b (c_pos m) /\
    boundary_state neg b P bc_min bc_max (U m) v.
Proof.
  intros BO RP FP N1 N2 EQ. destruct (C43_swapped neg user g b P o bc_min bc_max U BO RP FP N1 N2) as (m & v & H1 & H2 & H3 & H4 & H5 & H6 & H7 & H8).
  exists m, v. split; [exact H1|]. split; [exact H2|]. split; [exact H3|]. split; [exact H4|]. split; [exact H5|]. split; [exact H6|].
  split; [exact H7|]. intros a. rewrite H8. unfold side_bc. rewrite EQ. reflexivity.
Qed.

(** With different conditions on the two sides of an axis, the wrong one is applied. *)
Theorem C43_refuted : ~ (forall (neg : Z -> Z) user g b P o bc_min bc_max (U : cidx -> cons_state Z unit) v,
  block_ok g b -> (forall a, - b a <= P a < 2 * b a) -> (forall a, flat g a = true -> P a = 0) ->
  no_user bc_min -> no_user bc_max ->
  getBoundaryValue neg user (g3d g) bc_min bc_max U (mkCell o (fun a => u32 (P a + b a)) b BOUNDARY) = Some v ->
  exists m, c_oct m = o /\ (forall a, c_pos m a = mirrored b P a) /\ boundary_state neg b P bc_min bc_max (U m) v).
Proof.
  intros H. pose (st := mkState (fun _ : axis => 1) tt).
  specialize (H Z.opp (fun _ => st) dg_g dg_b (mkoff (-1) 0 0) O (fun _ => BC_REFLECTING) (fun _ => BC_ABSORBING) (fun _ => st) st dg_block).
  destruct H as (m & _ & _ & _ & HM).
  - intros []; cbn; lia.
  - intros [] F; try discriminate F; reflexivity.
  - intros a; discriminate.
  - intros a; discriminate.
  - reflexivity.
  - specialize (HM AX). vm_compute in HM. discriminate.
Qed.

(** At a corner, an index that leaves the domain along x and only the block along y is treated
    as crossing a boundary along y as well: the momentum along y is reversed. *)
Theorem C43_refuted_corner : ~ (forall (neg : Z -> Z) user g M R i A b c d bc_min bc_max r v (U : cidx -> cons_state Z unit),
  wf_geom g -> mesh_ok g M -> In R M -> nth_error (loc R) i = Some A ->
  block_ok g b -> in_block b c -> reach_offset g b d -> no_user bc_min -> no_user bc_max ->
  getNeighbor_ghost g (loc R ++ gho R) (mkCell i c b LOCAL_TO_BLOCK) d = Some r -> c_status r = BOUNDARY ->
  getBoundaryValue neg user (g3d g) bc_min bc_max U r = Some v ->
  forall a, 0 <= gpos b A c a + d a < ncells g b (lev A) a -> exists m, momentum v a = momentum (U m) a).
Proof.
  intros H. pose (st := mkState (fun _ : axis => 1) tt). pose (c := fun _ : axis => 0). pose (d := mkoff (-1) (-1) 0).
  pose (refl := fun _ : axis => BC_REFLECTING).
  assert (V : match getNeighbor_ghost dg_g (loc dg_R ++ gho dg_R) (mkCell 5 c dg_b LOCAL_TO_BLOCK) d with
              | Some r => match getBoundaryValue Z.opp (fun _ => st) false refl refl (fun _ => st) r with
                          | Some v => (momentum v AY =? -1) && match c_status r with BOUNDARY => true | _ => false end | None => false end
              | None => false end = true) by (vm_compute; reflexivity).
  destruct (getNeighbor_ghost dg_g (loc dg_R ++ gho dg_R) (mkCell 5 c dg_b LOCAL_TO_BLOCK) d) as [r|] eqn:E1; [|discriminate].
  destruct (getBoundaryValue Z.opp (fun _ => st) false refl refl (fun _ => st) r) as [v|] eqn:E2; [|discriminate].
  apply andb_prop in V. destruct V as (V1 & V2). apply Z.eqb_eq in V1.
  specialize (H Z.opp (fun _ => st) dg_g dg_M dg_R 5%nat (mkOct 1 0 1 0) dg_b c d refl refl r v (fun _ => st)).
  destruct (H (proj1 dg_setup) dg_ok) with (a := AY) as (m & Hm).
  - vm_compute; auto.
  - vm_compute; reflexivity.
  - exact dg_block.
  - intros []; vm_compute; split; congruence.
  - intros []; (split; [vm_compute; congruence|]); vm_compute; congruence.
  - intros a; discriminate.
  - intros a; discriminate.
  - exact E1.
  - destruct (c_status r); (reflexivity || discriminate).
  - exact E2.
  - vm_compute. split; congruence.
  - rewrite V1 in Hm. discriminate Hm.
Qed.

(** * Examples: the hypotheses are met *)
(** Block (0,0) of the refined corner asks its right neighbour, which is bigger. *)
Example ex_bigger : match getNeighbor_ghost dg_g (loc dg_R ++ gho dg_R) (mkCell 1 (mkoff 3 1 0) dg_b LOCAL_TO_BLOCK) (mkoff 1 0 0) with
  | Some r => nth_error (loc dg_R ++ gho dg_R) (c_oct r) = Some (mkOct 1 1 0 0) /\ c_status r = BIGGER /\ map (c_pos r) [AX; AY; AZ] = [0; 0; 0]
  | None => False end.
Proof. vm_compute. repeat split. Qed.
Example ex_smaller : match getNeighbor_ghost dg_g (loc dg_R ++ gho dg_R) (mkCell 4 (mkoff 0 2 0) dg_b LOCAL_TO_BLOCK) (mkoff (-1) 0 0) with
  | Some r => nth_error (loc dg_R ++ gho dg_R) (c_oct r) = Some (mkOct 2 1 1 0) /\ c_status r = SMALLER /\ map (c_pos r) [AX; AY; AZ] = [3; 0; 0] /\
     option_map (map (fun x => (c_oct x, map (c_pos x) [AX; AY; AZ]))) (smaller_neighbors false dg_g (loc dg_R ++ gho dg_R) r (mkoff (-1) 0 0)) =
     Some [(c_oct r, [3; 0; 0]); (c_oct r, [3; 1; 0])]
  | None => False end.
Proof. vm_compute. repeat split. Qed.
Example ex_request_ok : in_block dg_b (mkoff 0 2 0) /\ reach_offset dg_g dg_b (mkoff (-1) 0 0) /\ face_dir dg_g (mkoff (-1) 0 0) AX /\
  stays dg_g dg_b (mkOct 1 1 0 0) (mkoff 0 2 0) (mkoff (-1) 0 0) /\ nth_error (loc dg_R) 4 = Some (mkOct 1 1 0 0) /\ In dg_R dg_M.
Proof.
  split; [intros []; vm_compute; split; congruence|]. split; [intros []; (split; [vm_compute; congruence|]); vm_compute; congruence|].
  split; [split; [reflexivity|]; split; [reflexivity|]; intros [] N; (reflexivity || contradiction)|]. split; [intros []; right; vm_compute; split; congruence|].
  split; [vm_compute; reflexivity|vm_compute; auto].
Qed.
Example ex_leaves : ~ stays dg_g dg_b (mkOct 1 1 0 0) (mkoff 3 2 0) (mkoff 2 0 0).
Proof. intros H. destruct (H AX) as [K|K]; [discriminate K|]. vm_compute in K. destruct K as (_ & K). discriminate K. Qed.
Example ex_layered : layered dg_b (mkoff 2 2 0) (mkoff 8 8 1) /\ forall a, 2 * mkoff 2 2 0 a <= dg_b a.
Proof. split; intros []; vm_compute; repeat split; congruence. Qed.

Print Assumptions C24_roundtrip.
Print Assumptions C24_narrow_local.
Print Assumptions C24_wide_neighbour.
Print Assumptions C24_wide_first.
Print Assumptions C25_neighbour.
Print Assumptions C25_touching_partial.
Print Assumptions C25_smaller_neighbours.
Print Assumptions C25_refuted.
Print Assumptions C26_boundary.
Print Assumptions C43_swapped.
Print Assumptions C43_mirror_partial.
Print Assumptions C43_refuted.
Print Assumptions C43_refuted_corner.
Print Assumptions C55_refuted_inside.
Print Assumptions C55_refuted_outside.
Print Assumptions C55_refuted.
