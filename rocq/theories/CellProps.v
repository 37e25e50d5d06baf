(** Cell indices: neighbours (C25), boundary cells (C26), conversion between arrays (C24),
    boundary values (C43), block-local neighbour queries (C55). *)
From Coq Require Import QArith Qround.
From Verif Require Import Base OctreeSpec OctreeGeom OctreeModel FindNeighbors MeshSpec
  HistorySpec HistoryProofs OctreeProps CellModel CellSpec CellProofs.
Open Scope Z_scope.

(** Octants that rank [R] can look up: its own and its ghosts. *)
Lemma mesh_local g M R i A : wf_geom g -> mesh_ok g M -> In R M -> nth_error (loc R) i = Some A ->
  incl (loc R ++ gho R) (leaves M) /\ nth_error (loc R ++ gho R) i = Some A /\
  (forall B, In B (leaves M) -> touch g A B -> In B (loc R ++ gho R)).
Proof.
  intros WF OK HRM HA. destruct (ok_ghosts g M OK R HRM) as [G1 G2].
  assert (HRL : incl (loc R) (leaves M)) by (intros X HX; unfold leaves; apply in_concat; exists (loc R); split; [apply in_map, HRM|exact HX]).
  split; [|split].
  - intros X HX. apply in_app_iff in HX. destruct HX as [HX|HX]; [apply HRL, HX|apply G2, HX].
  - rewrite nth_error_app1; [exact HA|apply nth_error_Some; congruence].
  - intros B HB T. apply in_app_iff. destruct (in_dec oct_eq_dec B (loc R)) as [Hi|Hi]; [left; exact Hi|right].
    apply G2. split; [exact HB|]. split; [exact Hi|]. exists A. split; [eapply nth_error_In, HA|exact T].
Qed.

(** * C25: neighbour cells *)

(** Offsets along which neighbours can be asked: at most half a block (plus one cell for odd
    blocks), none along the missing axis in 2D. *)
Definition reach_offset (g : geom) (b d : axis -> Z) : Prop :=
  forall a, 2 * Z.abs (d a) - 1 <= b a /\ (flat g a = true -> d a = 0).
(** The requested position, in cells of the level of [A], lies in the domain. *)
Definition stays (g : geom) (b : axis -> Z) (A : oct) (c d : axis -> Z) : Prop :=
  forall a, per g a = true \/ 0 <= gpos b A c a + d a < ncells g b (lev A) a.
(** The requested position, wrapped around the periodic axes. *)
Definition wanted (g : geom) (b : axis -> Z) (A : oct) (c d : axis -> Z) (a : axis) : Z :=
  (gpos b A c a + d a) mod ncells g b (lev A) a.

(** Whether a request stays in the domain is decidable. *)
Lemma classic_stays g b A c d : stays g b A c d \/ exists a, per g a = false /\ ~ 0 <= gpos b A c a + d a < ncells g b (lev A) a.
Proof.
  assert (D : forall a, (per g a = false /\ ~ 0 <= gpos b A c a + d a < ncells g b (lev A) a) \/ (per g a = true \/ 0 <= gpos b A c a + d a < ncells g b (lev A) a)).
  { intros a. destruct (per g a); [auto|]. destruct (Z_le_dec 0 (gpos b A c a + d a)), (Z_lt_dec (gpos b A c a + d a) (ncells g b (lev A) a)); [right; right; lia|left; split; [reflexivity|lia]..]. }
  destruct (D AX) as [D1|D1]; [right; exists AX; exact D1|]. destruct (D AY) as [D2|D2]; [right; exists AY; exact D2|].
  destruct (D AZ) as [D3|D3]; [right; exists AZ; exact D3|]. left. intros []; assumption.
Qed.

Theorem C25_neighbour g M R i A b c d : wf_geom g -> mesh_ok g M -> In R M -> nth_error (loc R) i = Some A ->
  block_ok g b -> in_block b c -> reach_offset g b d -> stays g b A c d ->
  exists r B, getNeighbor_ghost g (loc R ++ gho R) (mkCell i c b LOCAL_TO_BLOCK) d = Some r /\ c_blk r = b /\
    nth_error (loc R ++ gho R) (c_oct r) = Some B /\ In B (leaves M) /\ in_block b (c_pos r) /\
    designates g b A B (c_pos r) (wanted g b A c d) (fun a => c a + d a <? 0) (c_status r).
Proof.
  intros WF OK HRM HA BO IB RO ST. destruct (mesh_local g M R i A WF OK HRM HA) as (INC & HA' & NB).
  destruct (gn_correct g WF (leaves M) (loc R ++ gho R) i A (ok_tiles g M OK) (ok_balanced g M OK) INC HA' NB b c d BO IB
    (fun a => proj1 (RO a)) (fun a => proj2 (RO a))) as (r & E & EB & _ & H & _).
  destruct (H ST) as (B & H1 & H2 & H3 & H4). exists r, B. auto 8.
Qed.

(** The answer for a direct neighbour touches the cell that asks. *)
Lemma near_axis w X T N d : 0 < w -> 0 < N -> Z.abs d <= 1 -> T = (X + d) mod N ->
  exists k, (k = 0 \/ ~ 0 <= X + d < N) /\ T + k * N = X + d.
Proof.
  intros W NP D ->. exists ((X + d) / N). split; [|pose proof (Z.div_mod (X + d) N); lia].
  destruct (Z_le_dec 0 (X + d)); [|right; lia]. destruct (Z_lt_dec (X + d) N); [left; apply Z.div_small; lia|right; lia].
Qed.
Lemma near_same w X T N k d : 0 < w -> Z.abs d <= 1 -> T + k * N = X + d ->
  X * w <= (T + 1) * w + k * (N * w) /\ T * w + k * (N * w) <= (X + 1) * w.
Proof. intros. replace ((T + 1) * w + k * (N * w)) with ((T + k * N + 1) * w) by ring. replace (T * w + k * (N * w)) with ((T + k * N) * w) by ring. nia. Qed.
Lemma near_bigger w X T N k d : 0 < w -> Z.abs d <= 1 -> T + k * N = X + d ->
  X * w <= (T / 2 + 1) * (2 * w) + k * (N * w) /\ T / 2 * (2 * w) + k * (N * w) <= (X + 1) * w.
Proof.
  intros W D E. pose proof (Z.div_mod T 2 ltac:(lia)) as DM. pose proof (Z.mod_pos_bound T 2 ltac:(lia)).
  set (h := T / 2) in *. set (m := T mod 2) in *.
  replace ((h + 1) * (2 * w) + k * (N * w)) with ((X + d - m + 2) * w) by (rewrite <- E, DM; ring).
  replace (h * (2 * w) + k * (N * w)) with ((X + d - m) * w) by (rewrite <- E, DM; ring). nia.
Qed.
Lemma near_smaller w X T N k d s : 0 < w -> Z.abs d <= 1 -> 0 <= s <= 1 -> (d = -1 -> s = 1) -> T + k * N = X + d ->
  (d = 1 -> s = 0) ->
  X * (2 * w) <= (2 * T + s + 1) * w + k * (N * (2 * w)) /\ (2 * T + s) * w + k * (N * (2 * w)) <= (X + 1) * (2 * w).
Proof.
  intros W D Hs S1 E S2.
  replace ((2 * T + s + 1) * w + k * (N * (2 * w))) with ((2 * (X + d) + s + 1) * w) by (rewrite <- E; ring).
  replace ((2 * T + s) * w + k * (N * (2 * w))) with ((2 * (X + d) + s) * w) by (rewrite <- E; ring). 
  assert (d = -1 \/ d = 0 \/ d = 1) as [-> | [-> | ->]] by lia; nia.
Qed.
Lemma least_smaller w X T N s : 0 < w -> 0 < N -> 0 <= s <= 1 -> T = (X - 1) mod N -> forall k,
  X * (2 * w) <= (2 * T + s + 1) * w + k * (N * (2 * w)) -> (2 * T + s) * w + k * (N * (2 * w)) <= (X + 1) * (2 * w) ->
  (k = 0 /\ 0 <= X - 1 < N \/ 2 < N) -> s = 1.
Proof.
  intros W NP Hs ET k H1 H2 HN. pose proof (Z.div_mod (X - 1) N ltac:(lia)) as DM. rewrite <- ET in DM.
  set (j := k - (X - 1) / N).
  assert (E : T + k * N = X - 1 + j * N) by (unfold j; lia).
  replace ((2 * T + s + 1) * w + k * (N * (2 * w))) with ((2 * (T + k * N) + s + 1) * w) in H1 by ring.
  replace ((2 * T + s) * w + k * (N * (2 * w))) with ((2 * (T + k * N) + s) * w) in H2 by ring.
  rewrite E in H1, H2.
  assert (H1' : 2 * X <= 2 * (X - 1 + j * N) + s + 1) by nia. assert (H2' : 2 * (X - 1 + j * N) + s <= 2 * (X + 1)) by nia.
  destruct HN as [(-> & R)|HN].
  - assert (j = 0) by (unfold j; rewrite Z.div_small by lia; reflexivity). subst j. lia.
  - assert (j <= 0) by nia. lia.
Qed.

Lemma ncells_w g b A a : wf_geom g -> valid g A -> flat g a = false ->
  ncells g b (lmax g) a = ncells g b (lev A) a * 2^(lmax g - lev A).
Proof.
  intros WF VA F. unfold ncells, ncell. rewrite F. destruct VA as (Hl & _). destruct WF as (W1 & W2 & _).
  replace (lmax g - lmin g) with (lev A - lmin g + (lmax g - lev A)) by lia. rewrite Z.pow_add_r by lia. ring.
Qed.
Lemma ncells_pos g b A a : valid g A -> block_ok g b -> 0 < ncells g b (lev A) a.
Proof. intros VA BO. unfold ncells. pose proof (proj1 (BO a)). pose proof (proj2 VA a). nia. Qed.

(** Cell [q] of [B] is one of the 2^dim halves of the position [T] of level [lev A]. *)
Definition part_of (g : geom) (b : axis -> Z) (A B : oct) (q T : axis -> Z) : Prop :=
  lev B = lev A + 1 /\ in_block b q /\ forall a, half g a (gpos b B q a) = T a.

(** Missing: offsets with a negative component along an axis where a request for a smaller cell
    stays in the block; there the answer may not touch the cell ([C25_refuted]). *)
Theorem C25_touching_partial g M R i A b c d r : wf_geom g -> mesh_ok g M -> In R M -> nth_error (loc R) i = Some A ->
  block_ok g b -> in_block b c -> reach_offset g b d -> stays g b A c d ->
  getNeighbor_ghost g (loc R ++ gho R) (mkCell i c b LOCAL_TO_BLOCK) d = Some r ->
  (forall a, -1 <= d a <= 1) -> (c_status r = SMALLER -> forall a, d a = -1 -> c a = 0) ->
  forall B, nth_error (loc R ++ gho R) (c_oct r) = Some B ->
    near_cells g b A c B (c_pos r) /\
    (* among the smaller cells of the requested position that touch the cell, the first along each axis *)
    (c_status r = SMALLER -> (forall a, per g a = true -> 2 < ncells g b (lev A) a) ->
     forall B' q', valid g B' -> part_of g b A B' q' (wanted g b A c d) -> near_cells g b A c B' q' ->
       forall a, gpos b B (c_pos r) a <= gpos b B' q' a).
Proof.
  intros WF OK HRM HA BO IB RO ST ER D1 DN B HB.
  destruct (C25_neighbour g M R i A b c d WF OK HRM HA BO IB RO ST) as (r' & B0 & E & _ & HB0 & HBL & IBr & DES).
  assert (r' = r) as -> by congruence. assert (B0 = B) as -> by congruence.
  destruct (mesh_local g M R i A WF OK HRM HA) as (INC & HA' & NB).
  assert (VA : valid g A) by (apply (tiles_valid g _ A (ok_tiles g M OK)), INC; eapply nth_error_In, HA').
  assert (VB : valid g B) by (apply (tiles_valid g _ B (ok_tiles g M OK)), HBL).
  assert (FL : forall a Y q, flat g a = true -> valid g Y -> in_block b q -> gpos b Y q a = 0).
  { intros a Y q F VY IY. unfold gpos. rewrite (valid_flat g Y a VY F). pose proof (proj2 (BO a) F). pose proof (IY a). lia. }
  assert (AX : forall a, flat g a = false -> exists k, (k = 0 \/ per g a = true) /\ wanted g b A c d a + k * ncells g b (lev A) a = gpos b A c a + d a).
  { intros a F. pose proof (ncells_pos g b A a VA BO) as NP.
    destruct (near_axis 1 (gpos b A c a) (wanted g b A c d a) (ncells g b (lev A) a) (d a)) as (k & K1 & K2); [lia|exact NP|specialize (D1 a); lia|reflexivity|].
    exists k. split; [|exact K2]. destruct K1 as [K1|K1]; [left; exact K1|]. destruct (ST a) as [K|K]; [right; exact K|contradiction]. }
  assert (NZ : forall X Y, X = 0 -> Y = 0 -> forall l l' s, s = 0 -> 0 <= l -> 0 <= l' -> X * 2^l <= (Y + 1) * 2^l' + s /\ Y * 2^l' + s <= (X + 1) * 2^l).
  { intros X Y -> -> l l' s -> L1 L2. pose proof (Z.pow_pos_nonneg 2 l ltac:(lia) L1). pose proof (Z.pow_pos_nonneg 2 l' ltac:(lia) L2). lia. }
  pose proof (proj1 VA) as LA. pose proof (proj1 VB) as LB.
  split.
  - intros a. cbv zeta. destruct (flat g a) eqn:F.
    { exists 0. split; [left; reflexivity|]. apply NZ; [apply FL; assumption..|lia|lia|lia]. }
    destruct (AX a F) as (k & K1 & K2). exists k. split; [exact K1|]. rewrite (ncells_w g b A a WF VA F).
    destruct (c_status r) eqn:ES; cbn [designates] in DES; try contradiction; destruct DES as (DL & DP); rewrite (DP a).
    + subst B. apply (near_same _ _ _ _ k (d a)); [apply Z.pow_pos_nonneg; lia|specialize (D1 a); lia|exact K2].
    + rewrite DL. apply (near_same _ _ _ _ k (d a)); [apply Z.pow_pos_nonneg; lia|specialize (D1 a); lia|exact K2].
    + rewrite F. rewrite DL. replace (lmax g - lev A) with (lmax g - (lev A + 1) + 1) by lia. rewrite Z.pow_add_r by lia. change (2^1) with 2.
      rewrite (Z.mul_comm _ 2).
      apply (near_smaller _ _ _ _ k (d a)); [apply Z.pow_pos_nonneg; lia|specialize (D1 a); lia| | |exact K2|].
      * destruct (_ <? 0); lia.
      * intros Hd. rewrite (DN eq_refl a Hd), Hd. reflexivity.
      * intros Hd. rewrite Hd. specialize (IB a). destruct (c a + 1 <? 0) eqn:Q; [lia|reflexivity].
    + rewrite DL. unfold half. rewrite F. replace (lmax g - (lev A - 1)) with (lmax g - lev A + 1) by lia. rewrite Z.pow_add_r by lia. change (2^1) with 2.
      rewrite (Z.mul_comm _ 2).
      apply (near_bigger _ _ _ _ k (d a)); [apply Z.pow_pos_nonneg; lia|specialize (D1 a); lia|exact K2].
  - intros ES BIG B' q' VB' (LB' & IB' & HP) NR a. rewrite ES in DES. cbn [designates] in DES. destruct DES as (DL & DP). rewrite (DP a).
    pose proof (HP a) as HPa. unfold half in HPa. destruct (flat g a) eqn:F; [rewrite <- HPa; lia|].
    set (P := gpos b B' q' a) in *. pose proof (Z.div_mod P 2 ltac:(lia)) as DM. pose proof (Z.mod_pos_bound P 2 ltac:(lia)) as MB.
    destruct (c a + d a <? 0) eqn:TW; [|lia].
    assert (Hd : d a = -1) by (specialize (D1 a); specialize (IB a); lia).
    destruct (NR a) as (k & K1 & N1 & N2). fold P in N1, N2. rewrite (ncells_w g b A a WF VA F) in N1, N2.
    rewrite LB' in N1, N2. pose proof (proj1 VB') as LVB.
    replace (lmax g - lev A) with (lmax g - (lev A + 1) + 1) in N1, N2 by lia. rewrite Z.pow_add_r in N1, N2 by lia. change (2^1) with 2 in N1, N2.
    rewrite (Z.mul_comm (2^_) 2) in N1, N2. rewrite DM, HPa in N1, N2.
    assert (S1 : P mod 2 = 1); [|lia].
    apply (least_smaller (2^(lmax g - (lev A + 1))) (gpos b A c a) (wanted g b A c d a) (ncells g b (lev A) a) (P mod 2)
      ltac:(apply Z.pow_pos_nonneg; lia) (ncells_pos g b A a VA BO) ltac:(lia)
      ltac:(unfold wanted; rewrite Hd; reflexivity) k N1 N2).
    destruct K1 as [->|K1]; [|right; apply BIG, K1].
    destruct (ST a) as [Q|Q]; [right; apply BIG, Q|left; split; [reflexivity|]]. rewrite Hd in Q. exact Q.
Qed.

(** ** Smaller neighbours are all visited *)

(** Moving by one cell among the halves of a position, possibly into another octant. *)
Lemma sib_step g st k B q s b e : wf_geom g -> block_ok g b -> nth_error st k = Some B -> valid g B -> in_block b q ->
  (forall a, 0 <= e a <= 1) -> (forall a, flat g a = true -> e a = 0) ->
  let B' := oct_of (lev B) (fun a => coord B a + (q a + e a) / b a) in
  valid g B' -> In B' st ->
  exists r, getNeighbor_ghost g st (mkCell k q b s) e = Some r /\ (c_blk r = b /\ is_valid r = true) /\ in_block b (c_pos r) /\
    nth_error st (c_oct r) = Some B' /\ forall a, gpos b B' (c_pos r) a = gpos b B q a + e a.
Proof.
  intros WF BO HB VB IQ HE HF B' VB' IN.
  assert (CB : forall a, coord B' a = coord B a + (q a + e a) / b a) by (intros []; reflexivity).
  assert (SM : forall a, 0 <= q a + e a < 2 * b a /\ b a <= 2^14) by (intros a; specialize (IQ a); specialize (HE a); pose proof (BO a); lia).
  assert (S32 : forall a, s32 (q a + e a) = q a + e a) by (intros a; apply s32_small; specialize (SM a); lia).
  assert (U : forall a z, 0 <= z < 2 * b a -> u32 z = z) by (intros a z H; apply u32_small; specialize (SM a); change (2^32) with 4294967296; change (2^14) with 16384 in *; lia).
  assert (DM : forall a, q a + e a = b a * ((q a + e a) / b a) + (q a + e a) mod b a /\ 0 <= (q a + e a) mod b a < b a /\ 0 <= (q a + e a) / b a <= 1).
  { intros a. pose proof (BO a) as (B1 & _). specialize (SM a). split; [apply Z.div_mod; lia|]. split; [apply Z.mod_pos_bound; lia|].
    split; [apply Z.div_pos; lia|]. apply Z.lt_succ_r, Z.div_lt_upper_bound; lia. }
  unfold getNeighbor_ghost. cbn [c_pos c_blk c_oct].
  set (o := fun a => s32 (q a + e a) / b a).
  assert (EO : forall a, o a = (q a + e a) / b a) by (intros a; unfold o; rewrite S32; reflexivity).
  destruct (all3 (fun a => s32 (q a + e a) / b a =? 0)) eqn:EA; change (all3 (fun a => o a =? 0) = true) in EA || change (all3 (fun a => o a =? 0) = false) in EA.
  - assert (Z0 : forall a, (q a + e a) / b a = 0) by (intros a; pose proof (proj1 (all3_spec _) EA a) as K; cbv beta in K; rewrite EO in K; lia).
    assert (BB : B' = B) by (apply oct_ext; [reflexivity|intros a; rewrite CB, Z0; lia]).
    unfold getNeighbor. cbn [c_pos c_blk c_oct].
    assert (UU : forall a, u32 (q a + e a) = q a + e a) by (intros a; apply (U a), SM).
    assert (LT : forall a, 0 <= q a + e a < b a) by (intros a; destruct (DM a) as (D1 & D2 & _); rewrite Z0 in D1; lia).
    assert (E : all3 (fun a => u32 (q a + e a) <? b a) = true) by (apply all3_spec; intros a; rewrite UU; specialize (LT a); lia).
    rewrite E. eexists. split; [reflexivity|]. split; [split; [reflexivity|unfold is_valid; cbn [c_status]; destruct (is_local _); reflexivity]|]. cbn [c_blk c_pos c_oct]. split; [intros a; rewrite UU; apply LT|].
    rewrite BB. split; [exact HB|]. intros a. unfold gpos. rewrite UU. lia.
  - rewrite HB.
    assert (Hd : direction g o).
    { split; [intros a; rewrite EO; specialize (DM a); lia|]. split.
      - apply all3_false in EA. destruct EA as (a & H). exists a. lia.
      - intros a F. rewrite EO, (HF a F). pose proof (proj2 (BO a) F) as B1. pose proof (IQ a). rewrite B1 in *. rewrite Z.div_1_r. lia. }
    assert (IO : inside g B o) by (intros a; right; rewrite EO, <- CB; apply (proj2 VB' a)).
    pose proof (proj2 (isBoundary_spec g WF B o VB Hd) IO) as EB. rewrite EB.
    assert (TG : target g B o = B').
    { apply oct_ext; [reflexivity|]. intros a. rewrite target_coord, EO, <- CB. apply Z.mod_small, (proj2 VB' a). }
    destruct (find_pos_in B' st IN) as (k' & FP & NK).
    assert (FN : findNeighbors g st k o = Some [k']).
    { unfold findNeighbors. rewrite HB. destruct ((o AX =? 0) && (o AY =? 0) && (o AZ =? 0)) eqn:Z3.
      - unfold all3 in EA. congruence.
      - rewrite EB. rewrite (shifted_target g WF B o VB Hd), TG, FP. reflexivity. }
    rewrite FN, NK. change (lev B') with (lev B). rewrite Z.sub_diag. cbn [Z.eqb].
    assert (PP : forall a, u32 (s32 (q a + e a) - o a * b a) = (q a + e a) mod b a).
    { intros a. rewrite S32, EO. destruct (DM a) as (D1 & D2 & _).
      replace (q a + e a - (q a + e a) / b a * b a) with ((q a + e a) mod b a) by lia. apply (U a). lia. }
    eexists. split; [reflexivity|]. cbn [c_blk c_pos c_oct]. split; [split; reflexivity|]. split; [intros a; rewrite PP; apply DM|].
    split; [exact NK|]. intros a. unfold gpos. rewrite PP, CB. destruct (DM a) as (D1 & _). lia.
Qed.
Lemma sib_step_local g st k B q s b e : block_ok g b -> nth_error st k = Some B -> in_block b q ->
  (forall a, 0 <= e a <= 1) -> (forall a, q a + e a < b a) ->
  exists r, getNeighbor (mkCell k q b s) e = Some r /\ (c_blk r = b /\ is_valid r = true) /\ in_block b (c_pos r) /\
    nth_error st (c_oct r) = Some B /\ forall a, gpos b B (c_pos r) a = gpos b B q a + e a.
Proof.
  intros BO HB IQ HE LT. unfold getNeighbor. cbn [c_pos c_blk c_oct].
  assert (UU : forall a, u32 (q a + e a) = q a + e a).
  { intros a. apply u32_small. specialize (IQ a). specialize (HE a). specialize (LT a). pose proof (BO a).
    change (2^32) with 4294967296; change (2^14) with 16384 in *. lia. }
  assert (E : all3 (fun a => u32 (q a + e a) <? b a) = true) by (apply all3_spec; intros a; rewrite UU; specialize (LT a); lia).
  rewrite E. eexists. split; [reflexivity|]. split; [split; [reflexivity|unfold is_valid; cbn [c_status]; destruct (is_local _); reflexivity]|]. cbn [c_blk c_pos c_oct].
  split; [intros a; rewrite UU; specialize (IQ a); specialize (HE a); specialize (LT a); lia|].
  split; [exact HB|]. intros a. unfold gpos. rewrite UU. lia.
Qed.

Lemma mapM_exists {X Y} (f : X -> option Y) (Q : X -> Y -> Prop) l : (forall x, In x l -> exists y, f x = Some y /\ Q x y) ->
  exists l', mapM f l = Some l' /\ Forall2 Q l l'.
Proof.
  induction l as [|x l IH]; intros H; [exists []; split; [reflexivity|constructor]|].
  destruct (H x (or_introl eq_refl)) as (y & E & HQ). destruct IH as (l' & E' & F); [intros z Hz; apply H; right; exact Hz|].
  exists (y :: l'). cbn [mapM]. rewrite E, E'. split; [reflexivity|constructor; assumption].
Qed.
Lemma Forall2_len {X Y} (Q : X -> Y -> Prop) l l' : Forall2 Q l l' -> length l = length l'.
Proof. induction 1; cbn; congruence. Qed.
Lemma Forall2_in_l {X Y} (Q : X -> Y -> Prop) l l' x : Forall2 Q l l' -> In x l -> exists y, In y l' /\ Q x y.
Proof. induction 1 as [|a c l l' H F IH]; [intros []|]. intros [<-|HI]; [exists c; split; [left; reflexivity|exact H]|]. destruct (IH HI) as (y & H1 & H2). exists y. split; [right; exact H1|exact H2]. Qed.
Lemma Forall2_in_r {X Y} (Q : X -> Y -> Prop) l l' y : Forall2 Q l l' -> In y l' -> exists x, In x l /\ Q x y.
Proof. induction 1 as [|a c l l' H F IH]; [intros []|]. intros [<-|HI]; [exists a; split; [left; reflexivity|exact H]|]. destruct (IH HI) as (x & H1 & H2). exists x. split; [right; exact H1|exact H2]. Qed.

Lemma in_box nx ny nz e : (forall a : axis, e a = mkoff (e AX) (e AY) (e AZ) a) ->
  forall l, l = flat_map (fun dk => flat_map (fun dj => map (fun di => mkoff di dj dk) (zrange 0 nx)) (zrange 0 ny)) (zrange 0 nz) ->
  (0 <= e AX < nx /\ 0 <= e AY < ny /\ 0 <= e AZ < nz) -> exists e', In e' l /\ forall a, e' a = e a.
Proof.
  intros HE l -> (H1 & H2 & H3). exists (mkoff (e AX) (e AY) (e AZ)). split; [|intros []; reflexivity].
  apply in_flat_map. exists (e AZ). split; [apply in_zrange; lia|]. apply in_flat_map. exists (e AY). split; [apply in_zrange; lia|].
  apply in_map_iff. exists (e AX). split; [reflexivity|apply in_zrange; lia].
Qed.
Lemma box_in nx ny nz e : In e (flat_map (fun dk => flat_map (fun dj => map (fun di => mkoff di dj dk) (zrange 0 nx)) (zrange 0 ny)) (zrange 0 nz)) ->
  0 <= e AX < nx /\ 0 <= e AY < ny /\ 0 <= e AZ < nz.
Proof.
  intros H. apply in_flat_map in H. destruct H as (z & Hz & H). apply in_flat_map in H. destruct H as (y & Hy & H).
  apply in_map_iff in H. destruct H as (x & <- & Hx). rewrite in_zrange in *. cbn. lia.
Qed.

(** [d] is the direction of one face. *)
Definition face_dir (g : geom) (d : axis -> Z) (e : axis) : Prop :=
  Z.abs (d e) = 1 /\ flat g e = false /\ forall a, a <> e -> d a = 0.
(** Position [P] of the next level is a half of position [T] on the side from which the
    face direction [d] comes. *)
Definition half_facing (g : geom) (d T P : axis -> Z) : Prop :=
  forall a, half g a (P a) = T a /\ (d a = 1 -> P a = 2 * T a) /\ (d a = -1 -> P a = 2 * T a + 1).

(** Coordinates, along the axis of the face, of the octant of the smaller cell. *)
Lemma face_axis bb cc dd V x q : 1 <= bb -> 0 <= cc < bb -> Z.abs dd = 1 -> (cc + dd) / bb <> 0 -> 0 <= q < bb ->
  x * bb + q = 2 * (V * bb + (cc + dd) mod bb) + (if cc + dd <? 0 then 1 else 0) ->
  x = 2 * V + (if (cc + dd) / bb =? -1 then 1 else 0).
Proof.
  intros B1 C D O Q E. assert (CASE : cc + dd = -1 \/ cc + dd = bb).
  { destruct (Z_lt_dec (cc + dd) 0); [lia|]. destruct (Z_lt_dec (cc + dd) bb); [|lia]. rewrite Z.div_small in O by lia. lia. }
  destruct CASE as [H|H]; rewrite H in *.
  - assert (D1 : -1 / bb = -1) by (symmetry; apply (Z.div_unique_pos _ _ _ (bb - 1)); lia).
    assert (M1 : -1 mod bb = bb - 1) by (symmetry; apply (Z.mod_unique_pos _ _ (-1)); lia).
    rewrite D1. rewrite M1 in E. change (-1 <? 0) with true in E. change (-1 =? -1) with true. cbv iota in *.
    assert (K : (x - 2 * V - 1) * bb = bb - 1 - q) by lia. assert (x - 2 * V - 1 = 0) by nia. lia.
  - rewrite Z.div_same by lia. rewrite Z.mod_same in E by lia. replace (bb <? 0) with false in E by lia. change (1 =? -1) with false. cbv iota in *.
    assert (K : (x - 2 * V) * bb = - q) by lia. assert (x - 2 * V = 0) by nia. lia.
Qed.
Lemma flank_axis bb X cc x q ev : 1 <= bb -> 0 <= cc < bb -> 0 <= q < bb -> 0 <= ev <= 1 ->
  x * bb + q = 2 * (X * bb + cc) -> 0 <= x - 2 * X + (q + ev) / bb < 2.
Proof.
  intros B1 C Q E H. pose proof (Z.div_mod (q + ev) bb ltac:(lia)) as DM. pose proof (Z.mod_pos_bound (q + ev) bb ltac:(lia)) as MB.
  set (y := (q + ev) / bb) in *. set (m := (q + ev) mod bb) in *.
  assert (K : (x + y - 2 * X) * bb + m = 2 * cc + ev).
  { replace ((x + y - 2 * X) * bb + m) with ((x * bb + q) + (bb * y + m - q) - 2 * (X * bb)) by ring. rewrite H, <- DM. ring. }
  assert (x + y - 2 * X < 2) by nia. assert (0 <= x + y - 2 * X) by nia. lia.
Qed.
Lemma flank_even bb X cc x q ev : 1 <= bb -> bb mod 2 = 0 -> 0 <= q < bb -> 0 <= ev <= 1 ->
  x * bb + q = 2 * (X * bb + cc) -> q + ev < bb.
Proof.
  intros B1 EV Q E H. pose proof (Z.div_mod bb 2 ltac:(lia)) as DM. rewrite EV in DM. set (h := bb / 2) in *.
  assert (q mod 2 = 0).
  { replace q with (2 * (X * bb + cc) - x * (2 * h)) by nia. replace (2 * (X * bb + cc) - x * (2 * h)) with ((X * bb + cc - x * h) * 2) by ring. apply Z.mod_mul. lia. }
  pose proof (Z.div_mod q 2 ltac:(lia)). lia.
Qed.

Theorem C25_smaller_neighbours g M R i A b c d e r db : wf_geom g -> mesh_ok g M -> In R M -> nth_error (loc R) i = Some A ->
  block_ok g b -> in_block b c -> face_dir g d e -> stays g b A c d ->
  getNeighbor_ghost g (loc R ++ gho R) (mkCell i c b LOCAL_TO_BLOCK) d = Some r -> c_status r = SMALLER ->
  db = true \/ (forall a, flat g a = false -> b a mod 2 = 0) ->
  exists l, smaller_neighbors db g (loc R ++ gho R) r d = Some l /\
    length l = (if g3d g then 4 else 2)%nat /\
    (forall x, In x l -> c_blk x = b /\ is_valid x = true /\
       exists B, nth_error (loc R ++ gho R) (c_oct x) = Some B /\ In B (leaves M) /\ lev B = lev A + 1 /\
       in_block b (c_pos x) /\ half_facing g d (wanted g b A c d) (gpos b B (c_pos x))) /\
    (forall P, half_facing g d (wanted g b A c d) P ->
       exists x B, In x l /\ nth_error (loc R ++ gho R) (c_oct x) = Some B /\ forall a, gpos b B (c_pos x) a = P a).
Proof.
  intros WF OK HRM HA BO IB (D1 & FE & D0) ST ER ES DB. destruct (mesh_local g M R i A WF OK HRM HA) as (INC & HA' & NB).
  set (st := loc R ++ gho R) in *.
  assert (Daxis : forall a, Z.abs (d a) <= 1) by (intros a; destruct (Z.eq_dec (d a) 0); [lia|]; destruct a, e; try lia; rewrite D0 in n by discriminate; lia).
  assert (RO : reach_offset g b d).
  { intros a. split; [pose proof (BO a); specialize (Daxis a); lia|]. intros F. apply D0. intros ->. congruence. }
  assert (VA : valid g A) by (apply (tiles_valid g _ A (ok_tiles g M OK)), INC; eapply nth_error_In, HA').
  destruct (gn_correct g WF (leaves M) st i A (ok_tiles g M OK) (ok_balanced g M OK) INC HA' NB b c d BO IB
    (fun a => proj1 (RO a)) (fun a => proj2 (RO a))) as (r0 & E & EBk & _ & H & HS).
  assert (r0 = r) as -> by congruence. specialize (HS ES). destruct (H ST) as (B & HB & HBL & IBr & DES). clear H.
  rewrite ES in DES. cbn [designates] in DES. destruct DES as (LB & DP).
  assert (VB : valid g B) by (apply (tiles_valid g _ B (ok_tiles g M OK)), HBL).
  set (T := wanted g b A c d) in *.
  assert (DP' : forall a, gpos b B (c_pos r) a = (if flat g a then T a else 2 * T a + (if c a + d a <? 0 then 1 else 0))) by exact DP. clear DP.
  pose (oo a := (c a + d a) / b a). fold oo in HS.
  assert (AE : forall a, a = e \/ a <> e) by (intros a; destruct a, e; (left; reflexivity) || (right; discriminate)).
  (* the request leaves the block along [e] only *)
  assert (OO : forall a, a <> e -> oo a = 0 /\ T a = gpos b A c a /\ (c a + d a <? 0) = false).
  { intros a NE. pose proof (IB a). unfold oo. rewrite (D0 a NE), Z.add_0_r. split; [apply Z.div_small; lia|]. split; [|lia].
    unfold T, wanted. rewrite (D0 a NE), Z.add_0_r. apply Z.mod_small. unfold gpos, ncells. pose proof (proj2 VA a). pose proof (BO a). nia. }
  assert (OE : oo e <> 0).
  { intros O0. assert (R0 : forall a, 0 <= c a + d a < b a).
    { intros a. pose proof (BO a). assert (Q : (c a + d a) / b a = 0) by (destruct (AE a) as [->|NE]; [exact O0|apply (OO a NE)]).
      pose proof (Z.div_mod (c a + d a) (b a) ltac:(lia)). pose proof (Z.mod_pos_bound (c a + d a) (b a) ltac:(lia)). lia. }
    unfold getNeighbor_ghost in ER. cbn [c_pos c_blk c_oct] in ER.
    assert (Q : all3 (fun a => s32 (c a + d a) / b a =? 0) = true).
    { apply all3_spec. intros a. specialize (R0 a). pose proof (BO a). rewrite s32_small by (change (2^31) with 2147483648; change (2^14) with 16384 in *; lia). rewrite Z.div_small by lia. reflexivity. }
    rewrite Q in ER. unfold getNeighbor in ER. destruct (all3 _) in ER; [|discriminate]. injection ER as <-. discriminate. }
  (* the octants of the other halves are known *)
  assert (SIB : forall ev, (forall a, 0 <= ev a <= 1) -> ev e = 0 -> (forall a, flat g a = true -> ev a = 0) ->
     let B' := oct_of (lev B) (fun a => coord B a + (c_pos r a + ev a) / b a) in valid g B' /\ In B' st).
  { intros ev EV EV0 EVF B'.
    assert (CB : forall a, coord B' a = coord B a + (c_pos r a + ev a) / b a) by (intros []; reflexivity).
    assert (INS : forall a, exists k, coord B' a = 2 * coord (target g A oo) a + (if oo a =? -1 then 1 else 0) + k /\
       0 <= k < (if flat g a then 0 else if oo a =? 0 then 1 else 0) + 1).
    { intros a. rewrite target_coord, CB. pose proof (BO a) as (B1 & BF). pose proof (IBr a) as IR. pose proof (DP' a) as P. unfold gpos in P.
      destruct (flat g a) eqn:F.
      - exists 0. pose proof (valid_flat g B a VB F) as VF. pose proof (valid_flat g A a VA F) as VF'. assert (NE : a <> e) by congruence.
        destruct (OO a NE) as (O1 & _). rewrite O1, (EVF a F), VF, VF'. specialize (BF eq_refl). rewrite BF in *. rewrite Z.div_1_r.
        unfold ncell. rewrite F. cbn. lia.
      - pose proof (ncell_pos g WF a (lev A) ltac:(destruct VA; lia)) as NP.
        destruct (AE a) as [->|NE].
        + rewrite EV0, Z.add_0_r. rewrite (Z.div_small (c_pos r e)) by lia. rewrite Z.add_0_r. exists 0.
          replace (oo e =? 0) with false by lia. split; [|lia]. rewrite Z.add_0_r.
          apply (face_axis (b e) (c e) (d e) _ _ (c_pos r e)); [lia|apply IB|exact D1|exact OE|exact IR|]. rewrite P. do 2 f_equal.
          unfold T, wanted, ncells, gpos. replace (coord A e * b e + c e + d e) with ((coord A e + oo e) * b e + (c e + d e) mod b e)
              by (unfold oo; pose proof (Z.div_mod (c e + d e) (b e)); lia).
          apply mod_pos; [exact NP|lia|apply Z.mod_pos_bound; lia].
        + destruct (OO a NE) as (O1 & O2 & O3). rewrite O1, Z.add_0_r. cbn [Z.eqb]. rewrite O3 in P. rewrite O2, Z.add_0_r in P. unfold gpos in P.
          replace (coord A a + 0) with (coord A a) by lia. rewrite Z.mod_small by (apply (proj2 VA a)).
          exists (coord B a - 2 * coord A a + (c_pos r a + ev a) / b a). split; [lia|].
          apply (flank_axis (b a) (coord A a) (c a) (coord B a) (c_pos r a) (ev a)); [lia|apply IB|exact IR|apply EV|exact P]. }
    assert (HIN : In B' st).
    { apply HS. apply in_suboctants. split; [exact LB|]. exact INS. }
    split; [|exact HIN]. apply (tiles_valid g _ B' (ok_tiles g M OK)), INC, HIN. }
  pose (count a := if flat g a then 1 else if d a =? 0 then 2 else 1).
  assert (STEP : forall ev, In ev (flat_map (fun dk => flat_map (fun dj => map (fun di => mkoff di dj dk)
       (zrange 0 (count AX))) (zrange 0 (count AY))) (zrange 0 (count AZ))) ->
     exists x, get_sibling_cell db g st r ev = Some x /\ (c_blk x = b /\ is_valid x = true) /\ in_block b (c_pos x) /\ exists B', nth_error st (c_oct x) = Some B' /\ lev B' = lev B /\
       forall a, gpos b B' (c_pos x) a = gpos b B (c_pos r) a + ev a).
  { intros ev HEV. apply box_in in HEV.
    assert (HC : forall a, 0 <= ev a < count a) by (intros []; lia). clear HEV.
    assert (EV : forall a, 0 <= ev a <= 1) by (intros a; specialize (HC a); unfold count in HC; destruct (flat g a), (d a =? 0); lia).
    assert (EV0 : ev e = 0) by (specialize (HC e); unfold count in HC; rewrite FE in HC; replace (d e =? 0) with false in HC by lia; lia).
    assert (EVF : forall a, flat g a = true -> ev a = 0) by (intros a F; specialize (HC a); unfold count in HC; rewrite F in HC; lia).
    assert (RR : r = mkCell (c_oct r) (c_pos r) b SMALLER) by (destruct r; cbn in *; congruence).
    unfold get_sibling_cell. destruct db.
    - destruct (SIB ev EV EV0 EVF) as (V' & I').
      destruct (sib_step g st (c_oct r) B (c_pos r) SMALLER b ev WF BO HB VB IBr EV EVF V' I') as (x & X1 & X2 & X3 & X4 & X5).
      exists x. rewrite RR. split; [exact X1|]. split; [exact X2|]. split; [exact X3|]. eexists. split; [exact X4|]. split; [reflexivity|exact X5].
    - destruct DB as [DB|DB]; [discriminate|].
      destruct (sib_step_local g st (c_oct r) B (c_pos r) SMALLER b ev BO HB IBr EV) as (x & X1 & X2 & X3 & X4 & X5).
      { intros a. pose proof (IBr a). destruct (AE a) as [->|NE]; [lia|]. destruct (flat g a) eqn:F; [rewrite (EVF a F); lia|].
        pose proof (DP' a) as P. rewrite F in P. destruct (OO a NE) as (O1 & O2 & O3). rewrite O3, O2, Z.add_0_r in P. unfold gpos in P.
        apply (flank_even (b a) (coord A a) (c a) (coord B a)); [apply BO|apply DB, F|assumption|apply EV|exact P]. }
      exists x. rewrite RR. split; [exact X1|]. split; [exact X2|]. split; [exact X3|]. exists B. split; [exact X4|]. split; [reflexivity|exact X5]. }
  destruct (mapM_exists _ _ _ STEP) as (l & EL & F2).
  exists l. split; [exact EL|]. split; [|split].
  - rewrite <- (Forall2_len _ _ _ F2). unfold count. destruct e; cbn [flat]; [rewrite (D0 AY), (D0 AZ) by discriminate|rewrite (D0 AX), (D0 AZ) by discriminate|rewrite (D0 AX), (D0 AY) by discriminate];
      cbn [flat] in FE; destruct (g3d g); try discriminate; cbn [negb]; rewrite ?Z.eqb_refl;
      try (replace (d AX =? 0) with false by lia); try (replace (d AY =? 0) with false by lia); try (replace (d AZ =? 0) with false by lia); reflexivity.
  - intros x HX. destruct (Forall2_in_r _ _ _ x F2 HX) as (ev & HEV & (XB & XV) & IBx & B' & X1 & X2 & X3). split; [exact XB|]. split; [exact XV|]. exists B'. split; [exact X1|].
    split; [apply INC; eapply nth_error_In, X1|]. split; [lia|]. split; [exact IBx|].
    apply box_in in HEV. assert (HC : forall a, 0 <= ev a < count a) by (intros []; lia). clear HEV.
    intros a. rewrite X3, DP'. specialize (HC a). unfold count in HC. unfold half. destruct (flat g a) eqn:F.
    + assert (NE : a <> e) by congruence. rewrite (D0 a NE). split; [lia|]. split; lia.
    + destruct (AE a) as [->|NE].
      * replace (d e =? 0) with false in HC by lia. replace (ev e) with 0 by lia.
        assert (SGN : (c e + d e <? 0) = (d e =? -1)).
        { pose proof (IB e). unfold oo in OE. destruct (Z.eq_dec (d e) 1) as [Q|Q]; [rewrite Q; lia|]. assert (Q1 : d e = -1) by lia. rewrite Q1 in *. 
          destruct (Z.eq_dec (c e) 0) as [Q2|Q2]; [rewrite Q2; reflexivity|]. rewrite Z.div_small in OE by lia. lia. }
        rewrite SGN. destruct (d e =? -1) eqn:Q.
        -- split; [|lia]. replace (2 * T e + 1 + 0) with (1 + T e * 2) by lia. rewrite Z.div_add by lia. reflexivity.
        -- split; [|lia]. replace (2 * T e + 0 + 0) with (T e * 2) by lia. apply Z.div_mul. lia.
      * destruct (OO a NE) as (_ & _ & O3). rewrite O3, (D0 a NE). rewrite (D0 a NE) in HC. cbn [Z.eqb] in HC. split; [|lia].
        replace (2 * T a + 0 + ev a) with (ev a + T a * 2) by lia. rewrite Z.div_add by lia. rewrite Z.div_small by lia. reflexivity.
  - intros P HP. pose (ev a := P a - gpos b B (c_pos r) a).
    assert (HC : forall a, 0 <= ev a < count a).
    { intros a. unfold ev, count. rewrite DP'. destruct (HP a) as (H1 & H2 & H3). unfold half in H1. destruct (flat g a) eqn:F; [lia|].
      pose proof (Z.div_mod (P a) 2 ltac:(lia)) as DM. pose proof (Z.mod_pos_bound (P a) 2 ltac:(lia)). rewrite H1 in DM.
      destruct (AE a) as [->|NE].
      - replace (d e =? 0) with false by lia. pose proof (IB e). destruct (Z.eq_dec (d e) 1) as [Q|Q]; [rewrite (H2 Q), Q; destruct (c e + 1 <? 0) eqn:?; lia|].
        assert (Q1 : d e = -1) by lia. rewrite (H3 Q1), Q1. destruct (c e + -1 <? 0) eqn:Q3; [lia|]. exfalso. apply OE. unfold oo. rewrite Q1. apply Z.div_small. lia.
      - destruct (OO a NE) as (_ & _ & O3). rewrite O3, (D0 a NE). cbn [Z.eqb]. lia. }
    destruct (in_box (count AX) (count AY) (count AZ) ev ltac:(intros []; reflexivity) _ eq_refl (conj (HC AX) (conj (HC AY) (HC AZ)))) as (ev' & HI & HE).
    destruct (Forall2_in_l _ _ _ ev' F2 HI) as (x & HX & _ & IBx & B' & X1 & X2 & X3). exists x, B'. split; [exact HX|]. split; [exact X1|].
    intros a. rewrite X3, HE. unfold ev. lia.
Qed.

(** ** The answer for a diagonal offset may not touch the cell

    One cell of a 2x2 mesh is refined. From the block to its right, the request one cell left
    and one cell down leaves the block to the left only; the smaller cell returned is the
    lower one of the two halves, which does not touch the cell that asks. *)
Definition dg_g : geom := mkGeom false 1 2 2 2 1 false false false.
Definition dg_M0 : mesh := match private_init id_order dg_g 1 with Some M => M | None => [] end.
Definition dg_M : mesh := match adapt 20 id_order dg_g dg_M0 (map (map ex_refine) (map loc dg_M0)) with Some M => M | None => [] end.
Example dg_setup : good_setup dg_g 1.
Proof. split; [apply wf_geom_check; reflexivity|cbn [dg_g lmin gsx gsy gsz]; lia]. Qed.
Example dg_reach : reachable dg_g 1 dg_M.
Proof.
  apply (reach_adapt dg_g 1 id_order 20 dg_M0 (map (map ex_refine) (map loc dg_M0))); [|exact id_order_ok| |vm_compute; reflexivity].
  - apply (reach_init dg_g 1 id_order); [exact id_order_ok|vm_compute; reflexivity].
  - apply good_markers_of, good_request_check. vm_compute. reflexivity.
Qed.
Example dg_ok : mesh_ok dg_g dg_M. Proof. exact (reachable_ok dg_g 1 dg_M dg_setup dg_reach). Qed.
Definition dg_b : axis -> Z := mkoff 4 4 1.
Definition dg_R : rank := hd (mkRank [] [] [] 0 0) dg_M.
Example dg_block : block_ok dg_g dg_b.
Proof. intros []; cbn; (split; [lia|]); intros F; congruence. Qed.

Theorem C25_refuted : ~ (forall g P M R i A b c d r B, good_setup g P -> reachable g P M -> In R M -> nth_error (loc R) i = Some A ->
  block_ok g b -> in_block b c -> reach_offset g b d -> (forall a, -1 <= d a <= 1) -> stays g b A c d ->
  getNeighbor_ghost g (loc R ++ gho R) (mkCell i c b LOCAL_TO_BLOCK) d = Some r ->
  nth_error (loc R ++ gho R) (c_oct r) = Some B -> near_cells g b A c B (c_pos r)).
Proof.
  intros H.
  pose (c := mkoff 0 2 0). pose (d := mkoff (-1) (-1) 0).
  assert (V : match getNeighbor_ghost dg_g (loc dg_R ++ gho dg_R) (mkCell 4 c dg_b LOCAL_TO_BLOCK) d with
              | Some r => match nth_error (loc dg_R ++ gho dg_R) (c_oct r) with
                          | Some B => (lev B =? 2) && (gpos dg_b B (c_pos r) AY =? 2) | None => false end
              | None => false end = true) by (vm_compute; reflexivity).
  destruct (getNeighbor_ghost dg_g (loc dg_R ++ gho dg_R) (mkCell 4 c dg_b LOCAL_TO_BLOCK) d) as [r|] eqn:E1; [|discriminate].
  destruct (nth_error (loc dg_R ++ gho dg_R) (c_oct r)) as [B|] eqn:E2; [|discriminate].
  apply andb_prop in V. destruct V as (LB & PB). apply Z.eqb_eq in LB, PB.
  specialize (H dg_g 1%nat dg_M dg_R 4%nat (mkOct 1 1 0 0) dg_b c d r B dg_setup dg_reach).
  assert (N : near_cells dg_g dg_b (mkOct 1 1 0 0) c B (c_pos r)).
  { apply H; [vm_compute; auto|vm_compute; reflexivity|exact dg_block| | | | |exact E1|exact E2].
    - intros []; vm_compute; split; congruence.
    - intros []; (split; [vm_compute; congruence|]); vm_compute; congruence.
    - intros []; vm_compute; split; congruence.
    - intros []; right; vm_compute; split; congruence. }
  destruct (N AY) as (k & K & N1 & N2). destruct K as [->|K]; [|discriminate K]. rewrite PB, LB in N1. vm_compute in N1. congruence.
Qed.

(** * C26: boundary cells *)

(** Decoding a position [P] relative to the block, at most one block away from it. *)
Lemma decode_boundary g b r P : block_ok g b -> c_blk r = b -> (forall a, - b a <= P a < 2 * b a) ->
  (forall a, c_pos r a = u32 (P a + b a)) ->
  forall inn off, getBoundaryPosAndOffset r = (inn, off) ->
    c_oct inn = c_oct r /\ c_blk inn = b /\ c_status inn = LOCAL_TO_BLOCK /\
    (forall a, c_pos inn a = Z.min (Z.max (P a) 0) (b a - 1)) /\ (forall a, off a = P a - c_pos inn a).
Proof.
  intros BO EB RP EP inn off H. unfold getBoundaryPosAndOffset in H. injection H as <- <-. cbn [c_oct c_blk c_status c_pos].
  rewrite EB. split; [reflexivity|]. split; [reflexivity|]. split; [reflexivity|].
  assert (K : forall a, s32 (c_pos r a) - s32 (b a) = P a).
  { intros a. rewrite EP. pose proof (BO a) as (B1 & _). specialize (RP a).
    rewrite u32_small by (change (2^32) with 4294967296; change (2^14) with 16384 in *; lia).
    rewrite !s32_small by (change (2^31) with 2147483648; change (2^14) with 16384 in *; lia). lia. }
  assert (K2 : forall a, u32 (Z.min (Z.max (s32 (c_pos r a) - s32 (b a)) 0) (s32 (b a - 1))) = Z.min (Z.max (P a) 0) (b a - 1)).
  { intros a. rewrite K. pose proof (BO a) as (B1 & _). rewrite (s32_small (b a - 1)) by (change (2^31) with 2147483648; change (2^14) with 16384 in *; lia).
    apply u32_small. change (2^32) with 4294967296; change (2^14) with 16384 in *. lia. }
  split; [exact K2|]. intros a. cbv beta. rewrite K2, K. apply s16_small. pose proof (BO a) as (B1 & _). specialize (RP a).
  change (2^15) with 32768; change (2^14) with 16384 in *. lia.
Qed.

Theorem C26_boundary g M R i A b c d : wf_geom g -> mesh_ok g M -> In R M -> nth_error (loc R) i = Some A ->
  block_ok g b -> in_block b c -> reach_offset g b d -> ~ stays g b A c d ->
  exists r, getNeighbor_ghost g (loc R ++ gho R) (mkCell i c b LOCAL_TO_BLOCK) d = Some r /\ c_status r = BOUNDARY /\
    forall inn off, getBoundaryPosAndOffset r = (inn, off) ->
      c_oct inn = i /\ c_blk inn = b /\ in_block b (c_pos inn) /\
      (* the inside cell plus the offset is the requested position *)
      (forall a, c_pos inn a + off a = c a + d a) /\
      (* no cell of the block is closer *)
      (forall q, in_block b q -> forall a, Z.abs (c a + d a - c_pos inn a) <= Z.abs (c a + d a - q a)) /\
      (* asking again from there gives the same index *)
      exists r', getNeighbor_ghost g (loc R ++ gho R) inn off = Some r' /\
        c_status r' = BOUNDARY /\ c_oct r' = c_oct r /\ c_blk r' = c_blk r /\ forall a, c_pos r' a = c_pos r a.
Proof.
  intros WF OK HRM HA BO IB RO ST. destruct (mesh_local g M R i A WF OK HRM HA) as (INC & HA' & NB).
  assert (EX : exists a, per g a = false /\ ~ 0 <= gpos b A c a + d a < ncells g b (lev A) a) by (destruct (classic_stays g b A c d); [contradiction|assumption]).
  destruct (gn_correct g WF (leaves M) (loc R ++ gho R) i A (ok_tiles g M OK) (ok_balanced g M OK) INC HA' NB b c d BO IB
    (fun a => proj1 (RO a)) (fun a => proj2 (RO a))) as (r & E & EB & H & _ & _).
  destruct (H EX) as (H1 & H2 & H3). exists r. split; [exact E|]. split; [exact H1|]. intros inn off HD.
  assert (RP : forall a, - b a <= c a + d a < 2 * b a) by (intros a; pose proof (BO a); specialize (IB a); destruct (RO a); lia).
  destruct (decode_boundary g b r (fun a => c a + d a) BO EB RP H3 inn off HD) as (Q1 & Q2 & Q3 & Q4 & Q5).
  assert (II : in_block b (c_pos inn)) by (intros a; rewrite Q4; pose proof (BO a); lia).
  assert (SUM : forall a, c_pos inn a + off a = c a + d a) by (intros a; rewrite Q5; lia).
  split; [congruence|]. split; [exact Q2|]. split; [exact II|]. split; [exact SUM|]. split.
  { intros q IQ a. rewrite Q4. specialize (IQ a). lia. }
  assert (OS : forall a, Z.abs (off a) <= Z.abs (d a)) by (intros a; rewrite Q5, Q4; specialize (IB a); lia).
  assert (RO' : reach_offset g b off).
  { intros a. specialize (OS a). destruct (RO a) as (R1 & R2). split; [lia|]. intros F. specialize (R2 F). lia. }
  destruct (gn_correct g WF (leaves M) (loc R ++ gho R) i A (ok_tiles g M OK) (ok_balanced g M OK) INC HA' NB b (c_pos inn) off BO II
    (fun a => proj1 (RO' a)) (fun a => proj2 (RO' a))) as (r' & E' & EB' & H' & _ & _).
  exists r'. assert (EI : inn = mkCell i (c_pos inn) b LOCAL_TO_BLOCK) by (destruct inn; cbn in *; congruence).
  rewrite EI. split; [exact E'|].
  destruct H' as (H1' & H2' & H3').
  { destruct EX as (a & P1 & P2). exists a. split; [exact P1|]. unfold gpos in *. specialize (SUM a). lia. }
  split; [exact H1'|]. split; [congruence|]. split; [congruence|]. intros a. rewrite H3', H3. f_equal. specialize (SUM a). lia.
Qed.

(** * C24: conversion between arrays *)

(** [b'] is the block [b] with [w] more layers on both sides. *)
Definition layered (b w b' : axis -> Z) : Prop := forall a, 1 <= b a /\ 0 <= w a /\ b' a = b a + 2 * w a /\ b' a <= 2^14.

Lemma same_block_spec b b' : same_block b b' = true <-> forall a, b a = b' a.
Proof. unfold same_block. rewrite all3_spec. split; intros H a; specialize (H a); lia. Qed.
Lemma quot2 w : Z.quot (2 * w) 2 = w.
Proof. rewrite Z.mul_comm. apply Z.quot_mul. lia. Qed.

Theorem C24_roundtrip b w b' o c : layered b w b' -> in_block b c ->
  exists c1 c2, convert_index b' (mkCell o c b LOCAL_TO_BLOCK) = Some c1 /\
    c_oct c1 = o /\ (forall a, c_blk c1 a = b' a) /\ in_block b' (c_pos c1) /\ c_status c1 = LOCAL_TO_BLOCK /\
    (* same distance, in half cells, to the centre of the block *)
    (forall a, 2 * c_pos c1 a + 1 - b' a = 2 * c a + 1 - b a) /\
    convert_index b c1 = Some c2 /\
    c_oct c2 = o /\ (forall a, c_blk c2 a = b a) /\ (forall a, c_pos c2 a = c a) /\ c_status c2 = LOCAL_TO_BLOCK.
Proof.
  intros LW IC. assert (SM : forall a, 0 <= c a < b a /\ 0 <= w a /\ b' a = b a + 2 * w a /\ b' a <= 16384 /\ 1 <= b a) by (intros a; specialize (LW a); specialize (IC a); change (2^14) with 16384 in LW; lia).
  unfold convert_index at 1. cbn [c_blk c_pos c_oct].
  destruct (same_block b b') eqn:SB.
  - pose proof (proj1 (same_block_spec b b') SB) as EQ. eexists. eexists. split; [reflexivity|]. cbn [c_oct c_blk c_pos c_status].
    split; [reflexivity|]. split; [exact EQ|]. split; [intros a; rewrite <- EQ; apply IC|]. split; [reflexivity|].
    split; [intros a; rewrite EQ; lia|]. unfold convert_index. cbn [c_blk].
    replace (same_block b b) with true by (symmetry; apply same_block_spec; reflexivity). split; [reflexivity|]. auto.
  - assert (P1 : forall a, s32 (c a + Z.quot (b' a - b a) 2) = c a + w a).
    { intros a. specialize (SM a). replace (b' a - b a) with (2 * w a) by lia. rewrite quot2. apply s32_small. change (2^31) with 2147483648. lia. }
    assert (E : all3 (fun a => (0 <=? s32 (c a + Z.quot (b' a - b a) 2)) && (s32 (c a + Z.quot (b' a - b a) 2) <? b' a)) = true).
    { apply all3_spec. intros a. rewrite P1. specialize (SM a). lia. }
    rewrite E.
    assert (U1 : forall a, u32 (s32 (c a + Z.quot (b' a - b a) 2)) = c a + w a).
    { intros a. rewrite P1. apply u32_small. specialize (SM a). change (2^32) with 4294967296. lia. }
    eexists. eexists. split; [reflexivity|]. cbn [c_oct c_blk c_pos c_status].
    split; [reflexivity|]. split; [reflexivity|]. split; [intros a; rewrite U1; specialize (SM a); lia|]. split; [reflexivity|].
    split; [intros a; rewrite U1; specialize (SM a); lia|].
    unfold convert_index. cbn [c_blk c_pos c_oct].
    assert (SB' : same_block b' b = false).
    { destruct (same_block b' b) eqn:Q; [|reflexivity]. rewrite <- SB. symmetry. apply same_block_spec. intros a. symmetry. revert a. apply same_block_spec, Q. }
    rewrite SB'.
    assert (P2 : forall a, s32 (u32 (s32 (c a + Z.quot (b' a - b a) 2)) + Z.quot (b a - b' a) 2) = c a).
    { intros a. rewrite U1. specialize (SM a). replace (b a - b' a) with (- (2 * w a)) by lia. rewrite Z.quot_opp_l, quot2 by lia.
      replace (c a + w a + - w a) with (c a) by lia. apply s32_small. change (2^31) with 2147483648. lia. }
    match goal with |- (if all3 ?f then _ else _) = _ /\ _ => assert (E2 : all3 f = true) end.
    { apply all3_spec. intros a. rewrite P2. specialize (SM a). lia. }
    rewrite E2. split; [reflexivity|]. cbn [c_oct c_blk c_pos c_status]. split; [reflexivity|]. split; [reflexivity|]. split; [|reflexivity].
    intros a. rewrite P2. apply u32_small. specialize (SM a). change (2^32) with 4294967296. lia.
Qed.

(** From a wide array to the block of the same octant: the cell when it is in the block, an
    invalid index otherwise. *)
Theorem C24_narrow_local b w b' o p : layered b w b' -> in_block b' p ->
  let r := convert_index_ghost_local b (mkCell o p b' LOCAL_TO_BLOCK) in
  (in_block b (fun a => p a - w a) -> c_status r = LOCAL_TO_BLOCK /\ c_oct r = o /\ forall a, c_blk r a = b a /\ c_pos r a = p a - w a) /\
  (~ in_block b (fun a => p a - w a) -> is_valid r = false).
Proof.
  intros LW IP r. assert (SM : forall a, 0 <= p a < b' a /\ 0 <= w a /\ b' a = b a + 2 * w a /\ b' a <= 16384 /\ 1 <= b a) by (intros a; specialize (LW a); specialize (IP a); change (2^14) with 16384 in LW; lia).
  unfold r, convert_index_ghost_local. cbn [c_blk c_pos c_oct].
  destruct (same_block b' b) eqn:SB.
  - pose proof (proj1 (same_block_spec b' b) SB) as EQ. assert (W0 : forall a, w a = 0) by (intros a; specialize (SM a); specialize (EQ a); lia).
    split; [intros _; cbn [c_status c_oct c_blk c_pos]; split; [reflexivity|]; split; [reflexivity|]; intros a; rewrite W0; split; [apply EQ|lia]|].
    intros H. exfalso. apply H. intros a. specialize (SM a). rewrite W0 in *. lia.
  - assert (P1 : forall a, u32 (p a + Z.quot (b a - b' a) 2) = u32 (p a - w a)).
    { intros a. specialize (SM a). replace (b a - b' a) with (- (2 * w a)) by lia. rewrite Z.quot_opp_l, quot2 by lia. reflexivity. }
    assert (P2 : forall a, u32 (p a - w a) < b a <-> 0 <= p a - w a < b a).
    { intros a. specialize (SM a). unfold u32. change (2^32) with 4294967296. destruct (Z_le_dec 0 (p a - w a)).
      - rewrite Z.mod_small by lia. lia.
      - rewrite <- (Z.mod_add _ 1) by lia. rewrite Z.mod_small by lia. lia. }
    destruct (all3 (fun a => u32 (p a + Z.quot (b a - b' a) 2) <? b a)) eqn:E; cbn [negb].
    + assert (K : in_block b (fun a => p a - w a)) by (intros a; apply P2; rewrite <- P1; pose proof (proj1 (all3_spec _) E a) as K; cbv beta in K; lia).
      split; [|contradiction]. intros _. cbn [c_status c_oct c_blk c_pos]. split; [reflexivity|]. split; [reflexivity|]. intros a. split; [reflexivity|].
      rewrite P1. apply u32_small. specialize (SM a). specialize (K a). cbv beta in K. change (2^32) with 4294967296. lia.
    + split; [|intros _; reflexivity]. intros K. exfalso. apply all3_false in E. destruct E as (a & E). rewrite P1 in E.
      specialize (K a). apply P2 in K. lia.
Qed.
