(** C25 for any direction, edges and corners included: the smaller cells of a neighbouring
    position. *)
From Coq Require Import QArith Qround.
From Verif Require Import Base OctreeSpec OctreeGeom OctreeModel FindNeighbors MeshSpec
  HistorySpec HistoryProofs OctreeProps CellModel CellSpec CellProofs CellProps.
Open Scope Z_scope.

(** Number of smaller cells visited along an axis: both halves of the requested position when
    the direction does not move along that axis. *)
Definition visited (g : geom) (d : axis -> Z) (a : axis) : Z := if flat g a then 1 else if d a =? 0 then 2 else 1.

Lemma box_length {X} (f : Z -> Z -> Z -> X) nx ny nz : 0 <= nx -> 0 <= ny -> 0 <= nz ->
  Z.of_nat (length (flat_map (fun dk => flat_map (fun dj => map (fun di => f di dj dk) (zrange 0 nx)) (zrange 0 ny)) (zrange 0 nz))) = nx * ny * nz.
Proof.
  intros Hx Hy Hz.
  assert (L : forall n, 0 <= n -> Z.of_nat (length (zrange 0 n)) = n) by (intros n Hn; unfold zrange; rewrite map_length, seq_length; lia).
  assert (G : forall {Y} (h : Z -> list Y) k l, (forall z, In z l -> Z.of_nat (length (h z)) = k) -> Z.of_nat (length (flat_map h l)) = Z.of_nat (length l) * k).
  { intros Y h k l. induction l as [|z l IH]; intros H; [reflexivity|]. cbn [flat_map]. rewrite app_length, Nat2Z.inj_add, H by (left; reflexivity).
    rewrite IH by (intros; apply H; right; assumption). cbn [length]. lia. }
  rewrite (G _ _ (nx * ny)).
  - rewrite L by exact Hz. ring.
  - intros dk _. rewrite (G _ _ nx); [rewrite L by exact Hy; ring|]. intros dj _. rewrite map_length. apply L, Hx.
Qed.

Theorem C25_smaller_any g M R i A b c d r : wf_geom g -> mesh_ok g M -> In R M -> nth_error (loc R) i = Some A ->
  block_ok g b -> in_block b c -> (forall a, Z.abs (d a) <= 1) -> (forall a, flat g a = true -> d a = 0) -> stays g b A c d ->
  getNeighbor_ghost g (loc R ++ gho R) (mkCell i c b LOCAL_TO_BLOCK) d = Some r -> c_status r = SMALLER ->
  exists l, smaller_neighbors true g (loc R ++ gho R) r d = Some l /\
    Z.of_nat (length l) = visited g d AX * visited g d AY * visited g d AZ /\
    forall x, In x l -> c_blk x = b /\ is_valid x = true /\
      exists B, nth_error (loc R ++ gho R) (c_oct x) = Some B /\ In B (leaves M) /\ lev B = lev A + 1 /\
        in_block b (c_pos x) /\ forall a, half g a (gpos b B (c_pos x) a) = wanted g b A c d a.
Proof.
  intros WF OK HRM HA BO IB Daxis DF ST ER ES. destruct (mesh_local g M R i A WF OK HRM HA) as (INC & HA' & NB).
  set (st := loc R ++ gho R) in *.
  assert (RO : reach_offset g b d).
  { intros a. split; [pose proof (BO a); specialize (Daxis a); lia|apply DF]. }
  assert (VA : valid g A) by (apply (tiles_valid g _ A (ok_tiles g M OK)), INC; eapply nth_error_In, HA').
  destruct (gn_correct g WF (leaves M) st i A (ok_tiles g M OK) (ok_balanced g M OK) INC HA' NB b c d BO IB
    (fun a => proj1 (RO a)) (fun a => proj2 (RO a))) as (r0 & E & EBk & _ & H & HS).
  assert (r0 = r) as -> by congruence. specialize (HS ES). destruct (H ST) as (B & HB & HBL & IBr & DES). clear H.
  rewrite ES in DES. cbn [designates] in DES. destruct DES as (LB & DP).
  assert (VB : valid g B) by (apply (tiles_valid g _ B (ok_tiles g M OK)), HBL).
  set (T := wanted g b A c d) in *.
  assert (DP' : forall a, gpos b B (c_pos r) a = (if flat g a then T a else 2 * T a + (if c a + d a <? 0 then 1 else 0))) by exact DP. clear DP.
  pose (oo a := (c a + d a) / b a). fold oo in HS.
  (* axes along which the request stays in the block *)
  assert (OO : forall a, oo a = 0 -> 0 <= c a + d a < b a /\ T a = coord A a * b a + (c a + d a)).
  { intros a O0. pose proof (BO a) as (B1 & _). unfold oo in O0. pose proof (Z.div_mod (c a + d a) (b a) ltac:(lia)). pose proof (Z.mod_pos_bound (c a + d a) (b a) ltac:(lia)).
    rewrite O0 in *. assert (R0 : 0 <= c a + d a < b a) by lia. split; [exact R0|].
    unfold T, wanted, gpos. rewrite <- Z.add_assoc. apply Z.mod_small. unfold ncells. pose proof (proj2 VA a). nia. }
  assert (ON : forall a, oo a <> 0 -> d a <> 0).
  { intros a O0 D0. apply O0. unfold oo. rewrite D0, Z.add_0_r. apply Z.div_small, IB. }
  assert (SIB : forall ev, (forall a, 0 <= ev a <= 1) -> (forall a, d a <> 0 -> ev a = 0) -> (forall a, flat g a = true -> ev a = 0) ->
     let B' := oct_of (lev B) (fun a => coord B a + (c_pos r a + ev a) / b a) in valid g B' /\ In B' st).
  { intros ev EV EV0 EVF B'.
    assert (CB : forall a, coord B' a = coord B a + (c_pos r a + ev a) / b a) by (intros []; reflexivity).
    assert (INS : forall a, exists k, coord B' a = 2 * coord (target g A oo) a + (if oo a =? -1 then 1 else 0) + k /\
       0 <= k < (if flat g a then 0 else if oo a =? 0 then 1 else 0) + 1).
    { intros a. rewrite target_coord, CB. pose proof (BO a) as (B1 & BF). pose proof (IBr a) as IR. pose proof (DP' a) as P. unfold gpos in P.
      destruct (flat g a) eqn:F.
      - exists 0. pose proof (valid_flat g B a VB F) as VF. pose proof (valid_flat g A a VA F) as VF'.
        assert (O1 : oo a = 0). { unfold oo. rewrite (DF a F), Z.add_0_r. apply Z.div_small, IB. }
        rewrite O1, (EVF a F), VF, VF'. specialize (BF eq_refl). rewrite BF in *. rewrite Z.div_1_r.
        unfold ncell. rewrite F. cbn. lia.
      - pose proof (ncell_pos g WF a (lev A) ltac:(destruct VA; lia)) as NP.
        destruct (Z.eq_dec (oo a) 0) as [O0|O0].
        + destruct (OO a O0) as (R0 & TA). rewrite O0. cbn [Z.eqb]. rewrite !Z.add_0_r. replace (c a + d a <? 0) with false in P by lia. rewrite TA, Z.add_0_r in P.
          rewrite Z.mod_small by (apply (proj2 VA a)).
          exists (coord B a - 2 * coord A a + (c_pos r a + ev a) / b a). split; [lia|].
          apply (flank_axis (b a) (coord A a) (c a + d a) (coord B a) (c_pos r a) (ev a)); [lia|exact R0|exact IR|apply EV|exact P].
        + rewrite (EV0 a (ON a O0)), Z.add_0_r. rewrite (Z.div_small (c_pos r a)) by lia. rewrite Z.add_0_r. exists 0.
          replace (oo a =? 0) with false by lia. split; [|lia]. rewrite Z.add_0_r.
          apply (face_axis (b a) (c a) (d a) _ _ (c_pos r a)); [lia|apply IB|specialize (Daxis a); pose proof (ON a O0); lia|exact O0|exact IR|]. rewrite P. do 2 f_equal.
          unfold T, wanted, ncells, gpos. replace (coord A a * b a + c a + d a) with ((coord A a + oo a) * b a + (c a + d a) mod b a)
              by (unfold oo; pose proof (Z.div_mod (c a + d a) (b a)); lia).
          apply mod_pos; [exact NP|lia|apply Z.mod_pos_bound; lia]. }
    assert (HIN : In B' st).
    { apply HS. apply in_suboctants. split; [exact LB|]. exact INS. }
    split; [|exact HIN]. apply (tiles_valid g _ B' (ok_tiles g M OK)), INC, HIN. }
  assert (STEP : forall ev, In ev (flat_map (fun dk => flat_map (fun dj => map (fun di => mkoff di dj dk)
       (zrange 0 (visited g d AX))) (zrange 0 (visited g d AY))) (zrange 0 (visited g d AZ))) ->
     exists x, get_sibling_cell true g st r ev = Some x /\ (c_blk x = b /\ is_valid x = true) /\ in_block b (c_pos x) /\ exists B', nth_error st (c_oct x) = Some B' /\ lev B' = lev B /\
       forall a, gpos b B' (c_pos x) a = gpos b B (c_pos r) a + ev a).
  { intros ev HEV. apply box_in in HEV.
    assert (HC : forall a, 0 <= ev a < visited g d a) by (intros []; lia). clear HEV.
    assert (EV : forall a, 0 <= ev a <= 1) by (intros a; specialize (HC a); unfold visited in HC; destruct (flat g a), (d a =? 0); lia).
    assert (EV0 : forall a, d a <> 0 -> ev a = 0) by (intros a N; specialize (HC a); unfold visited in HC; replace (d a =? 0) with false in HC by lia; destruct (flat g a); lia).
    assert (EVF : forall a, flat g a = true -> ev a = 0) by (intros a F; specialize (HC a); unfold visited in HC; rewrite F in HC; lia).
    assert (RR : r = mkCell (c_oct r) (c_pos r) b SMALLER) by (destruct r; cbn in *; congruence).
    unfold get_sibling_cell. destruct (SIB ev EV EV0 EVF) as (V' & I').
    destruct (sib_step g st (c_oct r) B (c_pos r) SMALLER b ev WF BO HB VB IBr EV EVF V' I') as (x & X1 & X2 & X3 & X4 & X5).
    exists x. rewrite RR. split; [exact X1|]. split; [exact X2|]. split; [exact X3|]. eexists. split; [exact X4|]. split; [reflexivity|exact X5]. }
  destruct (mapM_exists _ _ _ STEP) as (l & EL & F2).
  exists l. split; [exact EL|]. split.
  - rewrite <- (Forall2_len _ _ _ F2). apply box_length; unfold visited; destruct (flat g _); try lia; destruct (_ =? 0); lia.
  - intros x HX. destruct (Forall2_in_r _ _ _ x F2 HX) as (ev & HEV & (XB & XV) & IBx & B' & X1 & X2 & X3). split; [exact XB|]. split; [exact XV|]. exists B'. split; [exact X1|].
    split; [apply INC; eapply nth_error_In, X1|]. split; [lia|]. split; [exact IBx|].
    apply box_in in HEV. assert (HC : forall a, 0 <= ev a < visited g d a) by (intros []; lia). clear HEV.
    intros a. rewrite X3, DP'. specialize (HC a). unfold visited in HC. unfold half. destruct (flat g a) eqn:F; [lia|].
    assert (EVZ : 0 <= (if c a + d a <? 0 then 1 else 0) + ev a < 2).
    { destruct (Z.eq_dec (d a) 0) as [D0|D0]; [rewrite D0 in *; cbn [Z.eqb] in HC; pose proof (IB a); destruct (c a + 0 <? 0) eqn:Q; lia|].
      replace (d a =? 0) with false in HC by lia. destruct (_ <? 0); lia. }
    replace (2 * T a + (if c a + d a <? 0 then 1 else 0) + ev a) with ((if c a + d a <? 0 then 1 else 0) + ev a + T a * 2) by lia.
    rewrite Z.div_add by lia. rewrite Z.div_small by lia. reflexivity.
Qed.
Print Assumptions C25_smaller_any.
