(** Proofs about the transfer of cell values: which old cells are read for a new cell. *)
From Coq Require Import QArith Qround Lqa.
From Verif Require Import Base OctreeSpec OctreeGeom OctreeModel FindNeighbors MeshSpec GhostExchange ApplyProofs AdaptProofs
  LookupSpec LookupModel LookupProps CellModel CellSpec CellProofs CellProps CellIterProps CommProps InitProofs RemapModel RemapSpec.
Open Scope Z_scope.

(** * Children *)
Lemma in_children_spec g c B : In B (children g c) <-> lev B = lev c + 1 /\ forall a, half g a (coord B a) = coord c a.
Proof.
  unfold children. rewrite in_flat_map. split.
  - intros (z & Hz & H). apply in_flat_map in H. destruct H as (y & Hy & H). apply in_map_iff in H. destruct H as (x & <- & Hx).
    split; [reflexivity|]. intros []; cbn [coord cx cy cz]; unfold half; cbn [flat] in *.
    + destruct Hx as [<-|[<-|[]]]; cbn [coord]; lia.
    + destruct Hy as [<-|[<-|[]]]; cbn [coord]; lia.
    + destruct (negb (g3d g)); [destruct Hz as [<-|[]]; reflexivity|]. destruct Hz as [<-|[<-|[]]]; cbn [coord]; lia.
  - intros (E & H). pose proof (H AX) as HX. pose proof (H AY) as HY. pose proof (H AZ) as HZ. unfold half in *. cbn [flat coord] in *.
    exists (cz B). split; [destruct (negb (g3d g)); cbn [In]; lia|].
    apply in_flat_map. exists (cy B). split; [cbn [In]; lia|].
    apply in_map_iff. exists (cx B). split; [destruct B; cbn in *; congruence|]. cbn [In]. lia.
Qed.
Lemma in_children_parent g c B : In B (children g c) <-> parent g B = c.
Proof.
  rewrite in_children_spec. split.
  - intros (E & H). apply oct_ext; [unfold parent, oct_of; cbn [lev]; lia|]. intros a. unfold parent. rewrite coord_oct_of. apply H.
  - intros <-. split; [unfold parent, oct_of; cbn [lev]; lia|]. unfold parent. intros a. rewrite coord_oct_of. reflexivity.
Qed.
Lemma children_length g c : length (children g c) = if g3d g then 8%nat else 4%nat.
Proof. unfold children. cbn [flat]. destruct (g3d g); reflexivity. Qed.
Lemma children_NoDup g c : NoDup (children g c).
Proof.
  unfold children. cbn [flat].
  destruct (g3d g); cbn [negb]; cbn -[Z.add Z.mul]; repeat constructor; cbn; intros H;
  repeat (destruct H as [H|H]; [injection H; lia|]); exact H.
Qed.

(** Children as positions plus an offset, in the order of the loops of the code. *)
Definition plus_off (c : oct) (e : axis -> Z) (g : geom) : oct :=
  oct_of (lev c + 1) (fun a => (if flat g a then coord c a else 2 * coord c a) + e a).
Lemma children_offsets g c : children g c = map (fun e => plus_off c e g) (subcell_offsets (ndim g)).
Proof.
  unfold children, subcell_offsets, plus_off, ndim, oct_of. change (zrange 0 2) with [0; 1]. cbn [flat coord].
  destruct (g3d g); cbn [negb]; [change (zrange 0 (3 - 1)) with [0; 1]|change (zrange 0 (2 - 1)) with [0]];
  cbn [flat_map map app mkoff]; rewrite !Z.add_0_r; reflexivity.
Qed.
Lemma subcell_offset_in g e : In e (subcell_offsets (ndim g)) -> (forall a, 0 <= e a <= 1) /\ (forall a, flat g a = true -> e a = 0).
Proof.
  unfold subcell_offsets, ndim. intros H. apply in_flat_map in H. destruct H as (z & Hz & H). apply in_flat_map in H. destruct H as (y & Hy & H).
  apply in_map_iff in H. destruct H as (x & <- & Hx). apply in_zrange in Hx, Hy, Hz. unfold mkoff.
  split; intros []; cbn [flat]; destruct (g3d g); cbn [negb]; intros; try discriminate; lia.
Qed.

(** * The old octant found for a new octant *)
Section Locate.
Variable g : geom.
Hypothesis WF : wf_geom g.
Variable A' : oct.
Hypothesis HV : valid g A'.

Lemma first_pos_val a : (first_old_pos g A' a ==
  if flat g a then 0 else inject_Z (4 * coord A' a + 1) / inject_Z (4 * ncell g a (lev A')))%Q.
Proof.
  assert (K : forall a, flat g a = false -> (getCenter g A' a - (1#4) * getSize g A' a == inject_Z (4 * coord A' a + 1) / inject_Z (4 * ncell g a (lev A')))%Q).
  { intros a' F. unfold getCenter, getSize. rewrite F. destruct HV as [HL _]. rewrite (cell_count_eq g WF) by (lia || exact F).
    pose proof (ncell_pos g WF a' (lev A') ltac:(lia)) as NP. rewrite inject_Z_plus, !inject_Z_mult. change (inject_Z 4) with (4#1). change (inject_Z 1) with (1#1).
    assert (NQ : ~ (inject_Z (ncell g a' (lev A')) == 0)%Q) by (unfold Qeq; cbn; lia). field. exact NQ. }
  destruct a; cbn [first_old_pos flat]; [apply (K AX eq_refl)|apply (K AY eq_refl)|].
  destruct (g3d g) eqn:E; cbn [negb]; [|reflexivity]. apply (K AZ). cbn [flat]. rewrite E. reflexivity.
Qed.

Lemma quot_le (x y n m : Z) : 0 < n -> 0 < m -> (inject_Z x / inject_Z n <= inject_Z y / inject_Z m)%Q <-> x * m <= y * n.
Proof.
  intros Hn Hm. destruct n as [|n|]; try lia. destruct m as [|m|]; try lia. unfold Qdiv, Qinv, Qmult, inject_Z, Qle. cbn [Qnum Qden]. nia.
Qed.
Lemma quot_lt (x y n m : Z) : 0 < n -> 0 < m -> (inject_Z x / inject_Z n < inject_Z y / inject_Z m)%Q <-> x * m < y * n.
Proof.
  intros Hn Hm. destruct n as [|n|]; try lia. destruct m as [|m|]; try lia. unfold Qdiv, Qinv, Qmult, inject_Z, Qlt. cbn [Qnum Qden]. nia.
Qed.

Lemma first_pos_inside : inside_domain g (first_old_pos g A').
Proof.
  destruct HV as [HL HC]. split; intros a F; rewrite first_pos_val, F; [|reflexivity].
  pose proof (ncell_pos g WF a (lev A') ltac:(lia)) as NP. specialize (HC a). split.
  - setoid_replace 0%Q with (inject_Z 0 / inject_Z 1)%Q by reflexivity. apply quot_lt; lia.
  - setoid_replace 1%Q with (inject_Z 1 / inject_Z 1)%Q by reflexivity. apply quot_lt; lia.
Qed.

(** Octants that contain the point: arithmetic criterion. *)
Lemma first_pos_contains B : lmin g <= lev B ->
  (forall a, if flat g a then coord B a = 0
             else coord B a * (4 * ncell g a (lev A')) <= (4 * coord A' a + 1) * ncell g a (lev B) < (coord B a + 1) * (4 * ncell g a (lev A'))) ->
  contains g B (first_old_pos g A').
Proof.
  intros HB H a. cbv zeta. specialize (H a). pose proof (first_pos_val a) as E. destruct HV as [HL _].
  pose proof (ncell_pos g WF a (lev B) HB) as NB. pose proof (ncell_pos g WF a (lev A') ltac:(lia)) as NA.
  destruct (flat g a) eqn:F.
  - rewrite E, H. unfold ncell. rewrite F. split; unfold Qle, Qlt; cbn; lia.
  - rewrite E. split; [apply quot_le|apply quot_lt]; lia.
Qed.
Lemma same_contains : contains g A' (first_old_pos g A').
Proof.
  destruct HV as [HL HC]. apply first_pos_contains; [lia|]. intros a. specialize (HC a). destruct (flat g a) eqn:F.
  - unfold ncell in HC. rewrite F in HC. lia.
  - pose proof (ncell_pos g WF a (lev A') ltac:(lia)). nia.
Qed.
Lemma parent_contains : lmin g <= lev A' - 1 -> contains g (parent g A') (first_old_pos g A').
Proof.
  intros HP. destruct HV as [HL HC]. apply first_pos_contains; [unfold parent, oct_of; cbn [lev]; lia|]. intros a. specialize (HC a).
  unfold parent. rewrite coord_oct_of. cbn [oct_of lev]. unfold half. destruct (flat g a) eqn:F.
  - unfold ncell in HC. rewrite F in HC. lia.
  - pose proof (ncell_split g a (lev A' - 1) 1 HP ltac:(lia)) as S. rewrite F in S. replace (lev A' - 1 + 1) with (lev A') in S by lia.
    rewrite S. pose proof (ncell_pos g WF a (lev A' - 1) HP) as NP. change (2^1) with 2. clear S HC HL. nia.
Qed.
Definition first_child : oct := plus_off A' (fun _ => 0) g.
Lemma first_child_in : In first_child (children g A').
Proof.
  apply in_children_spec. unfold first_child, plus_off. cbn [oct_of lev]. split; [reflexivity|]. intros a. rewrite coord_oct_of.
  unfold half. destruct (flat g a); lia.
Qed.
Lemma first_child_contains : contains g first_child (first_old_pos g A').
Proof.
  destruct HV as [HL HC]. apply first_pos_contains; [unfold first_child, plus_off, oct_of; cbn [lev]; lia|]. intros a. specialize (HC a).
  unfold first_child, plus_off. rewrite coord_oct_of. cbn [oct_of lev]. destruct (flat g a) eqn:F.
  - unfold ncell in HC. rewrite F in HC. lia.
  - pose proof (ncell_split g a (lev A') 1 ltac:(lia) ltac:(lia)) as S. rewrite F in S. rewrite S.
    pose proof (ncell_pos g WF a (lev A') ltac:(lia)) as NP. change (2^1) with 2. clear S HC HL. nia.
Qed.

Variable M : mesh.
Hypothesis OK : mesh_ok g M.
Variable R : rank.
Hypothesis HR : In R M.
Lemma located B : In B (leaves M) -> In B (loc R ++ gho R) -> contains g B (first_old_pos g A') ->
  exists i, getiOctFromPos g (loc R ++ gho R) (first_old_pos g A') = Some i /\ nth_error (loc R ++ gho R) i = Some B.
Proof.
  intros HB HI HC. destruct (C18_location g M R _ WF OK HR first_pos_inside) as (A & HA & CA & U & F & _).
  rewrite (U B HB HC) in *. apply F, HI.
Qed.
End Locate.

(** * The old cells read for a new cell *)
Definition is_src (b : axis -> Z) (st : list oct) (m : cidx) (B c : oct) : Prop :=
  nth_error st (c_oct m) = Some B /\ is_valid m = true /\ c_blk m = b /\ in_block b (c_pos m) /\ cell_of b B (c_pos m) = c.

Section Sources.
Variable g : geom.
Hypothesis WF : wf_geom g.
Variable M : mesh.
Hypothesis OK : mesh_ok g M.
Variable R : rank.
Hypothesis HR : In R M.
Let st := loc R ++ gho R.
Variable b : axis -> Z.
Hypothesis BO : block_ok g b.
Variable A' : oct.
Hypothesis HV : valid g A'.
Variable p : axis -> Z.
Hypothesis HP : in_block b p.
Variable j : nat.
Let c0 := mkCell j p b LOCAL_TO_BLOCK.

Lemma st_incl : incl st (leaves M).
Proof.
  intros X HX. apply in_app_iff in HX. destruct HX as [HX|HX].
  - unfold leaves. apply in_concat. exists (loc R). split; [apply in_map, HR|exact HX].
  - apply (ok_ghosts g M OK R HR). exact HX.
Qed.
Lemma u32_blk a z : 0 <= z < 2 * b a -> u32 z = z.
Proof. intros H. apply u32_small. pose proof (BO a) as (B1 & _). change (2^32) with 4294967296; change (2^14) with 16384 in *. lia. Qed.

Lemma sources_same : In A' st -> exists m, source_cells g st A' c0 = Some (false, [m]) /\ is_src b st m A' (cell_of b A' p).
Proof.
  intros HI. destruct (located g WF A' HV M OK R HR A' (st_incl _ HI) HI (same_contains g WF A' HV)) as (i & E & N).
  unfold source_cells, get_old_cell. fold st in E, N. rewrite E, N, Z.eqb_refl. cbn [c0 c_blk c_pos c_status level_diff]. cbn [Z.leb Z.compare].
  eexists. split; [reflexivity|]. repeat split; try assumption; try (apply HP).
Qed.

Lemma center_gt l l' x y a : lmin g <= l <= lmax g -> lmin g <= l' <= lmax g -> flat g a = false ->
  forall A B, lev A = l -> lev B = l' -> coord A a = x -> coord B a = y ->
  Qgt_bool (getCenter g A a) (getCenter g B a) = ((2 * y + 1) * ncell g a l <? (2 * x + 1) * ncell g a l').
Proof.
  intros HL HL' F A B EA EB CA CB.
  assert (K : forall o, lmin g <= lev o <= lmax g -> (getCenter g o a == inject_Z (2 * coord o a + 1) / inject_Z (2 * ncell g a (lev o)))%Q).
  { intros o HO. unfold getCenter, getSize. rewrite F. rewrite (cell_count_eq g WF) by (lia || exact F).
    pose proof (ncell_pos g WF a (lev o) ltac:(lia)) as NP. rewrite inject_Z_plus, !inject_Z_mult. change (inject_Z 2) with (2#1). change (inject_Z 1) with (1#1).
    assert (NQ : ~ (inject_Z (ncell g a (lev o)) == 0)%Q) by (unfold Qeq; cbn; lia). field. exact NQ. }
  pose proof (ncell_pos g WF a l ltac:(lia)) as N1. pose proof (ncell_pos g WF a l' ltac:(lia)) as N2.
  unfold Qgt_bool. apply eq_true_iff_eq. rewrite negb_true_iff, Z.ltb_lt, <- not_true_iff_false, Qle_bool_iff, !K by lia.
  subst. rewrite (quot_le) by lia. split; intros H; nia.
Qed.

Lemma sources_bigger : lmin g <= lev A' - 1 -> In (parent g A') st ->
  exists m, source_cells g st A' c0 = Some (false, [m]) /\ is_src b st m (parent g A') (parent g (cell_of b A' p)).
Proof.
  intros HL HI. destruct (located g WF A' HV M OK R HR _ (st_incl _ HI) HI (parent_contains g WF A' HV HL)) as (i & E & N).
  unfold source_cells, get_old_cell. fold st in E, N. rewrite E, N. change (lev (parent g A')) with (lev A' - 1).
  replace (lev A' - 1 =? lev A') with false by lia. rewrite Z.eqb_refl. cbn [c0 c_blk c_pos level_diff c_status]. cbn [Z.leb Z.compare].
  remember (parent g A') as B eqn:EB.
  set (off := fun a => if Qgt_bool (getCenter g A' a) (getCenter g B a) then 1 else 0).
  assert (OF : forall a, if flat g a then off a = 0 else off a = coord A' a mod 2).
  { intros a. unfold off. destruct (flat g a) eqn:F.
    - unfold getCenter. rewrite F, EB. unfold parent. rewrite coord_oct_of. unfold half. rewrite F.
      destruct HV as [_ HC]. specialize (HC a). unfold ncell in HC. rewrite F in HC. replace (coord A' a) with 0 by lia.
      unfold Qgt_bool. replace (Qle_bool _ _) with true; [reflexivity|]. symmetry. apply Qle_bool_iff. rewrite !Qmult_0_l. apply Qle_refl.
    - destruct HV as [HL' HC]. rewrite (center_gt (lev A') (lev A' - 1) (coord A' a) (coord A' a / 2) a); try lia; try exact F; try reflexivity.
      + pose proof (ncell_split g a (lev A' - 1) 1 HL ltac:(lia)) as S. rewrite F in S. replace (lev A' - 1 + 1) with (lev A') in S by lia.
        rewrite S. pose proof (ncell_pos g WF a (lev A' - 1) HL) as NP. change (2^1) with 2.
        destruct (Z.mod_pos_bound (coord A' a) 2 ltac:(lia)) as [M1 M2]. pose proof (Z.div_mod (coord A' a) 2 ltac:(lia)) as D.
        set (q := coord A' a / 2) in *. set (r := coord A' a mod 2) in *. set (n := ncell g a (lev A' - 1)) in *. clearbody q r n. rewrite D.
        clear - NP M1 M2. assert (r = 0 \/ r = 1) as [-> | ->] by lia; [replace (_ <? _) with false by nia|replace (_ <? _) with true by nia]; reflexivity.
      + rewrite EB. reflexivity.
      + rewrite EB. unfold parent. rewrite coord_oct_of. unfold half. rewrite F. reflexivity. }
  assert (U : forall a, u32 (p a + b a * off a) = p a + b a * off a).
  { intros a. apply (u32_blk a). specialize (HP a). pose proof (BO a). assert (0 <= off a <= 1) by (unfold off; destruct (Qgt_bool _ _); lia). nia. }
  eexists. split; [reflexivity|]. unfold is_src. cbn [c_oct c_blk c_pos c_status].
  split; [exact N|]. split; [reflexivity|]. split; [reflexivity|].
  assert (X : forall a, 0 <= u32 (p a + b a * off a) / 2 < b a /\ coord B a * b a + u32 (p a + b a * off a) / 2 = half g a (coord A' a * b a + p a)).
  { intros a. rewrite U. rewrite EB. unfold parent. rewrite coord_oct_of. specialize (HP a). specialize (OF a). destruct (BO a) as (B1 & B2). unfold half. destruct (flat g a).
    - rewrite OF. rewrite (B2 eq_refl) in *. assert (p a = 0) as -> by lia. split; [cbn; lia|]. cbn. lia.
    - rewrite OF. pose proof (Z.mod_pos_bound (coord A' a) 2 ltac:(lia)) as M1. pose proof (Z.div_mod (coord A' a) 2 ltac:(lia)) as D.
      set (q := coord A' a / 2) in *. set (r := coord A' a mod 2) in *. clearbody q r. rewrite D. clear - HP B1 M1.
      replace ((2 * q + r) * b a + p a) with ((p a + b a * r) + (q * b a) * 2) by lia. rewrite Z.div_add by lia.
      assert (0 <= p a + b a * r < 2 * b a) by (assert (r = 0 \/ r = 1) as [-> | ->] by lia; lia). lia. }
  split; [intros a; apply X|]. unfold cell_of, parent. apply oct_ext; [cbn [oct_of lev]; rewrite EB; reflexivity|].
  intros a. rewrite !coord_oct_of. unfold gpos at 1. apply X.
Qed.

Lemma child_oct (e : axis -> Z) : (forall a, 0 <= e a <= 1) -> (forall a, flat g a = true -> e a = 0) -> In (plus_off A' e g) (children g A').
Proof.
  intros HE HF. apply in_children_spec. unfold plus_off. cbn [oct_of lev]. split; [reflexivity|]. intros a. rewrite coord_oct_of.
  specialize (HE a). specialize (HF a). unfold half. destruct (flat g a); [rewrite HF by reflexivity; lia|lia].
Qed.

Lemma sources_smaller : (forall B, In B (children g A') -> In B st) ->
  exists l, source_cells g st A' c0 = Some (true, l) /\
    Forall2 (fun m c => exists B, In B (children g A') /\ is_src b st m B c) l (children g (cell_of b A' p)).
Proof.
  intros HC. pose proof (HC _ (first_child_in g A')) as H0.
  destruct (located g WF A' HV M OK R HR _ (st_incl _ H0) H0 (first_child_contains g WF A' HV)) as (i & E & N). fold st in E, N.
  unfold source_cells, get_old_cell. rewrite E, N. change (lev (first_child g A')) with (lev A' + 1).
  replace (lev A' + 1 =? lev A') with false by lia. replace (lev A' + 1 =? lev A' - 1) with false by lia. rewrite Z.eqb_refl. cbn [c0 c_blk c_pos].
  set (off := fun a => if p a >? u32 (b a - 1) / 2 then 1 else 0).
  assert (CV : forall B, In B (children g A') -> valid g B) by (intros B HB; apply (tiles_valid g _ B (ok_tiles g M OK)), st_incl, HC, HB).
  (* half of the block and position in the child *)
  assert (OF : forall a, 0 <= off a <= 1 /\ (flat g a = true -> off a = 0) /\ 0 <= 2 * p a - off a * b a < b a).
  { intros a. unfold off. pose proof (HP a) as P. destruct (BO a) as (B1 & B2). rewrite (u32_blk a (b a - 1)) by lia.
    rewrite Z.gtb_ltb. destruct (Z.ltb_spec ((b a - 1) / 2) (p a)) as [H|H].
    - split; [lia|]. split; [|lia]. intros F. rewrite (B2 F) in *. cbn in H. lia.
    - split; [lia|]. split; [reflexivity|]. lia. }
  set (C := plus_off A' off g). assert (IC : In C (children g A')) by (apply child_oct; intros a; apply OF).
  assert (FN : exists k, findNeighbors g st i off = Some [k] /\ nth_error st k = Some C).
  { unfold findNeighbors. rewrite N. destruct ((off AX =? 0) && (off AY =? 0) && (off AZ =? 0)) eqn:Z3.
    - exists i. split; [reflexivity|]. rewrite N. f_equal. unfold C, first_child, plus_off. apply oct_ext; [reflexivity|]. intros a. rewrite !coord_oct_of. f_equal.
      assert (off AX = 0 /\ off AY = 0 /\ off AZ = 0) by lia. destruct a; lia.
    - pose proof (CV _ (first_child_in g A')) as V0. pose proof (CV _ IC) as VC.
      assert (Hd : direction g off).
      { split; [intros a; specialize (OF a); lia|]. split; [|intros a; apply OF].
        destruct (Z.eqb_spec (off AX) 0); [|exists AX; assumption]. destruct (Z.eqb_spec (off AY) 0); [|exists AY; assumption]. exists AZ. cbn in Z3. lia. }
      assert (CC : forall a, coord C a = coord (first_child g A') a + off a).
      { intros a. unfold C, first_child, plus_off. rewrite !coord_oct_of. lia. }
      assert (IO : inside g (first_child g A') off) by (intros a; right; rewrite <- CC; exact (proj2 VC a)).
      rewrite (proj2 (isBoundary_spec g WF _ off V0 Hd) IO), (shifted_target g WF _ off V0 Hd).
      assert (TG : target g (first_child g A') off = C).
      { apply oct_ext; [reflexivity|]. intros a. rewrite target_coord, <- CC. apply Z.mod_small, (proj2 VC a). }
      rewrite TG. destruct (find_pos_in C st (HC C IC)) as (k & FP & NK). rewrite FP. exists k. split; [reflexivity|exact NK]. }
  destruct FN as (k & FN & NK). rewrite FN. cbn [level_diff c_status]. cbn [Z.leb Z.compare].
  set (q := fun a => u32 (p a * 2 - off a * b a)).
  assert (QE : forall a, q a = 2 * p a - off a * b a) by (intros a; unfold q; rewrite (u32_blk a); [lia|]; specialize (OF a); pose proof (BO a); lia).
  assert (IQ : in_block b q) by (intros a; rewrite QE; apply OF).
  (* the cells of the family *)
  assert (ST : forall e, In e (subcell_offsets (ndim g)) -> exists r, getNeighbor_ghost g st (mkCell k q b SMALLER) e = Some r /\
     exists B, In B (children g A') /\ is_src b st r B (plus_off (cell_of b A' p) e g)).
  { intros e He. destruct (subcell_offset_in g e He) as [HE HF].
    set (B' := oct_of (lev C) (fun a => coord C a + (q a + e a) / b a)).
    assert (IB : In B' (children g A')).
    { apply in_children_spec. unfold B'. split; [reflexivity|]. intros a. rewrite coord_oct_of. unfold C, plus_off. rewrite coord_oct_of.
      rewrite QE. specialize (HE a). specialize (HF a). pose proof (HP a) as P. pose proof (OF a) as (O1 & O2 & O3). destruct (BO a) as (B1 & B2).
      unfold half. destruct (flat g a).
      - rewrite HF, O2 by reflexivity. rewrite (B2 eq_refl) in *. rewrite Z.div_1_r. lia.
      - replace (2 * p a - off a * b a + e a) with (2 * p a + e a + (- off a) * b a) by lia. rewrite Z.div_add by lia.
        assert (0 <= (2 * p a + e a) / b a < 2) by (split; [apply Z.div_pos; lia|apply Z.div_lt_upper_bound; lia]).
        replace (2 * coord A' a + off a + ((2 * p a + e a) / b a + - off a)) with (2 * coord A' a + (2 * p a + e a) / b a) by lia.
        set (d := (2 * p a + e a) / b a) in *. clearbody d. clear - H. lia. }
    destruct (sib_step g st k C q SMALLER b e WF BO NK (CV C IC) IQ HE HF (CV B' IB) (HC B' IB)) as (r & X1 & (X2 & XV) & X3 & X4 & X5).
    exists r. split; [exact X1|]. exists B'. split; [exact IB|]. split; [exact X4|]. split; [|split; [exact X2|split; [exact X3|]]].
    - (* the index is a valid one *)
      exact XV.
    - unfold cell_of, plus_off. apply oct_ext; [cbn [oct_of lev]; unfold B', C, plus_off; cbn [oct_of lev]; reflexivity|].
      intros a. rewrite !coord_oct_of. rewrite X5. unfold gpos, C, plus_off. rewrite coord_oct_of, QE. destruct (flat g a) eqn:F.
      + rewrite (proj1 (proj2 (OF a)) F). destruct HV as [_ HC']. specialize (HC' a). unfold ncell in HC'. rewrite F in HC'.
        pose proof (HP a) as P. rewrite (proj2 (BO a) F) in *. lia.
      + lia. }
  destruct (mapM_exists _ _ _ ST) as (l & EL & F2).
  match goal with |- context[mapM ?f ?o] => change (mapM f o) with (mapM (getNeighbor_ghost g st (mkCell k q b SMALLER)) (subcell_offsets (ndim g))) end. rewrite EL. exists l. split; [reflexivity|].
  rewrite (children_offsets g (cell_of b A' p)). clear -F2. induction F2; cbn [map]; constructor; assumption.
Qed.
End Sources.

(** * Sums *)
Lemma qsum_cons x l : (qsum (x :: l) = x + qsum l)%Q. Proof. reflexivity. Qed.
Lemma qsum_app l l' : (qsum (l ++ l') == qsum l + qsum l')%Q.
Proof. induction l as [|x l IH]; cbn [app]; [cbn; ring|]. rewrite !qsum_cons, IH. ring. Qed.
Lemma qsum_ext {A} (f h : A -> Q) l : (forall x, In x l -> (f x == h x)%Q) -> (qsum (map f l) == qsum (map h l))%Q.
Proof.
  induction l as [|x l IH]; intros H; [reflexivity|]. cbn [map]. rewrite !qsum_cons.
  rewrite (H x (or_introl eq_refl)), IH; [reflexivity|]. intros y Hy. apply H. right. exact Hy.
Qed.
Lemma qsum_perm {A} (f : A -> Q) l l' : Permutation l l' -> (qsum (map f l) == qsum (map f l'))%Q.
Proof. induction 1; cbn [map]; rewrite ?qsum_cons; [reflexivity|rewrite IHPermutation; reflexivity|ring|rewrite IHPermutation1; exact IHPermutation2]. Qed.
Lemma qsum_flat_map {A B} (f : B -> Q) (h : A -> list B) l :
  (qsum (map f (flat_map h l)) == qsum (map (fun x => qsum (map f (h x))) l))%Q.
Proof. induction l as [|x l IH]; [reflexivity|]. cbn [flat_map map]. rewrite map_app, qsum_app, qsum_cons, IH. reflexivity. Qed.
Lemma qsum_scale {A} (k : Q) (f : A -> Q) l : (qsum (map (fun x => k * f x) l) == k * qsum (map f l))%Q.
Proof. induction l as [|x l IH]; cbn [map]; [cbn; ring|]. rewrite !qsum_cons, IH. ring. Qed.
Lemma qsum_const {A} (k : Q) (l : list A) : (qsum (map (fun _ => k) l) == k * inject_Z (Z.of_nat (length l)))%Q.
Proof. induction l as [|x l IH]; cbn [map length]; [cbn; ring|]. rewrite qsum_cons, IH, Nat2Z.inj_succ, <- Z.add_1_r, inject_Z_plus. ring. Qed.
Lemma qsum_Forall2 (l l' : list Q) : Forall2 Qeq l l' -> (qsum l == qsum l')%Q.
Proof. induction 1 as [|x y l l' H F IH]; [reflexivity|]. rewrite !qsum_cons, H, IH. reflexivity. Qed.
Lemma fold_mean n l acc : ~ (n == 0)%Q -> (fold_left (fun acc v => (acc + v / n)%Q) l acc == acc + qsum l / n)%Q.
Proof.
  intros Hn. revert acc. induction l as [|x l IH]; intros acc; cbn [fold_left]; [cbn; field; exact Hn|]. rewrite IH, qsum_cons. field. exact Hn.
Qed.

(** * The value written for a new cell *)
Definition row_ok (b : axis -> Z) (V : oct -> Q) (A : oct) (row : list Q) : Prop :=
  Z.of_nat (length row) = b AX * b AY * b AZ /\
  forall p, in_block b p ->
    exists v, nth_error row (Z.to_nat (p AX + p AY * b AX + p AZ * b AX * b AY)) = Some v /\ (v == V (cell_of b A p))%Q.

Lemma read_src b V st rows m B c row : is_src b st m B c -> nth_error rows (c_oct m) = Some row -> row_ok b V B row ->
  exists v, read_cell rows m = Some v /\ (v == V c)%Q.
Proof.
  intros (H1 & H2 & H3 & H4 & H5) HR (_ & HV). unfold read_cell. rewrite H2, HR, H3. subst c. apply (HV (c_pos m) H4).
Qed.

Lemma zsum_nonneg (l : list Z) : (forall x, In x l -> 0 <= x) -> 0 <= fold_right Z.add 0 l.
Proof.
  induction l as [|x l IH]; intros H; cbn [fold_right]; [lia|]. specialize (IH (fun y Hy => H y (or_intror Hy))). specialize (H x (or_introl eq_refl)). lia.
Qed.
Lemma zsum_pos (l : list Z) x : (forall x, In x l -> 0 <= x) -> In x l -> 0 < x -> 0 < fold_right Z.add 0 l.
Proof.
  induction l as [|y l IH]; intros H HI HX; [destruct HI|]. cbn [fold_right].
  pose proof (H y (or_introl eq_refl)). pose proof (zsum_nonneg l (fun y Hy => H y (or_intror Hy))).
  destruct HI as [-> | HI]; [lia|]. specialize (IH (fun y Hy => H y (or_intror Hy)) HI HX). lia.
Qed.
Lemma zsum_zero (l : list Z) : (forall x, In x l -> x = 0) -> fold_right Z.add 0 l = 0.
Proof. induction l as [|x l IH]; intros H; cbn [fold_right]; [reflexivity|]. rewrite (H x (or_introl eq_refl)), IH; [reflexivity|]. intros y Hy. apply H. right. exact Hy. Qed.

Lemma NoDup_glue {A} (l1 l2 : list A) : NoDup l1 -> NoDup l2 -> (forall x, In x l1 -> In x l2 -> False) -> NoDup (l1 ++ l2).
Proof.
  induction 1 as [|x l NI ND IH]; intros N2 D; [exact N2|]. cbn. constructor.
  - rewrite in_app_iff. intros [H|H]; [contradiction|]. exact (D x (or_introl eq_refl) H).
  - apply IH; [exact N2|]. intros y H1 H2. exact (D y (or_intror H1) H2).
Qed.
Lemma storage_NoDup g M R : mesh_ok g M -> In R M -> NoDup (loc R ++ gho R).
Proof.
  intros OK HR. apply NoDup_glue.
  - destruct (In_nth_error _ _ HR) as (r & Hr). eapply (locs_NoDup g (map loc M) (ok_tiles g M OK) r). rewrite nth_error_map, Hr. reflexivity.
  - apply (ok_ghosts g M OK R HR).
  - intros x H1 H2. apply (ok_ghosts g M OK R HR) in H2. tauto.
Qed.

Section Values.
Variable g : geom.
Hypothesis WF : wf_geom g.
Variable M : mesh.
Hypothesis OK : mesh_ok g M.
Variable R : rank.
Hypothesis HR : In R M.
Let st := loc R ++ gho R.
Variable b : axis -> Z.
Hypothesis BO : block_ok g b.
Variable A' : oct.
Hypothesis HV : valid g A'.
(** [A'] is unchanged, comes from its parent or from its children: [S] are the old octants it
    is made of, all known to the rank. *)
Variable S : list oct.
Definition known_origin : Prop :=
  (S = [A'] \/ (S = [parent g A'] /\ lmin g <= lev A' - 1) \/ S = children g A') /\ forall B, In B S -> In B (loc R ++ gho R).
Hypothesis HO : known_origin.
Variable V : oct -> Q.
Variable rows : list (list Q).
Hypothesis RO : forall i B, nth_error st i = Some B -> In B S -> exists row, nth_error rows i = Some row /\ row_ok b V B row.

Lemma cell_value p j : in_block b p -> exists v n, remap_cell g st (length (loc R)) rows A' (mkCell j p b LOCAL_TO_BLOCK) = Some (v, n) /\
  remapped g (leaves M) V A' (cell_of b A' p) v.
Proof.
  intros HP. destruct HO as [[EQ|[[EQ HL]|EQ]] HS].
  - assert (H : In A' st) by (apply HS; rewrite EQ; left; reflexivity).
    destruct (sources_same g WF M OK R HR b A' HV p HP j H) as (m & E & SS). unfold remap_cell. fold st in E, SS. rewrite E. cbn [mapM].
    destruct (RO _ _ (proj1 SS)) as (row & HRow & ROW); [rewrite EQ; left; reflexivity|].
    destruct (read_src b V st rows m _ _ row SS HRow ROW) as (v & EV & QV). rewrite EV. exists v, 0. split; [reflexivity|].
    left. split; [apply (st_incl g M OK R HR), H|exact QV].
  - assert (H : In (parent g A') st) by (apply HS; rewrite EQ; left; reflexivity).
    destruct (sources_bigger g WF M OK R HR b BO A' HV p HP j HL H) as (m & E & SS). unfold remap_cell. fold st in E, SS. rewrite E. cbn [mapM].
    destruct (RO _ _ (proj1 SS)) as (row & HRow & ROW); [rewrite EQ; left; reflexivity|].
    destruct (read_src b V st rows m _ _ row SS HRow ROW) as (v & EV & QV). rewrite EV. exists v, 0. split; [reflexivity|].
    right. left. split; [apply (st_incl g M OK R HR), H|exact QV].
  - assert (H : forall B, In B (children g A') -> In B st) by (intros B HB; apply HS; rewrite EQ; exact HB).
    destruct (sources_smaller g WF M OK R HR b BO A' HV p HP j H) as (l & E & SS). unfold remap_cell. fold st in E, SS. rewrite E.
    assert (RD : exists vs, mapM (read_cell rows) l = Some vs /\ Forall2 (fun v c => (v == V c)%Q) vs (children g (cell_of b A' p))).
    { clear E. induction SS as [|m c l cs (B & HB & SB) F IH]; [exists []; split; [reflexivity|constructor]|].
      destruct IH as (vs & E1 & E2). destruct (RO _ _ (proj1 SB)) as (row & HRow & ROW); [rewrite EQ; exact HB|].
      destruct (read_src b V st rows m _ _ row SB HRow ROW) as (v & EV & QV). exists (v :: vs). cbn [mapM]. rewrite EV, E1. split; [reflexivity|]. constructor; assumption. }
    destruct RD as (vs & EV & F2). rewrite EV. eexists _, _. split; [reflexivity|]. right. right.
    split; [intros B HB; apply (st_incl g M OK R HR), H, HB|]. rewrite fold_mean by (unfold ndim; destruct (g3d g); unfold Qeq; cbn; lia).
    unfold mean. rewrite map_length, children_length.
    assert (QS : (qsum vs == qsum (map V (children g (cell_of b A' p))))%Q).
    { apply qsum_Forall2. clear -F2. induction F2; cbn [map]; constructor; assumption. }
    rewrite QS. unfold ndim. destruct (g3d g); cbn [Z.of_nat Pos.of_succ_nat Pos.succ]; unfold inject_Z; cbn [Z.sub Z.mul Z.opp Z.add Z.pos_sub]; cbn; ring.
Qed.

(** The number of ghost cells read does not depend on the data; it is zero when the family is
    local. *)
Lemma cell_count_ghosts p j rows' v n : in_block b p ->
  remap_cell g st (length (loc R)) rows' A' (mkCell j p b LOCAL_TO_BLOCK) = Some (v, n) ->
  0 <= n /\ ((forall B, In B S -> In B (loc R)) -> n = 0) /\
  (forall B, In B (children g A') -> ~ In B (loc R) -> (forall C, In C (children g A') -> In C st) ->
     In (cell_of b B (fun _ => 0)) (children g (cell_of b A' p)) -> 0 < n).
Proof.
  clear RO rows V. intros HP E.
  pose proof (storage_NoDup g M R OK HR) as ND. fold st in ND.
  assert (LT : forall k B, nth_error st k = Some B -> In B (loc R) -> (k < length (loc R))%nat).
  { intros k B HK HB. destruct (In_nth_error _ _ HB) as (k' & HK').
    assert (k' < length (loc R))%nat by (apply nth_error_Some; congruence).
    replace k with k'; [assumption|]. apply (proj1 (NoDup_nth_error st) ND); [unfold st; rewrite app_length; lia|].
    unfold st. rewrite nth_error_app1 by assumption. fold st. congruence. }
  split; [|split].
  - unfold remap_cell in E. destruct (source_cells _ _ _ _) as [[avg l]|]; [|discriminate]. destruct (mapM _ l) as [vs|]; [|discriminate].
    destruct avg; injection E as _ <-; [|lia]. apply zsum_nonneg. intros x Hx. apply in_map_iff in Hx. destruct Hx as (m & <- & _). destruct (_ <=? _)%nat; lia.
  - intros HL. destruct HO as [[EQ|[[EQ HL']|EQ]] HS].
    + assert (H : In A' st) by (apply HS; rewrite EQ; left; reflexivity). destruct (sources_same g WF M OK R HR b A' HV p HP j H) as (m & E' & SS). unfold remap_cell in E. fold st in E'. rewrite E' in E.
      destruct (mapM _ _) in E; [injection E as _ <-; reflexivity|discriminate].
    + assert (H : In (parent g A') st) by (apply HS; rewrite EQ; left; reflexivity). destruct (sources_bigger g WF M OK R HR b BO A' HV p HP j HL' H) as (m & E' & SS). unfold remap_cell in E. fold st in E'. rewrite E' in E.
      destruct (mapM _ _) in E; [injection E as _ <-; reflexivity|discriminate].
    + assert (H : forall B, In B (children g A') -> In B st) by (intros B HB; apply HS; rewrite EQ; exact HB). destruct (sources_smaller g WF M OK R HR b BO A' HV p HP j H) as (l & E' & SS). unfold remap_cell in E. fold st in E', SS. rewrite E' in E.
      destruct (mapM _ _) in E; [|discriminate]. injection E as _ <-. apply zsum_zero. intros x Hx. apply in_map_iff in Hx. destruct Hx as (m & <- & Hm).
      destruct (Forall2_in_l _ _ _ m SS Hm) as (c & _ & B & HB & SB).
      pose proof (LT _ _ (proj1 SB) (HL B ltac:(rewrite EQ; exact HB))) as K.
      destruct (Nat.leb_spec (length (loc R)) (c_oct m)); [lia|reflexivity].
  - intros B HB NB H HC. destruct (sources_smaller g WF M OK R HR b BO A' HV p HP j H) as (l & E' & SS). unfold remap_cell in E. fold st in E', SS. rewrite E' in E.
    destruct (mapM _ _) in E; [|discriminate]. injection E as _ <-.
    destruct (Forall2_in_r _ _ _ _ SS HC) as (m & Hm & B' & HB' & SB). destruct SB as (S1 & S2 & S3 & S4 & S5).
    assert (EB : B' = B).
    { assert (HL : lev B' = lev B) by (apply in_children_spec in HB; apply in_children_spec in HB'; lia).
      apply oct_ext; [exact HL|]. intros a. assert (G : gpos b B' (c_pos m) a = gpos b B (fun _ => 0) a).
      { rewrite <- (coord_oct_of (lev B') (gpos b B' (c_pos m))), <- (coord_oct_of (lev B) (gpos b B (fun _ => 0))). unfold cell_of in S5. rewrite S5. reflexivity. }
      unfold gpos in G. specialize (S4 a). nia. }
    subst B'. apply zsum_pos with 1; [| |lia].
    + intros x Hx. apply in_map_iff in Hx. destruct Hx as (m' & <- & _). destruct (_ <=? _)%nat; lia.
    + apply in_map_iff. exists m. split; [|exact Hm]. destruct (Nat.leb_spec (length (loc R)) (c_oct m)) as [_|K]; [reflexivity|exfalso].
      apply NB. unfold st in S1. rewrite nth_error_app1 in S1 by exact K. eapply nth_error_In, S1.
Qed.
End Values.

(** * All cells of a rank *)
Definition new_row_ok (g : geom) (b : axis -> Z) (L : list oct) (V : oct -> Q) (A' : oct) (row : list Q) : Prop :=
  Z.of_nat (length row) = b AX * b AY * b AZ /\
  forall p, in_block b p ->
    exists v, nth_error row (Z.to_nat (p AX + p AY * b AX + p AZ * b AX * b AY)) = Some v /\ remapped g L V A' (cell_of b A' p) v.

Lemma cell_of_ext b A p q : (forall a, p a = q a) -> cell_of b A p = cell_of b A q.
Proof. intros H. unfold cell_of, oct_of, gpos. rewrite !H. reflexivity. Qed.
Lemma block_pos_ok g b : block_ok g b -> block_pos b.
Proof. intros H a. destruct (H a) as ([? ?] & _). lia. Qed.
Lemma zrange_nth n k : 0 <= k < n -> nth_error (zrange 0 n) (Z.to_nat k) = Some k.
Proof.
  intros H. unfold zrange. rewrite nth_error_map. assert (X : nth_error (seq 0 (Z.to_nat (n - 0))) (Z.to_nat k) = Some (Z.to_nat k)).
  { rewrite nth_error_nth' with (d := O) by (rewrite seq_length; lia). rewrite seq_nth by lia. f_equal. }
  rewrite X. cbn. f_equal. lia.
Qed.
Lemma flat_lt b p : block_pos b -> in_block b p -> 0 <= flat_cell b p < b AX * b AY * b AZ.
Proof.
  intros BP IB. unfold flat_cell. pose proof (IB AX). pose proof (IB AY). pose proof (IB AZ). pose proof (BP AX). pose proof (BP AY). pose proof (BP AZ).
  assert (p AX + p AY * b AX < b AX * b AY) by nia. assert (0 <= p AX + p AY * b AX) by nia.
  replace (p AX + p AY * b AX + p AZ * b AX * b AY) with ((p AX + p AY * b AX) + p AZ * (b AX * b AY)) by ring.
  replace (b AX * b AY * b AZ) with (b AZ * (b AX * b AY)) by ring. set (n := b AX * b AY) in *. set (k := p AX + p AY * b AX) in *. nia.
Qed.

Lemma pass_ok g M R b V rows new (S : oct -> list oct) : wf_geom g -> mesh_ok g M -> In R M -> block_ok g b ->
  (forall A', In A' new -> valid g A' /\ known_origin g R A' (S A') /\
     forall i B, nth_error (loc R ++ gho R) i = Some B -> In B (S A') -> exists row, nth_error rows i = Some row /\ row_ok b V B row) ->
  exists rows' n, remap_pass g b (loc R ++ gho R) (length (loc R)) rows new = Some (rows', n) /\
    Forall2 (new_row_ok g b (leaves M) V) new rows' /\
    ((forall A' B, In A' new -> In B (S A') -> In B (loc R)) -> n = 0).
Proof.
  intros WF OK HR BO H. pose proof (block_pos_ok g b BO) as BP.
  set (nbc := b AX * b AY * b AZ).
  assert (ROW : forall x, In x (combine (seq 0 (length new)) new) ->
    exists r, mapM (fun n => remap_cell g (loc R ++ gho R) (length (loc R)) rows (snd x) (mkCell (fst x) (snd (decode_cell b 0 n)) b LOCAL_TO_BLOCK)) (zrange 0 nbc) = Some r /\
      (new_row_ok g b (leaves M) V (snd x) (map fst r) /\ ((forall B, In B (S (snd x)) -> In B (loc R)) -> fold_right Z.add 0 (map snd r) = 0))).
  { intros (j, A') Hx. apply in_combine_r in Hx. destruct (H A' Hx) as (HV & HO & RO). cbn [fst snd].
    destruct (mapM_exists (fun n => remap_cell g (loc R ++ gho R) (length (loc R)) rows A' (mkCell j (snd (decode_cell b 0 n)) b LOCAL_TO_BLOCK))
      (fun n y => remapped g (leaves M) V A' (cell_of b A' (snd (decode_cell b 0 n))) (fst y) /\ ((forall B, In B (S A') -> In B (loc R)) -> snd y = 0)) (zrange 0 nbc)) as (r & E & F2).
    { intros n Hn. apply in_zrange in Hn. destruct (decode_spec b n BP Hn) as (D1 & D2).
      destruct (cell_value g WF M OK R HR b BO A' HV (S A') HO V rows RO (snd (decode_cell b 0 n)) j D1) as (v & k & E & Q).
      exists (v, k). split; [exact E|]. split; [exact Q|]. intros HL. cbn [snd].
      apply (cell_count_ghosts g WF M OK R HR b BO A' HV (S A') HO _ j rows v k D1 E), HL. }
    exists r. split; [exact E|]. split; [split|].
    - rewrite map_length, <- (Forall2_len _ _ _ F2). pose proof (flat_lt b (fun _ => 0) BP) as K. rewrite zrange_length; [unfold nbc; lia|].
      unfold nbc. pose proof (BP AX). pose proof (BP AY). pose proof (BP AZ). nia.
    - intros p IB. pose proof (flat_lt b p BP IB) as FL. destruct (proj1 (Forall2_nth _ _ _) F2) as [LN FN].
      pose proof (zrange_nth nbc (flat_cell b p) FL) as ZN.
      assert (RN : exists y, nth_error r (Z.to_nat (flat_cell b p)) = Some y).
      { destruct (nth_error r (Z.to_nat (flat_cell b p))) eqn:E'; [eauto|]. exfalso. apply nth_error_None in E'.
        assert (Z.to_nat (flat_cell b p) < length (zrange 0 nbc))%nat by (apply nth_error_Some; congruence). lia. }
      destruct RN as (y & RN). destruct (FN _ _ _ ZN RN) as (Q & _).
      exists (fst y). split; [change (p AX + p AY * b AX + p AZ * b AX * b AY) with (flat_cell b p); rewrite nth_error_map, RN; reflexivity|].
      replace (cell_of b A' p) with (cell_of b A' (snd (decode_cell b 0 (flat_cell b p)))); [exact Q|]. apply cell_of_ext.
      destruct (decode_spec b (flat_cell b p) BP FL) as (D1 & D2). apply (flat_cell_inj b); assumption.
    - intros HL. apply zsum_zero. intros z Hz. apply in_map_iff in Hz. destruct Hz as (y & <- & Hy).
      destruct (Forall2_in_r _ _ _ y F2 Hy) as (n & _ & _ & K). apply K, HL. }
  destruct (mapM_exists _ _ _ ROW) as (r & E & F2). exists (map (map fst) r), (fold_right Z.add 0 (map (fun l => fold_right Z.add 0 (map snd l)) r)).
  unfold remap_pass. fold nbc. rewrite E. split; [reflexivity|]. split.
  - apply Forall2_nth. destruct (proj1 (Forall2_nth _ _ _) F2) as [LN FN]. rewrite combine_length, seq_length, Nat.min_id in LN. rewrite map_length. split; [exact LN|].
    intros i A' row HA HRow. rewrite nth_error_map in HRow. destruct (nth_error r i) as [y|] eqn:EY; [|discriminate]. injection HRow as <-.
    apply (FN i (i, A') y); [|exact EY]. apply nth_error_combine. split; [|exact HA]. assert (i < length new)%nat by (apply nth_error_Some; congruence).
    rewrite nth_error_nth' with (d := O) by (rewrite seq_length; assumption). rewrite seq_nth by assumption. reflexivity.
  - intros HL. apply zsum_zero. intros z Hz. apply in_map_iff in Hz. destruct Hz as (y & <- & Hy).
    destruct (Forall2_in_r _ _ _ y F2 Hy) as (x & Hx & _ & K). apply K. intros B HB. apply (HL (snd x) B); [|exact HB]. destruct x. apply in_combine_r in Hx. exact Hx.
Qed.

(** A family split over ranks is always noticed. *)
Lemma pass_split g M R b rows rows' n new A' B : wf_geom g -> mesh_ok g M -> In R M -> block_ok g b ->
  remap_pass g b (loc R ++ gho R) (length (loc R)) rows new = Some (rows', n) ->
  0 <= n /\ (In A' new -> valid g A' -> (forall C, In C (children g A') -> In C (loc R ++ gho R)) -> In B (children g A') -> ~ In B (loc R) -> 0 < n).
Proof.
  intros WF OK HR BO E. pose proof (block_pos_ok g b BO) as BP. unfold remap_pass in E. destruct (mapM _ _) as [r|] eqn:EM; [|discriminate]. injection E as <- <-.
  assert (NN : forall l, In l r -> forall x, In x l -> 0 <= snd x).
  { intros l Hl x Hx. destruct (mapM_In _ _ _ l EM Hl) as (y & _ & EY). destruct (mapM_In _ _ _ x EY Hx) as (k & _ & EK). unfold remap_cell in EK.
    destruct (source_cells _ _ _ _) as [[avg ms]|]; [|discriminate]. destruct (mapM _ ms) as [vs|]; [|discriminate].
    destruct avg; injection EK as <-; cbn [snd]; [|lia]. apply zsum_nonneg. intros z Hz. apply in_map_iff in Hz. destruct Hz as (m & <- & _). destruct (_ <=? _)%nat; lia. }
  assert (NL : forall z, In z (map (fun l : list (Q * Z) => fold_right Z.add 0 (map snd l)) r) -> 0 <= z).
  { intros z Hz. apply in_map_iff in Hz. destruct Hz as (l & <- & Hl). apply zsum_nonneg. intros x Hx. apply in_map_iff in Hx. destruct Hx as (y & <- & Hy). exact (NN l Hl y Hy). }
  split; [apply zsum_nonneg, NL|]. intros HA HV HC HB NB.
  (* the cell of A' that contains the first cell of B *)
  set (p := fun a => if flat g a then 0 else (coord B a mod 2) * b a / 2).
  assert (HBC : forall a, half g a (coord B a) = coord A' a) by (apply in_children_spec in HB; apply HB).
  assert (IB : in_block b p).
  { intros a. unfold p. pose proof (BP a). destruct (flat g a); [lia|]. pose proof (Z.mod_pos_bound (coord B a) 2 ltac:(lia)).
    split; [apply Z.div_pos; nia|]. apply Z.div_lt_upper_bound; nia. }
  assert (CC : In (cell_of b B (fun _ => 0)) (children g (cell_of b A' p))).
  { apply in_children_spec. unfold cell_of. cbn [oct_of lev]. apply in_children_spec in HB. split; [lia|]. intros a. rewrite !coord_oct_of. unfold gpos, p.
    specialize (HBC a). unfold half in *. rewrite <- HBC. destruct (flat g a) eqn:F; [lia|].
    pose proof (Z.div_mod (coord B a) 2 ltac:(lia)) as D. set (q := coord B a / 2) in *. set (r0 := coord B a mod 2) in *. clearbody q r0. rewrite D.
    replace ((2 * q + r0) * b a + 0) with (r0 * b a + q * b a * 2) by ring. rewrite Z.div_add by lia. lia. }
  destruct (In_nth_error _ _ HA) as (i & Hi).
  assert (IC : In (i, A') (combine (seq 0 (length new)) new)).
  { apply nth_error_In with i. apply nth_error_combine. split; [|exact Hi]. assert (i < length new)%nat by (apply nth_error_Some; congruence).
    rewrite nth_error_nth' with (d := O) by (rewrite seq_length; assumption). rewrite seq_nth by assumption. reflexivity. }
  destruct (mapM_In_fwd _ _ _ _ EM IC) as (l & Hl & EL). cbn [fst snd] in EL.
  pose proof (flat_lt b p BP IB) as FL.
  destruct (mapM_In_fwd _ _ _ (flat_cell b p) EL) as ((v, k) & Hy & EY); [apply in_zrange; exact FL|].
  destruct (decode_spec b (flat_cell b p) BP FL) as (D1 & D2).
  assert (PE : cell_of b A' (snd (decode_cell b 0 (flat_cell b p))) = cell_of b A' p) by (apply cell_of_ext, (flat_cell_inj b); assumption).
  assert (KO : known_origin g R A' (children g A')) by (split; [right; right; reflexivity|exact HC]).
  destruct (cell_count_ghosts g WF M OK R HR b BO A' HV _ KO _ i rows v k D1 EY) as (_ & _ & K).
  specialize (K B HB NB HC). rewrite PE in K. specialize (K CC).
  apply zsum_pos with (fold_right Z.add 0 (map snd l)); [exact NL| |].
  - apply in_map_iff. exists l. split; [reflexivity|exact Hl].
  - apply zsum_pos with k; [|apply in_map_iff; exists (v, k); split; [reflexivity|exact Hy]|exact K].
    intros x Hx. apply in_map_iff in Hx. destruct Hx as (y & <- & Hy'). exact (NN l Hl y Hy').
Qed.
