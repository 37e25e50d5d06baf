(** Initial conditions given by a formula: the mesh is the smallest one that is fine enough, it and the
    values depend on nothing but the formula (C83), and the cells hold the values of the formula (C84). *)
From Coq Require Import QArith Qcanon Permutation.
From Verif Require Import Base OctreeSpec OctreeGeom OctreeModel FindNeighbors MeshSpec GhostExchange HistorySpec AdaptProofs LookupModel CellModel CellSpec CellProofs CellIterProps RemapModel RemapSpec RemapProofs
  HydroModel HydroSpec HydroProps ConserveSpec BlockGhost ConserveProofs OctreeProps HistoryProofs IndexProps GravityModel GravitySpec GravityProofs ParticleModel ParticleSpec ParticleProofs CloudProofs OutputModel OutputProps AnalyticModel AnalyticSpec AnalyticProofs.
Open Scope Z_scope.

Lemma zrange_cons l n : zrange l (l + Z.of_nat (S n)) = l :: zrange (l + 1) (l + 1 + Z.of_nat n).
Proof.
  unfold zrange. replace (Z.to_nat (l + Z.of_nat (S n) - l)) with (S n) by lia. replace (Z.to_nat (l + 1 + Z.of_nat n - (l + 1))) with n by lia.
  cbn [seq map]. f_equal; [lia|]. rewrite <- seq_shift, map_map. apply map_ext. intros i. lia.
Qed.
Section Runs.
Context (g : geom) (b : axis -> Z) (BO : block_ok g b) (lo hi : axis -> Qc) (LH : forall a, (lo a < hi a)%Qc) (need : triple -> triple -> bool).
Local Notation want := (wanted need g b lo hi).
Definition rounds (fuel : nat) (ords : Z -> bool -> order) (visits : Z -> nat -> list icell -> list icell) (ls : list Z) (M : mesh) : option mesh :=
  foldM (fun M level => init_round fuel (ords level) (visits level) need g b lo hi M) ls M.
Definition state (P : nat) (l : Z) (M : mesh) : Prop := reachable g P M /\ even M /\ forall A, In A (leaves M) -> lev A <= l.

Section Run.
Context (P : nat) (GS : good_setup g P) (fuel : nat) (ords : Z -> bool -> order) (visits : Z -> nat -> list icell -> list icell).
Context (HO : forall l t, ord_ok (ords l t)) (RO : forall l r, reorders (visits l r)).
Lemma tiles_of M : reachable g P M -> tiles g (leaves M). Proof. intros H. apply (ok_tiles g M (reachable_ok g P M GS H)). Qed.
Lemma step_state l M M' : l < lmax g -> state P l M -> init_round fuel (ords l) (visits l) need g b lo hi M = Some M' ->
  state P (l + 1) M' /\ (length (leaves M) <= length (leaves M'))%nat /\ exists req m, good_request g (leaves M) req /\ (forall A, In A (leaves M) -> 0 <= req A <= 1) /\ least_legal g (leaves M) req m /\
    leaf_change g (leaves M) (leaves M') m /\ (roomy b M -> forall A, In A (leaves M) -> req A = want A).
Proof.
  intros HL (RC & EV & LV) E. assert (LT : forall A, In A (leaves M) -> lev A < lmax g) by (intros A HA; specialize (LV A HA); lia).
  destruct (round_props g P GS b BO lo hi LH need fuel (ords l) (visits l) M M' RC EV LT (HO l) (RO l) E) as (RC' & EV' & req & m & GR & R01 & LL & CH & RW).
  pose proof (change_up g (leaves M) (leaves M') m req (tiles_of M RC) (tiles_of M' RC') CH LL (fun A HA => proj1 (R01 A HA))) as UP.
  split; [|split; [|exists req, m; auto]].
  - split; [exact RC'|]. split; [exact EV'|]. intros B HB. destruct (UP B HB) as (A & HA & M01 & _ & EB & _). specialize (LV A HA). lia.
  - apply (leaves_grow g _ _ m (tiles_of M RC) (tiles_of M' RC') CH). intros A HA. destruct LL as (LG & _). destruct (LG A HA) as (Q & _). specialize (R01 A HA). lia.
Qed.
Lemma rounds_state n : forall l M M', l + Z.of_nat n <= lmax g -> state P l M -> rounds fuel ords visits (zrange l (l + Z.of_nat n)) M = Some M' ->
  state P (l + Z.of_nat n) M' /\ (length (leaves M) <= length (leaves M'))%nat.
Proof.
  induction n as [|n IH]; intros l M M' HL ST E.
  - replace (l + Z.of_nat 0) with l in * by lia. unfold zrange in E. rewrite Z.sub_diag in E. cbn in E. injection E as <-. split; [exact ST|lia].
  - rewrite zrange_cons in E. unfold rounds in E. cbn [foldM] in E. destruct (init_round fuel (ords l) (visits l) need g b lo hi M) as [M1|] eqn:E1; [|discriminate E].
    destruct (step_state l M M1 ltac:(lia) ST E1) as (ST1 & LE & _). destruct (IH (l + 1) M1 M' ltac:(lia) ST1 E) as (ST' & LE'). replace (l + Z.of_nat (S n)) with (l + 1 + Z.of_nat n) by lia. split; [exact ST'|lia].
Qed.
Lemma state_len l M : state P l M -> length M = P. Proof. intros (RC & _). apply (reachable_ranks g P M GS RC). Qed.
(** An invariant of the rounds. *)
Lemma rounds_inv (Q : Z -> mesh -> Prop) :
  (forall l M M' m, lmin g <= l < lmax g -> state P l M -> state P (l + 1) M' -> least_legal g (leaves M) want m -> leaf_change g (leaves M) (leaves M') m -> Q l M -> Q (l + 1) M') ->
  forall n l M M', lmin g <= l -> l + Z.of_nat n <= lmax g -> state P l M -> Q l M -> rounds fuel ords visits (zrange l (l + Z.of_nat n)) M = Some M' -> roomy b M' -> Q (l + Z.of_nat n) M'.
Proof.
  intros STEP. induction n as [|n IH]; intros l M M' HL0 HL ST HQ E RM.
  - replace (l + Z.of_nat 0) with l in * by lia. unfold zrange in E. rewrite Z.sub_diag in E. cbn in E. injection E as <-. exact HQ.
  - destruct (rounds_state (S n) l M M' HL ST E) as (STF & LF).
    rewrite zrange_cons in E. unfold rounds in E. cbn [foldM] in E. destruct (init_round fuel (ords l) (visits l) need g b lo hi M) as [M1|] eqn:E1; [|discriminate E].
    destruct (step_state l M M1 ltac:(lia) ST E1) as (ST1 & LE & req & m & GR & R01 & LL & CH & RW).
    assert (RM0 : roomy b M) by (apply (roomy_back b M M' (fun a => proj1 (proj1 (BO a))) (proj1 (proj2 ST))); [rewrite (state_len _ _ ST), (state_len _ _ STF); reflexivity|exact LF|exact RM]).
    replace (l + Z.of_nat (S n)) with (l + 1 + Z.of_nat n) by lia. apply (IH (l + 1) M1 M'); try assumption; try lia.
    apply (STEP l M M1 m); try assumption; [lia|]. specialize (RW RM0). split.
    + intros A HA. destruct (proj1 LL A HA) as (Q1 & Q2). rewrite (RW A HA) in Q1. split; [exact Q1|exact Q2].
    + intros m' LG' A HA. apply (proj2 LL m'); [|exact HA]. intros A' HA'. destruct (LG' A' HA') as (Q1 & Q2). rewrite <- (RW A' HA') in Q1. split; [exact Q1|exact Q2].
Qed.
End Run.
Lemma round_mono P ords visits M M' f f' : good_setup g P -> reachable g P M -> (forall r, reorders (visits r)) -> (f <= f')%nat -> init_round f ords visits need g b lo hi M = Some M' -> init_round f' ords visits need g b lo hi M = Some M'.
Proof.
  intros GS RC RO HF. pose proof (reachable_ok g P M GS RC) as OK. rewrite !(round_marks g P GS b BO lo hi LH need) by assumption.
  destruct (adapt f (ords false) g M (mesh_marks g b lo hi need visits M)) as [M1|] eqn:E; [|discriminate]. rewrite (adapt_mono f f' _ _ _ _ M1 HF E). auto.
Qed.
Lemma rounds_total P ords visits : good_setup g P -> (forall l t, ord_ok (ords l t)) -> (forall l r, reorders (visits l r)) ->
  forall n l M, l + Z.of_nat n <= lmax g -> state P l M -> exists F, forall fuel, (F <= fuel)%nat -> exists M', rounds fuel ords visits (zrange l (l + Z.of_nat n)) M = Some M'.
Proof.
  intros GS HO RO. induction n as [|n IH]; intros l M HL ST.
  - exists 0%nat. intros fuel _. exists M. replace (l + Z.of_nat 0) with l by lia. unfold zrange. rewrite Z.sub_diag. reflexivity.
  - assert (LT : forall A, In A (leaves M) -> lev A < lmax g) by (intros A HA; pose proof (proj2 (proj2 ST) A HA); lia).
    destruct (round_total g P GS b BO lo hi LH need (ords l) (visits l) M (proj1 ST) LT (HO l) (RO l)) as (F1 & H1). destruct (H1 F1 (le_n _)) as (M1 & E1).
    destruct (step_state P GS F1 ords visits HO RO l M M1 ltac:(lia) ST E1) as (ST1 & _). destruct (IH (l + 1) M1 ltac:(lia) ST1) as (F2 & H2).
    exists (Nat.max F1 F2). intros fuel HF. destruct (H2 fuel ltac:(lia)) as (M' & E'). exists M'. rewrite zrange_cons. unfold rounds. cbn [foldM].
    rewrite (round_mono P (ords l) (visits l) M M1 F1 fuel GS (proj1 ST) (RO l) ltac:(lia) E1). exact E'.
Qed.

(** The newly built mesh. *)
Lemma start P ord M : good_setup g P -> ord_ok ord -> private_init ord g P = Some M -> state P (lmin g) M /\ (forall A, In A (leaves M) -> lev A = lmin g).
Proof.
  intros GS HO E. pose proof GS as (WF & Hl & HP & HC). destruct (C03_initial_mesh g P ord WF HP HC HO) as (M2 & E2 & _ & HI & _ & _ & _ & EV & _). assert (M2 = M) as -> by congruence.
  assert (LV : forall A, In A (leaves M) -> lev A = lmin g) by (intros A HA; apply HI, HA). split; [|exact LV].
  split; [apply (reach_init g P ord M HO E)|]. split; [exact EV|]. intros A HA. rewrite (LV A HA). lia.
Qed.
Lemma init_rounds P fuel ords visits M' : init_mesh fuel ords visits need g P b lo hi = Some M' -> lmin g <= lmax g ->
  exists M, private_init (ords (-1) false) g P = Some M /\ rounds fuel ords visits (zrange (lmin g) (lmin g + Z.of_nat (Z.to_nat (lmax g - lmin g)))) M = Some M'.
Proof.
  unfold init_mesh. intros E HL. destruct (private_init (ords (-1) false) g P) as [M|]; [|discriminate E]. exists M. split; [reflexivity|].
  replace (lmin g + Z.of_nat (Z.to_nat (lmax g - lmin g))) with (lmax g) by lia. exact E.
Qed.
Lemma init_inv P fuel ords visits M' (Q : Z -> mesh -> Prop) : good_setup g P -> (forall l t, ord_ok (ords l t)) -> (forall l r, reorders (visits l r)) ->
  init_mesh fuel ords visits need g P b lo hi = Some M' -> roomy b M' ->
  (forall M, reachable g P M -> (forall A, In A (leaves M) -> lev A = lmin g) -> Q (lmin g) M) ->
  (forall l M M' m, lmin g <= l < lmax g -> state P l M -> state P (l + 1) M' -> least_legal g (leaves M) want m -> leaf_change g (leaves M) (leaves M') m -> Q l M -> Q (l + 1) M') ->
  Q (lmax g) M'.
Proof.
  intros GS HO RO E RM Q0 STEP. pose proof (proj1 (proj2 (proj1 GS))) as LL. destruct (init_rounds P fuel ords visits M' E LL) as (M & EI & ER). destruct (start P _ M GS (HO (-1) false) EI) as (ST & LV).
  replace (lmax g) with (lmin g + Z.of_nat (Z.to_nat (lmax g - lmin g))) by lia.
  apply (rounds_inv P GS fuel ords visits HO RO Q STEP _ _ M M'); try assumption; try lia. apply Q0; [apply ST|exact LV].
Qed.

Lemma want_01 A : want A = 0 \/ want A = 1. Proof. unfold wanted, b2z. destruct (existsb _ _); auto. Qed.
Lemma want_asks A p : in_block b p -> asks need g b lo hi (cell_of b A p) -> want A = 1.
Proof.
  intros IP H. unfold wanted. replace (existsb _ _) with true; [reflexivity|]. symmetry. apply existsb_exists. exists (cell_of b A p). split; [|exact H].
  destruct (positions_all b p IP) as (p' & HP & EP). apply in_map_iff. exists p'. split; [|exact HP]. unfold cell_of, oct_of, gpos. rewrite !EP. reflexivity.
Qed.
Lemma want_cell A : want A = 1 -> exists p, in_block b p /\ asks need g b lo hi (cell_of b A p).
Proof.
  unfold wanted. destruct (existsb (asksb need g b lo hi) (map (cell_of b A) (positions b))) eqn:E; [|discriminate]. intros _. apply existsb_exists in E. destruct E as (x & HX & HT).
  apply in_map_iff in HX. destruct HX as (p & <- & HP). exists p. split; [apply positions_in, HP|exact HT].
Qed.
Lemma in_cells (L : list oct) x A p : In A L -> in_block b p -> x = cell_of b A p -> In x (all_cells b L).
Proof.
  intros HA IP ->. unfold all_cells. apply in_flat_map. exists A. split; [exact HA|]. destruct (positions_all b p IP) as (p' & HP & EP). apply in_map_iff. exists p'. split; [|exact HP].
  unfold cell_of, oct_of, gpos. rewrite !EP. reflexivity.
Qed.
(** The parent of a cell is a cell of the parent. *)
Lemma parent_cell B p : valid g B -> in_block b p -> exists p', in_block b p' /\ parent g (cell_of b B p) = cell_of b (parent g B) p'.
Proof.
  clear need LH lo hi. intros V IP. exists (fun a => half g a (gpos b B p a) - coord (parent g B) a * b a). split.
  - intros a. specialize (IP a). unfold parent. rewrite coord_oct_of. unfold gpos, half. pose proof (BO a) as (B1 & BF). destruct (flat g a) eqn:F; [lia|].
    pose proof (Z.div_mod (coord B a) 2 ltac:(lia)) as D1. pose proof (Z.mod_pos_bound (coord B a) 2 ltac:(lia)) as D2.
    set (c := coord B a / 2) in *. set (e := coord B a mod 2) in *. rewrite D1. replace ((2 * c + e) * b a + p a) with (e * b a + p a + (c * b a) * 2) by ring. rewrite Z.div_add by lia.
    assert (0 <= e * b a <= b a) by (clear - D2 B1; nia). pose proof (Z.div_pos (e * b a + p a) 2 ltac:(lia) ltac:(lia)). pose proof (Z.div_lt_upper_bound (e * b a + p a) 2 (b a) ltac:(lia) ltac:(lia)). lia.
  - unfold cell_of at 2. unfold parent at 1. apply oct_ext; [reflexivity|]. intros a. rewrite !coord_oct_of. unfold cell_of. rewrite coord_oct_of. unfold gpos at 2. lia.
Qed.
Lemma cell_range B p : valid g B -> in_block b p -> forall a, 0 <= coord (cell_of b B p) a < ncells g b (lev (cell_of b B p)) a.
Proof.
  clear need LH lo hi BO. intros (_ & V) IP a. specialize (V a). specialize (IP a). unfold cell_of. rewrite coord_oct_of. cbn [oct_of lev]. unfold gpos, ncells. clear - V IP. nia.
Qed.
End Runs.

(** ** C83 *)

(** The mesh is nowhere finer than needed: any balanced mesh that is fine enough for the formula is at
    least as fine everywhere. No rank of the result may hold 2^32 cells: beyond that the loop on cells
    misses some (C23). *)
Theorem C83_no_more g P b lo hi need fuel ords visits M T : good_setup g P -> block_ok g b -> (forall a, (lo a < hi a)%Qc) ->
  (forall l t, ord_ok (ords l t)) -> (forall l r, reorders (visits l r)) ->
  init_mesh fuel ords visits need g P b lo hi = Some M -> roomy b M ->
  tiles g T -> balanced g T -> fine_enough need g b lo hi T -> no_finer g (leaves M) T.
Proof.
  intros GS BO LH HO RO E RM TT TB TF. pose proof (proj1 GS) as WF.
  apply (init_inv g b BO lo hi LH need P fuel ords visits M (fun _ M => no_finer g (leaves M) T) GS HO RO E RM).
  - intros M0 _ LV p A B D HA HB CA CB. rewrite (LV A HA). apply (tiles_valid g T B TT HB).
  - clear M RM E. intros l M M' m HL ST ST' LL CH NF. pose proof (tiles_of g P GS M (proj1 ST)) as TM. pose proof (reachable_ok g P M GS (proj1 ST)) as OK.
    set (m' := fun A => if existsb (fun B => (lev A <? lev B) && oct_eqb B (cell_at g (lev B) (corner g A))) T then 1 else 0).
    assert (S : forall A p B, In A (leaves M) -> in_dom g p -> covers g A p -> In B T -> covers g B p -> (m' A = 1 /\ lev A < lev B) \/ (m' A = 0 /\ B = A)).
    { intros A p B HA D CA HB CB. pose proof (leaf_valid g M OK A HA) as V. destruct (tiles_leaf g T _ TT (corner_in_dom g A V)) as (B0 & HB0 & CB0).
      pose proof (NF _ A B0 (corner_in_dom g A V) HA HB0 (corner_covers g A V) CB0) as L0. pose proof (NF p A B D HA HB CA CB) as L1.
      destruct (Z.eq_dec (lev B0) (lev A)) as [EQ|NQ].
      - assert (B0 = A) as -> by (apply (covers_same_level g B0 A _ CB0 (corner_covers g A V) EQ)). right. split; [|apply (tiles_unique g T p B A TT D HB HB0 CB CA)].
        unfold m'. replace (existsb _ _) with false; [reflexivity|]. symmetry. apply not_true_is_false. intros Q. apply existsb_exists in Q. destruct Q as (X & HX & Q). apply andb_prop in Q. destruct Q as (Q1 & Q2).
        apply oct_eqb_eq in Q2. assert (CX : covers g X (corner g A)) by (rewrite Q2; apply cell_at_covers). assert (X = A) as -> by (apply (tiles_unique g T (corner g A) X A TT (corner_in_dom g A V) HX HB0 CX (corner_covers g A V))). lia.
      - left. split.
        + unfold m'. replace (existsb _ _) with true; [reflexivity|]. symmetry. apply existsb_exists. exists B0. split; [exact HB0|]. apply andb_true_intro. split; [lia|]. apply oct_eqb_eq, covers_cell_at, CB0.
        + destruct (Z.eq_dec (lev B) (lev A)) as [EQ|]; [|lia]. exfalso. assert (B = A) as -> by (apply (covers_same_level g B A p CB CA EQ)).
          apply NQ. f_equal. apply (tiles_unique g T (corner g A) B0 A TT (corner_in_dom g A V) HB0 HB CB0 (corner_covers g A V)). }
    assert (LG : legal g (leaves M) (wanted need g b lo hi) m').
    { intros A HA. pose proof (leaf_valid g M OK A HA) as V. destruct (tiles_leaf g T _ TT (corner_in_dom g A V)) as (B0 & HB0 & CB0). pose proof (S A _ B0 HA (corner_in_dom g A V) (corner_covers g A V) HB0 CB0) as S0.
      pose proof (proj2 (proj2 ST) A HA) as LA. destruct V as (VL & VC). split; [|split; [|split; [|split]]].
      - destruct S0 as [(-> & _)|(-> & ->)]; [destruct (want_01 g b lo hi need A); lia|]. destruct (want_01 g b lo hi need A) as [->|W1]; [lia|]. exfalso.
        destruct (want_cell g b lo hi need A W1) as (p & IP & AS). apply (TF (cell_of b A p)); [|change (lev (cell_of b A p)) with (lev A); lia|exact AS]. apply (in_cells b T _ A p HB0 IP eq_refl).
      - destruct S0 as [(-> & _)|(-> & _)]; lia.
      - destruct S0 as [(-> & _)|(-> & _)]; lia.
      - intros B HB TC. pose proof (ok_balanced g M OK A B HA HB TC) as BL. destruct TC as (p & q & Dp & Dq & Cp & Cq & NR).
        destruct (tiles_leaf g T p TT Dp) as (X & HX & CX). destruct (tiles_leaf g T q TT Dq) as (Y & HY & CY).
        pose proof (TB X Y HX HY (ex_intro _ p (ex_intro _ q (conj Dp (conj Dq (conj CX (conj CY NR))))))) as TXY.
        pose proof (NF p A X Dp HA HX Cp CX). pose proof (NF q B Y Dq HB HY Cq CY).
        destruct (S A p X HA Dp Cp HX CX) as [(-> & ?)|(-> & ->)]; destruct (S B q Y HB Dq Cq HY CY) as [(-> & ?)|(-> & ->)]; lia.
      - intros Q. destruct S0 as [(Q' & _)|(Q' & _)]; lia. }
    intros p N B D HN HB CN CB. destruct (tiles_leaf g (leaves M) p TM D) as (A & HA & CA). rewrite (CH p A N D HA HN CA CN). pose proof (proj2 LL m' LG A HA) as LE.
    destruct (S A p B HA D CA HB CB) as [(Q & ?)|(Q & ->)]; lia.
Qed.

(** With a coherent formula the mesh is fine enough. Missing: formulas that ask to refine a cell but not
    the larger cell that contains it ([C83_refuted]); 2^32 cells on a rank. *)
Theorem C83_fine_enough_partial g P b lo hi need fuel ords visits M : good_setup g P -> block_ok g b -> (forall a, (lo a < hi a)%Qc) ->
  (forall l t, ord_ok (ords l t)) -> (forall l r, reorders (visits l r)) ->
  init_mesh fuel ords visits need g P b lo hi = Some M -> roomy b M ->
  coherent need g b lo hi -> fine_enough need g b lo hi (leaves M).
Proof.
  intros GS BO LH HO RO E RM CO.
  assert (I : forall A, In A (leaves M) -> lev A < lmax g -> wanted need g b lo hi A = 0).
  { apply (init_inv g b BO lo hi LH need P fuel ords visits M (fun l M => forall A, In A (leaves M) -> lev A < l -> wanted need g b lo hi A = 0) GS HO RO E RM).
    - intros M0 _ LV A HA Q. rewrite (LV A HA) in Q. lia.
    - clear M RM E. intros l M M' m HL ST ST' LL CH IH B HB LB.
      assert (W0 : forall A, In A (leaves M) -> 0 <= wanted need g b lo hi A) by (intros A _; destruct (want_01 g b lo hi need A); lia).
      destruct (change_up g (leaves M) (leaves M') m _ (tiles_of g P GS M (proj1 ST)) (tiles_of g P GS M' (proj1 ST')) CH LL W0 B HB) as (A & HA & M01 & WM & EB & E0 & E1).
      destruct (Z.eq_dec (m A) 0) as [Q|Q]; [rewrite (E0 Q); specialize (W0 A HA); lia|]. assert (Q1 : m A = 1) by lia. specialize (E1 Q1).
      destruct (want_01 g b lo hi need B) as [W|W]; [exact W|exfalso]. destruct (want_cell g b lo hi need B W) as (p & IP & AS).
      pose proof (tiles_valid g _ B (tiles_of g P GS M' (proj1 ST')) HB) as VB. pose proof (tiles_valid g _ A (tiles_of g P GS M (proj1 ST)) HA) as (VA & _).
      destruct (parent_cell g b BO B p VB IP) as (p' & IP' & EP). apply CO in AS; [|change (lev (cell_of b B p)) with (lev B); destruct VB as (VB & _); lia|apply (cell_range g b B p VB IP)].
      rewrite EP, E1 in AS. pose proof (want_asks g b lo hi need A p' IP' AS) as WA. rewrite (IH A HA ltac:(lia)) in WA. discriminate WA. }
  intros x HX LX AS. apply (cells_in M b) in HX. destruct HX as (A & p & HA & IP & ->). pose proof (want_asks g b lo hi need A p IP AS) as W. rewrite (I A HA LX) in W. discriminate W.
Qed.

(** The rounds, seen from the list of leaves only. *)
Inductive follows (g : geom) (want : oct -> Z) : Z -> list oct -> Prop :=
| follows_start L : tiles g L -> zsorted g L -> (forall A, In A L -> lev A = lmin g) -> follows g want (lmin g) L
| follows_round l L L' m : lmin g <= l -> follows g want l L -> tiles g L -> tiles g L' -> zsorted g L' -> least_legal g L want m -> leaf_change g L L' m -> follows g want (l + 1) L'.
Lemma follows_same g want l L1 : follows g want l L1 -> forall L2, follows g want l L2 -> L1 = L2.
Proof.
  intros F1. induction F1 as [L1 T1 S1 V1|l L1 L1' m1 H1 F1 IH T1 T1' S1 LL1 C1]; intros L2 F2; inversion F2; subst; try lia.
  - apply (tiles_same_levels g L1 L2); try assumption. intros p A B D HA HB _ _. rewrite V1 by assumption. symmetry. auto.
  - assert (l0 = l) as -> by lia. assert (L1 = L) as <- by (apply IH; assumption). apply (tiles_same_levels g L1' L2); try assumption. intros p A B D HA HB CA CB.
    destruct (tiles_leaf g L1 p T1 D) as (X & HX & CX). rewrite (C1 p X A D HX HA CX CA). match goal with H : leaf_change g L1 L2 m |- _ => rewrite (H p X B D HX HB CX CB) end.
    f_equal. apply (least_legal_unique g L1 want m1 m); assumption.
Qed.

(** The mesh depends on nothing but the formula: not on the number of ranks, the order of the calls, the
    hash tables. *)
Theorem C83_independent g P1 P2 b lo hi need fuel1 fuel2 ords1 ords2 visits1 visits2 M1 M2 : good_setup g P1 -> good_setup g P2 -> block_ok g b -> (forall a, (lo a < hi a)%Qc) ->
  (forall l t, ord_ok (ords1 l t)) -> (forall l r, reorders (visits1 l r)) -> (forall l t, ord_ok (ords2 l t)) -> (forall l r, reorders (visits2 l r)) ->
  init_mesh fuel1 ords1 visits1 need g P1 b lo hi = Some M1 -> init_mesh fuel2 ords2 visits2 need g P2 b lo hi = Some M2 -> roomy b M1 -> roomy b M2 ->
  leaves M1 = leaves M2.
Proof.
  intros GS1 GS2 BO LH HO1 RO1 HO2 RO2 E1 E2 R1 R2.
  assert (K : forall P fuel ords visits M, good_setup g P -> (forall l t, ord_ok (ords l t)) -> (forall l r, reorders (visits l r)) -> init_mesh fuel ords visits need g P b lo hi = Some M -> roomy b M ->
    follows g (wanted need g b lo hi) (lmax g) (leaves M)).
  { clear - BO LH. intros. apply (init_inv g b BO lo hi LH need P fuel ords visits M (fun l M => follows g (wanted need g b lo hi) l (leaves M))); try assumption.
    - intros M0 RC LV. pose proof (reachable_ok g P M0 H RC) as OK. apply follows_start; [apply OK|apply OK|exact LV].
    - intros l M0 M' m HL ST ST' LL CH Q. pose proof (reachable_ok g P M0 H (proj1 ST)) as OK. pose proof (reachable_ok g P M' H (proj1 ST')) as OK'.
      apply (follows_round g _ l (leaves M0) (leaves M') m); try assumption; try apply OK; try apply OK'. lia. }
  apply (follows_same g (wanted need g b lo hi) (lmax g)); [apply (K P1 fuel1 ords1 visits1)|apply (K P2 fuel2 ords2 visits2)]; assumption.
Qed.

(** The initial condition always completes. The mesh is one of the meshes [reachable] by adaptations and load balances, so
    all that is proved of those holds of it; the ranks are balanced. *)
Theorem C83_total g P b lo hi need ords visits : good_setup g P -> block_ok g b -> (forall a, (lo a < hi a)%Qc) ->
  (forall l t, ord_ok (ords l t)) -> (forall l r, reorders (visits l r)) ->
  exists F, forall fuel, (F <= fuel)%nat -> exists M, init_mesh fuel ords visits need g P b lo hi = Some M /\ reachable g P M /\
    forall R R', In R M -> In R' M -> Z.of_nat (length (loc R)) <= Z.of_nat (length (loc R')) + 1.
Proof.
  intros GS BO LH HO RO. pose proof GS as (WF & Hl & HP & HC). destruct (C03_initial_mesh g P (ords (-1) false) WF HP HC (HO _ _)) as (M0 & E0 & _). destruct (start g P _ M0 GS (HO _ _) E0) as (ST & _).
  pose proof (proj1 (proj2 WF)) as LL.
  destruct (rounds_total g b BO lo hi LH need P ords visits GS HO RO (Z.to_nat (lmax g - lmin g)) (lmin g) M0 ltac:(lia) ST) as (F & HF). exists F. intros fuel LF. destruct (HF fuel LF) as (M & EM). exists M.
  split; [|destruct (rounds_state g b BO lo hi LH need P GS fuel ords visits HO RO (Z.to_nat (lmax g - lmin g)) (lmin g) M0 M ltac:(lia) ST EM) as ((RC & EV & _) & _); split; [exact RC|exact EV]].
  unfold init_mesh. rewrite E0. replace (lmin g + Z.of_nat (Z.to_nat (lmax g - lmin g))) with (lmax g) in EM by lia. exact EM.
Qed.

(** ** C84 *)
Lemma fill_fold {C X} (slot : C -> Z) (val : C -> option X) (t : nat -> X) n cs : (forall c, In c cs -> 0 <= slot c < Z.of_nat n /\ val c = Some (t (Z.to_nat (slot c)))) -> forall f,
  foldM (fun U c => match val c with Some v => write_at U (slot c) v | None => None end) cs (map f (seq 0 n)) = Some (map (fun k => if existsb (fun c => slot c =? Z.of_nat k) cs then t k else f k) (seq 0 n)).
Proof.
  induction cs as [|c cs IH]; intros H f; [reflexivity|]. cbn [foldM]. destruct (H c (or_introl eq_refl)) as (H1 & ->). rewrite write_at_map by exact H1.
  rewrite IH by (intros c' Hc'; apply H; right; exact Hc'). f_equal. apply map_ext. intros k. cbn [existsb]. rewrite (Z.eqb_sym (slot c)). destruct (Z.eqb_spec (Z.of_nat k) (slot c)) as [Q|Q]; [|reflexivity].
  rewrite <- Q, Nat2Z.id. cbn [orb]. destruct (existsb _ cs); reflexivity.
Qed.
Lemma repeat_map {X} (x : X) n : repeat x n = map (fun _ => x) (seq 0 n).
Proof. generalize 0%nat. induction n as [|n IH]; intros k; [reflexivity|]. cbn [repeat seq map]. f_equal. apply IH. Qed.
Lemma nth_map_seq {X} (l : list X) d : map (fun k => nth k l d) (seq 0 (length l)) = l.
Proof.
  apply nth_ext with (d := d) (d' := d); [rewrite map_length, seq_length; reflexivity|]. intros k HK. rewrite map_length, seq_length in HK. rewrite (nth_indep _ _ (nth 0 l d)) by (rewrite map_length, seq_length; exact HK).
  rewrite map_nth with (f := fun k => nth k l d). rewrite seq_nth by exact HK. reflexivity.
Qed.
(** Every cell holds the value of the formula for its centre and size, whatever the order of the calls.
    Missing: ranks with 2^32 cells or more, see [C84_refuted_large]. *)
Definition filled {X} (value : Qc * Qc * Qc -> Qc * Qc * Qc -> X) (g : geom) (b : axis -> Z) (lo hi : axis -> Qc) (octs : list oct) : list X :=
  map (fun x => value (cell_centre g b lo hi x) (cell_extent g b lo hi x)) (all_cells b octs).
Theorem C84_values_partial {X} (zero : X) value g P M b lo hi visit R : good_setup g P -> reachable g P M -> block_ok g b -> (forall a, (lo a < hi a)%Qc) -> reorders visit ->
  In R M -> cells_per_block b * Z.of_nat (length (loc R)) < 2 ^ 32 ->
  fill_U zero visit value g b lo hi (loc R) = Some (filled value g b lo hi (loc R)).
Proof.
  intros GS RC BO LH RO HR FEW. pose proof (reachable_ok g P M GS RC) as OK. pose proof (proj1 GS) as WF. pose proof (fun a => proj1 (proj1 (BO a))) as B1.
  assert (B1' : forall a, 1 <= b a) by (intros a; apply (BO a)). pose proof (C23_foreach_cell_partial b (length (loc R)) B1' FEW) as (VA & VO).
  assert (C0 : 0 < cells_per_block b) by (unfold cells_per_block; pose proof (B1' AX); pose proof (B1' AY); pose proof (B1' AZ); nia).
  set (n := (length (loc R) * Z.to_nat (b AX * b AY * b AZ))%nat). assert (NL : length (filled value g b lo hi (loc R)) = n) by (unfold filled; rewrite map_length; apply (all_cells_len b B1')).
  assert (NZ : Z.of_nat n = Z.of_nat (length (loc R)) * cells_per_block b) by (unfold n, cells_per_block in *; lia).
  set (slot := fun c : icell => fst c * (b AX * b AY * b AZ) + flat_cell b (snd c)).
  assert (G : forall c, In c (visit (foreach_cell b (length (loc R)))) -> 0 <= slot c < Z.of_nat n /\
    match formula_args g b lo hi (loc R) c with Some (x, s) => Some (value x s) | None => None end = Some (nth (Z.to_nat (slot c)) (filled value g b lo hi (loc R)) zero)).
  { intros c HC. apply (Permutation_in _ (RO _)) in HC. destruct (VO c HC) as (C1 & C2). pose proof (flat_cell_range b (snd c) B1' C2) as FR. split.
    - rewrite NZ. unfold slot. change (b AX * b AY * b AZ) with (cells_per_block b). clear - C1 FR C0. nia.
    - destruct (nth_error (loc R) (Z.to_nat (fst c))) as [A|] eqn:EA; [|apply nth_error_None in EA; lia]. destruct c as (o & p). cbn [fst snd] in *. 
      pose proof (args_eq g WF M OK b BO lo hi LH R HR (Z.to_nat o) A p EA C2) as AE. rewrite Z2Nat.id in AE by lia. rewrite AE. f_equal. symmetry. apply nth_error_nth. unfold filled. rewrite nth_error_map.
      pose proof (all_cells_nth b B1' (loc R) (Z.to_nat o) A p EA C2) as NE. rewrite Z2Nat.id in NE by lia. unfold slot. cbn [fst snd]. unfold GravityModel.block_len in NE. rewrite NE. reflexivity. }
  unfold fill_U. fold n. rewrite repeat_map.
  transitivity (foldM (fun U c => match (match formula_args g b lo hi (loc R) c with Some (x, s) => Some (value x s) | None => None end) with Some v => write_at U (slot c) v | None => None end)
    (visit (foreach_cell b (length (loc R)))) (map (fun _ => zero) (seq 0 n))).
  { generalize (map (fun _ : nat => zero) (seq 0 n)). generalize (visit (foreach_cell b (length (loc R)))). induction l as [|c l IH]; intros U; [reflexivity|]. cbn [foldM].
    destruct (formula_args g b lo hi (loc R) c) as [(x, s)|]; [|reflexivity]. unfold slot at 1. destruct (write_at U _ _); [apply IH|reflexivity]. }
  rewrite (fill_fold slot _ (fun k => nth k (filled value g b lo hi (loc R)) zero) n _ G). f_equal. etransitivity; [|apply (nth_map_seq (filled value g b lo hi (loc R)) zero)]. rewrite NL. apply map_ext_in. intros k HK. apply in_seq in HK.
  replace (existsb _ _) with true; [reflexivity|]. symmetry. apply existsb_exists.
  assert (Ko : 0 <= Z.of_nat k / cells_per_block b < Z.of_nat (length (loc R))) by (split; [apply Z.div_pos; lia|apply Z.div_lt_upper_bound; lia]).
  destruct (decode_spec b (Z.of_nat k mod cells_per_block b) B1' ltac:(apply Z.mod_pos_bound; exact C0)) as (IP & FP).
  destruct (VA _ _ Ko IP) as (j & c & Hc & (K1 & K2) & _). exists c. split; [apply (Permutation_in _ (Permutation_sym (RO _))), (nth_error_In _ _ Hc)|].
  apply Z.eqb_eq. unfold slot. rewrite K1. unfold flat_cell in *. rewrite !K2, FP. change (b AX * b AY * b AZ) with (cells_per_block b). pose proof (Z.div_mod (Z.of_nat k) (cells_per_block b)). lia.
Qed.

(** The full statement of C84, for all ranks. *)
Definition always_filled : Prop := forall X (zero : X) value g P M b lo hi visit R, good_setup g P -> reachable g P M -> block_ok g b -> (forall a, (lo a < hi a)%Qc) -> reorders visit ->
  In R M -> fill_U zero visit value g b lo hi (loc R) = Some (filled value g b lo hi (loc R)).
Lemma fill_refuted g R b : good_setup g 1 -> reachable g 1 [R] -> block_ok g b -> foreach_cell b (length (loc R)) = [] -> ~ always_filled.
Proof.
  intros GS RC BO NO H. pose proof (reachable_ok g 1 [R] GS RC) as OK. pose proof (ok_nonempty g [R] OK R (or_introl eq_refl)) as NE.
  assert (B1' : forall a, 1 <= b a) by (intros a; apply (BO a)).
  specialize (H bool false (fun _ _ => true) g 1%nat [R] b (fun _ => 0%Qc) (fun _ => 1%Qc) (fun l => l) R GS RC BO (fun _ => eq_refl) (fun l => Permutation_refl l) (or_introl eq_refl)).
  unfold fill_U in H. rewrite NO in H. cbn [foldM] in H. injection H as H.
  assert (IP : in_block b (fun _ => 0)) by (intros a; specialize (B1' a); lia). destruct (nth_error (loc R) 0) as [A|] eqn:EA; [|destruct (loc R); [apply NE; reflexivity|discriminate EA]].
  pose proof (all_cells_nth b B1' (loc R) 0 A _ EA IP) as Q.
  match type of H with _ = ?t => assert (IT : In true t) end.
  { (unfold filled; apply in_map_iff; eexists; split; [reflexivity|apply (nth_error_In _ _ Q)]). }
  rewrite <- H in IT. apply repeat_spec in IT. discriminate IT.
Qed.
(** The program violates it: with 2^32 cells on a rank the loop makes no call and the fields keep their
    content. *)
Definition an_big : axis -> Z := mkoff 1024 1024 512.
Lemma an_big_none : foreach_cell an_big 8 = []. Proof. vm_compute. reflexivity. Qed.
Theorem C84_refuted_large : ~ always_filled.
Proof.
  apply (fill_refuted ou_g ou_R an_big ou_setup ou_reach); [|rewrite ou_len; exact an_big_none].
  intros []; (split; [unfold an_big, mkoff; lia|intros F; discriminate F]).
Qed.

(** * The Sod shock tube *)

Lemma ltb_abs (x y : Qc) : ltb (if ltb x 0%Qc then - x else x)%Qc y = true <-> (- y < x < y)%Qc.
Proof.
  assert (L : forall x y : Qc, ltb x y = true <-> (x < y)%Qc) by (intros u v; unfold ltb; rewrite Qclt_alt; destruct (u ?= v)%Qc; split; congruence).
  rewrite L. destruct (ltb x 0%Qc) eqn:E.
  - apply L in E. split.
    + intros H. split; [apply Qclt_minus_iff; apply Qclt_minus_iff in H; replace (x + - - y)%Qc with (y + - - x)%Qc by ring; exact H|]. apply Qclt_trans with (- x)%Qc; [|exact H]. apply Qclt_trans with 0%Qc; [exact E|]. apply Qclt_minus_iff in E. rewrite Qcplus_0_l in E. exact E.
    + intros (H & _). apply Qclt_minus_iff. apply Qclt_minus_iff in H. replace (y + - - x)%Qc with (x + - - y)%Qc by ring. exact H.
  - assert (X0 : ~ (x < 0)%Qc) by (intros Q; apply L in Q; congruence). apply Qcnot_lt_le in X0. split; [|intros (_ & H); exact H]. intros H. split; [|exact H].
    apply Qclt_le_trans with 0%Qc; [|exact X0]. apply Qclt_minus_iff. rewrite Qcplus_0_l. rewrite Qcopp_involutive. apply Qcle_lt_trans with x; assumption.
Qed.

Lemma ncells_half g b l a : lmin g < l -> flat g a = false -> ncells g b l a = 2 * ncells g b (l - 1) a.
Proof. intros HL F. unfold ncells, ncell. rewrite F. replace (l - lmin g) with (Z.succ (l - 1 - lmin g)) by lia. rewrite Z.pow_succ_r by lia. ring. Qed.
Lemma sod_coherent x0 g b lo hi : wf_geom g -> block_ok g b -> (forall a, (lo a < hi a)%Qc) -> coherent (sod_need x0) g b lo hi.
Proof.
  intros WF BO LH x LX _. unfold asks, sod_need. rewrite !ltb_abs. unfold cell_centre, cell_extent. cbn [fst snd flat].
  assert (NP : 0 < ncells g b (lev x - 1) AX) by (apply (N_pos g WF b BO); lia). change (lev (parent g x)) with (lev x - 1). rewrite (ncells_half g b (lev x) AX) by (try reflexivity; lia).
  set (n := ncells g b (lev x - 1) AX) in *. clearbody n. unfold parent. rewrite coord_oct_of. unfold half. cbn [flat]. pose proof (Z.div_mod (coord x AX) 2 ltac:(lia)) as D1. pose proof (Z.mod_pos_bound (coord x AX) 2 ltac:(lia)) as D2.
  set (k := coord x AX / 2) in *. set (e := coord x AX mod 2) in *. rewrite D1. clearbody k e. clear D1. fold (zq (2 * (2 * k + e) + 1)) (zq (2 * (2 * n))) (zq (2 * n)) (zq (2 * k + 1)) (zq n). specialize (LH AX).
  assert (h : exists d, d = ((hi AX - lo AX) / zq (2 * n))%Qc) by (eexists; reflexivity). destruct h as (d & Ed). pose proof (zq_pos n NP) as NQ. pose proof (Qc_pos_nz _ NQ) as NZ.
  assert (Z2 : (zq 2 <> 0)%Qc) by discriminate. assert (Z2n : (zq (2 * n) = zq 2 * zq n)%Qc) by (apply zq_mult). assert (DP : (0 < d)%Qc).
  { rewrite Ed, Z2n. apply Qclt_minus_iff in LH. apply Qcdiv_lt_0; [exact LH|]. rewrite <- Z2n. apply zq_pos. lia. }
  replace ((hi AX - lo AX) / zq n)%Qc with (zq 2 * d)%Qc by (rewrite Ed, Z2n; field; split; assumption).
  replace (lo AX + zq (2 * (2 * k + e) + 1) / zq (2 * (2 * n)) * (hi AX - lo AX) - x0)%Qc with (lo AX + zq (2 * k + 1) / zq (2 * n) * (hi AX - lo AX) - x0 + (zq (2 * e - 1)) * d / zq 2)%Qc.
  2: { rewrite Ed. rewrite (zq_mult 2 (2 * n)), Z2n. replace (2 * (2 * k + e) + 1) with (2 * (2 * k + 1) + (2 * e - 1)) by ring. rewrite (zq_plus (2 * (2 * k + 1))), (zq_mult 2 (2 * k + 1)). field. split; assumption. }
  generalize (lo AX + zq (2 * k + 1) / zq (2 * n) * (hi AX - lo AX) - x0)%Qc. intros y. rewrite <- Ed.
  assert (u : exists w, (0 < w)%Qc /\ d = (w + w + (w + w + w) + (w + w + (w + w + w)))%Qc).
  { exists (d / zq 10)%Qc. split; [apply Qcdiv_lt_0; [exact DP|apply zq_pos; lia]|]. assert (T : (zq 10 = 1 + 1 + (1 + 1 + 1) + (1 + 1 + (1 + 1 + 1)))%Qc) by (apply Qc_is_canon; vm_compute; reflexivity).
    assert (T0 : (zq 10 <> 0)%Qc) by discriminate. transitivity (d / zq 10 * zq 10)%Qc; [field; exact T0|]. rewrite T at 2. ring. }
  destruct u as (w & WP & ->). clear - WP D2.
  assert (F1 : (frac 11 10 * (w + w + (w + w + w) + (w + w + (w + w + w))) = w + (w + w + (w + w + w) + (w + w + (w + w + w))))%Qc).
  { transitivity (frac 11 10 * zq 10 * w)%Qc; [replace (zq 10) with (1 + 1 + (1 + 1 + 1) + (1 + 1 + (1 + 1 + 1)))%Qc by (apply Qc_is_canon; vm_compute; reflexivity); ring|].
    replace (frac 11 10 * zq 10)%Qc with (1 + (1 + 1 + (1 + 1 + 1) + (1 + 1 + (1 + 1 + 1))))%Qc by (apply Qc_is_canon; vm_compute; reflexivity). ring. }
  replace (frac 11 10 * (zq 2 * (w + w + (w + w + w) + (w + w + (w + w + w)))))%Qc with (zq 2 * (frac 11 10 * (w + w + (w + w + w) + (w + w + (w + w + w)))))%Qc by ring. rewrite F1.
  replace (zq 2) with (1 + 1)%Qc by (apply Qc_is_canon; reflexivity).
  replace ((1 + 1) * (w + (w + w + (w + w + w) + (w + w + (w + w + w)))))%Qc with (w + (w + w + (w + w + w) + (w + w + (w + w + w))) + (w + (w + w + (w + w + w) + (w + w + (w + w + w)))))%Qc by ring. clear F1.
  assert (EC : e = 0 \/ e = 1) by lia. destruct EC as [-> | ->].
  - replace (zq (2 * 0 - 1) * (w + w + (w + w + w) + (w + w + (w + w + w))) / (1 + 1))%Qc with (- (w + w + (w + w + w)))%Qc.
    2: { replace (zq (2 * 0 - 1)) with (- (1))%Qc by (apply Qc_is_canon; reflexivity). field. discriminate. }
    intros (H1 & H2). split; qlin.
  - replace (zq (2 * 1 - 1) * (w + w + (w + w + w) + (w + w + (w + w + w))) / (1 + 1))%Qc with (w + w + (w + w + w))%Qc.
    2: { replace (zq (2 * 1 - 1)) with 1%Qc by (apply Qc_is_canon; reflexivity). field. discriminate. }
    intros (H1 & H2). split; qlin.
Qed.

(** The mesh of the shock tube is the coarsest balanced mesh where every cell next to the interface has the finest level. *)
Corollary C83_sod_partial g P b lo hi x0 fuel ords visits M : good_setup g P -> block_ok g b -> (forall a, (lo a < hi a)%Qc) ->
  (forall l t, ord_ok (ords l t)) -> (forall l r, reorders (visits l r)) ->
  init_mesh fuel ords visits (sod_need x0) g P b lo hi = Some M -> roomy b M ->
  fine_enough (sod_need x0) g b lo hi (leaves M) /\
  forall T, tiles g T -> balanced g T -> fine_enough (sod_need x0) g b lo hi T -> no_finer g (leaves M) T.
Proof.
  intros GS BO LH HO RO E RM. split.
  - apply (C83_fine_enough_partial g P b lo hi _ fuel ords visits M); try assumption. apply sod_coherent; [exact (proj1 GS)|exact BO|exact LH].
  - intros T TT TB TF. apply (C83_no_more g P b lo hi (sod_need x0) fuel ords visits M T); assumption.
Qed.

(** * A formula that asks late *)

(** The full statement for all formulas. *)
Definition always_fine_enough : Prop := forall g P b lo hi need fuel ords visits M, good_setup g P -> block_ok g b -> (forall a, (lo a < hi a)%Qc) ->
  (forall l t, ord_ok (ords l t)) -> (forall l r, reorders (visits l r)) ->
  init_mesh fuel ords visits need g P b lo hi = Some M -> roomy b M -> fine_enough need g b lo hi (leaves M).
Definition an_g : geom := mkGeom false 1 3 2 2 1 false false false.
Definition an_b : axis -> Z := mkoff 2 2 1.
Definition within (l h : Qc) (p : triple) : bool := ltb l (fst (fst p)) && ltb (fst (fst p)) h && ltb l (snd (fst p)) && ltb (snd (fst p)) h.
(** Asks to refine the cells of size 1/4 in the first quarter of the unit square, and the cells of size
    1/8 in the middle of the square and in the last quarter. *)
Definition an_need (p s : triple) : bool :=
  (Qc_eq_bool (fst (fst s)) (frac 1 4) && within 0%Qc (frac 1 2) p) ||
  (Qc_eq_bool (fst (fst s)) (frac 1 8) && (within (frac 1 4) (frac 1 2) p || within (frac 1 2) 1%Qc p)).
Definition an_run : option mesh := init_mesh 30 (fun _ _ => id_order) (fun _ _ l => l) an_need an_g 1 an_b (fun _ => 0%Qc) (fun _ => 1%Qc).
Definition an_M : mesh := match an_run with Some M => M | None => [] end.
Lemma an_eq : an_run = Some an_M. Proof. vm_compute. reflexivity. Qed.
Lemma an_setup : good_setup an_g 1. Proof. split; [apply wf_geom_check; reflexivity|cbn [an_g lmin gsx gsy gsz]; lia]. Qed.
Lemma an_block : block_ok an_g an_b. Proof. intros []; (split; [unfold an_b, mkoff; lia|]); intros F; first [discriminate F|reflexivity]. Qed.
Definition an_check : bool := forallb (fun R => cells_per_block an_b * Z.of_nat (length (loc R)) <? 2^32) an_M &&
  existsb (fun x => (lev x <? lmax an_g) && an_need (cell_centre an_g an_b (fun _ => 0%Qc) (fun _ => 1%Qc) x) (cell_extent an_g an_b (fun _ => 0%Qc) (fun _ => 1%Qc) x)) (all_cells an_b (leaves an_M)).
Lemma an_checked : an_check = true. Proof. vm_compute. reflexivity. Qed.
Lemma late_refuted g P b lo hi need fuel ords visits M : good_setup g P -> block_ok g b -> (forall a, (lo a < hi a)%Qc) ->
  (forall l t, ord_ok (ords l t)) -> (forall l r, reorders (visits l r)) -> init_mesh fuel ords visits need g P b lo hi = Some M ->
  forallb (fun R => cells_per_block b * Z.of_nat (length (loc R)) <? 2^32) M &&
  existsb (fun x => (lev x <? lmax g) && need (cell_centre g b lo hi x) (cell_extent g b lo hi x)) (all_cells b (leaves M)) = true -> ~ always_fine_enough.
Proof.
  intros GS BO LH HO RO E C H. apply andb_prop in C. destruct C as (C1 & C2). rewrite forallb_forall in C1. apply existsb_exists in C2. destruct C2 as (x & HX & C2). apply andb_prop in C2. destruct C2 as (C2 & C3).
  apply (H g P b lo hi need fuel ords visits M GS BO LH HO RO E) with x; [|exact HX|lia|exact C3]. intros R HR. specialize (C1 R HR). cbv beta in C1. lia.
Qed.
(** The program violates it: an octant created in the last round because of its neighbours is not asked. *)
Theorem C83_refuted : ~ always_fine_enough.
Proof.
  exact (late_refuted an_g 1 an_b (fun _ => 0%Qc) (fun _ => 1%Qc) an_need 30 (fun _ _ => id_order) (fun _ _ l => l) an_M an_setup an_block (fun _ => eq_refl) (fun _ _ => id_order_ok) (fun _ _ l => Permutation_refl l) an_eq an_checked).
Qed.

(** * Examples *)

(** The shock tube on two ranks: the interface is in the middle, the two middle columns are refined to level 3. *)
Definition sod_run : option mesh := init_mesh 30 (fun _ _ => id_order) (fun _ _ l => l) (sod_need (frac 1 2)) an_g 2 an_b (fun _ => 0%Qc) (fun _ => 1%Qc).
Example C83_example : good_setup an_g 2 /\ option_map (map (fun R => map lev (loc R))) sod_run =
  Some [[2; 3; 3; 3; 3; 2; 3; 3; 3; 3; 3; 3; 3; 3; 2; 3; 3; 3; 3; 2]; [2; 3; 3; 3; 3; 2; 3; 3; 3; 3; 3; 3; 3; 3; 2; 3; 3; 3; 3; 2]].
Proof. split; [split; [apply wf_geom_check; reflexivity|cbn [an_g lmin gsx gsy gsz]; lia]|]. vm_compute. reflexivity. Qed.
(** The first octant of the refuted mesh, with the cells visited from the last to the first. The value is
    the abscissa of the centre. *)
Example C84_example : option_map (fun U => map this (firstn 4 U)) (fill_U 0%Qc (@rev icell) (fun c _ => fst (fst c)) an_g an_b (fun _ => 0%Qc) (fun _ => 1%Qc) (leaves an_M)) = Some [1 # 16; 3 # 16; 1 # 16; 3 # 16]%Q.
Proof. vm_compute. reflexivity. Qed.
Example C84_example_orders : reorders (@rev icell) /\ an_M <> []. Proof. split; [intros l; symmetry; apply Permutation_rev|vm_compute; discriminate]. Qed.

Print Assumptions C83_no_more.
Print Assumptions C83_fine_enough_partial.
Print Assumptions C83_independent.
Print Assumptions C83_total.
Print Assumptions C83_sod_partial.
Print Assumptions C83_refuted.
Print Assumptions C84_values_partial.
Print Assumptions C84_refuted_large.
