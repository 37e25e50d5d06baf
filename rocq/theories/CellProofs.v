(** Correctness of the neighbour query on cells. *)
From Coq Require Import QArith Qround Lqa.
From Verif Require Import Base MortonProofs OctreeSpec OctreeGeom OctreeModel FindNeighbors LookupModel MeshSpec
  CellModel CellSpec.
Open Scope Z_scope.

(** * One axis *)
Lemma s32_small z : - 2^31 <= z < 2^31 -> s32 z = z.
Proof.
  intros H. unfold s32, u32. change (2^31) with 2147483648 in *. change (2^32) with 4294967296.
  destruct (Z_lt_dec z 0).
  - replace (z mod 4294967296) with (z + 4294967296) by (rewrite <- (Z_mod_plus_full z 1 4294967296); symmetry; apply Z.mod_small; lia).
    replace (z + 4294967296 <? 2147483648) with false by lia. lia.
  - rewrite Z.mod_small by lia. replace (z <? 2147483648) with true by lia. reflexivity.
Qed.
Lemma s32_u32 z : - 2^31 <= z < 2^31 -> s32 (u32 z) = z.
Proof. intros H. rewrite <- (s32_small z H) at 2. unfold s32, u32. rewrite Z.mod_mod by lia. reflexivity. Qed.
Lemma s16_small z : - 2^15 <= z < 2^15 -> s16 z = z.
Proof. intros H. unfold s16. rewrite Z.mod_small; lia. Qed.

Lemma axis_split b c d : 1 <= b -> 0 <= c < b -> 2 * Z.abs d - 1 <= b ->
  let i := c + d in let oo := i / b in let r := i - oo * b in
  -1 <= oo <= 1 /\ 0 <= r < b /\ (oo = -1 -> b <= 2 * r + 1) /\ (oo = 1 -> 2 * r < b) /\ (i < 0 <-> oo = -1).
Proof.
  intros Hb Hc Hd i oo r. pose proof (Z.div_mod i b ltac:(lia)) as E. pose proof (Z.mod_pos_bound i b ltac:(lia)) as B.
  fold oo in E. assert (R : r = i mod b) by (unfold r; lia).
  assert (-1 <= oo) by (unfold oo; apply Z.div_le_lower_bound; unfold i; lia).
  assert (oo < 2) by (unfold oo; apply Z.div_lt_upper_bound; unfold i; lia).
  assert (C : oo = -1 \/ oo = 0 \/ oo = 1) by lia. unfold i in *.
  destruct C as [C|[C|C]]; rewrite C in *; repeat split; try lia.
Qed.
Lemma mod_pos N b x r : 0 < N -> 0 < b -> 0 <= r < b -> (x * b + r) mod (N * b) = (x mod N) * b + r.
Proof.
  intros HN Hb Hr. symmetry. apply (Z.mod_unique_pos _ _ (x / N)).
  - pose proof (Z.mod_pos_bound x N HN). nia.
  - pose proof (Z.div_mod x N ltac:(lia)). nia.
Qed.
Lemma in_cells N b x r : 0 < b -> 0 <= r < b -> (0 <= x * b + r < N * b <-> 0 <= x < N).
Proof. intros. split; nia. Qed.

Lemma all3_spec f : all3 f = true <-> forall a, f a = true.
Proof.
  unfold all3. rewrite !andb_true_iff. split; [intros ((A & B) & C) [| |]; assumption|intros H; auto].
Qed.
Lemma all3_false f : all3 f = false <-> exists a, f a = false.
Proof.
  unfold all3. rewrite !andb_false_iff. split.
  - intros [[H|H]|H]; eauto.
  - intros ([| |] & H); auto.
Qed.

(** * Neighbours of octants, case by case *)
Lemma findNeighbors_cases g L st i A d : wf_geom g -> tiles g L -> balanced g L -> incl st L -> nth_error st i = Some A ->
  (forall B, In B L -> touch g A B -> In B st) -> direction g d -> inside g A d ->
  let V := target g A d in
  exists n ns, findNeighbors g st i d = Some (n :: ns) /\
    ((ns = [] /\ nth_error st n = Some V) \/
     (ns = [] /\ nth_error st n = Some (oct_of (lev V - 1) (fun a => coord V a / 2))) \/
     (lev A < lmax g /\ Forall2 (fun k B => nth_error st k = Some B) (n :: ns) (suboctants g V d))).
Proof.
  intros WF T BAL INC HA NB Hd IN V.
  destruct (findNeighbors_correct g WF L st i A T BAL INC HA NB d Hd) as (ns & Bs & E & F & _ & HB).
  pose proof (A_valid g L st i A T INC HA) as VA.
  destruct (facing_exists g WF A d VA Hd IN) as (q & Hq).
  destruct (facing_leaf g WF L st i A T BAL INC HA NB d q Hd Hq) as (B & HBL & HBS & CB & LB).
  assert (HBs : In B Bs) by (apply HB; split; [exact HBL|]; apply adjacent_facing; eauto).
  assert (NE : ns <> []) by (intros ->; inversion F; subst; destruct HBs).
  destruct ns as [|n ns]; [contradiction|]. exists n, ns. split; [exact E|].
  unfold findNeighbors in E. rewrite HA in E.
  assert (E0 : (d AX =? 0) && (d AY =? 0) && (d AZ =? 0) = false) by (apply all0_false, Hd). rewrite E0 in E.
  assert (E1 : isBoundary g A d = false) by (apply isBoundary_spec; assumption). rewrite E1 in E. cbv zeta in E.
  rewrite (shifted_target g WF A d VA Hd) in E. fold V in E.
  destruct (find_pos V st) as [k|] eqn:E2.
  { injection E as <- <-. left. split; [reflexivity|]. apply find_pos_some, E2. }
  destruct (find_pos (oct_of _ _) st) as [k|] eqn:E3.
  { injection E as <- <-. right. left. split; [reflexivity|]. apply find_pos_some in E3. exact E3. }
  right. right. apply mapM_Some in E. split.
  - inversion E as [|s k S' K' H1 H2 ES]. apply find_pos_some in H1. apply nth_error_In, INC in H1.
    pose proof (tiles_valid g L s T H1) as (Hl & _). assert (Is : In s (suboctants g V d)) by (rewrite <- ES; left; reflexivity).
    apply in_suboctants in Is. destruct Is as (Ls & _). unfold V, target in Ls. cbn [oct_of lev] in Ls. lia.
  - clear -E. induction E as [|s k S' K' H E IH]; constructor; [apply find_pos_some, H|exact IH].
Qed.

(** * Centres *)
Lemma Qgt_bool_iff x y : Qgt_bool x y = true <-> (y < x)%Q.
Proof.
  unfold Qgt_bool. rewrite negb_true_iff. split; intros H.
  - destruct (Qlt_le_dec y x) as [H1|H1]; [exact H1|]. apply Qle_bool_iff in H1. congruence.
  - destruct (Qle_bool x y) eqn:E; [|reflexivity]. apply Qle_bool_iff in E. lra.
Qed.
Lemma inject_Z_ne n : 0 < n -> ~ (inject_Z n == 0)%Q.
Proof. intros H E. assert (0 < inject_Z n)%Q by (change 0%Q with (inject_Z 0); rewrite <- Zlt_Qlt; exact H). lra. Qed.
Lemma size_pos g A a : 0 < cell_count g a (lev A) -> (0 < getSize g A a)%Q.
Proof.
  intros H. unfold getSize. apply Qlt_shift_div_l; [|lra]. change 0%Q with (inject_Z 0). rewrite <- Zlt_Qlt. exact H.
Qed.

Lemma Qfloor_eq x n : (inject_Z n <= x)%Q -> (x < inject_Z (n + 1))%Q -> Qfloor x = n.
Proof.
  intros H1 H2. pose proof (Qfloor_le x) as A. pose proof (Qlt_floor x) as B.
  assert (inject_Z (Qfloor x) < inject_Z (n + 1))%Q by lra. assert (inject_Z n < inject_Z (Qfloor x + 1))%Q by lra.
  rewrite <- Zlt_Qlt in *. lia.
Qed.
Lemma logical_coord g A a : 0 < cell_count g a (lev A) -> (flat g a = true -> coord A a = 0) ->
  Qfloor (getCenter g A a / getSize g A a) = coord A a.
Proof.
  intros H F. pose proof (size_pos g A a H) as P. apply Qfloor_eq.
  - apply Qle_shift_div_l; [exact P|]. unfold getCenter. destruct (flat g a); [lra|].
    assert (0 <= getSize g A a / 2)%Q by (apply Qle_shift_div_l; lra). lra.
  - apply Qlt_shift_div_r; [exact P|]. unfold getCenter. rewrite inject_Z_plus. change (inject_Z 1) with 1%Q. destruct (flat g a).
    + lra.
    + assert (getSize g A a / 2 < getSize g A a)%Q by (apply Qlt_shift_div_r; lra). lra.
Qed.
(** Comparison of the centre of a finer octant with the centre of a same-size position. *)
Lemma centre_cmp g A B a x o : flat g a = false -> 0 < cell_count g a (lev A) ->
  cell_count g a (lev B) = 2 * cell_count g a (lev A) -> coord B a = x ->
  Qgt_bool (getCenter g B a) (getCenter g A a + inject_Z o * getSize g A a)%Q = (2 * (coord A a + o) + 1 <=? x).
Proof.
  intros F P C <-. set (n := cell_count g a (lev A)) in *.
  assert (HB : (getSize g A a == 2 * getSize g B a)%Q).
  { unfold getSize. fold n. rewrite C, inject_Z_mult. change (inject_Z 2) with 2%Q. field. apply inject_Z_ne, P. }
  assert (PB : (0 < getSize g B a)%Q) by (apply size_pos; lia).
  set (s := getSize g B a) in *. unfold getCenter. rewrite F. fold s.
  destruct (2 * (coord A a + o) + 1 <=? coord B a) eqn:E.
  - apply Qgt_bool_iff. rewrite HB.
    assert (K : (inject_Z (2 * (coord A a + o) + 1) <= inject_Z (coord B a))%Q) by (rewrite <- Zle_Qle; lia).
    rewrite !inject_Z_plus, inject_Z_mult, inject_Z_plus in K. change (inject_Z 2) with 2%Q in K. change (inject_Z 1) with 1%Q in K.
    assert (K2 : ((2 * (inject_Z (coord A a) + inject_Z o) + 1) * s <= inject_Z (coord B a) * s)%Q) by (apply Qmult_le_compat_r; lra).
    assert (s / 2 == (1#2) * s)%Q by field. assert (2 * s / 2 == s)%Q by field. lra.
  - apply not_true_is_false. rewrite Qgt_bool_iff, HB. intros K.
    assert (K1 : (inject_Z (coord B a) <= inject_Z (2 * (coord A a + o)))%Q) by (rewrite <- Zle_Qle; lia).
    rewrite inject_Z_mult, inject_Z_plus in K1. change (inject_Z 2) with 2%Q in K1.
    assert (K2 : (inject_Z (coord B a) * s <= (2 * (inject_Z (coord A a) + inject_Z o)) * s)%Q) by (apply Qmult_le_compat_r; lra).
    assert (s / 2 == (1#2) * s)%Q by field. assert (2 * s / 2 == s)%Q by field. lra.
Qed.

Lemma find_match (st : list oct) mt (x : oct) S0 ks Bs :
  Forall2 (fun k B => nth_error st k = Some B) ks Bs -> incl Bs S0 -> In x Bs ->
  (forall k B, nth_error st k = Some B -> In B S0 -> (mt k = true <-> B = x)) ->
  exists k, find mt ks = Some k /\ nth_error st k = Some x.
Proof.
  intros F. induction F as [|k B ks Bs H F IH]; intros HI HT HM; [destruct HT|].
  cbn [find]. destruct (mt k) eqn:M.
  - exists k. split; [reflexivity|]. apply (HM k B H) in M; [congruence|apply HI; left; reflexivity].
  - destruct HT as [HT|HT]; [exfalso; apply (HM k B H) in HT; [congruence|apply HI; left; reflexivity]|].
    apply IH; [intros y Hy; apply HI; right; exact Hy|exact HT|exact HM].
Qed.

Lemma target_coord g A d a : coord (target g A d) a = (coord A a + d a) mod ncell g a (lev A).
Proof. destruct a; reflexivity. Qed.

Section Neighbour.
Context (g : geom) (WF : wf_geom g) (L st : list oct) (i : nat) (A : oct).
Context (TL : tiles g L) (BAL : balanced g L) (INC : incl st L) (HA : nth_error st i = Some A).
Context (NB : forall B, In B L -> touch g A B -> In B st).
Context (b c d : axis -> Z) (BO : block_ok g b) (IB : in_block b c).
Context (DS : forall a, 2 * Z.abs (d a) - 1 <= b a) (DF : forall a, flat g a = true -> d a = 0).

Let VA : valid g A := A_valid g L st i A TL INC HA.
Let N a := ncells g b (lev A) a.
Let T a := gpos b A c a + d a.
Let ii a := c a + d a.
Let oo a := ii a / b a.
Let r a := ii a - oo a * b a.

Lemma ax_split a : -1 <= oo a <= 1 /\ 0 <= r a < b a /\ (oo a = -1 -> b a <= 2 * r a + 1) /\
  (oo a = 1 -> 2 * r a < b a) /\ (ii a < 0 <-> oo a = -1).
Proof. apply (axis_split (b a) (c a) (d a)); [apply BO|apply IB|apply DS]. Qed.
Lemma ax_flat a : flat g a = true -> oo a = 0 /\ r a = 0 /\ ii a = 0.
Proof.
  intros F. pose proof (proj2 (BO a) F) as B1. pose proof (IB a). pose proof (DF a F). unfold r, oo, ii. rewrite B1.
  rewrite Z.div_1_r. lia.
Qed.
Lemma ii_s32 a : s32 (c a + d a) = ii a.
Proof.
  change (s32 (ii a) = ii a). apply s32_small. unfold ii. pose proof (proj1 (BO a)). pose proof (IB a). pose proof (DS a).
  change (2^31) with 2147483648. change (2^14) with 16384 in *. lia.
Qed.
Lemma T_split a : T a = (coord A a + oo a) * b a + r a.
Proof. unfold T, gpos, r, ii. lia. Qed.
Lemma T_in a : 0 <= T a < N a <-> 0 <= coord A a + oo a < ncell g a (lev A).
Proof. rewrite T_split. unfold N, ncells. apply in_cells; [|apply ax_split]. pose proof (proj1 (BO a)). lia. Qed.
Lemma T_mod a : T a mod N a = ((coord A a + oo a) mod ncell g a (lev A)) * b a + r a.
Proof.
  rewrite T_split. unfold N, ncells. pose proof (proj1 (BO a)). apply mod_pos; [|lia|apply ax_split].
  pose proof (proj2 VA a). lia.
Qed.
Lemma u32_blk a z : 0 <= z < 4 * b a -> u32 z = z.
Proof. intros H. apply u32_small. pose proof (proj1 (BO a)). change (2^32) with 4294967296. change (2^14) with 16384 in *. lia. Qed.
Lemma oo_dir : all3 (fun a => oo a =? 0) = false -> direction g oo.
Proof.
  intros H. apply all3_false in H. destruct H as (a & H). split; [intros a'; apply ax_split|]. split; [exists a; lia|].
  intros a' F. apply (ax_flat a' F).
Qed.
Lemma in_inside : (forall a, per g a = true \/ 0 <= T a < N a) <-> inside g A oo.
Proof. unfold inside. split; intros H a; destruct (H a) as [K|K]; auto; right; apply T_in; exact K. Qed.

(** The position inside a same-size block. *)
Lemma gn_local : all3 (fun a => oo a =? 0) = true ->
  exists r', getNeighbor (mkCell i c b LOCAL_TO_BLOCK) d = Some r' /\ c_oct r' = i /\ (forall a, c_pos r' a = ii a) /\
    in_block b (c_pos r') /\ c_blk r' = b /\ c_status r' = LOCAL_TO_BLOCK.
Proof.
  intros H. pose proof (proj1 (all3_spec _) H) as H0. cbv beta in H0.
  assert (R : forall a, 0 <= ii a < b a).
  { intros a. specialize (H0 a). pose proof (ax_split a) as (_ & R & _). unfold r in R. lia. }
  unfold getNeighbor. cbn [c_pos c_blk c_oct is_local c_status].
  assert (U : forall a, u32 (c a + d a) = ii a) by (intros a; apply (u32_blk a); specialize (R a); unfold ii in *; lia).
  assert (E : all3 (fun a => u32 (c a + d a) <? b a) = true) by (apply all3_spec; intros a; rewrite U; specialize (R a); lia).
  rewrite E. eexists. split; [reflexivity|]. cbn [c_oct c_pos c_blk c_status]. split; [reflexivity|]. split; [exact U|].
  split; [intros a; rewrite U; apply R|]. split; reflexivity.
Qed.

Lemma gn_correct : exists r', getNeighbor_ghost g st (mkCell i c b LOCAL_TO_BLOCK) d = Some r' /\ c_blk r' = b /\
  ((exists a, per g a = false /\ ~ 0 <= T a < N a) ->
     c_status r' = BOUNDARY /\ c_oct r' = i /\ forall a, c_pos r' a = u32 (ii a + b a)) /\
  ((forall a, per g a = true \/ 0 <= T a < N a) ->
     exists B, nth_error st (c_oct r') = Some B /\ In B L /\ in_block b (c_pos r') /\
       designates g b A B (c_pos r') (fun a => T a mod N a) (fun a => ii a <? 0) (c_status r')) /\
  (c_status r' = SMALLER -> forall B, In B (suboctants g (target g A oo) oo) -> In B st).
Proof.
  unfold getNeighbor_ghost. cbn [c_pos c_blk c_oct].
  assert (II : forall a, s32 (c a + d a) / b a = oo a) by (intros a; rewrite ii_s32; reflexivity).
  assert (E0 : all3 (fun a => s32 (c a + d a) / b a =? 0) = all3 (fun a => oo a =? 0)) by (unfold all3; rewrite !II; reflexivity).
  rewrite E0. destruct (all3 (fun a => oo a =? 0)) eqn:EA.
  { destruct (gn_local EA) as (r' & E & E1 & E2 & E3 & E4 & E5). exists r'. split; [exact E|]. split; [exact E4|].
    assert (Z0 : forall a, oo a = 0) by (intros a; pose proof (proj1 (all3_spec _) EA a) as K; cbv beta in K; lia).
    split; [|split; [|rewrite E5; discriminate]].
    - intros (a & _ & H). exfalso. apply H. apply T_in. rewrite Z0. pose proof (proj2 VA a). lia.
    - intros _. exists A. rewrite E1. split; [exact HA|]. split; [eapply A_in; eassumption|]. split; [exact E3|].
      rewrite E5. cbn [designates]. split; [reflexivity|]. intros a. unfold gpos. rewrite E2.
      rewrite Z.mod_small; [unfold T, gpos, ii; lia|]. apply T_in. rewrite Z0. pose proof (proj2 VA a). lia. }
  rewrite HA. pose proof (oo_dir EA) as Hd.
  (* the octant direction, up to pointwise equality *)
  set (o' := fun a => s32 (c a + d a) / b a).
  assert (Hd' : direction g o').
  { destruct Hd as (H1 & (a0 & H2) & H3). unfold o'. split; [intros a; rewrite II; apply H1|]. split; [exists a0; rewrite II; exact H2|]. intros a F. rewrite II. apply H3, F. }
  assert (IN' : inside g A o' <-> inside g A oo) by (unfold inside, o'; split; intros H a; specialize (H a); rewrite II in *; exact H).
  destruct (isBoundary g A o') eqn:EB.
  { eexists. split; [reflexivity|]. cbn [c_blk c_status c_oct c_pos]. split; [reflexivity|]. split; [|split; [|discriminate]].
    - intros _. split; [reflexivity|]. split; [reflexivity|]. intros a. rewrite ii_s32. reflexivity.
    - intros H. exfalso. apply in_inside in H. apply IN' in H. apply (isBoundary_spec g WF A o' VA Hd') in H. congruence. }
  apply (isBoundary_spec g WF A o' VA Hd') in EB.
  assert (NOB : ~ exists a, per g a = false /\ ~ 0 <= T a < N a).
  { intros (a & P & H). apply IN' in EB. pose proof (proj2 in_inside EB a) as [K|K]; [congruence|contradiction]. }
  destruct (findNeighbors_cases g L st i A o' WF TL BAL INC HA NB Hd' EB) as (n & ns & EF & CASES). rewrite EF.
  set (V := target g A o') in *.
  assert (CV : forall a, coord V a = (coord A a + oo a) mod ncell g a (lev A)).
  { intros a. unfold V, target, o'. destruct a; cbn [oct_of coord cx cy cz]; rewrite II; reflexivity. }
  assert (VV : valid g V) by (apply (target_valid g WF A o' VA)).
  assert (SAME : forall a, u32 (s32 (c a + d a) - o' a * b a) = r a).
  { intros a. rewrite ii_s32. unfold o'. rewrite II. change (ii a - oo a * b a) with (r a). apply (u32_blk a). pose proof (ax_split a) as (_ & R & _). lia. }
  destruct CASES as [(-> & EN)|[(-> & EN)|(LM & F2)]].
  - (* same size *)
    rewrite EN. cbn [target oct_of lev V]. rewrite Z.sub_diag. cbn [Z.eqb].
    eexists. split; [reflexivity|]. cbn [c_blk c_status c_oct c_pos]. split; [reflexivity|]. split; [contradiction|]. split; [|discriminate].
    intros _. exists V. split; [exact EN|]. split; [apply INC; eapply nth_error_In, EN|].
    split; [intros a; rewrite SAME; apply ax_split|]. cbn [designates]. split; [reflexivity|]. intros a. unfold gpos. rewrite SAME, CV, T_mod. reflexivity.
  - (* bigger *)
    set (P := oct_of (lev V - 1) (fun a => coord V a / 2)) in *.
    assert (VP : valid g P) by (apply (tiles_valid g L P TL), INC; eapply nth_error_In, EN).
    assert (LP : lev P = lev A - 1) by reflexivity. assert (LA : lmin g < lev A) by (destruct VP as ((H & _) & _); lia).
    assert (CP : forall a, coord P a = coord V a / 2) by (intros []; reflexivity).
    rewrite EN. rewrite LP. replace (lev A - (lev A - 1) =? 0) with false by lia. replace (lev A - (lev A - 1) =? 1) with true by lia.
    assert (CC : forall a, 0 < cell_count g a (lev A)).
    { intros a. pose proof (cell_count_pos g WF a (lev A)). destruct VA as (Hl & _). lia. }
    assert (SUB : forall a, (if Z.odd (Qfloor (getCenter g A a / getSize g A a) + o' a) then 1 else 0) = coord V a mod 2).
    { intros a. rewrite logical_coord; [|apply CC|intros F; apply (valid_flat g A a VA F)]. unfold o'. rewrite II, CV.
      destruct (flat g a) eqn:F.
      - destruct (ax_flat a F) as (E & _). rewrite E, (valid_flat g A a VA F). unfold ncell. rewrite F. reflexivity.
      - assert (E : exists k, ncell g a (lev A) = 2 * k).
        { unfold ncell. rewrite F. exists (gsize g a * 2^(lev A - lmin g - 1)).
          replace (lev A - lmin g) with (lev A - lmin g - 1 + 1) at 1 by lia. rewrite Z.pow_add_r by lia. lia. }
        destruct E as (k & E). rewrite E. set (x := coord A a + oo a).
        assert (K : 0 < 2 * k) by (rewrite <- E; pose proof (proj2 VA a); lia).
        assert (Ex : x mod (2 * k) mod 2 = x mod 2) by (rewrite Z.rem_mul_r, <- Z.add_mod_idemp_r, (Z.mul_comm 2), Z.mod_mul, Z.add_0_r, Z.mod_mod; lia).
        rewrite Ex. rewrite Zodd_mod. pose proof (Z.mod_pos_bound x 2 ltac:(lia)). destruct (Zeq_bool (x mod 2) 1) eqn:Q; [apply Zeq_bool_eq in Q|apply Zeq_bool_neq in Q]; lia. }
    assert (POS : forall a, u32 (u32 (s32 (c a + d a) - o' a * b a) + (if Z.odd (Qfloor (getCenter g A a / getSize g A a) + o' a) then 1 else 0) * b a) / 2 = (r a + coord V a mod 2 * b a) / 2).
    { intros a. rewrite SAME, SUB. rewrite (u32_blk a); [reflexivity|]. pose proof (ax_split a) as (_ & R & _). pose proof (Z.mod_pos_bound (coord V a) 2 ltac:(lia)). nia. }
    eexists. split; [reflexivity|]. cbn [c_blk c_status c_oct c_pos]. split; [reflexivity|]. split; [contradiction|]. split; [|discriminate].
    intros _. exists P. split; [exact EN|]. split; [apply INC; eapply nth_error_In, EN|]. split.
    { intros a. rewrite POS. pose proof (ax_split a) as (_ & R & _). pose proof (Z.mod_pos_bound (coord V a) 2 ltac:(lia)).
      split; [apply Z.div_pos; nia|apply Z.div_lt_upper_bound; nia]. }
    cbn [designates]. split; [exact LP|]. intros a. unfold gpos, half. rewrite POS, CP, T_mod, <- CV.
    destruct (flat g a) eqn:F.
    + destruct (ax_flat a F) as (_ & R0 & _). rewrite R0. pose proof (valid_flat g V a VV F) as V0. rewrite V0. reflexivity.
    + pose proof (Z.div_mod (coord V a) 2 ltac:(lia)) as DM.
      replace (coord V a * b a + r a) with (coord V a / 2 * b a * 2 + (r a + coord V a mod 2 * b a)) by nia.
      rewrite Z.div_add_l by lia. reflexivity.
  - (* smaller *)
    inversion F2 as [|n' B0 ns' Bs' EN F2' E1 E2]. subst n' ns'.
    assert (LB0 : forall B, In B (suboctants g V o') -> lev B = lev A + 1).
    { intros B HB. apply in_suboctants in HB. destruct HB as (HB & _). exact HB. }
    rewrite EN. rewrite (LB0 B0) by (rewrite <- E2; left; reflexivity).
    replace (lev A - (lev A + 1) =? 0) with false by lia. replace (lev A - (lev A + 1) =? 1) with false by lia. replace (lev A - (lev A + 1) =? -1) with true by lia.
    set (sm := fun a => u32 (s32 (c a + d a) * 2 + (if s32 (c a + d a) <? 0 then 1 else 0) - o' a * b a * 2)).
    assert (SM : forall a, sm a = 2 * r a + (if ii a <? 0 then 1 else 0)).
    { intros a. unfold sm. rewrite ii_s32. unfold o'. rewrite II. pose proof (ax_split a) as (_ & R & _).
      replace (ii a * 2 + (if ii a <? 0 then 1 else 0) - oo a * b a * 2) with (2 * r a + (if ii a <? 0 then 1 else 0)) by (unfold r; lia).
      apply (u32_blk a). destruct (ii a <? 0); lia. }
    set (sub := fun a => b a <=? sm a).
    assert (SUBS : forall a, (oo a = -1 -> sub a = true) /\ (oo a = 1 -> sub a = false) /\ (flat g a = true -> sub a = false)).
    { intros a. unfold sub. rewrite SM. pose proof (ax_split a) as (_ & R & R1 & R2 & R3). repeat split.
      - intros H. specialize (R1 H). apply R3 in H. replace (ii a <? 0) with true by lia. lia.
      - intros H. specialize (R2 H). assert (~ ii a < 0) by (rewrite R3; lia). replace (ii a <? 0) with false by lia. lia.
      - intros F. destruct (ax_flat a F) as (_ & F1 & F3). rewrite F1, F3. pose proof (proj2 (BO a) F). cbn. lia. }
    set (target_sub := oct_of (lev V + 1) (fun a => 2 * coord V a + (if sub a then 1 else 0))).
    assert (CT : forall a, coord target_sub a = 2 * coord V a + (if sub a then 1 else 0)) by (intros []; reflexivity).
    (* the test recognises exactly that suboctant *)
    assert (TEST : forall B, In B (suboctants g V o') ->
      (all3 (fun a => Bool.eqb (sub a) (Qgt_bool (getCenter g B a) (getCenter g A a + inject_Z (o' a) * getSize g A a)%Q)) = true
       <-> B = target_sub)).
    { intros B HB. pose proof (LB0 B HB) as LB. apply in_suboctants in HB. destruct HB as (_ & HB).
      assert (K : forall a, (Bool.eqb (sub a) (Qgt_bool (getCenter g B a) (getCenter g A a + inject_Z (o' a) * getSize g A a)%Q) = true
                              <-> coord B a = coord target_sub a)).
      { intros a. rewrite CT. destruct (HB a) as (k & Ek & Bk). unfold o' in Ek, Bk. rewrite II in Ek, Bk. pose proof (SUBS a) as (S1 & S2 & S3).
        destruct (flat g a) eqn:F.
        - destruct (ax_flat a F) as (F1 & _). rewrite F1 in Ek. cbn [Z.eqb] in Ek. pose proof (valid_flat g V a VV F) as V0. rewrite V0 in *.
          rewrite (S3 eq_refl). assert (coord B a = 0) as CB by lia. rewrite CB. 
          assert (Q0 : Qgt_bool (getCenter g B a) (getCenter g A a + inject_Z (o' a) * getSize g A a)%Q = false).
          { apply not_true_is_false. rewrite Qgt_bool_iff. unfold getCenter. rewrite F, CB, (valid_flat g A a VA F). unfold o'. rewrite II, F1. change (inject_Z 0) with 0%Q. lra. }
          rewrite Q0. cbn. tauto.
        - assert (CC : cell_count g a (lev B) = 2 * cell_count g a (lev A)).
          { destruct VA as (Hl & _). rewrite !(cell_count_eq g WF) by (lia || exact F). rewrite LB. unfold ncell. rewrite F.
            replace (lev A + 1 - lmin g) with (lev A - lmin g + 1) by lia. rewrite Z.pow_add_r by lia. lia. }
          assert (C0 : 0 < cell_count g a (lev A)) by (destruct VA as (Hl & _); pose proof (cell_count_pos g WF a (lev A) ltac:(lia)); lia).
          rewrite (centre_cmp g A B a _ (o' a) F C0 CC eq_refl). unfold o'. rewrite II. rewrite eqb_true_iff.
          pose proof (proj2 VA a) as VX. set (n1 := ncell g a (lev A)) in *. pose proof (ax_split a) as (O1 & _).
          assert (W : coord V a = coord A a + oo a \/ (oo a = -1 /\ coord A a = 0 /\ coord V a = n1 - 1) \/ (oo a = 1 /\ coord A a + 1 = n1 /\ coord V a = 0)).
          { rewrite CV. fold n1. destruct (Z_lt_dec (coord A a + oo a) 0); [right; left|destruct (Z_lt_dec (coord A a + oo a) n1); [left; apply Z.mod_small; lia|right; right]].
            - split; [lia|]. split; [lia|]. replace (coord A a + oo a) with (-1) by lia. symmetry. apply (Z.mod_unique_pos _ _ (-1)); lia.
            - split; [lia|]. split; [lia|]. replace (coord A a + oo a) with (1 * n1) by lia. apply Z.mod_mul. lia. }
          destruct W as [W|[(W1 & W2 & W3)|(W1 & W2 & W3)]].
          + rewrite Ek, W. destruct (oo a =? -1) eqn:M1.
            * rewrite (S1 ltac:(lia)). replace (oo a =? 0) with false in Bk by lia. split; intros; lia.
            * assert (0 <= k <= 1) by (destruct (oo a =? 0); lia). destruct (sub a); split; intros H9; lia.
          + rewrite (S1 W1). rewrite W1 in *. cbn in Bk. change (-1 =? -1) with true in Ek. cbv iota in Ek. assert (k = 0) by lia. rewrite Ek. split; intros; lia.
          + rewrite (S2 W1). rewrite W1 in *. cbn in Bk. change (1 =? -1) with false in Ek. cbv iota in Ek. assert (k = 0) by lia. rewrite Ek. split; intros; lia. }
      rewrite all3_spec. split.
      - intros H. assert (E : forall a, coord B a = coord target_sub a) by (intros a; apply K, H).
        apply oct_ext; [exact LB|exact E].
      - intros -> a. apply K. reflexivity. }
    assert (IT : In target_sub (suboctants g V o')).
    { apply in_suboctants. split; [reflexivity|]. intros a. rewrite CT. unfold o'. rewrite II. pose proof (SUBS a) as (S1 & S2 & S3). pose proof (ax_split a) as (O1 & _).
      exists ((if sub a then 1 else 0) - (if oo a =? -1 then 1 else 0)). split; [lia|].
      destruct (flat g a) eqn:F.
      - rewrite (S3 eq_refl). destruct (ax_flat a F) as (E & _). rewrite E. cbn. lia.
      - destruct (oo a =? -1) eqn:M1; [rewrite S1 by lia; replace (oo a =? 0) with false by lia; lia|].
        destruct (oo a =? 0) eqn:M0; [destruct (sub a); lia|]. rewrite S2 by lia. lia. }
    match goal with |- context [find ?m (n :: ns)] => set (mt := m) end.
    assert (MT : forall k B, nth_error st k = Some B -> In B (suboctants g V o') -> (mt k = true <-> B = target_sub)).
    { intros k B EK HB. unfold mt. rewrite EK. apply TEST, HB. }
    assert (EX : exists k, find mt (n :: ns) = Some k /\ nth_error st k = Some target_sub).
    { apply (find_match st mt target_sub (suboctants g V o') (n :: ns) (suboctants g V o')); [exact F2|apply incl_refl|exact IT|exact MT]. }
    destruct EX as (k & EK & NK). rewrite EK.
    assert (POS : forall a, u32 (sm a - (if sub a then b a else 0)) = sm a - (if sub a then b a else 0)).
    { intros a. apply (u32_blk a). unfold sub. rewrite SM. pose proof (ax_split a) as (_ & R & _). destruct (ii a <? 0); destruct (b a <=? _) eqn:Q; lia. }
    eexists. split; [reflexivity|]. cbn [c_blk c_status c_oct c_pos]. split; [reflexivity|]. split; [contradiction|]. split.
    2:{ intros _ B HB. assert (HB' : In B (suboctants g V o')).
        { apply in_suboctants in HB. apply in_suboctants. destruct HB as (HB1 & HB2). split; [exact HB1|]. intros a. destruct (HB2 a) as (k9 & HB3 & HB4).
          exists k9. unfold o'. rewrite !II, CV. rewrite target_coord in HB3. split; [exact HB3|exact HB4]. }
        clear -F2 HB'. revert HB'. induction F2 as [|x y lx ly H F2 IH]; [intros []|]. intros [<-|HB]; [eapply nth_error_In, H|apply IH, HB]. }
    intros _. exists target_sub. split; [exact NK|]. split; [apply INC; eapply nth_error_In, NK|]. split.
    { intros a. change (0 <= u32 (sm a - (if sub a then b a else 0)) < b a). rewrite POS. unfold sub. rewrite SM. pose proof (ax_split a) as (_ & R & _). destruct (ii a <? 0); destruct (b a <=? _) eqn:Q; lia. }
    cbn [designates]. split; [reflexivity|]. intros a. unfold gpos.
    change (coord target_sub a * b a + u32 (sm a - (if sub a then b a else 0)) = (if flat g a then T a mod N a else 2 * (T a mod N a) + (if ii a <? 0 then 1 else 0))).
    rewrite POS, CT, T_mod, <- CV, SM. destruct (flat g a) eqn:F.
    + destruct (ax_flat a F) as (_ & F1 & F3). pose proof (valid_flat g V a VV F) as V0. rewrite V0, F1, F3. pose proof (SUBS a) as (_ & _ & S3). rewrite (S3 F). cbn. lia.
    + destruct (sub a); lia.
Qed.
End Neighbour.
