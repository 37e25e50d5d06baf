(** Cell iteration visits every cell exactly once (C23); cells of a block are numbered
    without collision (C50). *)
From Verif Require Import Base OctreeSpec OctreeModel FindNeighbors InitProofs CellModel CellSpec.
Open Scope Z_scope.

Definition block_pos (b : axis -> Z) : Prop := forall a, 1 <= b a.
Definition cells_per_block (b : axis -> Z) : Z := b AX * b AY * b AZ.

(** * C50: numbering of the cells of a block *)
Lemma flat_cell_range b p : block_pos b -> in_block b p -> 0 <= flat_cell b p < cells_per_block b.
Proof.
  intros BP IP. unfold flat_cell, cells_per_block. pose proof (IP AX). pose proof (IP AY). pose proof (IP AZ).
  pose proof (BP AX). pose proof (BP AY). pose proof (BP AZ).
  assert (0 <= p AX + p AY * b AX < b AX * b AY) by nia. assert (0 <= p AZ * b AX * b AY) by nia.
  assert ((p AZ + 1) * (b AX * b AY) <= b AZ * (b AX * b AY)) by nia. nia.
Qed.
(** Recovering the position from the number, as the iteration does. *)
Lemma decode_spec b n : block_pos b -> 0 <= n < cells_per_block b ->
  let p := snd (decode_cell b 0 n) in in_block b p /\ flat_cell b p = n.
Proof.
  intros BP Hn p. unfold p, decode_cell. cbn [snd]. change (b AX * b AY * b AZ) with (cells_per_block b). rewrite Z.mod_small by exact Hn.
  pose proof (BP AX). pose proof (BP AY). pose proof (BP AZ). set (s := b AX * b AY). assert (Hs : 0 < s) by (unfold s; nia).
  pose proof (Z.div_mod n s ltac:(lia)) as D1. pose proof (Z.mod_pos_bound n s Hs) as M1. set (k := n / s) in *. set (r := n mod s) in *.
  replace (n - k * b AX * b AY) with r by (unfold s in *; lia).
  pose proof (Z.div_mod r (b AX) ltac:(lia)) as D2. pose proof (Z.mod_pos_bound r (b AX) ltac:(lia)) as M2. set (j := r / b AX) in *. set (i := r mod b AX) in *.
  replace (n - j * b AX - k * b AX * b AY) with i by (unfold s in *; lia).
  assert (Hk : 0 <= k < b AZ).
  { split; [apply Z.div_pos; lia|]. apply Z.div_lt_upper_bound; [exact Hs|]. unfold s. unfold cells_per_block in Hn. lia. }
  assert (Hj : 0 <= j < b AY) by (split; [apply Z.div_pos; lia|apply Z.div_lt_upper_bound; [lia|]; unfold s in M1; lia]).
  split; [intros []; cbn; lia|]. unfold flat_cell, s in *. lia.
Qed.
Lemma flat_cell_inj b p q : block_pos b -> in_block b p -> in_block b q -> flat_cell b p = flat_cell b q -> forall a, p a = q a.
Proof.
  intros BP IP IQ H. unfold flat_cell in H. pose proof (IP AX). pose proof (IP AY). pose proof (IQ AX). pose proof (IQ AY).
  set (x := p AX + p AY * b AX) in *. set (y := q AX + q AY * b AX) in *.
  assert (X : 0 <= x < b AX * b AY) by (unfold x; nia). assert (Y : 0 <= y < b AX * b AY) by (unfold y; nia).
  assert (EZ : p AZ = q AZ) by nia. assert (E : x = y) by (rewrite EZ in H; lia).
  assert (EY : p AY = q AY) by (unfold x, y in E; nia). assert (EX : p AX = q AX) by (unfold x, y in E; rewrite EY in E; lia).
  intros []; assumption.
Qed.
Theorem C50_cell_index b : block_pos b ->
  (forall p, in_block b p -> 0 <= flat_cell b p < cells_per_block b) /\
  (forall p q, in_block b p -> in_block b q -> flat_cell b p = flat_cell b q -> forall a, p a = q a) /\
  (forall n, 0 <= n < cells_per_block b -> exists p, in_block b p /\ flat_cell b p = n).
Proof.
  intros BP. split; [intros p; apply flat_cell_range, BP|]. split; [intros p q; apply flat_cell_inj, BP|].
  intros n Hn. eexists. apply (decode_spec b n BP Hn).
Qed.

(** * C23 *)

(** [P] holds of exactly one entry of the list. *)
Definition once {X} (P : X -> Prop) (l : list X) : Prop :=
  exists n x, nth_error l n = Some x /\ P x /\ forall m y, nth_error l m = Some y -> P y -> m = n.
(** The call of the functor is for cell [p] of octant [o]. *)
Definition call_for (o : Z) (p : axis -> Z) (call : Z * (axis -> Z)) : Prop :=
  fst call = o /\ forall a, snd call a = p a.
(** Every cell of every octant is visited once, and nothing else is. *)
Definition visits_all_once (b : axis -> Z) (nbOcts : nat) (calls : list (Z * (axis -> Z))) : Prop :=
  (forall o p, 0 <= o < Z.of_nat nbOcts -> in_block b p -> once (call_for o p) calls) /\
  (forall call, In call calls -> 0 <= fst call < Z.of_nat nbOcts /\ in_block b (snd call)).

Lemma nth_zrange lo hi k : (k < length (zrange lo hi))%nat -> nth_error (zrange lo hi) k = Some (lo + Z.of_nat k).
Proof.
  unfold zrange. rewrite map_length, seq_length. intros H. rewrite nth_error_map. rewrite nth_error_nth' with (d := O) by (rewrite seq_length; exact H).
  rewrite seq_nth by exact H. reflexivity.
Qed.
Lemma decode_full b n : block_pos b -> 0 <= n ->
  let x := decode_cell b 0 n in fst x = n / cells_per_block b /\ in_block b (snd x) /\ flat_cell b (snd x) = n mod cells_per_block b.
Proof.
  intros BP Hn. assert (C0 : 0 < cells_per_block b) by (unfold cells_per_block; pose proof (BP AX); pose proof (BP AY); pose proof (BP AZ); nia).
  pose proof (Z.mod_pos_bound n _ C0) as M. destruct (decode_spec b (n mod cells_per_block b) BP M) as (D1 & D2).
  unfold decode_cell in *. cbn [fst snd] in *. change (b AX * b AY * b AZ) with (cells_per_block b) in *. rewrite Z.mod_mod in D1, D2 by lia.
  split; [lia|]. split; [exact D1|exact D2].
Qed.
Lemma visits_range b nbOcts : block_pos b -> visits_all_once b nbOcts (map (decode_cell b 0) (zrange 0 (cells_per_block b * Z.of_nat nbOcts))).
Proof.
  intros BP. assert (C0 : 0 < cells_per_block b) by (unfold cells_per_block; pose proof (BP AX); pose proof (BP AY); pose proof (BP AZ); nia).
  set (N := cells_per_block b * Z.of_nat nbOcts). pose proof (zrange_length 0 N ltac:(unfold N; nia)) as LN.
  split.
  - intros o p Ho IP. set (n := o * cells_per_block b + flat_cell b p). pose proof (flat_cell_range b p BP IP) as FR.
    assert (Hn : 0 <= n < N) by (unfold n, N; nia).
    assert (LT : (Z.to_nat n < length (zrange 0 N))%nat) by lia.
    exists (Z.to_nat n), (decode_cell b 0 n). split.
    { rewrite nth_error_map, nth_zrange by exact LT. cbn [option_map]. do 2 f_equal. lia. }
    destruct (decode_full b n BP ltac:(lia)) as (D1 & D2 & D3). split.
    + split.
      * rewrite D1. unfold n. rewrite Z.div_add_l by lia. rewrite Z.div_small by lia. lia.
      * apply (flat_cell_inj b _ _ BP D2 IP). rewrite D3. unfold n. rewrite Z.add_comm, Z.mod_add by lia. apply Z.mod_small. lia.
    + intros m y Hm (Y1 & Y2). rewrite nth_error_map in Hm. destruct (nth_error (zrange 0 N) m) as [z|] eqn:EZ; [|discriminate].
      assert (Lm : (m < length (zrange 0 N))%nat) by (apply nth_error_Some; congruence). rewrite nth_zrange in EZ by exact Lm. injection EZ as <-. injection Hm as <-.
      destruct (decode_full b (Z.of_nat m) BP ltac:(lia)) as (E1 & E2 & E3).
      assert (FE : flat_cell b (snd (decode_cell b 0 (Z.of_nat m))) = flat_cell b p) by (unfold flat_cell; rewrite !Y2; reflexivity).
      pose proof (Z.div_mod (Z.of_nat m) (cells_per_block b) ltac:(lia)) as DM. rewrite <- E3, FE, <- E1, Y1 in DM. unfold n. lia.
  - intros call Hc. apply in_map_iff in Hc. destruct Hc as (n & <- & Hn). rewrite in_zrange in Hn. destruct (decode_full b n BP ltac:(lia)) as (D1 & D2 & _).
    rewrite D1. split; [|exact D2]. split; [apply Z.div_pos; lia|]. apply Z.div_lt_upper_bound; [exact C0|]. unfold N in Hn. lia.
Qed.
Lemma cells_u32 b (n : nat) : block_pos b -> cells_per_block b * Z.of_nat n < 2^32 ->
  u32 (u32 (b AX * b AY * b AZ) * Z.of_nat n) = cells_per_block b * Z.of_nat n.
Proof.
  intros BP H. change (b AX * b AY * b AZ) with (cells_per_block b).
  assert (C0 : 0 < cells_per_block b) by (unfold cells_per_block; pose proof (BP AX); pose proof (BP AY); pose proof (BP AZ); nia).
  destruct n as [|n]; [change (Z.of_nat 0) with 0; rewrite !Z.mul_0_r; reflexivity|].
  rewrite (u32_small (cells_per_block b)) by nia. apply u32_small. nia.
Qed.

(** Missing (here and for groups): 2^32 cells or more on one process ([C23_refuted_overflow]). *)
Theorem C23_foreach_cell_partial b nbOcts : block_pos b -> cells_per_block b * Z.of_nat nbOcts < 2^32 ->
  visits_all_once b nbOcts (foreach_cell b nbOcts).
Proof. intros BP H. unfold foreach_cell. rewrite cells_u32 by assumption. apply visits_range, BP. Qed.

(** Groups of octants: the calls of all the patches, one after the other. *)
Lemma decode_shift b gb n : block_pos b -> decode_cell b gb n = decode_cell b 0 (gb * cells_per_block b + n).
Proof.
  intros BP. assert (C0 : 0 < cells_per_block b) by (unfold cells_per_block; pose proof (BP AX); pose proof (BP AY); pose proof (BP AZ); nia).
  unfold decode_cell. change (b AX * b AY * b AZ) with (cells_per_block b).
  rewrite (Z.add_comm (gb * cells_per_block b)), Z.mod_add, Z.div_add by lia. f_equal. lia.
Qed.
Lemma zrange_shift lo hi s : zrange (s + lo) (s + hi) = map (Z.add s) (zrange lo hi).
Proof.
  unfold zrange. replace (s + hi - (s + lo)) with (hi - lo) by lia. rewrite map_map. apply map_ext. intros k. lia.
Qed.
Theorem C23_groups_same_partial b per nbOcts gs : block_pos b -> cells_per_block b * Z.of_nat nbOcts < 2^32 -> Z.of_nat nbOcts < 2^32 ->
  groups per nbOcts = Some gs -> flat_map (patch_cells b) gs = foreach_cell b nbOcts.
Proof.
  intros BP H HO. unfold groups. destruct (Nat.eqb per 0) eqn:EP; [discriminate|]. apply Nat.eqb_neq in EP. intros E. injection E as <-.
  unfold foreach_cell. rewrite cells_u32 by assumption.
  assert (C0 : 0 < cells_per_block b) by (unfold cells_per_block; pose proof (BP AX); pose proof (BP AY); pose proof (BP AZ); nia).
  set (P := Z.of_nat per). set (N := Z.of_nat nbOcts) in *. set (C := cells_per_block b) in *. assert (HP : 0 < P) by (unfold P; lia).
  assert (K : forall m : nat, Z.of_nat m <= N / P + 1 ->
    flat_map (patch_cells b) (map (fun iGroup => (u32 (P * iGroup), Z.min P (u32 (N - u32 (P * iGroup))))) (zrange 0 (Z.of_nat m))) =
    map (decode_cell b 0) (zrange 0 (C * Z.min (P * Z.of_nat m) N))).
  { induction m as [|m IH]; intros Hm.
    - change (Z.of_nat 0) with 0. rewrite Z.mul_0_r. rewrite Z.min_l by lia. rewrite Z.mul_0_r. reflexivity.
    - rewrite (zrange_split 0 (Z.of_nat m) (Z.of_nat (S m))) by lia. rewrite map_app, flat_map_app, IH by lia.
      assert (ZS : zrange (Z.of_nat m) (Z.of_nat (S m)) = [Z.of_nat m]).
      { unfold zrange. replace (Z.of_nat (S m) - Z.of_nat m) with 1 by lia. change (Z.to_nat 1) with 1%nat. cbn [seq map]. f_equal. change (Z.of_nat 0) with 0. lia. }
      rewrite ZS. cbn [map flat_map]. rewrite app_nil_r.
      assert (GB : 0 <= P * Z.of_nat m <= N).
      { split; [nia|]. pose proof (Z.mul_div_le N P HP). assert (P * Z.of_nat m <= P * (N / P)) by (apply Z.mul_le_mono_nonneg_l; lia). lia. }
      rewrite (u32_small (P * Z.of_nat m)) by lia. rewrite (u32_small (N - P * Z.of_nat m)) by lia.
      unfold patch_cells. cbn [fst snd]. change (b AX * b AY * b AZ) with C.
      set (cnt := Z.min P (N - P * Z.of_nat m)). assert (CN : 0 <= cnt <= N) by (unfold cnt; lia).
      assert (EU : u32 (cnt * u32 C) = C * cnt).
      { pose proof (cells_u32 b (Z.to_nat cnt) BP) as Q. fold C in Q. rewrite Z2Nat.id in Q by lia. change (b AX * b AY * b AZ) with C in Q.
        rewrite Z.mul_comm. apply Q. nia. }
      rewrite EU.
      rewrite (zrange_split 0 (C * Z.min (P * Z.of_nat m) N) (C * Z.min (P * Z.of_nat (S m)) N)).
      2:{ rewrite Z.min_l by lia. split; [nia|]. apply Z.mul_le_mono_nonneg_l; [lia|]. assert (P * Z.of_nat (S m) = P * Z.of_nat m + P) by lia. lia. }
      rewrite map_app. f_equal.
      rewrite (Z.min_l (P * Z.of_nat m)) by lia.
      replace (C * Z.min (P * Z.of_nat (S m)) N) with (P * Z.of_nat m * C + C * cnt) by (assert (P * Z.of_nat (S m) = P * Z.of_nat m + P) by lia; assert (Z.min (P * Z.of_nat (S m)) N = P * Z.of_nat m + cnt) as -> by (unfold cnt; lia); ring).
      replace (C * (P * Z.of_nat m)) with (P * Z.of_nat m * C + 0) by lia. rewrite zrange_shift, map_map. apply map_ext.
      intros n. apply (decode_shift b (P * Z.of_nat m) n BP). }
  assert (D0 : 0 <= N / P) by (apply Z.div_pos; lia).
  specialize (K (Z.to_nat (N / P + 1)) ltac:(lia)). rewrite Z2Nat.id in K by lia. rewrite K. do 2 f_equal. f_equal.
  apply Z.min_r. pose proof (Z.mul_succ_div_gt N P HP). lia.
Qed.
Theorem C23_groups_partial b per nbOcts : block_pos b -> cells_per_block b * Z.of_nat nbOcts < 2^32 -> (0 < per)%nat ->
  exists gs, groups per nbOcts = Some gs /\ visits_all_once b nbOcts (flat_map (patch_cells b) gs).
Proof.
  intros BP H HP. assert (HO : Z.of_nat nbOcts < 2^32).
  { assert (C0 : 0 < cells_per_block b) by (unfold cells_per_block; pose proof (BP AX); pose proof (BP AY); pose proof (BP AZ); nia). nia. }
  assert (EX : exists gs, groups per nbOcts = Some gs) by (unfold groups; destruct (Nat.eqb_spec per 0); [lia|eexists; reflexivity]).
  destruct EX as (gs & E). exists gs. split; [exact E|]. rewrite (C23_groups_same_partial b per nbOcts gs BP H HO E). apply C23_foreach_cell_partial; assumption.
Qed.
(** Two octants of one group never share a slot of a temporary array, which has one slot per
    octant of a group. *)
Theorem C23_slots per nbOcts gs gb n : Z.of_nat nbOcts < 2^32 -> groups per nbOcts = Some gs -> In (gb, n) gs ->
  forall i j, gb <= i < gb + n -> gb <= j < gb + n ->
    0 <= octant_slot (Z.of_nat per) i < Z.of_nat per /\ (octant_slot (Z.of_nat per) i = octant_slot (Z.of_nat per) j -> i = j).
Proof.
  intros HO. unfold groups. destruct (Nat.eqb_spec per 0) as [|EP]; [discriminate|]. intros E. injection E as <-. intros HI i j Hi Hj.
  apply in_map_iff in HI. destruct HI as (k & HK & _). injection HK as Q1 Q2.
  assert (n <= Z.of_nat per) by lia. unfold octant_slot. split; [apply Z.mod_pos_bound; lia|]. intros HM.
  pose proof (Z.div_mod i (Z.of_nat per) ltac:(lia)). pose proof (Z.div_mod j (Z.of_nat per) ltac:(lia)).
  set (P := Z.of_nat per) in *. assert (i / P = j / P) by nia. nia.
Qed.

(** One team per octant (scratch arrays): rows (k,j) and then i. *)
Lemma once_keys {X K} (key : X -> K) (P : X -> Prop) k l : (forall x, P x <-> key x = k) -> NoDup (map key l) -> In k (map key l) -> once P l.
Proof.
  intros HP ND HI. apply in_map_iff in HI. destruct HI as (x & Hx & HI). apply In_nth_error in HI. destruct HI as (n & Hn).
  exists n, x. split; [exact Hn|]. split; [apply HP, Hx|]. intros m y Hm Hy. apply HP in Hy.
  rewrite NoDup_nth_error in ND. apply ND.
  - rewrite map_length. apply nth_error_Some. congruence.
  - rewrite !nth_error_map, Hn, Hm. cbn. congruence.
Qed.
Lemma NoDup_flat_map {X Y} (f : X -> list Y) l : NoDup l -> (forall x, In x l -> NoDup (f x)) ->
  (forall x y z, In x l -> In y l -> In z (f x) -> In z (f y) -> x = y) -> NoDup (flat_map f l).
Proof.
  induction l as [|x l IH]; intros ND H1 H2; [constructor|]. inversion ND; subst. cbn [flat_map].
  assert (NoDup (flat_map f l)) by (apply IH; [assumption|intros; apply H1; right; assumption|intros a c z A C; apply H2; right; assumption]).
  revert H. assert (D : forall z, In z (f x) -> ~ In z (flat_map f l)).
  { intros z Hz HI. apply in_flat_map in HI. destruct HI as (y & Hy & Hz'). assert (x = y) by (eapply H2; [left; reflexivity|right; exact Hy|exact Hz|exact Hz']). subst. contradiction. }
  pose proof (H1 x (or_introl eq_refl)) as NX. clear -D NX. induction (f x) as [|z t IH]; [auto|]. intros NF. cbn. inversion NX; subst.
  constructor; [|apply IH; [intros; apply D; right; assumption|assumption|assumption]]. intros HI. apply in_app_iff in HI. destruct HI as [HI|HI]; [contradiction|]. exact (D z (or_introl eq_refl) HI).
Qed.
Lemma NoDup_zrange lo hi : NoDup (zrange lo hi).
Proof. unfold zrange. apply FinFun.Injective_map_NoDup; [intros x y H; lia|apply seq_NoDup]. Qed.
Definition call_key (x : Z * (axis -> Z)) : Z * Z * Z * Z := (fst x, snd x AX, snd x AY, snd x AZ).

Theorem C23_scratch b nbOcts : block_pos b ->
  visits_all_once b nbOcts (flat_map (scratch_cells b) (zrange 0 (Z.of_nat nbOcts))).
Proof.
  intros BP. pose proof (BP AX) as BX. pose proof (BP AY) as BY. pose proof (BP AZ) as BZ.
  assert (KEYS : forall o, map call_key (scratch_cells b o) =
    flat_map (fun kj => map (fun i => (o, i, kj mod b AY, kj / b AY)) (zrange 0 (b AX))) (zrange 0 (b AZ * b AY))).
  { intros o. unfold scratch_cells. induction (zrange 0 (b AZ * b AY)) as [|kj l IH]; [reflexivity|]. cbn [flat_map]. rewrite map_app, IH, map_map. reflexivity. }
  assert (MK : forall l, map call_key (flat_map (scratch_cells b) l) = flat_map (fun o => map call_key (scratch_cells b o)) l).
  { induction l as [|o l IH]; [reflexivity|]. cbn [flat_map]. rewrite map_app, IH. reflexivity. }
  assert (INK : forall o k, In k (map call_key (scratch_cells b o)) <-> exists i j z, k = (o, i, j, z) /\ 0 <= i < b AX /\ 0 <= j < b AY /\ 0 <= z < b AZ).
  { intros o k. rewrite KEYS, in_flat_map. split.
    - intros (kj & HK & HI). apply in_map_iff in HI. destruct HI as (i & <- & HI). rewrite in_zrange in HK, HI.
      exists i, (kj mod b AY), (kj / b AY). split; [reflexivity|]. split; [exact HI|]. split; [apply Z.mod_pos_bound; lia|].
      split; [apply Z.div_pos; lia|apply Z.div_lt_upper_bound; lia].
    - intros (i & j & z & -> & Hi & Hj & Hz). exists (z * b AY + j). split; [apply in_zrange; nia|]. apply in_map_iff. exists i.
      split; [|apply in_zrange; lia]. f_equal; [f_equal|].
      + rewrite Z.add_comm, Z.mod_add by lia. apply Z.mod_small. lia.
      + rewrite Z.div_add_l by lia. rewrite Z.div_small by lia. lia. }
  assert (ND : NoDup (map call_key (flat_map (scratch_cells b) (zrange 0 (Z.of_nat nbOcts))))).
  { rewrite MK. apply NoDup_flat_map; [apply NoDup_zrange| |].
    - intros o _. rewrite KEYS. apply NoDup_flat_map; [apply NoDup_zrange| |].
      + intros kj _. apply FinFun.Injective_map_NoDup; [intros x y H; congruence|apply NoDup_zrange].
      + intros x y z _ _ Hx Hy. apply in_map_iff in Hx, Hy. destruct Hx as (i & Hx & _), Hy as (i' & Hy & _).
        assert (E1 : x mod b AY = y mod b AY) by congruence. assert (E2 : x / b AY = y / b AY) by congruence.
        pose proof (Z.div_mod x (b AY) ltac:(lia)). pose proof (Z.div_mod y (b AY) ltac:(lia)). congruence.
    - intros o o' k _ _ H1 H2. apply INK in H1, H2. destruct H1 as (? & ? & ? & H1 & _), H2 as (? & ? & ? & H2 & _). congruence. }
  split.
  - intros o p Ho IP. apply (once_keys call_key _ (o, p AX, p AY, p AZ)); [|exact ND|].
    + intros x. unfold call_for, call_key. split; [intros (H1 & H2); rewrite H1, !H2; reflexivity|]. intros H. injection H as H1 H2 H3 H4.
      split; [exact H1|]. intros []; assumption.
    + rewrite MK. apply in_flat_map. exists o. split; [apply in_zrange; lia|]. apply INK. exists (p AX), (p AY), (p AZ). auto.
  - intros call HC. assert (HK : In (call_key call) (flat_map (fun o => map call_key (scratch_cells b o)) (zrange 0 (Z.of_nat nbOcts)))) by (rewrite <- MK; apply in_map, HC).
    apply in_flat_map in HK. destruct HK as (o & Ho & HK). apply INK in HK. rewrite in_zrange in Ho. destruct HK as (i & j & z & HK & Hi & Hj & Hz).
    unfold call_key in HK. injection HK as K1 K2 K3 K4. split; [lia|]. intros []; lia.
Qed.

(** The number of cells is computed in 32 bits: with 2^32 cells nothing is visited. *)
Theorem C23_refuted_overflow : ~ (forall b nbOcts, block_pos b -> visits_all_once b nbOcts (foreach_cell b nbOcts)).
Proof.
  intros H. pose (b := fun a => match a with AX => 16 | AY => 16 | AZ => 16 end).
  assert (EX : exists n, Z.of_nat n = 2^20) by (exists (Z.to_nat (2^20)); apply Z2Nat.id; lia). destruct EX as (n & NN).
  assert (BP : block_pos b) by (intros []; cbn; lia). specialize (H b n BP). destruct H as (H & _).
  specialize (H 0 (fun _ => 0) ltac:(lia) ltac:(intros []; cbn; lia)). destruct H as (m & x & Hx & _).
  unfold foreach_cell in Hx. rewrite NN in Hx. change (u32 (u32 (b AX * b AY * b AZ) * 2^20)) with 0 in Hx. destruct m; discriminate Hx.
Qed.

Definition it_b : axis -> Z := fun a => match a with AX => 2 | AY => 3 | AZ => 1 end.
Example it_hyps : block_pos it_b /\ cells_per_block it_b * Z.of_nat 3 < 2^32.
Proof. split; [intros []; cbn; lia|reflexivity]. Qed.
Example it_calls : map call_key (foreach_cell it_b 2) =
  [(0, 0, 0, 0); (0, 1, 0, 0); (0, 0, 1, 0); (0, 1, 1, 0); (0, 0, 2, 0); (0, 1, 2, 0);
   (1, 0, 0, 0); (1, 1, 0, 0); (1, 0, 1, 0); (1, 1, 1, 0); (1, 0, 2, 0); (1, 1, 2, 0)].
Proof. reflexivity. Qed.
Example it_groups : groups 2 5 = Some [(0, 2); (2, 2); (4, 1)] /\ groups 2 4 = Some [(0, 2); (2, 2); (4, 0)].
Proof. split; reflexivity. Qed.

Print Assumptions C50_cell_index.
Print Assumptions C23_foreach_cell_partial.
Print Assumptions C23_groups_same_partial.
Print Assumptions C23_groups_partial.
Print Assumptions C23_slots.
Print Assumptions C23_scratch.
Print Assumptions C23_refuted_overflow.
