(** Proofs for the cooling: the cells along a side of the box fill it. *)
From Coq Require Import QArith Qcanon Lqa.
From Verif Require Import Base OctreeSpec OctreeGeom OctreeModel FindNeighbors MeshSpec GhostExchange HistorySpec
  LookupModel CellModel CellSpec CellProofs CellProps RemapModel RemapSpec RemapProofs RemapProps HydroModel HydroSpec HydroProps ConserveSpec BlockGhost ConserveFaces ConserveProofs
  ParticleModel ParticleSpec ParticleProofs CloudProofs CGTheory GravitySpec GravityModel GravityFaces GravityProofs GravityOp GravityLoop CoolingModel CoolingSpec.
Open Scope Z_scope.

(* the geometry plays no part in the lemma *)
Definition csum_between := csum_interval (mkGeom true 0 0 1 1 1 false false false) eq_refl.
Definition prod3 (f : axis -> Qc) : Qc := (f AX * f AY * f AZ)%Qc.
Lemma prod3_ext f h : (forall a, f a = h a) -> prod3 f = prod3 h. Proof. intros H. unfold prod3. rewrite !H. reflexivity. Qed.
Lemma prod3_mul f h : prod3 (fun a => (f a * h a)%Qc) = (prod3 f * prod3 h)%Qc. Proof. unfold prod3. ring. Qed.
Definition one_if (t : bool) : Qc := if t then 1%Qc else 0%Qc.
Lemma csum_one n : 0 <= n -> csum (map (fun _ : Z => 1%Qc) (zrange 0 n)) = zq n.
Proof.
  intros P. rewrite <- (Z.sub_0_r n) at 2. rewrite <- (csum_between n 0 n) by lia.
  apply csum_ext. intros p Hp. apply in_zrange in Hp. replace (_ && _) with true by lia. reflexivity.
Qed.
Lemma csum_at n j : csum (map (fun k => one_if (k =? j)) (zrange 0 n)) = one_if ((0 <=? j) && (j <? n)).
Proof.
  destruct ((0 <=? j) && (j <? n)) eqn:E.
  - rewrite (csum_ext _ (fun p => if (j <=? p) && (p <? j + 1) then 1%Qc else 0%Qc)).
    + rewrite csum_between by lia. replace (j + 1 - j) with 1 by lia. exact zq_1.
    + intros k _. unfold one_if. destruct (Z.eqb_spec k j); [replace (_ && _) with true by lia|replace (_ && _) with false by lia]; reflexivity.
  - rewrite (csum_ext _ (fun _ => 0%Qc)); [apply csum_zero|]. intros k HK. apply in_zrange in HK. unfold one_if. replace (k =? j) with false by lia. reflexivity.
Qed.

Section Rows.
Context (g : geom) (WF : wf_geom g) (L : list oct) (TL : tiles g L).
Definition width (l : Z) (a : axis) : Z := if flat g a then 1 else 2 ^ (lmax g - l).
Definition ind (A : oct) (a : axis) (k : Z) : Qc := one_if (k / 2 ^ (lmax g - lev A) =? coord A a).
Local Notation N a := (ncell g a (lmax g)).

Lemma ncell_fine l a : lmin g <= l <= lmax g -> N a = ncell g a l * width l a.
Proof.
  intros H. unfold ncell, width. destruct (flat g a); [reflexivity|]. rewrite <- Z.mul_assoc, <- Z.pow_add_r by lia. do 2 f_equal. lia.
Qed.
Lemma ind_sum A a : In A L -> csum (map (ind A a) (zrange 0 (N a))) = zq (width (lev A) a).
Proof.
  intros HA. pose proof (tiles_valid g L A TL HA) as (VL & VC). specialize (VC a).
  assert (W : 0 < 2 ^ (lmax g - lev A)) by (apply Z.pow_pos_nonneg; lia). unfold width.
  destruct (flat g a) eqn:F.
  - unfold ncell in *. rewrite F in *. change (zrange 0 1) with [0]. cbn [map csum fold_right]. unfold ind. rewrite Z.div_0_l by lia.
    replace (0 =? coord A a) with true by lia. rewrite Qcplus_0_r. symmetry. exact zq_1.
  - rewrite (csum_ext _ (fun p => if (coord A a * 2 ^ (lmax g - lev A) <=? p) && (p <? coord A a * 2 ^ (lmax g - lev A) + 2 ^ (lmax g - lev A)) then 1%Qc else 0%Qc)).
    + rewrite csum_between; [f_equal; ring|nia|]. pose proof (ncell_fine (lev A) a VL) as E. unfold width in E. rewrite F in E. rewrite E. nia.
    + intros k _. unfold ind, one_if. destruct (Z.eqb_spec (k / 2 ^ (lmax g - lev A)) (coord A a)) as [E|E].
      * replace (_ && _) with true; [reflexivity|]. pose proof (Z.mul_div_le k _ W). pose proof (Z.mul_succ_div_gt k _ W). rewrite E in *. symmetry. lia.
      * replace (_ && _) with false; [reflexivity|]. symmetry. apply not_true_is_false. intros H. apply E. symmetry. apply (Z.div_unique k (2 ^ (lmax g - lev A)) (coord A a) (k - coord A a * 2 ^ (lmax g - lev A))); lia.
Qed.
Lemma ind_total (P : axis -> Z) : in_block (fun a => N a) P -> csum (map (fun A => prod3 (fun a => ind A a (P a))) L) = 1%Qc.
Proof.
  intros HP. assert (ID : in_dom g (pt_of P)) by (intros []; apply HP).
  destruct (tiles_leaf g L (pt_of P) TL ID) as (A & HA & CA).
  rewrite (csum_pick (fun A => prod3 (fun a => ind A a (P a))) L A (tiles_NoDup g L TL) HA).
  - assert (K : forall a, ind A a (P a) = 1%Qc) by (intros a; unfold ind; specialize (CA a); replace (pc (pt_of P) a) with (P a) in CA by (destruct a; reflexivity); rewrite CA, Z.eqb_refl; reflexivity).
    unfold prod3. rewrite !K. ring.
  - intros B HB NE.
    assert (K : (forall a, ind B a (P a) = 1%Qc) \/ exists a, ind B a (P a) = 0%Qc).
    { unfold ind, one_if. destruct (P AX / 2 ^ (lmax g - lev B) =? coord B AX) eqn:E1; [|right; exists AX; rewrite E1; reflexivity]. destruct (P AY / 2 ^ (lmax g - lev B) =? coord B AY) eqn:E2; [|right; exists AY; rewrite E2; reflexivity].
      destruct (P AZ / 2 ^ (lmax g - lev B) =? coord B AZ) eqn:E3; [|right; exists AZ; rewrite E3; reflexivity]. left. intros []; rewrite ?E1, ?E2, ?E3; reflexivity. }
    destruct K as [K|(a & K)]; [|unfold prod3; destruct a; rewrite K; ring].
    exfalso. apply NE. symmetry. apply (tiles_unique g L (pt_of P) A B TL ID HA HB CA). intros a. specialize (K a). unfold ind, one_if in K.
    destruct (Z.eqb_spec (P a / 2 ^ (lmax g - lev B)) (coord B a)) as [E|E]; [|discriminate K]. destruct a; exact E.
Qed.

(** A product without the axis [v]. *)
Definition but (v : axis) (f : axis -> Qc) : Qc := prod3 (fun a => if axis_eqb a v then 1%Qc else f a).
(** Octants along a side. *)
Definition edge (v : axis) (up : bool) (l : Z) : Z := if up then ncell g v l - 1 else 0.
Lemma octant_rows v up : flat g v = false ->
  csum (map (fun A => (one_if (coord A v =? edge v up (lev A)) * but v (fun a => zq (width (lev A) a)))%Qc) L) = but v (fun a => zq (N a)).
Proof.
  intros FV. set (c := if up then N v - 1 else 0).
  assert (NP : forall a, 0 < N a) by (intros a; apply (ncell_pos g WF), WF).
  assert (C0 : 0 <= c < N v) by (unfold c; pose proof (NP v); destruct up; lia).
  set (s := fun (a : axis) (k : Z) => if axis_eqb a v then one_if (k =? c) else 1%Qc).
  transitivity (csum (map (fun A => csum (map (fun P : axis -> Z => (prod3 (fun a => s a (P a)) * prod3 (fun a => ind A a (P a)))%Qc) (positions (fun a => N a)))) L)).
  - apply csum_ext. intros A HA. pose proof (tiles_valid g L A TL HA) as (VL & VC).
    rewrite (csum_ext _ (fun P : axis -> Z => ((fun a k => s a k * ind A a k) AX (P AX) * (fun a k => s a k * ind A a k) AY (P AY) * (fun a k => s a k * ind A a k) AZ (P AZ))%Qc)) by (intros P _; unfold prod3; ring).
    rewrite (csum_positions (fun a => N a) (fun a k => (s a k * ind A a k)%Qc)).
    assert (K : forall a, csum (map (fun k => (s a k * ind A a k)%Qc) (zrange 0 (N a))) = if axis_eqb a v then one_if (coord A v =? edge v up (lev A)) else zq (width (lev A) a)).
    { intros a. unfold s. destruct (axis_eqb a v) eqn:EA.
      - apply axis_eqb_spec in EA. subst a.
        rewrite (csum_ext _ (fun k => (ind A v c * one_if (k =? c))%Qc)).
        + rewrite csum_scale, csum_at. replace ((0 <=? c) && (c <? N v)) with true by lia. unfold one_if at 1. rewrite Qcmult_1_r. unfold ind. f_equal.
          assert (W : 0 < 2 ^ (lmax g - lev A)) by (apply Z.pow_pos_nonneg; lia).
          enough (E : c / 2 ^ (lmax g - lev A) = edge v up (lev A)) by (rewrite E; apply Z.eqb_sym).
          unfold c, edge. destruct up; [|apply Z.div_0_l; lia]. rewrite (ncell_fine (lev A) v VL). unfold width. rewrite FV.
          symmetry. apply (Z.div_unique _ _ _ (2 ^ (lmax g - lev A) - 1)); [lia|ring].
        + intros k _. unfold one_if. destruct (Z.eqb_spec k c) as [->|]; ring.
      - rewrite (csum_ext _ (ind A a)) by (intros; ring). apply ind_sum, HA. }
    rewrite !K. unfold but, prod3. destruct v; cbn [axis_eqb]; ring.
  - rewrite csum_swap. rewrite (csum_ext _ (fun P : axis -> Z => (s AX (P AX) * s AY (P AY) * s AZ (P AZ))%Qc)).
    + rewrite (csum_positions (fun a => N a) s).
      assert (K : forall a, csum (map (s a) (zrange 0 (N a))) = if axis_eqb a v then 1%Qc else zq (N a)).
      { intros a. unfold s. destruct (axis_eqb a v) eqn:EA; [|apply csum_one; pose proof (NP a); lia]. apply axis_eqb_spec in EA. subst a. rewrite csum_at. replace (_ && _) with true by lia. reflexivity. }
      rewrite !K. reflexivity.
    + intros P HP. apply positions_in in HP. rewrite csum_scale, (ind_total P HP). unfold prod3. ring.
Qed.

Context (b : axis -> Z) (BO : block_ok g b) (ext : axis -> Qc).
Definition cell_edge (v : axis) (up : bool) (l : Z) : Z := if up then ncells g b l v - 1 else 0.
(** The areas of the cells along a side add up to the area of the side. *)
Lemma cell_rows v up : flat g v = false ->
  csum (map (fun x => (one_if (coord x v =? cell_edge v up (lev x)) * but v (fun a => ext a / zq (ncells g b (lev x) a)))%Qc) (all_cells b L)) = but v ext.
Proof.
  intros FV. unfold all_cells. rewrite csum_flat.
  assert (NZ : forall a, zq (N a) <> 0%Qc) by (intros a; apply (zq_nz (mkG (fun _ => 0%Qc) false false) eq_refl); pose proof (ncell_pos g WF a (lmax g) ltac:(apply WF)); lia).
  assert (BP : forall a, 0 < b a) by (intros a; pose proof (BO a); lia).
  transitivity (but v (fun a => ext a / zq (N a)) * csum (map (fun A => (one_if (coord A v =? edge v up (lev A)) * but v (fun a => zq (width (lev A) a)))%Qc) L))%Qc.
  - rewrite <- csum_scale. apply csum_ext. intros A HA. pose proof (tiles_valid g L A TL HA) as (VL & VC). rewrite map_map.
    set (t := fun (a : axis) (k : Z) => if axis_eqb a v then one_if (k =? cell_edge v up (lev A) - coord A v * b v) else 1%Qc).
    assert (CE : forall p, coord (cell_of b A p) v = coord A v * b v + p v) by (intros p; destruct v; reflexivity).
    rewrite (csum_ext _ (fun p : axis -> Z => (but v (fun a => ext a / zq (ncells g b (lev A) a)) * (t AX (p AX) * t AY (p AY) * t AZ (p AZ)))%Qc)).
    2:{ intros p _. rewrite CE. change (lev (cell_of b A p)) with (lev A). rewrite Qcmult_comm. f_equal.
        replace (coord A v * b v + p v =? cell_edge v up (lev A)) with (p v =? cell_edge v up (lev A) - coord A v * b v) by lia.
        unfold t. destruct v; cbn [axis_eqb]; ring. }
    rewrite csum_scale, (csum_positions b t).
    assert (K : forall a, csum (map (t a) (zrange 0 (b a))) = if axis_eqb a v then one_if (coord A v =? edge v up (lev A)) else zq (b a)).
    { intros a. unfold t. pose proof (BP a). destruct (axis_eqb a v) eqn:EA; [|apply csum_one; lia]. apply axis_eqb_spec in EA. subst a. rewrite csum_at. f_equal.
      unfold cell_edge, edge, ncells. specialize (VC v). destruct up; nia. }
    rewrite !K. set (o := one_if (coord A v =? edge v up (lev A))).
    transitivity (o * (but v (fun a => ext a / zq (ncells g b (lev A) a)) * but v (fun a => zq (b a))))%Qc; [unfold but, prod3; destruct v; cbn [axis_eqb]; ring|].
    transitivity (o * (but v (fun a => ext a / zq (N a)) * but v (fun a => zq (width (lev A) a))))%Qc; [|ring].
    f_equal. unfold but. rewrite <- !prod3_mul. apply prod3_ext. intros a. destruct (axis_eqb a v); [reflexivity|].
    unfold ncells. rewrite (ncell_fine (lev A) a VL), !zq_mult.
    assert (W : zq (width (lev A) a) <> 0%Qc) by (apply (zq_nz (mkG (fun _ => 0%Qc) false false) eq_refl); unfold width; destruct (flat g a); [lia|]; assert (0 < 2 ^ (lmax g - lev A)) by (apply Z.pow_pos_nonneg; lia); lia).
    assert (Q1 : zq (ncell g a (lev A)) <> 0%Qc) by (apply (zq_nz (mkG (fun _ => 0%Qc) false false) eq_refl); pose proof (ncell_pos g WF a (lev A) ltac:(lia)); lia).
    assert (Q2 : zq (b a) <> 0%Qc) by (apply (zq_nz (mkG (fun _ => 0%Qc) false false) eq_refl); pose proof (BP a); lia). field. repeat split; assumption.
  - rewrite (octant_rows v up FV). unfold but. rewrite <- prod3_mul. apply prod3_ext. intros a. destruct (axis_eqb a v); [ring|]. field. apply NZ.
Qed.
End Rows.
