(** The finite volume Laplacian is symmetric, negative semidefinite, and vanishes only on
    potentials that are constant over the (connected) domain; the cells fill the domain. *)
From Coq Require Import QArith Qcanon.
From Verif Require Import Base OctreeSpec OctreeGeom OctreeModel FindNeighbors MeshSpec GhostExchange
  LookupModel CellModel CellSpec CellProofs CellProps RemapModel RemapSpec RemapProofs RemapProps HydroModel HydroSpec HydroProps ConserveSpec BlockGhost ConserveFaces ConserveProofs ParticleProofs
  CGTheory GravitySpec GravityModel GravityFaces GravityProofs.
Open Scope Z_scope.

(** * Weighted graphs *)
Section Graph.
Open Scope Qc_scope.
Context {X : Type} (C : list X) (w : X -> X -> Qc) (d : X -> Qc) (WS : forall x y, In x C -> In y C -> w x y = w y x)
        (WN : forall x y, In x C -> In y C -> 0 <= w x y) (DN : forall x, In x C -> 0 <= d x).
Definition gop (u : X -> Qc) (x : X) : Qc := csum (map (fun y => w x y * (u x - u y)) C) + d x * u x.
Lemma gop_lin u v t x : gop (fun y => u y + t * v y) x = gop u x + t * gop v x.
Proof.
  unfold gop.
  rewrite (csum_ext _ (fun y => w x y * (u x - u y) + t * (w x y * (v x - v y))) C) by (intros; ring). rewrite csum_plus, csum_scale. ring.
Qed.
Lemma gop_ext u v x : (forall y, In y C -> u y = v y) -> In x C -> gop u x = gop v x.
Proof. intros H I. unfold gop. rewrite (H x I). f_equal. apply csum_ext. intros y J. rewrite (H y J). reflexivity. Qed.
Definition energy (v u : X -> Qc) : Qc :=
  csum (map (fun x => csum (map (fun y => w x y * (v x - v y) * (u x - u y)) C)) C) + two * csum (map (fun x => d x * v x * u x) C).
Lemma gop_energy v u : two * dot C v (gop u) = energy v u.
Proof.
  unfold energy, dot, gop.
  rewrite (csum_ext (fun x => v x * _) (fun x => csum (map (fun y => w x y * v x * (u x - u y)) C) + d x * v x * u x) C).
  - rewrite csum_plus.
    rewrite (csum_ext (fun x => csum (map (fun y => w x y * (v x - v y) * (u x - u y)) C)) (fun x => csum (map (fun y => w x y * v x * (u x - u y)) C) + csum (map (fun y => w x y * (0 - v y) * (u x - u y)) C)) C).
    + rewrite csum_plus. rewrite (csum_swap (fun x y => w x y * (0 - v y) * (u x - u y)) C C).
      rewrite (csum_ext (fun y => csum (map (fun x => w x y * (0 - v y) * (u x - u y)) C)) (fun x => csum (map (fun y => w x y * v x * (u x - u y)) C)) C).
      * unfold two. ring.
      * intros y J. apply csum_ext. intros x I. rewrite (WS x y I J). ring.
    + intros x _. rewrite <- csum_plus. apply csum_ext. intros. ring.
  - intros x _. rewrite (csum_ext (fun y => w x y * v x * (u x - u y)) (fun y => v x * (w x y * (u x - u y))) C) by (intros; ring). rewrite csum_scale. ring.
Qed.
Lemma energy_sym v u : energy v u = energy u v.
Proof.
  unfold energy. f_equal; [|f_equal]; apply csum_ext; intros x _; [|ring]. apply csum_ext. intros. ring.
Qed.
Lemma two_cancel x y : two * x = two * y -> x = y.
Proof. intros H. replace x with (two * x / two) by (field; exact two_nz). rewrite H. field. exact two_nz. Qed.
Lemma gop_sym u v : dot C u (gop v) = dot C v (gop u).
Proof. apply two_cancel. rewrite !gop_energy. apply energy_sym. Qed.
Lemma square_terms u x y : In x C -> In y C -> 0 <= w x y * (u x - u y) * (u x - u y).
Proof. intros I J. replace (w x y * (u x - u y) * (u x - u y)) with (w x y * ((u x - u y) * (u x - u y))) by ring. apply Qcmult_nonneg; [apply WN; assumption|apply sq_nonneg]. Qed.
Lemma d_terms u x : In x C -> 0 <= d x * u x * u x.
Proof. intros I. replace (d x * u x * u x) with (d x * (u x * u x)) by ring. apply Qcmult_nonneg; [apply DN, I|apply sq_nonneg]. Qed.
Lemma two_nonneg : 0 <= two. Proof. apply Qclt_le_weak. reflexivity. Qed.
Lemma energy_nonneg u : 0 <= energy u u.
Proof.
  unfold energy. replace 0 with (0 + 0) by ring. apply Qcplus_le_compat.
  - apply csum_nonneg. intros x I. apply csum_nonneg. intros y J. apply square_terms; assumption.
  - apply Qcmult_nonneg; [exact two_nonneg|]. apply csum_nonneg. intros x I. apply d_terms, I.
Qed.
Lemma gop_psd u : 0 <= dot C u (gop u).
Proof.
  replace (dot C u (gop u)) with (energy u u / two) by (rewrite <- gop_energy; field; exact two_nz).
  unfold Qcdiv. apply Qcmult_nonneg; [apply energy_nonneg|]. apply Qclt_le_weak. reflexivity.
Qed.
Lemma gop_null u : dot C u (gop u) = 0 -> forall x y, In x C -> In y C -> w x y <> 0 -> u x = u y.
Proof.
  intros H x y I J N. assert (E : energy u u = 0) by (rewrite <- gop_energy, H; ring). unfold energy in E.
  assert (P1 : 0 <= csum (map (fun x => csum (map (fun y => w x y * (u x - u y) * (u x - u y)) C)) C)).
  { apply csum_nonneg. intros a Ia. apply csum_nonneg. intros c Ic. apply square_terms; assumption. }
  assert (P2 : 0 <= two * csum (map (fun x => d x * u x * u x) C)).
  { apply Qcmult_nonneg; [exact two_nonneg|]. apply csum_nonneg. intros a Ia. apply d_terms, Ia. }
  assert (Z1 : csum (map (fun x => csum (map (fun y => w x y * (u x - u y) * (u x - u y)) C)) C) = 0).
  { apply Qcle_antisym; [|exact P1]. rewrite Qcle_sub. match goal with |- 0 <= 0 - ?s => replace (0 - s) with (two * csum (map (fun x => d x * u x * u x) C)) end; [exact P2|].
    match type of E with ?a + ?c = 0 => replace c with (0 - a + (a + c)) by ring end. rewrite E. ring. }
  assert (Z2 := csum_nonneg_zero _ _ (fun x I => csum_nonneg _ _ (fun y J => square_terms u x y I J)) Z1 x I). cbn beta in Z2.
  assert (Z3 := csum_nonneg_zero _ _ (fun y J => square_terms u x y I J) Z2 y J). cbn beta in Z3.
  apply Qcmult_integral in Z3. destruct Z3 as [Z3|Z3].
  - apply Qcmult_integral in Z3. destruct Z3 as [Z3|Z3]; [contradiction|]. replace (u x) with (u y + (u x - u y)) by ring. rewrite Z3. ring.
  - replace (u x) with (u y + (u x - u y)) by ring. rewrite Z3. ring.
Qed.
Lemma gop_null_d u : dot C u (gop u) = 0 -> forall x, In x C -> d x <> 0 -> u x = 0.
Proof.
  intros H x I N. assert (E : energy u u = 0) by (rewrite <- gop_energy, H; ring). unfold energy in E.
  assert (P1 : 0 <= csum (map (fun x => csum (map (fun y => w x y * (u x - u y) * (u x - u y)) C)) C)).
  { apply csum_nonneg. intros a Ia. apply csum_nonneg. intros c Ic. apply square_terms; assumption. }
  assert (P2 : 0 <= csum (map (fun x => d x * u x * u x) C)) by (apply csum_nonneg; intros a Ia; apply d_terms, Ia).
  assert (Z1 : csum (map (fun x => d x * u x * u x) C) = 0).
  { apply Qcle_antisym; [|exact P2]. rewrite Qcle_sub. match type of E with ?a + two * ?c = 0 => replace (0 - c) with (a / two - (a + two * c) / two) by (field; exact two_nz) end.
    rewrite E. match goal with |- 0 <= ?a / two - 0 / two => replace (a / two - 0 / two) with (a * / two) by (field; exact two_nz) end. apply Qcmult_nonneg; [exact P1|apply Qclt_le_weak; reflexivity]. }
  pose proof (csum_nonneg_zero _ _ (fun x I => d_terms u x I) Z1 x I) as Z2. cbn beta in Z2.
  apply Qcmult_integral in Z2. destruct Z2 as [Z2|Z2]; [|exact Z2]. apply Qcmult_integral in Z2. destruct Z2 as [Z2|Z2]; [contradiction|exact Z2].
Qed.
(** Without external conductances the total vanishes. *)
Lemma gop_total u : (forall x, In x C -> d x = 0) -> csum (map (gop u) C) = 0.
Proof.
  intros H. assert (K := gop_energy (fun _ => 1) u). replace (energy (fun _ => 1) u) with 0 in K.
  - apply two_cancel. rewrite Qcmult_0_r. rewrite <- K. f_equal. unfold dot. apply csum_ext. intros. ring.
  - symmetry. unfold energy. rewrite (csum_ext _ (fun _ => 0) C).
    + rewrite csum_zero. rewrite (csum_ext _ (fun _ => 0) C); [rewrite csum_zero; ring|]. intros x I. rewrite (H x I). ring.
    + intros x _. rewrite (csum_ext _ (fun _ => 0) C); [apply csum_zero|]. intros. ring.
Qed.
End Graph.

(** * The Laplacian as a graph *)
Section Lap.
Context (g : geom) (D3 : g3d g = true) (WF : wf_geom g) (M : mesh) (OK : mesh_ok g M) (b : axis -> Z) (BO : block_ok g b)
        (ext : axis -> Qc) (EXT : forall a, (0 < ext a)%Qc) (ab : axis -> bool).
Local Notation cells := (all_cells b (leaves M)).
Local Notation N := (ncells g b).
Local Notation inside := (inside g b).
Local Notation box := (box g).
Definition conductance (e : axis) (x y : oct) : Qc := (common_face g b ext e x y / centre_distance g b ext e x y)%Qc.
Definition weight (x y : oct) : Qc := csum (map (fun f : axis * bool => if touches g b (fst f) (snd f) x y then conductance (fst f) x y else 0%Qc) faces).
Definition outer (x : oct) : Qc :=
  csum (map (fun f : axis * bool => if at_boundary g b (fst f) (snd f) x then if ab (fst f) then 0%Qc else (face g b ext (fst f) (lev x) / GravitySpec.side g b ext (lev x) (fst f))%Qc else 0%Qc) faces).

Lemma distance_pos e x y : In x cells -> In y cells -> (0 < centre_distance g b ext e x y)%Qc.
Proof.
  intros HX HY. pose proof (cell_lev g M OK b x HX). pose proof (cell_lev g M OK b y HY). unfold centre_distance. apply Qcdiv_lt_0; [|reflexivity].
  replace 0%Qc with (0 + 0)%Qc by ring. pose proof (side_pos g WF b BO ext EXT (lev x) e ltac:(lia)) as P1. pose proof (side_pos g WF b BO ext EXT (lev y) e ltac:(lia)) as P2.
  apply Qclt_le_trans with (GravitySpec.side g b ext (lev x) e + 0)%Qc; [rewrite Qcplus_0_r, Qcplus_0_r; exact P1|]. apply Qcplus_le_compat; [apply Qcle_refl|apply Qclt_le_weak, P2].
Qed.
Lemma conductance_pos e x y : In x cells -> In y cells -> (0 < conductance e x y)%Qc.
Proof.
  intros HX HY. unfold conductance. apply Qcdiv_lt_0; [|apply distance_pos; assumption]. apply (face_pos g WF b BO ext EXT).
  pose proof (cell_lev g M OK b x HX). lia.
Qed.
Lemma conductance_sym e x y : conductance e x y = conductance e y x.
Proof. unfold conductance, common_face, centre_distance. rewrite Z.max_comm, Qcplus_comm. reflexivity. Qed.
Lemma weight_sym x y : weight x y = weight y x.
Proof.
  unfold weight, faces. cbn [map fst snd csum fold_right].
  rewrite (touches_sym g b AX false x y), (touches_sym g b AX true x y), (touches_sym g b AY false x y), (touches_sym g b AY true x y), (touches_sym g b AZ false x y), (touches_sym g b AZ true x y).
  cbn [negb]. rewrite (conductance_sym AX x y), (conductance_sym AY x y), (conductance_sym AZ x y). ring.
Qed.
Lemma weight_nonneg x y : In x cells -> In y cells -> (0 <= weight x y)%Qc.
Proof.
  intros HX HY. apply csum_nonneg. intros f _. destruct (touches _ _ _ _ _ _); [apply Qclt_le_weak, conductance_pos; assumption|apply Qcle_refl].
Qed.
Lemma in_faces e up : In (e, up) faces. Proof. destruct e, up; cbn; tauto. Qed.
Lemma weight_nz e up x y : In x cells -> In y cells -> touches g b e up x y = true -> weight x y <> 0%Qc.
Proof.
  intros HX HY T H. assert (K := csum_nonneg_zero _ faces (fun f _ => (if touches g b (fst f) (snd f) x y as t return (0 <= if t then conductance (fst f) x y else 0)%Qc then Qclt_le_weak _ _ (conductance_pos (fst f) x y HX HY) else Qcle_refl 0%Qc)) H (e, up) (in_faces e up)).
  cbn [fst snd] in K. rewrite T in K. exact (Qc_pos_nz _ (conductance_pos e x y HX HY) K).
Qed.
Lemma outer_nonneg x : In x cells -> (0 <= outer x)%Qc.
Proof.
  intros HX. pose proof (cell_lev g M OK b x HX). apply csum_nonneg. intros f _. destruct (at_boundary _ _ _ _ _); [|apply Qcle_refl]. destruct (ab _); [apply Qcle_refl|].
  apply Qclt_le_weak, Qcdiv_lt_0; [apply (face_pos g WF b BO ext EXT); lia|apply (side_pos g WF b BO ext EXT); lia].
Qed.
(** No cell touches a face on the boundary. *)
Lemma boundary_untouched e up x y : In x cells -> In y cells -> at_boundary g b e up x = true -> touches g b e up x y = false.
Proof.
  intros HX HY H. pose proof (fine_range g D3 b y e (cells_inside g M OK b BO y HY)) as FY. unfold at_boundary in H. apply andb_true_iff in H. destruct H as (P & H).
  apply negb_true_iff in P. unfold touches, same_plane. rewrite P. cbn [andb]. rewrite !orb_false_r.
  destruct up; apply Z.eqb_eq in H; rewrite H; [replace (N (lmax g) e =? lower g y e) with false by lia|replace (upper g y e =? 0) with false by lia]; reflexivity.
Qed.
Lemma laplacian_graph u x : In x cells -> (0 - laplacian g b ext ab cells u x)%Qc = gop cells weight outer u x.
Proof.
  intros HX. unfold gop, weight, outer, laplacian.
  rewrite (csum_ext (fun y => csum (map (fun f : axis * bool => if touches g b (fst f) (snd f) x y then conductance (fst f) x y else 0%Qc) faces) * (u x - u y))%Qc
             (fun y => csum (map (fun f : axis * bool => (u x - u y) * (if touches g b (fst f) (snd f) x y then conductance (fst f) x y else 0))%Qc faces)) cells)
    by (intros y _; rewrite csum_scale; ring).
  rewrite (csum_swap (fun y (f : axis * bool) => ((u x - u y) * (if touches g b (fst f) (snd f) x y then conductance (fst f) x y else 0))%Qc) cells faces).
  rewrite (Qcmult_comm _ (u x)), <- csum_scale, <- csum_plus.
  replace (0 - csum (map (fun f : axis * bool => face_flux g b ext ab cells u x (fst f) (snd f)) faces))%Qc
    with ((0 - 1) * csum (map (fun f : axis * bool => face_flux g b ext ab cells u x (fst f) (snd f)) faces))%Qc by ring.
  rewrite <- csum_scale. apply csum_ext. intros (e, up) _. cbn [fst snd]. unfold face_flux.
  destruct (at_boundary g b e up x) eqn:AB.
  - rewrite (csum_ext _ (fun _ => 0%Qc) cells) by (intros y HY; rewrite (boundary_untouched e up x y HX HY AB); ring). rewrite csum_zero.
    destruct (ab e); [ring|]. unfold Qcdiv. ring.
  - rewrite csum_filter, Qcmult_0_r, Qcplus_0_r, <- csum_scale. apply csum_ext. intros y HY. destruct (touches _ _ _ _ _ _); [|ring]. unfold conductance, Qcdiv. ring.
Qed.

(** ** The cells fill the domain *)
Lemma csum_pick {Y} (f : Y -> Qc) l y : NoDup l -> In y l -> (forall x, In x l -> x <> y -> f x = 0%Qc) -> csum (map f l) = f y.
Proof.
  induction l as [|z l IH]; intros N I H; [destruct I|]. apply NoDup_cons_iff in N. destruct N as (N1 & N2). cbn [map csum fold_right]. fold (csum (map f l)).
  destruct I as [->|I].
  - rewrite (csum_ext f (fun _ => 0%Qc) l), csum_zero; [ring|]. intros x J. apply H; [right; exact J|]. intros ->. contradiction.
  - rewrite (H z); [|left; reflexivity|intros ->; contradiction]. rewrite (IH N2 I); [ring|]. intros x J. apply H. right. exact J.
Qed.
Lemma cell_at_point P : (forall a, 0 <= P a < N (lmax g) a) -> exists y, In y cells /\ box y P.
Proof.
  intros H.
  assert (DOM : in_dom g (mkPt (P AX / b AX) (P AY / b AY) (P AZ / b AZ))).
  { intros a. pose proof (b_pos g b BO a) as B. pose proof (H a) as K. unfold ncells in K.
    assert (0 <= P a / b a < ncell g a (lmax g)) by (split; [apply Z.div_pos; lia|apply Z.div_lt_upper_bound; lia]). destruct a; assumption. }
  destruct (tiles_leaf g _ _ (ok_tiles g M OK) DOM) as (A & HA & CV).
  assert (CV' : forall a, P a / b a / 2 ^ (lmax g - lev A) = coord A a) by (intros a; rewrite <- (CV a); destruct a; reflexivity).
  pose proof (leaf_valid g M OK A HA) as (LA & _). pose proof (w_pos g D3 (lev A) ltac:(lia)) as W. set (ww := 2 ^ (lmax g - lev A)) in *.
  set (q := fun a => P a / ww - coord A a * b a).
  assert (IQ : in_block b q).
  { intros a. unfold q. rewrite <- (CV' a). pose proof (b_pos g b BO a) as B. rewrite Z.div_div by lia. rewrite (Z.mul_comm (b a) ww). rewrite <- Z.div_div by lia.
    pose proof (Z.div_mod (P a / ww) (b a) ltac:(lia)). pose proof (Z.mod_pos_bound (P a / ww) (b a) ltac:(lia)). lia. }
  exists (cell_of b A q). split; [apply cells_in; exists A, q; auto|].
  intros a. unfold lower, upper, cell_of. rewrite coord_oct_of. cbn [oct_of lev]. unfold gpos, q. fold ww.
  replace (coord A a * b a + (P a / ww - coord A a * b a)) with (P a / ww) by ring. pose proof (Z.div_mod (P a) ww ltac:(lia)). pose proof (Z.mod_pos_bound (P a) ww W). lia.
Qed.

(** ** Connectedness *)
Definition low_sum (x : oct) : Z := lower g x AX + lower g x AY + lower g x AZ.
Lemma step_down x e : In x cells -> 0 < lower g x e -> exists y, In y cells /\ touches g b e false x y = true /\ low_sum y < low_sum x.
Proof.
  intros HX L. pose proof (fun a => fine_range g D3 b x a (cells_inside g M OK b BO x HX)) as FX.
  set (P := fun a => if axis_eqb a e then lower g x e - 1 else lower g x a).
  assert (EE : axis_eqb e e = true) by (apply axis_eqb_spec; reflexivity).
  assert (NE : forall a, a <> e -> axis_eqb a e = false) by (intros a Ha; destruct (axis_eqb a e) eqn:E; [apply axis_eqb_spec in E; congruence|reflexivity]).
  assert (PE : P e = lower g x e - 1) by (unfold P; rewrite EE; reflexivity).
  assert (PO : forall a, a <> e -> P a = lower g x a) by (intros a Ha; unfold P; rewrite NE by exact Ha; reflexivity).
  destruct (cell_at_point P) as (y & HY & BY).
  { intros a. specialize (FX a). destruct (axis_case a e) as [->|Ha]; [rewrite PE|rewrite PO by exact Ha]; lia. }
  exists y. split; [exact HY|].
  assert (UP : upper g y e = lower g x e).
  { pose proof (BY e) as BE. rewrite PE in BE. destruct (Z.eq_dec (upper g y e) (lower g x e)) as [E|E]; [exact E|]. exfalso.
    assert (y = x) as ->; [|lia].
    apply (box_unique g D3 M OK b BO y x (fun a => lower g x a) HY HX).
    - intros a. destruct (axis_case a e) as [->|Ha]; [lia|]. rewrite <- (PO a Ha). apply BY.
    - intros a. specialize (FX a). lia. }
  split.
  - unfold touches, same_plane. rewrite UP, Z.eqb_refl. cbn [orb andb]. apply others_spec. intros a Ha. apply overlaps_spec. pose proof (BY a) as K. rewrite (PO a Ha) in K. specialize (FX a). lia.
  - unfold low_sum. assert (K : forall a, lower g y a <= lower g x a) by (intros a; pose proof (BY a) as K; destruct (axis_case a e) as [->|Ha]; [rewrite PE in K|rewrite (PO a Ha) in K]; lia).
    pose proof (BY e) as BE. rewrite PE in BE. pose proof (K AX). pose proof (K AY). pose proof (K AZ). destruct e; lia.
Qed.
Lemma connected (u : oct -> Qc) : (forall e up x y, In x cells -> In y cells -> touches g b e up x y = true -> u x = u y) -> forall x y, In x cells -> In y cells -> u x = u y.
Proof.
  intros H.
  assert (G : forall n x, In x cells -> low_sum x < Z.of_nat n -> exists o, In o cells /\ (forall a, lower g o a = 0) /\ u x = u o).
  { induction n as [|n IH]; intros x HX LT.
    - exfalso. pose proof (fun a => fine_range g D3 b x a (cells_inside g M OK b BO x HX)) as F. pose proof (F AX). pose proof (F AY). pose proof (F AZ). unfold low_sum in LT. lia.
    - pose proof (fun a => fine_range g D3 b x a (cells_inside g M OK b BO x HX)) as F.
      assert (D : (exists e, 0 < lower g x e) \/ forall a, lower g x a = 0).
      { pose proof (F AX). pose proof (F AY). pose proof (F AZ).
        destruct (Z.eq_dec (lower g x AX) 0); [|left; exists AX; lia]. destruct (Z.eq_dec (lower g x AY) 0); [|left; exists AY; lia].
        destruct (Z.eq_dec (lower g x AZ) 0); [|left; exists AZ; lia]. right. intros []; assumption. }
      destruct D as [(e & L)|Z0]; [|exists x; auto].
      destruct (step_down x e HX L) as (y & HY & T & LS). destruct (IH y HY ltac:(lia)) as (o & O1 & O2 & O3). exists o. split; [exact O1|]. split; [exact O2|].
      rewrite (H e false x y HX HY T). exact O3. }
  intros x y HX HY.
  destruct (G (Z.to_nat (low_sum x + 1)) x HX ltac:(lia)) as (o & O1 & O2 & ->).
  destruct (G (Z.to_nat (low_sum y + 1)) y HY ltac:(lia)) as (o' & O1' & O2' & ->).
  f_equal. apply (box_unique g D3 M OK b BO o o' (fun _ => 0) O1 O1').
  - intros a. rewrite O2. pose proof (fine_range g D3 b o a (cells_inside g M OK b BO o O1)). rewrite O2 in H0. lia.
  - intros a. rewrite O2'. pose proof (fine_range g D3 b o' a (cells_inside g M OK b BO o' O1')). rewrite O2' in H0. lia.
Qed.
Lemma null_constant u : dot cells u (gop cells weight outer u) = 0%Qc -> forall x y, In x cells -> In y cells -> u x = u y.
Proof.
  intros H. apply connected. intros e up x y HX HY T.
  apply (gop_null cells weight outer (fun x y _ _ => weight_sym x y) weight_nonneg outer_nonneg u H x y HX HY (weight_nz e up x y HX HY T)).
Qed.

(** ** The volumes of the cells add up to the volume of the domain *)
Lemma csum_flat {Y Z'} (f : Z' -> Qc) (h : Y -> list Z') l : csum (map f (flat_map h l)) = csum (map (fun y => csum (map f (h y))) l).
Proof. induction l as [|y l IH]; [reflexivity|]. cbn [flat_map map csum fold_right]. rewrite map_app, csum_app, IH. reflexivity. Qed.
Lemma csum_positions n (f : axis -> Z -> Qc) :
  csum (map (fun P => f AX (P AX) * f AY (P AY) * f AZ (P AZ))%Qc (positions n)) =
  (csum (map (f AX) (zrange 0 (n AX))) * csum (map (f AY) (zrange 0 (n AY))) * csum (map (f AZ) (zrange 0 (n AZ))))%Qc.
Proof.
  unfold positions. rewrite csum_flat.
  rewrite (csum_ext _ (fun z => (csum (map (f AX) (zrange 0 (n AX))) * csum (map (f AY) (zrange 0 (n AY))) * f AZ z)%Qc)); [rewrite csum_scale; reflexivity|].
  intros z _. rewrite csum_flat. rewrite (csum_ext _ (fun y => (csum (map (f AX) (zrange 0 (n AX))) * f AZ z * f AY y)%Qc)); [rewrite csum_scale; ring|].
  intros y _. rewrite map_map. cbn [mkoff]. rewrite (csum_ext _ (fun x => (f AY y * f AZ z * f AX x)%Qc)); [rewrite csum_scale; ring|]. intros; ring.
Qed.
Lemma csum_interval n lo hi : 0 <= lo <= hi -> hi <= n -> csum (map (fun p => if (lo <=? p) && (p <? hi) then 1%Qc else 0%Qc) (zrange 0 n)) = zq (hi - lo).
Proof.
  intros H1 H2.
  assert (G : forall k, 0 <= k -> csum (map (fun p => if (lo <=? p) && (p <? hi) then 1%Qc else 0%Qc) (zrange 0 k)) = zq (Z.max 0 (Z.min k hi - lo))).
  { intros k Hk. replace k with (Z.of_nat (Z.to_nat k)) by lia. generalize (Z.to_nat k). clear k Hk. induction n0 as [|m IH].
    - cbn. replace (Z.max 0 (Z.min 0 hi - lo)) with 0 by lia. symmetry. exact zq_0.
    - unfold zrange in *. replace (Z.to_nat (Z.of_nat (S m) - 0)) with (S m) by lia. replace (Z.to_nat (Z.of_nat m - 0)) with m in IH by lia.
      rewrite seq_S, !map_app, csum_app, IH. cbn [map csum fold_right Nat.add]. replace (0 + Z.of_nat m) with (Z.of_nat m) by lia.
      rewrite Qcplus_0_r. destruct ((lo <=? Z.of_nat m) && (Z.of_nat m <? hi)) eqn:E.
      + replace (Z.max 0 (Z.min (Z.of_nat (S m)) hi - lo)) with (Z.max 0 (Z.min (Z.of_nat m) hi - lo) + 1) by lia. rewrite zq_plus, zq_1. reflexivity.
      + rewrite Qcplus_0_r. f_equal. lia. }
  rewrite G by lia. f_equal. lia.
Qed.
Definition inb (x : oct) (a : axis) (p : Z) : Qc := if (lower g x a <=? p) && (p <? upper g x a) then 1%Qc else 0%Qc.
Lemma inb_one x P : box x P -> (inb x AX (P AX) * inb x AY (P AY) * inb x AZ (P AZ))%Qc = 1%Qc.
Proof.
  intros H. assert (K : forall a, inb x a (P a) = 1%Qc) by (intros a; specialize (H a); unfold inb; replace (_ && _) with true by lia; reflexivity). rewrite !K. ring.
Qed.
Lemma inb_zero x P : ~ box x P -> (inb x AX (P AX) * inb x AY (P AY) * inb x AZ (P AZ))%Qc = 0%Qc.
Proof.
  intros H. assert (K : forall a, inb x a (P a) = 0%Qc \/ lower g x a <= P a < upper g x a).
  { intros a. unfold inb. destruct ((lower g x a <=? P a) && (P a <? upper g x a)) eqn:E; [right; lia|left; reflexivity]. }
  destruct (K AX) as [->|KX]; [ring|]. destruct (K AY) as [->|KY]; [ring|]. destruct (K AZ) as [->|KZ]; [ring|]. exfalso. apply H. intros []; assumption.
Qed.
Lemma box_dec x P : {box x P} + {~ box x P}.
Proof.
  destruct (forallb (fun a => (lower g x a <=? P a) && (P a <? upper g x a)) [AX; AY; AZ]) eqn:E.
  - left. cbn [forallb] in E. intros []; lia.
  - right. intros H. assert (K : forallb (fun a => (lower g x a <=? P a) && (P a <? upper g x a)) [AX; AY; AZ] = true); [|congruence].
    cbn [forallb]. pose proof (H AX). pose proof (H AY). pose proof (H AZ). lia.
Qed.
Theorem volumes_total : csum (map (volume g b ext) cells) = (ext AX * ext AY * ext AZ)%Qc.
Proof.
  pose proof WF as WF'. assert (LM : lmin g <= lmax g).
  { destruct (cell_at_point (fun _ => 0)) as (y & HY & _).
    - intros a. split; [lia|]. unfold ncells. pose proof (b_pos g b BO a). enough (0 < ncell g a (lmax g)) by nia. apply (ncell_pos g WF). apply WF.
    - pose proof (cell_lev g M OK b y HY). lia. }
  set (vf := (ext AX / zq (N (lmax g) AX) * (ext AY / zq (N (lmax g) AY)) * (ext AZ / zq (N (lmax g) AZ)))%Qc).
  assert (NZ : forall a, zq (N (lmax g) a) <> 0%Qc) by (intros a; apply Qc_pos_nz, (zqn g WF b BO), LM).
  rewrite (csum_ext _ (fun x => (vf * csum (map (fun P => inb x AX (P AX) * inb x AY (P AY) * inb x AZ (P AZ)) (positions (N (lmax g)))))%Qc)).
  - rewrite csum_scale, csum_swap.
    rewrite (csum_ext _ (fun P : axis -> Z => (1 * 1 * 1)%Qc)).
    + rewrite (csum_positions (N (lmax g)) (fun _ _ => 1%Qc)).
      assert (K : forall a, csum (map (fun _ : Z => 1%Qc) (zrange 0 (N (lmax g) a))) = zq (N (lmax g) a)).
      { intros a. pose proof (N_pos g WF b BO (lmax g) a LM) as P. rewrite <- (Z.sub_0_r (N (lmax g) a)) at 2. rewrite <- (csum_interval (N (lmax g) a) 0 (N (lmax g) a)) by lia.
        apply csum_ext. intros p Hp. apply in_zrange in Hp. replace (_ && _) with true by lia. reflexivity. }
      rewrite !K. unfold vf. field. repeat split; apply NZ.
    + intros P HP. apply positions_in in HP. destruct (cell_at_point P HP) as (y & HY & BY).
      rewrite (csum_pick (fun x => (inb x AX (P AX) * inb x AY (P AY) * inb x AZ (P AZ))%Qc) cells y (cells_NoDup g M OK b BO) HY).
      * rewrite (inb_one y P BY). ring.
      * intros x HX NE. apply inb_zero. intros BX. apply NE. apply (box_unique g D3 M OK b BO x y P HX HY BX BY).
  - intros x HX. rewrite (csum_positions (N (lmax g)) (inb x)). pose proof (cell_lev g M OK b x HX) as LX.
    assert (K : forall a, csum (map (inb x a) (zrange 0 (N (lmax g) a))) = zq (2 ^ (lmax g - lev x))).
    { intros a. pose proof (fine_range g D3 b x a (cells_inside g M OK b BO x HX)) as F. unfold inb. rewrite csum_interval by lia. f_equal. unfold upper, lower. ring. }
    rewrite !K, (volume_side g b ext). unfold GravitySpec.side. fold (zq (N (lev x) AX)) (zq (N (lev x) AY)) (zq (N (lev x) AZ)). unfold vf.
    rewrite !(N_fine g D3 b (lev x)) by exact LX. rewrite !zq_mult. pose proof (w_pos g D3 (lev x) ltac:(lia)) as W.
    pose proof (Qc_pos_nz _ (zq_pos _ W)). pose proof (fun a => Qc_pos_nz _ (zqn g WF b BO (lev x) a ltac:(lia))) as NZ'. field. repeat split; auto.
Qed.
End Lap.
