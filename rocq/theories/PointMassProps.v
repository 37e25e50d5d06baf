(** Gravity fields given by a formula (C96). *)
From Coq Require Import QArith Qcanon Qround Permutation Lqa Znumtheory.
From Verif Require Import Base OctreeSpec OctreeGeom OctreeModel FindNeighbors MeshSpec HistorySpec
  LookupModel CellModel CellSpec CellProofs CellProps RemapModel RemapSpec RemapProofs RemapProps HydroModel HydroSpec HydroProps
  ConserveSpec BlockGhost ConserveFaces ConserveProofs OctreeProps HistoryProofs LookupProps SchemeSpec ConserveProps SchemeProps ParticleModel ParticleProofs
  GravitySpec GravityModel GravityProofs GravityLoop CloudProofs RKModel RKSpec RKProofs RKProps ParabolicModel ParabolicSpec ParabolicProofs ParabolicRun ParabolicProps CloudProps PointMassModel.
Open Scope Z_scope.

(** A square root: exact on squares. *)
Definition square_root (root : Qc -> Qc) : Prop := forall q, (0 <= q)%Qc -> root (q * q)%Qc = q.
(** A formula depends on the coordinates of the position only (and, here, not on the size). *)
Definition at_position (f : (axis -> Qc) -> (axis -> Qc) -> axis -> Qc) : Prop := forall p p' s s' a, (forall a, p a = p' a) -> f p s a = f p' s' a.
Definition gravity_run (g : geom) (n : nat) (M : mesh) (b : axis -> Z) (lo hi : axis -> Qc) : Prop :=
  good_setup g n /\ reachable g n M /\ block_ok g b /\ (forall a, lo a < hi a)%Qc.
(** Square of the distance between two points of the simulation. *)
Definition squared (g : geom) (c p : axis -> Qc) : Qc := csum (map (fun a => (p a - c a) * (p a - c a))%Qc (axes_of g)).
(** Attraction at [p] by a mass at [c], softened, where [d] is the softened distance. *)
Definition softened (g : geom) (c p : axis -> Qc) (softening d : Qc) : Prop := (0 < d)%Qc /\ (d * d = squared g c p + softening * softening)%Qc.
Definition attraction (Gmass : Qc) (c p : axis -> Qc) (d : Qc) (a : axis) : Qc := (- (Gmass / (d * d * d)) * (p a - c a))%Qc.

(** Every process writes for each of its cells the value of the formula at the centre; the third
    component only in three dimensions. *)
Theorem C96_formula g n M b lo hi formula :
  gravity_run g n M b lo hi -> at_position formula ->
  exists out, field_update g b lo hi formula M = Some out /\
    Forall2 (fun R l => Forall2 (fun x w => forall a s, w a = if flat g a then None else Some (formula (middle g b lo (extent lo hi) x) s a)) (all_cells b (loc R)) l) M out.
Proof.
  intros (GS & RC & BO & EXT) PX. pose proof (proj1 GS) as WF. pose proof (reachable_ok g n M GS RC) as OK.
  apply mapM_rel. intros R HR. destruct (In_nth_error _ _ HR) as (r & HN). apply kernel_rel. intros i A q HA IQ.
  destruct (center_self g WF M OK b BO 0%Qc lo hi EXT (fun _ => None) (fun _ _ => false) (fun f _ _ _ _ _ => f) r R HN i A HA q) as (pos & EP & HP).
  unfold field_cell. cbn [c_oct c_blk]. rewrite (A_st R i A HA).
  assert (EP' : getCellCenter g (loc R ++ gho R) lo hi (mkCell i q b LOCAL_TO_BLOCK) = Some pos) by exact EP.
  rewrite EP'. eexists. split; [reflexivity|]. intros a s. cbv zeta. unfold flat. destruct a; cbn [negb]; [f_equal; apply PX, HP|f_equal; apply PX, HP|].
  destruct (g3d g); cbn [negb]; [f_equal; apply PX, HP|reflexivity].
Qed.
Lemma point_mass_position root c G e : at_position (point_mass root c G e).
Proof. intros p p' s s' a H. unfold point_mass. rewrite !H. reflexivity. Qed.

(** The attraction of the point mass, for the meshes and masses that [ok] accepts: at every cell
    whose softened distance [d] is a number of the model. *)
Definition attracts (ok : geom -> (axis -> Qc) -> Prop) : Prop := forall g n M b lo hi root c Gmass softening out R l x w d a,
  gravity_run g n M b lo hi -> square_root root -> ok g c ->
  field_update g b lo hi (point_mass root c Gmass softening) M = Some out -> In (R, l) (combine M out) -> In (x, w) (combine (all_cells b (loc R)) l) ->
  softened g c (middle g b lo (extent lo hi) x) softening d -> flat g a = false ->
  w a = Some (attraction Gmass c (middle g b lo (extent lo hi) x) d a).
Lemma Forall2_combine {X Y} (P : X -> Y -> Prop) l m x y : Forall2 P l m -> In (x, y) (combine l m) -> P x y.
Proof. induction 1 as [|a c l m H F IH]; intros J; [destruct J|]. destruct J as [J|J]; [injection J as <- <-; exact H|exact (IH J)]. Qed.

(** Three dimensions, or a mass in the plane of the simulation. *)
Theorem C96_attraction_partial : attracts (fun g c => g3d g = true \/ c AZ = 0%Qc).
Proof.
  intros g n M b lo hi root c Gmass softening out R l x w d a GR SR OKC EU HR HX (DP & DD) FA.
  destruct (C96_formula g n M b lo hi (point_mass root c Gmass softening) GR (point_mass_position _ _ _ _)) as (out' & E' & F). rewrite EU in E'. injection E' as <-.
  pose proof (Forall2_combine _ _ _ _ _ F HR) as FR. pose proof (Forall2_combine _ _ _ _ _ FR HX) as W. cbv beta in W. rewrite (W a (fun _ => 0%Qc)), FA. f_equal.
  set (p := middle g b lo (extent lo hi) x) in *. unfold point_mass, attraction.
  assert (R2 : ((p AX - c AX) * (p AX - c AX) + (p AY - c AY) * (p AY - c AY) + (p AZ - c AZ) * (p AZ - c AZ) + softening * softening)%Qc = (d * d)%Qc).
  { rewrite DD. unfold squared, axes_of. destruct (g3d g) eqn:E3; cbn [map csum fold_right]; [ring|].
    destruct OKC as [K|K]; [discriminate K|]. assert (PZ : p AZ = 0%Qc) by (unfold p, middle, flat; rewrite E3; reflexivity). rewrite PZ, K. ring. }
  rewrite R2, (SR d (Qclt_le_weak _ _ DP)). field. apply Qc_pos_nz, DP.
Qed.

(** * Cases *)
(** A square root on rational numbers. *)
Definition fraction_root (q : Qc) : Qc := Q2Qc (Z.sqrt (Qnum q) # Pos.sqrt (Qden q)).
Lemma fraction_root_ok : square_root fraction_root.
Proof.
  intros q HQ. destruct q as [q C]. unfold fraction_root. apply Qc_is_canon. cbn [Q2Qc this Qcmult]. rewrite Qred_correct.
  assert (CN : Z.gcd (Qnum q) (QDen q) = 1) by (apply Qred_iff, C).
  assert (CS : Qred (q * q) = (q * q)%Q).
  { apply Qred_iff. cbn [Qmult Qnum Qden]. rewrite Pos2Z.inj_mul. apply Zgcd_1_rel_prime in CN. apply Zgcd_1_rel_prime.
    apply rel_prime_mult; apply rel_prime_sym; apply rel_prime_mult; apply rel_prime_sym; exact CN. }
  unfold Qcmult. cbn [this Q2Qc]. rewrite CS. cbn [Qmult Qnum Qden].
  assert (N : 0 <= Qnum q) by (unfold Qcle in HQ; cbn [this Q2Qc] in HQ; unfold Qle in HQ; cbn [Qnum Qden Qred] in HQ; cbn in HQ; lia).
  rewrite Z.sqrt_square by exact N. assert (D : Pos.sqrt (Qden q * Qden q) = Qden q) by (apply Pos2Z.inj; exact (Z.sqrt_square (Zpos (Qden q)) (Pos2Z.is_nonneg _))).
  rewrite D. destruct q; reflexivity.
Qed.
Lemma Forall2_partner {X Y} (P : X -> Y -> Prop) l m x : Forall2 P l m -> In x l -> exists y, In (x, y) (combine l m).
Proof. induction 1 as [|a c l m H F IH]; intros J; [destruct J|]. destruct J as [<- | J]; [exists c; left; reflexivity|]. destruct (IH J) as (y & K). exists y. right. exact K. Qed.
Example pm_run : gravity_run cs_g 2 cs_M cs_b box_lo box_hi.
Proof. split; [exact cs_setup|]. split; [exact cs_reach|]. split; [exact cs_block|exact pt_unit]. Qed.
Lemma in_cell_list b L A q x : In A L -> in_block b q -> x = cell_of b A q -> In x (all_cells b L).
Proof.
  intros HA IP ->. unfold all_cells. apply in_flat_map. exists A. split; [exact HA|]. destruct (positions_all b q IP) as (q' & HP & EP). apply in_map_iff. exists q'. split; [|exact HP].
  unfold cell_of, oct_of, gpos. rewrite !EP. reflexivity.
Qed.
Definition pm_cell : oct := cell_of cs_b (mkOct 1 1 0 0) (mkoff 0 3 0).
Lemma pm_in : In pm_cell (all_cells cs_b (loc pl_R)).
Proof. apply in_cell_list with (A := mkOct 1 1 0 0) (q := mkoff 0 3 0); [exact (nth_error_In _ _ pl_at)|exact pl_inblock|reflexivity]. Qed.
Lemma pm_middle a : middle cs_g cs_b box_lo (extent box_lo box_hi) pm_cell a = pt 9 7 0 a.
Proof. apply Qc_is_canon. destruct a; vm_compute; reflexivity. Qed.
(** The writes for that cell, for any mass. *)
Lemma pm_written c Gmass : exists out l w, field_update cs_g cs_b box_lo box_hi (point_mass fraction_root c Gmass 0) cs_M = Some out /\
  In (pl_R, l) (combine cs_M out) /\ In (pm_cell, w) (combine (all_cells cs_b (loc pl_R)) l) /\ w AX = Some (point_mass fraction_root c Gmass 0 (pt 9 7 0) (pt 0 0 0) AX) /\ w AZ = None.
Proof.
  destruct (C96_formula cs_g 2 cs_M cs_b box_lo box_hi (point_mass fraction_root c Gmass 0) pm_run (point_mass_position _ _ _ _)) as (out & E & F).
  destruct (Forall2_partner _ _ _ _ F pl_in) as (l & HL). pose proof (Forall2_combine _ _ _ _ _ F HL) as FL. cbv beta in FL.
  destruct (Forall2_partner _ _ _ _ FL pm_in) as (w & HW). pose proof (Forall2_combine _ _ _ _ _ FL HW) as W. cbv beta in W.
  exists out, l, w. split; [exact E|]. split; [exact HL|]. split; [exact HW|]. split.
  - rewrite (W AX (pt 0 0 0)). change (flat cs_g AX) with false. cbv iota. exact (f_equal Some (point_mass_position fraction_root c Gmass 0%Qc _ _ (pt 0 0 0) (pt 0 0 0) AX pm_middle)).
  - rewrite (W AZ (pt 0 0 0)). reflexivity.
Qed.
Lemma pm_softened z : softened cs_g (pt 3 7 z) (middle cs_g cs_b box_lo (extent box_lo box_hi) pm_cell) 0 (frac 3 8).
Proof.
  split; [reflexivity|]. unfold squared. cbn [axes_of cs_g g3d map]. rewrite !pm_middle. apply Qc_is_canon. vm_compute. reflexivity.
Qed.
Lemma pm_plane : pt 3 7 0 AZ = 0%Qc. Proof. apply Qc_is_canon. reflexivity. Qed.
(** A mass 3/8 to the left, in the plane: attraction 1 / (3/8)^2 = 64/9. *)
Example C96_example : exists out l w, field_update cs_g cs_b box_lo box_hi (point_mass fraction_root (pt 3 7 0) 1 0) cs_M = Some out /\
  In (pl_R, l) (combine cs_M out) /\ In (pm_cell, w) (combine (all_cells cs_b (loc pl_R)) l) /\ w AX = Some (- frac 64 9)%Qc /\ w AZ = None.
Proof.
  destruct (pm_written (pt 3 7 0) 1%Qc) as (out & l & w & E & HL & HW & _ & WZ). exists out, l, w. split; [exact E|]. split; [exact HL|]. split; [exact HW|]. split; [|exact WZ].
  rewrite (C96_attraction_partial cs_g 2%nat cs_M cs_b box_lo box_hi fraction_root (pt 3 7 0) 1%Qc 0%Qc out pl_R l pm_cell w (frac 3 8) AX pm_run fraction_root_ok (or_intror pm_plane) E HL HW (pm_softened 0) eq_refl).
  f_equal. unfold attraction. rewrite pm_middle. apply Qc_is_canon. vm_compute. reflexivity.
Qed.
(** In two dimensions the default height 1/2 of the mass counts as distance: 1 * 3/8 / (5/8)^3
    instead of 1 / (3/8)^2. *)
Theorem C96_refuted_plane : ~ attracts (fun _ _ => True).
Proof.
  intros H. destruct (pm_written (pt 3 7 8) 1%Qc) as (out & l & w & E & HL & HW & WX & _).
  pose proof (H cs_g 2%nat cs_M cs_b box_lo box_hi fraction_root (pt 3 7 8) 1%Qc 0%Qc out pl_R l pm_cell w (frac 3 8) AX pm_run fraction_root_ok I E HL HW (pm_softened 8) eq_refl) as K.
  rewrite WX in K. assert (J : forall u v : Qc, Some u = Some v -> Qeq_bool u v = true) by (intros u v U; injection U as ->; apply Qeq_bool_iff; reflexivity).
  apply J in K. unfold attraction in K. rewrite pm_middle in K. vm_compute in K. discriminate K.
Qed.

Print Assumptions C96_formula.
Print Assumptions C96_attraction_partial.
Print Assumptions C96_refuted_plane.
