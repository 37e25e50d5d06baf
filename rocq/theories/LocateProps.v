(** C74: the cell at a position. *)
From Coq Require Import QArith Qround Qcanon.
From Verif Require Import Base OctreeSpec OctreeGeom OctreeModel FindNeighbors MeshSpec GhostExchange LookupModel LookupSpec LookupProps
  CellModel CellSpec CellProofs CellProps RemapModel RemapSpec RemapProofs HydroModel HydroSpec HydroProps ConserveSpec BlockGhost ConserveProofs
  ParticleSpec ParticleModel ParticleProofs ParticleProps CloudProofs CloudProps HistorySpec HistoryProofs OctreeProps ConserveProps.
Open Scope Z_scope.

(** Every position inside the box is in exactly one cell of the mesh. The rank that owns the
    octant of this cell finds it, and no other rank finds any cell. *)
Theorem C74_cell g P M b lo hi p : good_setup g P -> reachable g P M -> block_ok g b -> (forall a, (lo a < hi a)%Qc) -> in_box g lo hi p ->
  exists A q, In A (leaves M) /\ in_block b q /\ in_cell g b lo hi A q p /\
    (forall B q', In B (leaves M) -> in_block b q' -> in_cell g b lo hi B q' p -> B = A /\ forall a, q' a = q a) /\
    forall R, In R M ->
      (forall i, nth_error (loc R) i = Some A -> exists c, getCellFromPos g (loc R ++ gho R) (length (loc R)) b lo hi p = Some c /\
         c_oct c = i /\ c_blk c = b /\ is_valid c = true /\ forall a, c_pos c a = q a) /\
      (~ In A (loc R) -> getCellFromPos g (loc R ++ gho R) (length (loc R)) b lo hi p = None).
Proof.
  intros S RE BO LH IP. pose proof (proj1 S) as WF. pose proof (reachable_ok g P M S RE) as OK.
  assert (EX : exists A, In A (leaves M) /\ contains g A (fun a => this (x01 lo hi p a)) /\ forall B, In B (leaves M) -> contains g B (fun a => this (x01 lo hi p a)) -> B = A).
  { pose proof (reachable_ranks g P M S RE) as E. destruct M as [|R0 M0]; [exfalso; destruct S as (_ & _ & PP & _); cbn [length] in E; lia|].
    destruct (C18_location g (R0 :: M0) R0 _ WF OK (or_introl eq_refl) (inside01 g lo hi p LH IP)) as (A & LA & CA & UN & _). exists A. auto. }
  destruct EX as (A & LA & CA & UN). pose proof (leaf_ok g M OK A LA) as VA.
  assert (QA : forall a, exists z, 0 <= z < b a /\ (zq (coord A a * b a + z) <= x01 lo hi p a * zq (ncells g b (lev A) a))%Qc /\ (x01 lo hi p a * zq (ncells g b (lev A) a) < zq (coord A a * b a + z + 1))%Qc).
  { intros a. destruct (index_axis g WF b BO lo hi p LH IP A a VA CA) as (z & _ & H). exists z. exact H. }
  destruct (QA AX) as (x & X1 & X2). destruct (QA AY) as (y & Y1 & Y2). destruct (QA AZ) as (z & Z1 & Z2).
  assert (IB : in_block b (mkoff x y z)) by (intros []; assumption).
  assert (IC : in_cell g b lo hi A (mkoff x y z) p).
  { rewrite (in_cell_iff g WF b BO lo hi p LH) by apply VA. intros []; assumption. }
  exists A, (mkoff x y z). split; [exact LA|]. split; [exact IB|]. split; [exact IC|].
  assert (UC : forall B q', In B (leaves M) -> in_block b q' -> in_cell g b lo hi B q' p -> B = A /\ forall a, q' a = mkoff x y z a).
  { intros B q' HB IB' IC'. assert (B = A) as -> by (apply UN; [exact HB|]; apply (cell_contains g WF b BO lo hi p LH B q'); [apply (leaf_ok g M OK B HB)|exact IB'|exact IC']).
    split; [reflexivity|]. rewrite (in_cell_iff g WF b BO lo hi p LH) in IC, IC' by apply VA. intros a. destruct (IC a) as (I1 & I2). destruct (IC' a) as (J1 & J2). unfold gpos in *.
    assert (coord A a * b a + q' a < coord A a * b a + mkoff x y z a + 1) by (apply (proj2 (zq_lt _ _)); eapply Qcle_lt_trans; [exact J1|exact I2]).
    assert (coord A a * b a + mkoff x y z a < coord A a * b a + q' a + 1) by (apply (proj2 (zq_lt _ _)); eapply Qcle_lt_trans; [exact I1|exact J2]). lia. }
  split; [exact UC|]. intros R HR. split.
  - intros i HA. destruct (cell_found g WF M OK b BO lo hi p LH IP R HR i A _ HA IB IC) as (c & E & C1 & C2 & C3 & C4).
    exists c. split; [exact E|]. split; [exact C1|]. split; [exact C2|]. split; [unfold is_valid; rewrite C3; reflexivity|exact C4].
  - intros NI. destruct (getCellFromPos g (loc R ++ gho R) (length (loc R)) b lo hi p) as [c|] eqn:E; [|reflexivity]. exfalso.
    destruct (found_cell g WF M OK b BO lo hi p LH IP R HR c E) as (A' & N & _ & _ & IB' & IC').
    assert (HA' : In A' (loc R)) by (eapply nth_error_In, N).
    destruct (UC A' (c_pos c)) as (-> & _); [|exact IB'|exact IC'|exact (NI HA')].
    apply (leaves_st g M OK R HR), in_app_iff. left. exact HA'.
Qed.
Print Assumptions C74_cell.

(** The centre of a cell is where the mesh places it, and the cell at that position is the cell
    itself. In two dimensions the third coordinate of the centre is 0, so the box must start there
    ([C74_refuted_plane]). *)
Theorem C74_centre g P M b lo hi R i A q : good_setup g P -> reachable g P M -> block_ok g b -> (forall a, (lo a < hi a)%Qc) ->
  (forall a, flat g a = true -> lo a = 0%Qc) -> In R M -> nth_error (loc R) i = Some A -> in_block b q ->
  exists x, getCellCenter g (loc R ++ gho R) lo hi (mkCell i q b LOCAL_TO_BLOCK) = Some x /\
    (forall a, flat g a = false -> x a = centre g b lo hi A q a) /\ in_cell g b lo hi A q x /\
    exists c, getCellFromPos g (loc R ++ gho R) (length (loc R)) b lo hi x = Some c /\ c_oct c = i /\ forall a, c_pos c a = q a.
Proof.
  intros S RE BO LH FL HR HA IQ. pose proof (proj1 S) as WF. pose proof (reachable_ok g P M S RE) as OK.
  unfold getCellCenter. cbn [c_oct c_blk c_pos]. rewrite (HA' g WF M OK R HR i A HA). eexists. split; [reflexivity|].
  match goal with |- context [in_cell g b lo hi A q ?f] => set (x := f) end.
  assert (XC : forall a, flat g a = false -> x a = centre g b lo hi A q a) by (intros a F; unfold x; rewrite F; apply (center_eq_at g WF M OK b BO R HR i A HA q lo hi LH a F)).
  split; [exact XC|].
  pose proof (VA g WF M OK R HR i A HA) as VAA.
  assert (LP : forall a, (0 < len g b lo hi (lev A) a / two)%Qc).
  { intros a. apply Qcdiv_lt_0; [|reflexivity]. apply Qcdiv_lt_0; [apply ext_pos, LH|apply zq_pos, (N_pos g WF b BO (lev A) a), VAA]. }
  assert (LC : forall a z k, grid_line g b lo hi (lev A) a (2 * (gpos b A q a + k) + z) = (centre g b lo hi A q a + (zq (2 * k + z) - 1) * (len g b lo hi (lev A) a / two))%Qc)
    by (intros; apply (line_centre g WF M OK b BO R HR i A HA q lo hi)).
  assert (IC : in_cell g b lo hi A q x).
  { intros a. specialize (LP a). destruct (flat g a) eqn:F.
    - assert (X0 : x a = lo a) by (unfold x; rewrite F; symmetry; apply FL, F). rewrite X0. unfold gpos. rewrite (valid_flat g A a VAA F).
      pose proof (IQ a) as Q. rewrite (proj2 (BO a) F) in Q. assert (q a = 0) as -> by lia. change (2 * (0 * b a + 0)) with 0.
      assert (LL : forall z, grid_line g b lo hi (lev A) a z = (lo a + zq z * (len g b lo hi (lev A) a / two))%Qc) by (intros; apply (line_len g WF M OK b BO R HR i A HA lo hi)).
      rewrite !LL. change (0 + 2) with 2. rewrite zq_0, zq_2. set (k := (len g b lo hi (lev A) a / two)%Qc) in *. clearbody k. split; qlin.
    - rewrite (XC a F). split.
      + replace (2 * gpos b A q a) with (2 * (gpos b A q a + 0) + 0) by lia. rewrite LC. change (2 * 0 + 0) with 0. rewrite zq_0. set (k := (len g b lo hi (lev A) a / two)%Qc) in *. clearbody k. qlin.
      + replace (2 * gpos b A q a + 2) with (2 * (gpos b A q a + 0) + 2) by lia. rewrite LC. change (2 * 0 + 2) with 2. rewrite zq_2. set (k := (len g b lo hi (lev A) a / two)%Qc) in *. clearbody k. qlin. }
  split; [exact IC|].
  assert (IP : in_box g lo hi x).
  { intros a. destruct (flat g a) eqn:F; [unfold x; rewrite F; symmetry; apply FL, F|]. specialize (LP a). pose proof (ext_pos lo hi LH a) as EP.
    rewrite (XC a F). unfold centre. rewrite (line_len g WF M OK b BO R HR i A HA lo hi).
    pose proof (N_pos g WF b BO (lev A) a (proj1 (proj1 VAA))) as NP.
    assert (G0 : 0 <= gpos b A q a < ncells g b (lev A) a) by (unfold gpos, ncells; pose proof (proj2 VAA a); pose proof (IQ a); nia).
    assert (HT : (hi a = lo a + zq (2 * ncells g b (lev A) a) * (len g b lo hi (lev A) a / two))%Qc).
    { unfold len, extent. rewrite zq_mult, zq_2. field. split; [exact two_nz|apply Qc_pos_nz, zq_pos, NP] || (split; [apply Qc_pos_nz, zq_pos, NP|exact two_nz]). }
    set (k := (len g b lo hi (lev A) a / two)%Qc) in *. split.
    - rewrite Qclt_sub. replace (lo a + zq (2 * gpos b A q a + 1) * k - lo a)%Qc with (zq (2 * gpos b A q a + 1) * k)%Qc by ring. apply Qcmult_lt_0; [apply zq_pos; lia|exact LP].
    - rewrite HT at 1. rewrite Qclt_sub. replace (lo a + zq (2 * ncells g b (lev A) a) * k - (lo a + zq (2 * gpos b A q a + 1) * k))%Qc with ((zq (2 * ncells g b (lev A) a) - zq (2 * gpos b A q a + 1)) * k)%Qc by ring.
      apply Qcmult_lt_0; [|exact LP]. rewrite <- Qclt_sub. apply (proj1 (zq_lt _ _)). lia. }
  destruct (cell_found g WF M OK b BO lo hi x LH IP R HR i A q HA IQ IC) as (c & E & C1 & _ & _ & C4). exists c. auto.
Qed.
Print Assumptions C74_centre.

(** * Concrete cases: the meshes of [CloudProps] *)
Lemma local_leaf M R i A : In R M -> nth_error (loc R) i = Some A -> In A (leaves M).
Proof. intros HR HA. unfold leaves. apply in_concat. exists (loc R). split; [apply in_map, HR|eapply nth_error_In, HA]. Qed.
Example C74_example : exists c, getCellFromPos cs_g (loc pl_R ++ gho pl_R) (length (loc pl_R)) cs_b box_lo box_hi (pt 9 7 0) = Some c /\ c_oct c = 4%nat /\ forall a, c_pos c a = mkoff 0 3 0 a.
Proof.
  destruct (C74_cell cs_g 2 cs_M cs_b box_lo box_hi (pt 9 7 0) cs_setup cs_reach cs_block pt_unit pl_box) as (A & q & LA & IB & IC & UN & RK).
  destruct (UN (mkOct 1 1 0 0) (mkoff 0 3 0)) as (EA & EQ); [|exact pl_inblock|exact pl_cell|].
  - exact (local_leaf cs_M pl_R 4 _ pl_in pl_at).
  - subst A. destruct (proj1 (RK pl_R pl_in) 4%nat pl_at) as (c & E & C1 & _ & _ & C4). exists c. split; [exact E|]. split; [exact C1|]. intros a. rewrite C4, EQ. reflexivity.
Qed.
Example C74_centre_example : exists x c, getCellCenter cs_g (loc pl_R ++ gho pl_R) box_lo box_hi (mkCell 4 (mkoff 0 3 0) cs_b LOCAL_TO_BLOCK) = Some x /\
  getCellFromPos cs_g (loc pl_R ++ gho pl_R) (length (loc pl_R)) cs_b box_lo box_hi x = Some c /\ c_oct c = 4%nat.
Proof.
  destruct (C74_centre cs_g 2 cs_M cs_b box_lo box_hi pl_R 4 (mkOct 1 1 0 0) (mkoff 0 3 0) cs_setup cs_reach cs_block pt_unit (fun a _ => eq_refl) pl_in pl_at pl_inblock) as (x & E & _ & _ & c & E' & C1 & _).
  exists x, c. auto.
Qed.
(** A box whose third coordinate starts below 0, in two dimensions: the centre of a cell of the
    second level is taken to be in a cell that the block does not have. *)
Definition neg_lo : point := fun a => match a with AZ => frac (-1) 2 | _ => 0%Qc end.
Definition neg_hi : point := fun a => match a with AZ => frac 1 2 | _ => 1%Qc end.
Definition comes_back (g : geom) (st : list oct) (n : nat) (b : axis -> Z) (lo hi : point) (i : nat) (q : axis -> Z) : bool :=
  match getCellCenter g st lo hi (mkCell i q b LOCAL_TO_BLOCK) with
  | Some x => match getCellFromPos g st n b lo hi x with Some c => c_pos c AZ =? q AZ | None => false end
  | None => false end.
Lemma comes_back_spec g st n b lo hi i q :
  (exists x, getCellCenter g st lo hi (mkCell i q b LOCAL_TO_BLOCK) = Some x /\ exists c, getCellFromPos g st n b lo hi x = Some c /\ forall a, c_pos c a = q a) ->
  comes_back g st n b lo hi i q = true.
Proof. intros (x & E1 & c & E2 & Q). unfold comes_back. rewrite E1, E2, Q. apply Z.eqb_refl. Qed.
Lemma neg_check : comes_back cs_g (loc pl_R ++ gho pl_R) (length (loc pl_R)) cs_b neg_lo neg_hi 0 (mkoff 3 3 0) = false.
Proof. vm_compute. reflexivity. Qed.
Theorem C74_refuted_plane : ~ (forall g P M b lo hi R i A q, good_setup g P -> reachable g P M -> block_ok g b -> (forall a, (lo a < hi a)%Qc) ->
  In R M -> nth_error (loc R) i = Some A -> in_block b q ->
  exists x, getCellCenter g (loc R ++ gho R) lo hi (mkCell i q b LOCAL_TO_BLOCK) = Some x /\
    exists c, getCellFromPos g (loc R ++ gho R) (length (loc R)) b lo hi x = Some c /\ forall a, c_pos c a = q a).
Proof.
  intros H. assert (LH : forall a, (neg_lo a < neg_hi a)%Qc) by (intros []; reflexivity).
  pose proof (comes_back_spec _ _ _ _ _ _ _ _ (H cs_g 2%nat cs_M cs_b neg_lo neg_hi pl_R 0%nat (mkOct 2 0 0 0) (mkoff 3 3 0) cs_setup cs_reach cs_block LH pl_in pl_at2 pl_inblock2)) as T.
  clear H. pose proof (eq_trans (eq_sym T) neg_check) as X. discriminate X.
Qed.
Print Assumptions C74_refuted_plane.
