(** C48, C74, C75, C76: particles and cells. *)
From Coq Require Import QArith Qround Qcanon.
From Verif Require Import Base OctreeSpec OctreeGeom OctreeModel FindNeighbors MeshSpec GhostExchange LookupModel LookupSpec LookupProps
  CellModel CellSpec CellProofs CellProps RemapModel RemapSpec RemapProofs HydroModel HydroSpec HydroProps ConserveSpec BlockGhost ConserveProofs
  ParticleSpec ParticleModel ParticleProofs HistorySpec HistoryProofs OctreeProps ConserveProps.
Open Scope Z_scope.

(** * C74: the cell at a position *)
Section At.
Context (g : geom) (WF : wf_geom g) (M : mesh) (OK : mesh_ok g M) (b : axis -> Z) (BO : block_ok g b).
Context (lo hi p : point) (LH : forall a, (lo a < hi a)%Qc) (IP : in_box g lo hi p).
Context (R : rank) (HR : In R M).
Notation st := (loc R ++ gho R).
Notation nloc := (length (loc R)).

Lemma leaves_st : incl st (leaves M).
Proof.
  intros X HX. apply in_app_iff in HX. destruct HX as [HX|HX].
  - unfold leaves. apply in_concat. exists (loc R). split; [apply in_map, HR|exact HX].
  - destruct (ok_ghosts g M OK R HR) as [_ G2]. apply G2, HX.
Qed.
Lemma leaf_ok A : In A (leaves M) -> valid g A.
Proof. intros H. apply (tiles_valid g _ A (ok_tiles g M OK) H). Qed.

(** The cell that contains the position is found when it is local... *)
Lemma cell_found i A q : nth_error (loc R) i = Some A -> in_block b q -> in_cell g b lo hi A q p ->
  exists c, getCellFromPos g st nloc b lo hi p = Some c /\ c_oct c = i /\ c_blk c = b /\ c_status c = LOCAL_TO_BLOCK /\ forall a, c_pos c a = q a.
Proof.
  intros HA IQ IC. assert (IL : (i < nloc)%nat) by (apply nth_error_Some; congruence).
  assert (HA' : nth_error st i = Some A) by (rewrite nth_error_app1 by exact IL; exact HA).
  assert (VA : valid g A) by (apply leaf_ok, leaves_st; eapply nth_error_In, HA').
  pose proof (cell_contains g WF b BO lo hi p LH A q VA IQ IC) as CT.
  destruct (C18_location g M R _ WF OK HR (inside01 g lo hi p LH IP)) as (A' & LA' & CA' & UN & FD & _).
  assert (A' = A) as -> by (symmetry; apply UN; [apply leaves_st; eapply nth_error_In, HA'|exact CT]).
  destruct FD as (i' & FD & NI); [eapply nth_error_In, HA'|].
  assert (i' = i) as ->.
  { pose proof (storage_NoDup g M R OK HR) as ND. apply (proj1 (NoDup_nth_error st) ND); [apply nth_error_Some; congruence|congruence]. }
  unfold getCellFromPos. fold (x01 lo hi p AX). fold (x01 lo hi p AY). fold (x01 lo hi p AZ).
  rewrite (checks_ok g lo hi p LH IP).
  change (fun a => this ((p a - lo a) / (hi a - lo a))%Qc) with (fun a => this (x01 lo hi p a)). rewrite FD, HA'.
  pose (f := fun a => Qfloor (this ((p a - (lo a + Q2Qc (getCorner g A a) * (hi a - lo a))) / (Q2Qc (getSize g A a) * (hi a - lo a) / frac (b a) 1))%Qc)).
  change (exists c, (if (i <? nloc)%nat && all3 (fun a => 0 <=? f a) then Some (mkCell i (fun a => u32 (f a)) b LOCAL_TO_BLOCK) else None) = Some c /\
    c_oct c = i /\ c_blk c = b /\ c_status c = LOCAL_TO_BLOCK /\ forall a, c_pos c a = q a).
  assert (FQ : forall a, f a = q a).
  { intros a. destruct (index_axis g WF b BO lo hi p LH IP A a VA CT) as (q' & E & R' & L1 & L2).
    change (f a = q') in E. rewrite E. rewrite in_cell_iff in IC by (assumption || apply VA). destruct (IC a) as (I1 & I2). unfold gpos in *.
    assert (coord A a * b a + q' < coord A a * b a + q a + 1) by (apply (proj2 (zq_lt _ _)); eapply Qcle_lt_trans; [exact L1|exact I2]).
    assert (coord A a * b a + q a < coord A a * b a + q' + 1) by (apply (proj2 (zq_lt _ _)); eapply Qcle_lt_trans; [exact I1|exact L2]). lia. }
  apply Nat.ltb_lt in IL. rewrite IL.
  assert (AP : all3 (fun a => 0 <=? f a) = true) by (apply all3_spec; intros a; rewrite FQ; specialize (IQ a); lia).
 rewrite AP. eexists. split; [reflexivity|]. cbn [c_oct c_blk c_status c_pos]. repeat (split; [reflexivity|]).
  intros a. rewrite FQ. apply u32_small. pose proof (IQ a). pose proof (BO a). change (2^14) with 16384 in *. change (2^32) with 4294967296. lia.
Qed.
(** ... and only it. *)
Lemma found_cell c : getCellFromPos g st nloc b lo hi p = Some c ->
  exists A, nth_error (loc R) (c_oct c) = Some A /\ c_blk c = b /\ c_status c = LOCAL_TO_BLOCK /\ in_block b (c_pos c) /\ in_cell g b lo hi A (c_pos c) p.
Proof.
  unfold getCellFromPos. fold (x01 lo hi p AX). fold (x01 lo hi p AY). fold (x01 lo hi p AZ).
  rewrite (checks_ok g lo hi p LH IP).
  change (fun a => this ((p a - lo a) / (hi a - lo a))%Qc) with (fun a => this (x01 lo hi p a)).
  destruct (C18_location g M R _ WF OK HR (inside01 g lo hi p LH IP)) as (A & LA & CA & UN & FD & FN).
  assert (DC : In A st \/ ~ In A st) by (destruct (in_dec oct_eq_dec A st); [left|right]; assumption).
  destruct DC as [IA|NA]; [|rewrite (FN NA); discriminate].
  destruct (FD IA) as (i & EI & NI). rewrite EI, NI.
  pose (f := fun a => Qfloor (this ((p a - (lo a + Q2Qc (getCorner g A a) * (hi a - lo a))) / (Q2Qc (getSize g A a) * (hi a - lo a) / frac (b a) 1))%Qc)).
  change ((if (i <? nloc)%nat && all3 (fun a => 0 <=? f a) then Some (mkCell i (fun a => u32 (f a)) b LOCAL_TO_BLOCK) else None) = Some c -> 
    exists A, nth_error (loc R) (c_oct c) = Some A /\ c_blk c = b /\ c_status c = LOCAL_TO_BLOCK /\ in_block b (c_pos c) /\ in_cell g b lo hi A (c_pos c) p).
  destruct ((i <? nloc)%nat) eqn:IL; [|discriminate]. cbn [andb].
  destruct (all3 _) eqn:EA; [|discriminate]. intros [= <-]. cbn [c_oct c_blk c_status c_pos].
  apply Nat.ltb_lt in IL. rewrite nth_error_app1 in NI by exact IL. exists A. split; [exact NI|]. split; [reflexivity|]. split; [reflexivity|].
  assert (VA : valid g A) by (apply leaf_ok, LA).
  assert (FQ : forall a, u32 (f a) = f a /\ 0 <= f a < b a /\ (zq (coord A a * b a + f a) <= x01 lo hi p a * zq (ncells g b (lev A) a))%Qc /\ (x01 lo hi p a * zq (ncells g b (lev A) a) < zq (coord A a * b a + f a + 1))%Qc).
  { intros a. destruct (index_axis g WF b BO lo hi p LH IP A a VA CA) as (q' & E & R' & L1 & L2). change (f a = q') in E. rewrite <- E in *.
    split; [apply u32_small; pose proof (BO a); change (2^14) with 16384 in *; change (2^32) with 4294967296; lia|]. auto. }
  split.
  - intros a. cbv beta. destruct (FQ a) as (-> & ? & _). assumption.
  - rewrite in_cell_iff by (assumption || apply VA). intros a. destruct (FQ a) as (E & _ & L1 & L2). unfold gpos. cbv beta. rewrite E. split; assumption.
Qed.
End At.
