(** C48: cloud-in-cell deposition; C75: nearest-cell deposition; C76: acceleration of a
    particle. *)
From Coq Require Import QArith Qround Qcanon.
From Verif Require Import Base OctreeSpec OctreeGeom OctreeModel FindNeighbors MeshSpec GhostExchange LookupModel LookupSpec LookupProps
  CellModel CellSpec CellProofs CellProps SmallerProps RemapModel RemapSpec RemapProofs HydroModel HydroSpec HydroProps ConserveSpec BlockGhost ConserveProofs
  ParticleSpec ParticleModel ParticleProofs ParticleProps CloudProofs HistorySpec HistoryProofs OctreeProps ConserveProps.
Open Scope Z_scope.

(** * C48: cloud-in-cell deposition *)

(** What one direction of the cloud adds: only to cells of the array that overlap the box in
    that direction, and the mass of that part of the cloud... *)
Definition deposited (g : geom) (b : axis -> Z) (lo hi : point) (M : mesh) (st : list oct) (A : oct) (q : axis -> Z) (p : point) (m : Qc)
    (d : axis -> Z) (ws : list (cidx * Qc)) : Prop :=
  (forall w, In w ws -> in_storage b st w /\ ((0 <= m)%Qc -> (0 <= snd w)%Qc) /\
     exists B, nth_error st (c_oct (fst w)) = Some B /\ at_box g (displaced g b (cell_of b A q) d) (cell_of b B (c_pos (fst w)))) /\
  (~ (diagonal d /\ finer g b (leaves M) A q d) -> mass_in g b (extent lo hi) st ws = (m * cloud_share g b lo hi A q p d)%Qc) /\
  (* ... but only a half or a quarter of it, along an edge or a corner, to smaller cells *)
  (diagonal d -> finer g b (leaves M) A q d -> mass_in g b (extent lo hi) st ws = (m * cloud_share g b lo hi A q p d / zq (2^(moves d - 1)))%Qc).

(** Mean of a list of numbers. *)
Definition mean_of (l : list Qc) : Qc := (csum l / Q2Qc (inject_Z (Z.of_nat (length l))))%Qc.

Lemma Forall2_map_l {X Y Z0} (P : Y -> Z0 -> Prop) (f : X -> Y) l l' : Forall2 (fun x z => P (f x) z) l l' -> Forall2 P (map f l) l'.
Proof. induction 1; constructor; assumption. Qed.

Lemma moves_range d : 0 <= moves d <= 3. Proof. unfold moves. destruct (d AX =? 0), (d AY =? 0), (d AZ =? 0); lia. Qed.

Section Deposit.
Context (g : geom) (D3 : g3d g = true) (WF : wf_geom g) (M : mesh) (OK : mesh_ok g M) (b : axis -> Z) (BO : block_ok g b).
Context (lo hi p : point) (LH : forall a, (lo a < hi a)%Qc) (IP : in_box g lo hi p).
Context (R : rank) (HR : In R M) (i : nat) (A : oct) (HA : nth_error (loc R) i = Some A) (q : axis -> Z) (IQ : in_block b q) (IC : in_cell g b lo hi A q p).
Notation st := (loc R ++ gho R).
Notation dirs := (cloud_directions (centre g b lo hi A q) p).
Context (ST : forall d, In d dirs -> stays g b A q d).

Section Same.
Context (q' : axis -> Z) (E : forall a, q' a = q a).
Lemma same_gpos a : gpos b A q' a = gpos b A q a. Proof. unfold gpos. rewrite E. reflexivity. Qed.
Lemma same_cell : cell_of b A q' = cell_of b A q.
Proof. apply oct_ext'; [reflexivity|]. intros a. rewrite !cell_coord. apply same_gpos. Qed.
Lemma same_centre a : centre g b lo hi A q' a = centre g b lo hi A q a. Proof. unfold centre. rewrite same_gpos. reflexivity. Qed.
Lemma same_dirs : cloud_directions (centre g b lo hi A q') p = dirs.
Proof. unfold cloud_directions. unfold side. rewrite !same_centre. reflexivity. Qed.
Lemma same_share d : cloud_share g b lo hi A q' p d = cloud_share g b lo hi A q p d.
Proof. unfold cloud_share. rewrite !same_gpos. reflexivity. Qed.
Lemma same_finer d : finer g b (leaves M) A q' d <-> finer g b (leaves M) A q d.
Proof. unfold finer. rewrite same_cell. reflexivity. Qed.
Lemma same_stays d : stays g b A q d -> stays g b A q' d.
Proof. intros H a. rewrite same_gpos. apply H. Qed.
End Same.

Lemma dir_one q' d : In d (cloud_directions (centre g b lo hi A q') p) -> forall a, Z.abs (d a) <= 1.
Proof. intros H a. destruct (directions_chosen g b A q' lo hi p d H a) as [->| ->]; [cbn; lia|]. rewrite side_one. lia. Qed.

Lemma deposit_all m : exists wss, cic_deposit g st (length (loc R)) b lo hi p m = Some (concat wss) /\
  Forall2 (deposited g b lo hi M st A q p m) dirs wss.
Proof.
  destruct (cell_found g WF M OK b BO lo hi p LH IP R HR i A q HA IQ IC) as (c & EC & C1 & C2 & C3 & C4).
  unfold cic_deposit. rewrite EC, C1. pose proof (HA' g WF M OK R HR i A HA) as N. unfold getCellCenter. rewrite C1, N, C2.
  assert (IQ' : in_block b (c_pos c)) by (intros a; rewrite C4; apply IQ).
  assert (IC' : in_cell g b lo hi A (c_pos c) p) by (intros a; rewrite (same_gpos _ C4); apply IC).
  assert (ECC : c = mkCell i (c_pos c) b LOCAL_TO_BLOCK) by (clear -C1 C2 C3; destruct c; cbn in *; congruence).
  set (q' := c_pos c) in *. clearbody q'.
  set (x := cic_local g b lo hi p _ A).
  assert (X : forall a, x a = ((p a - centre g b lo hi A q' a) / len g b lo hi (lev A) a)%Qc).
  { intros a. unfold x, cic_local. rewrite (nflat g D3), (center_eq g D3 WF M OK b BO R HR i A HA q' lo hi LH a), (size_len g D3 WF M OK b BO R HR i A HA lo hi LH). reflexivity. }
  assert (EV : (cell_size g b (extent lo hi) A AX * cell_size g b (extent lo hi) A AY * cell_size g b (extent lo hi) A AZ)%Qc = vol g b lo hi (lev A)).
  { rewrite !(size_len g D3 WF M OK b BO R HR i A HA lo hi LH). reflexivity. }
  rewrite EV.
  assert (EO : cic_offsets x = dirs).
  { rewrite (offsets_directions g WF M OK b BO R HR i A HA q' lo hi p LH x X). apply same_dirs, C4. }
  rewrite EO. rewrite ECC.
  destruct (mapM_exists (cic_contrib g st m (vol g b lo hi (lev A)) x (mkCell i q' b LOCAL_TO_BLOCK)) (deposited g b lo hi M st A q p m) dirs) as (wss & E1 & F2).
  - intros d HD. assert (HD' : In d (cloud_directions (centre g b lo hi A q') p)) by (rewrite (same_dirs q' C4); exact HD).
    destruct (contrib_mass g D3 WF M OK b BO R HR i A HA q' IQ' lo hi LH d x m (dir_one q' d HD') (same_stays q' C4 d (ST d HD))) as (ws & E & HW & M1 & M2).
    exists ws. split; [exact E|].
    assert (SF : cic_fraction x d = cloud_share g b lo hi A q p d).
    { rewrite <- (share_fraction g D3 WF M OK b BO R HR i A HA q' lo hi p LH IC' x X d (directions_chosen _ _ _ _ _ _ _ _ HD')). apply same_share, C4. }
    rewrite SF in *. rewrite (same_finer q' C4) in M1, M2. split; [|split].
    + intros w Hw. destruct (HW w Hw) as ((K1 & B & K2 & K3) & K4). split; [exact K1|]. split.
      * intros H0. apply K4; [exact H0|]. rewrite <- SF. apply (fraction_nonneg g D3 WF M OK b BO R HR i A HA q' lo hi p LH IC' x X).
      * exists B. split; [exact K2|]. rewrite <- (same_cell q' C4). exact K3.
    + intros ND. destruct (in_dec Z.eq_dec (moves d) [2; 3]) as [MD|MD].
      * apply M1. intros F. apply ND. split; [|exact F]. unfold diagonal. cbn in MD. lia.
      * assert (DF : finer g b (leaves M) A q d \/ ~ finer g b (leaves M) A q d).
        { destruct (neighbour_cases g D3 WF M OK b BO R HR i A HA q' IQ' d (dir_one q' d HD') (same_stays q' C4 d (ST d HD))) as (n & _ & [(_ & NF & _)|[(_ & NF & _)|(_ & F & _)]]);
            rewrite (same_finer q' C4) in *; auto. }
        destruct DF as [F|F]; [|apply M1, F]. destruct (M2 F) as (L1 & ->). pose proof (moves_range d). cbn in MD. assert (moves d = 1) as -> by lia.
        change (2 ^ (1 - 1)) with 1. rewrite zq_1. field. discriminate.
    + intros _ F. apply M2, F.
  - exists wss. rewrite E1. split; [reflexivity|exact F2].
Qed.

Lemma shares_sum : csum (map (cloud_share g b lo hi A q p) dirs) = 1%Qc.
Proof.
  set (x := fun a => ((p a - centre g b lo hi A q a) / len g b lo hi (lev A) a)%Qc).
  assert (X : forall a, x a = ((p a - centre g b lo hi A q a) / len g b lo hi (lev A) a)%Qc) by reflexivity.
  rewrite <- (fractions_sum x). rewrite (offsets_directions g WF M OK b BO R HR i A HA q lo hi p LH x X). f_equal. apply map_ext_in.
  intros d HD. apply (share_fraction g D3 WF M OK b BO R HR i A HA q lo hi p LH IC x X d (directions_chosen _ _ _ _ _ _ _ _ HD)).
Qed.
Lemma share_nonneg d : In d dirs -> (0 <= cloud_share g b lo hi A q p d)%Qc.
Proof.
  intros HD. set (x := fun a => ((p a - centre g b lo hi A q a) / len g b lo hi (lev A) a)%Qc).
  assert (X : forall a, x a = ((p a - centre g b lo hi A q a) / len g b lo hi (lev A) a)%Qc) by reflexivity.
  rewrite (share_fraction g D3 WF M OK b BO R HR i A HA q lo hi p LH IC x X d (directions_chosen _ _ _ _ _ _ _ _ HD)).
  apply (fraction_nonneg g D3 WF M OK b BO R HR i A HA q lo hi p LH IC x X).
Qed.

(** The acceleration: one list of cells and one weight per direction. *)
Definition gathered (D : oct -> point) (d : axis -> Z) (cs : list oct) : Prop :=
  cs <> [] /\ forall y, In y cs -> at_box g (displaced g b (cell_of b A q) d) y /\ exists B q0, In B (leaves M) /\ in_block b q0 /\ y = cell_of b B q0.
Lemma sum_fold {X} (h : X -> Qc) l s0 : fold_left (fun s w => (s + h w)%Qc) l s0 = (s0 + csum (map h l))%Qc.
Proof. revert s0. induction l as [|x l IH]; intros s0; cbn [fold_left map]; [cbn; ring|]. rewrite IH. unfold csum. cbn [fold_right]. ring. Qed.

Lemma gather_all G D : (forall k B q0, nth_error st k = Some B -> in_block b q0 -> forall a, G k (q0 AX + q0 AY * b AX + q0 AZ * b AX * b AY) a = D (cell_of b B q0) a) ->
  exists acc css ts, cic_gather g st (length (loc R)) b lo hi p G = Some acc /\ Forall2 (gathered D) dirs css /\
    Forall2 (fun d t => (~ (diagonal d /\ finer g b (leaves M) A q d) -> t = cloud_share g b lo hi A q p d) /\
      (diagonal d -> finer g b (leaves M) A q d -> t = (cloud_share g b lo hi A q p d / zq (2^(moves d - 1)))%Qc)) dirs ts /\
    forall a, acc a = csum (map (fun tc : Qc * list oct => (fst tc * mean_of (map (fun y => D y a) (snd tc)))%Qc) (combine ts css)).
Proof.
  intros HG.
  destruct (cell_found g WF M OK b BO lo hi p LH IP R HR i A q HA IQ IC) as (c & EC & C1 & C2 & C3 & C4).
  unfold cic_gather. rewrite EC, C1. pose proof (HA' g WF M OK R HR i A HA) as N. unfold getCellCenter. rewrite C1, N, C2.
  assert (IQ' : in_block b (c_pos c)) by (intros a; rewrite C4; apply IQ).
  assert (IC' : in_cell g b lo hi A (c_pos c) p) by (intros a; rewrite (same_gpos _ C4); apply IC).
  assert (ECC : c = mkCell i (c_pos c) b LOCAL_TO_BLOCK) by (clear -C1 C2 C3; destruct c; cbn in *; congruence).
  set (q' := c_pos c) in *. clearbody q'.
  set (x := cic_local g b lo hi p _ A).
  assert (X : forall a, x a = ((p a - centre g b lo hi A q' a) / len g b lo hi (lev A) a)%Qc).
  { intros a. unfold x, cic_local. rewrite (nflat g D3), (center_eq g D3 WF M OK b BO R HR i A HA q' lo hi LH a), (size_len g D3 WF M OK b BO R HR i A HA lo hi LH). reflexivity. }
  assert (EO : cic_offsets x = dirs).
  { rewrite (offsets_directions g WF M OK b BO R HR i A HA q' lo hi p LH x X). apply same_dirs, C4. }
  rewrite EO, ECC. clearbody x. clear ECC EC C1 C2 C3 c.
  pose (W := fun (d : axis -> Z) (ws : list (cidx * Qc)) => exists cs w, ws = map (fun c => (c, w)) cs /\ cs <> [] /\
     (forall c, In c cs -> c_blk c = b /\ in_block b (c_pos c) /\ exists B, nth_error st (c_oct c) = Some B /\ at_box g (displaced g b (cell_of b A q) d) (cell_of b B (c_pos c))) /\
     (~ (diagonal d /\ finer g b (leaves M) A q d) -> (zq (Z.of_nat (length cs)) * w)%Qc = cloud_share g b lo hi A q p d) /\
     (diagonal d -> finer g b (leaves M) A q d -> (zq (Z.of_nat (length cs)) * w)%Qc = (cloud_share g b lo hi A q p d / zq (2^(moves d - 1)))%Qc)).
  destruct (mapM_exists (cic_weights_at g st x (mkCell i q' b LOCAL_TO_BLOCK)) W dirs) as (wss & E1 & F2).
  - intros d HD. assert (HD' : In d (cloud_directions (centre g b lo hi A q') p)) by (rewrite (same_dirs q' C4); exact HD).
    destruct (weights_sum g D3 WF M OK b BO R HR i A HA q' IQ' d x (dir_one q' d HD') (same_stays q' C4 d (ST d HD))) as (cs & w & E & NE & HW & M1 & M2).
    eexists. split; [exact E|]. exists cs, w. split; [reflexivity|]. split; [exact NE|].
    assert (SF : cic_fraction x d = cloud_share g b lo hi A q p d).
    { rewrite <- (share_fraction g D3 WF M OK b BO R HR i A HA q' lo hi p LH IC' x X d (directions_chosen _ _ _ _ _ _ _ _ HD')). apply same_share, C4. }
    rewrite SF in *. rewrite (same_finer q' C4) in M1, M2. split; [|split].
    + intros c Hc. destruct (HW c Hc) as ((K1 & _ & K2 & _) & B & K3 & K4). split; [exact K1|]. split; [exact K2|]. exists B. split; [exact K3|]. rewrite <- (same_cell q' C4). exact K4.
    + intros ND. destruct (in_dec Z.eq_dec (moves d) [2; 3]) as [MD|MD].
      * apply M1. intros F. apply ND. split; [|exact F]. unfold diagonal. cbn in MD. lia.
      * assert (DF : finer g b (leaves M) A q d \/ ~ finer g b (leaves M) A q d).
        { destruct (neighbour_cases g D3 WF M OK b BO R HR i A HA q' IQ' d (dir_one q' d HD') (same_stays q' C4 d (ST d HD))) as (n & _ & [(_ & NF & _)|[(_ & NF & _)|(_ & F & _)]]);
            rewrite (same_finer q' C4) in *; auto. }
        destruct DF as [F|F]; [|apply M1, F]. destruct (M2 F) as (L1 & ->). pose proof (moves_range d). cbn in MD. assert (moves d = 1) as -> by lia.
        change (2 ^ (1 - 1)) with 1. rewrite zq_1. field. discriminate.
    + intros _ F. apply M2, F.
  - rewrite E1. cbn [option_map]. clear E1.
    assert (INC : incl st (leaves M)) by apply (leaves_st g M OK R HR).
    assert (Q : exists css ts, Forall2 (gathered D) dirs css /\
       Forall2 (fun d t => (~ (diagonal d /\ finer g b (leaves M) A q d) -> t = cloud_share g b lo hi A q p d) /\
         (diagonal d -> finer g b (leaves M) A q d -> t = (cloud_share g b lo hi A q p d / zq (2^(moves d - 1)))%Qc)) dirs ts /\
       forall a, csum (map (fun w : cidx * Qc => (G (c_oct (fst w)) (flat_cell (c_blk (fst w)) (c_pos (fst w))) a * snd w)%Qc) (concat wss)) =
         csum (map (fun tc : Qc * list oct => (fst tc * mean_of (map (fun y => D y a) (snd tc)))%Qc) (combine ts css))).
    { clear ST EO. induction F2 as [|d ws ds wss H F2 IH]; [exists [], []; split; [constructor|]; split; [constructor|]; intros a; reflexivity|].
      destruct IH as (css & ts & G1 & G2 & G3). destruct H as (cs & w & -> & NE & HC & M1 & M2).
      pose (cellY := fun c : cidx => match nth_error st (c_oct c) with Some B => cell_of b B (c_pos c) | None => A end).
      exists (map cellY cs :: css), ((zq (Z.of_nat (length cs)) * w)%Qc :: ts). split; [constructor; [|exact G1]|split; [constructor; [split; assumption|exact G2]|]].
      - split; [intros K; apply map_eq_nil in K; exact (NE K)|]. intros y HY. apply in_map_iff in HY. destruct HY as (c & <- & Hc). destruct (HC c Hc) as (_ & I & B & NB & AB).
        unfold cellY. rewrite NB. split; [exact AB|]. exists B, (c_pos c). split; [apply INC; eapply nth_error_In, NB|]. split; [exact I|reflexivity].
      - intros a. cbn [concat combine map]. rewrite map_app, csum_app, G3. unfold csum at 3. cbn [fold_right fst snd]. f_equal. unfold mean_of. rewrite !map_length.
        assert (L0 : zq (Z.of_nat (length cs)) <> 0%Qc) by (apply Qc_pos_nz, zq_pos; destruct cs; [congruence|cbn [length]; lia]).
        transitivity (w * csum (map (fun y => D y a) (map cellY cs)))%Qc; [|fold (zq (Z.of_nat (length cs))); field; exact L0].
        clear -HC HG. induction cs as [|c cs IH]; [cbn; ring|]. cbn [map]. unfold csum in *. cbn [fold_right fst snd]. rewrite IH by (intros; apply HC; right; assumption).
        destruct (HC c (or_introl eq_refl)) as (EB & I & B & NB & _). rewrite EB. unfold cellY at 2. rewrite NB. unfold flat_cell. rewrite (HG _ B _ NB I). ring. }
    destruct Q as (css & ts & G1 & G2 & G3). eexists. exists css, ts. split; [reflexivity|]. split; [exact G1|]. split; [exact G2|].
    intros a. cbv beta. rewrite (sum_fold (fun w : cidx * Qc => (G (c_oct (fst w)) (flat_cell (c_blk (fst w)) (c_pos (fst w))) a * snd w)%Qc)). rewrite G3. ring.
Qed.
End Deposit.

Lemma mass_in_concat g b ext st wss : mass_in g b ext st (concat wss) = csum (map (mass_in g b ext st) wss).
Proof.
  induction wss as [|w wss IH]; [reflexivity|]. cbn [concat map]. unfold mass_in at 1. rewrite map_app, csum_app.
  fold (mass_in g b ext st w). fold (mass_in g b ext st (concat wss)). rewrite IH. reflexivity.
Qed.

Lemma csum_scale m l : csum (map (Qcmult m) l) = (m * csum l)%Qc.
Proof. unfold csum. induction l as [|x l IH]; cbn [map fold_right]; [ring|]. rewrite IH. ring. Qed.
Lemma csum_F2_eq {X Y} (f : Y -> Qc) (h : X -> Qc) l l' : Forall2 (fun x y => f y = h x) l l' -> csum (map f l') = csum (map h l).
Proof. unfold csum. induction 1 as [|x y l l' E F IH]; [reflexivity|]. cbn [map fold_right]. rewrite E, IH. reflexivity. Qed.
Lemma csum_F2_le {X Y} (f : Y -> Qc) (h : X -> Qc) (P : X -> Prop) l l' :
  Forall2 (fun x y => (f y <= h x)%Qc /\ (P x -> (f y < h x)%Qc)) l l' ->
  (csum (map f l') <= csum (map h l))%Qc /\ (Exists P l -> (csum (map f l') < csum (map h l))%Qc).
Proof.
  unfold csum. induction 1 as [|x y l l' (E & E') F (IH & IH')]; [split; [apply Qcle_refl|intros K; inversion K]|]. cbn [map fold_right]. split.
  - apply Qcplus_le_compat; assumption.
  - intros K. apply Exists_cons in K. destruct K as [K|K].
    + specialize (E' K). clear IH'. qlin.
    + specialize (IH' K). qlin.
Qed.

(** Away from boundaries that are not periodic and from smaller cells across an edge or a
    corner of the cell of the particle, the deposition never fails, each of the eight parts of the
    cloud goes to the cells that overlap it, with its mass, and the total is the mass of the
    particle. What is missing: smaller cells across an edge or a corner ([C48_refuted]), and
    two dimensions ([C48_refuted_plane]). *)
Theorem C48_cloud_partial g P M b lo hi p R i A q m : g3d g = true -> good_setup g P -> reachable g P M -> block_ok g b ->
  (forall a, (lo a < hi a)%Qc) -> in_box g lo hi p -> In R M -> nth_error (loc R) i = Some A -> in_block b q -> in_cell g b lo hi A q p ->
  let dirs := cloud_directions (centre g b lo hi A q) p in
  (forall d, In d dirs -> stays g b A q d) -> (forall d, In d dirs -> diagonal d -> ~ finer g b (leaves M) A q d) ->
  exists wss, cic_deposit g (loc R ++ gho R) (length (loc R)) b lo hi p m = Some (concat wss) /\
    Forall2 (fun d ws => mass_in g b (extent lo hi) (loc R ++ gho R) ws = (m * cloud_share g b lo hi A q p d)%Qc /\
      forall w, In w ws -> in_storage b (loc R ++ gho R) w /\ ((0 <= m)%Qc -> (0 <= snd w)%Qc) /\
        exists B, nth_error (loc R ++ gho R) (c_oct (fst w)) = Some B /\ at_box g (displaced g b (cell_of b A q) d) (cell_of b B (c_pos (fst w)))) dirs wss /\
    mass_in g b (extent lo hi) (loc R ++ gho R) (concat wss) = m.
Proof.
  intros D3 S RE BO LH IP HR HA IQ IC dirs ST NF. pose proof (proj1 S) as WF. pose proof (reachable_ok g P M S RE) as OK.
  destruct (deposit_all g D3 WF M OK b BO lo hi p LH IP R HR i A HA q IQ IC ST m) as (wss & E & F2).
  assert (F2' : Forall2 (fun d ws => mass_in g b (extent lo hi) (loc R ++ gho R) ws = (m * cloud_share g b lo hi A q p d)%Qc /\
      forall w, In w ws -> in_storage b (loc R ++ gho R) w /\ ((0 <= m)%Qc -> (0 <= snd w)%Qc) /\
        exists B, nth_error (loc R ++ gho R) (c_oct (fst w)) = Some B /\ at_box g (displaced g b (cell_of b A q) d) (cell_of b B (c_pos (fst w)))) dirs wss).
  { clear E. fold dirs in F2. clear ST. revert F2. generalize dirs NF. clear. intros l NF F2. induction F2 as [|d ws l wss (H1 & H2 & _) F2 IH]; [constructor|].
    constructor; [|apply IH; intros; apply NF; [right|]; assumption]. split; [|exact H1]. apply H2. intros (K1 & K2). exact (NF d (or_introl eq_refl) K1 K2). }
  exists wss. split; [exact E|]. split; [exact F2'|].
  rewrite mass_in_concat. rewrite (csum_F2_eq _ (fun d => m * cloud_share g b lo hi A q p d)%Qc dirs).
  - rewrite <- (map_map (cloud_share g b lo hi A q p) (Qcmult m)), csum_scale. unfold dirs.
    rewrite (shares_sum g D3 WF M OK b BO lo hi p LH R HR i A HA q IC). ring.
  - clear -F2'. induction F2' as [|d ws l wss (H & _) F2 IH]; constructor; assumption.
Qed.
Print Assumptions C48_cloud_partial.

(** In any case in three dimensions away from such boundaries: the mass deposited is at most
    that of the particle, and less as soon as a part of the cloud that is not empty lies in smaller
    cells across an edge or a corner. *)
Theorem C48_loss g P M b lo hi p R i A q m : g3d g = true -> good_setup g P -> reachable g P M -> block_ok g b ->
  (forall a, (lo a < hi a)%Qc) -> in_box g lo hi p -> In R M -> nth_error (loc R) i = Some A -> in_block b q -> in_cell g b lo hi A q p ->
  let dirs := cloud_directions (centre g b lo hi A q) p in
  (forall d, In d dirs -> stays g b A q d) -> (0 < m)%Qc ->
  exists ws, cic_deposit g (loc R ++ gho R) (length (loc R)) b lo hi p m = Some ws /\ Forall (in_storage b (loc R ++ gho R)) ws /\
    (mass_in g b (extent lo hi) (loc R ++ gho R) ws <= m)%Qc /\
    ((exists d, In d dirs /\ diagonal d /\ finer g b (leaves M) A q d /\ (0 < cloud_share g b lo hi A q p d)%Qc) ->
     (mass_in g b (extent lo hi) (loc R ++ gho R) ws < m)%Qc).
Proof.
  intros D3 S RE BO LH IP HR HA IQ IC dirs ST MP. pose proof (proj1 S) as WF. pose proof (reachable_ok g P M S RE) as OK.
  destruct (deposit_all g D3 WF M OK b BO lo hi p LH IP R HR i A HA q IQ IC ST m) as (wss & E & F2). exists (concat wss). split; [exact E|].
  split.
  { apply Forall_forall. intros w Hw. apply in_concat in Hw. destruct Hw as (ws & H1 & H2). destruct (Forall2_in_r _ _ _ ws F2 H1) as (d & _ & K & _). apply (K w H2). }
  assert (SN : forall d, In d dirs -> (0 <= cloud_share g b lo hi A q p d)%Qc) by (intros d; apply (share_nonneg g D3 WF M OK b BO lo hi p LH R HR i A HA q IC)).
  pose (Pd := fun d => diagonal d /\ finer g b (leaves M) A q d /\ (0 < cloud_share g b lo hi A q p d)%Qc).
  assert (F3 : Forall2 (fun d ws => (mass_in g b (extent lo hi) (loc R ++ gho R) ws <= m * cloud_share g b lo hi A q p d)%Qc /\
      (Pd d -> (mass_in g b (extent lo hi) (loc R ++ gho R) ws < m * cloud_share g b lo hi A q p d)%Qc)) dirs wss).
  { fold dirs in F2. assert (AL : incl dirs dirs) by apply incl_refl. revert AL F2. generalize dirs at 1 3 4. intros l AL F2. clear E.
    assert (DF : forall d, In d dirs -> finer g b (leaves M) A q d \/ ~ finer g b (leaves M) A q d).
    { intros d HD. destruct (neighbour_cases g D3 WF M OK b BO R HR i A HA q IQ d ltac:(eapply dir_one; eassumption) (ST d HD)) as (n & _ & [(_ & NF & _)|[(_ & NF & _)|(_ & F & _)]]); auto. }
    clear ST. induction F2 as [|d ws l wss (_ & H1 & H2) F2 IH]; [constructor|].
    constructor; [|apply IH; intros z Hz; apply AL; right; exact Hz]. assert (HD : In d dirs) by (apply AL; left; reflexivity). specialize (SN d HD).
    set (s := cloud_share g b lo hi A q p d) in *.
    assert (EX : mass_in g b (extent lo hi) (loc R ++ gho R) ws = (m * s)%Qc \/ (diagonal d /\ mass_in g b (extent lo hi) (loc R ++ gho R) ws = (m * s / zq (2^(moves d - 1)))%Qc)).
    { destruct (Z_le_dec 2 (moves d)) as [DD|DD]; [|left; apply H1; intros (K & _); exact (DD K)].
      destruct (DF d HD) as [F|F]; [right; split; [exact DD|]; apply H2; assumption|left; apply H1; intros (_ & K); exact (F K)]. }
    assert (PW : diagonal d -> (m * s / zq (2^(moves d - 1)) <= m * s)%Qc /\ ((0 < s)%Qc -> (m * s / zq (2^(moves d - 1)) < m * s)%Qc)).
    { intros DG. pose proof (moves_range d) as MR. unfold diagonal in DG.
      assert (ZP : (1 < zq (2^(moves d - 1)))%Qc).
      { rewrite <- zq_1. apply (proj1 (zq_lt _ _)). replace (2^(moves d - 1)) with (2 * 2^(moves d - 2)) by (rewrite <- Z.pow_succ_r by lia; f_equal; lia).
        pose proof (Z.pow_pos_nonneg 2 (moves d - 2)). lia. }
      set (z := zq (2^(moves d - 1))) in *. assert (Z0 : (0 < z)%Qc) by (clear -ZP; qlin).
      assert (MS : (0 <= m * s)%Qc) by (apply Qcmult_nonneg; [apply Qclt_le_weak, MP|exact SN]).
      split.
      - apply (proj2 (Qcdiv_le _ _ z Z0)). rewrite Qcle_sub. replace (m * s * z - m * s)%Qc with (m * s * (z - 1))%Qc by ring. apply Qcmult_nonneg; [exact MS|clear -ZP; qlin].
      - intros SP. apply Qcnot_le_lt. intros K. apply (Qclt_not_le (m * s) (m * s * z)%Qc).
        + rewrite Qclt_sub. replace (m * s * z - m * s)%Qc with (m * s * (z - 1))%Qc by ring. apply Qcmult_lt_0; [apply Qcmult_lt_0; assumption|clear -ZP; qlin].
        + replace (m * s)%Qc with (m * s / z * z)%Qc at 2 by (field; apply Qc_pos_nz, Z0). apply Qcmult_le_compat_r; [exact K|apply Qclt_le_weak, Z0]. }
    split.
    - destruct EX as [->|(DG & ->)]; [apply Qcle_refl|apply (PW DG)].
    - intros (DG & F & SP). rewrite (H2 DG F). apply (PW DG), SP. }
  assert (TOT : csum (map (fun d => (m * cloud_share g b lo hi A q p d)%Qc) dirs) = m).
  { rewrite <- (map_map (cloud_share g b lo hi A q p) (Qcmult m)), csum_scale. unfold dirs. rewrite (shares_sum g D3 WF M OK b BO lo hi p LH R HR i A HA q IC). ring. }
  rewrite mass_in_concat. destruct (csum_F2_le _ _ _ _ _ F3) as (L1 & L2). rewrite TOT in L1, L2. split; [exact L1|].
  intros (d & HD & K). apply L2, Exists_exists. exists d. split; [exact HD|exact K].
Qed.
Print Assumptions C48_loss.

(** * C75: nearest-cell deposition *)
Theorem C75_mass_partial g P M b lo hi p R i A q m : g3d g = true -> good_setup g P -> reachable g P M -> block_ok g b ->
  (forall a, (lo a < hi a)%Qc) -> in_box g lo hi p -> In R M -> nth_error (loc R) i = Some A -> in_block b q -> in_cell g b lo hi A q p ->
  exists c rho, ngp_deposit g (loc R ++ gho R) (length (loc R)) b lo hi p m = Some [(c, rho)] /\ c_oct c = i /\ (forall a, c_pos c a = q a) /\
    in_storage b (loc R ++ gho R) (c, rho) /\ mass_in g b (extent lo hi) (loc R ++ gho R) [(c, rho)] = m.
Proof.
  intros D3 S RE BO LH IP HR HA IQ IC. pose proof (proj1 S) as WF. pose proof (reachable_ok g P M S RE) as OK.
  destruct (cell_found g WF M OK b BO lo hi p LH IP R HR i A q HA IQ IC) as (c & EC & C1 & C2 & C3 & C4).
  pose proof (HA' g WF M OK R HR i A HA) as N.
  unfold ngp_deposit. rewrite EC, C1, N. unfold in_array, is_valid. rewrite C3. cbn [option_map].
  rewrite !(size_len g D3 WF M OK b BO R HR i A HA lo hi LH). exists c. eexists. split; [reflexivity|]. split; [exact C1|]. split; [exact C4|]. split.
  - split; [exact C2|]. split; [unfold is_valid; cbn [fst]; rewrite C3; reflexivity|]. split; [intros a; cbn [fst]; rewrite C4; apply IQ|]. exists A. cbn [fst]. rewrite C1. exact N.
  - unfold mass_in. cbn [map fst snd]. rewrite C1, N. rewrite volume_vol. unfold csum. cbn [fold_right]. fold (vol g b lo hi (lev A)).
    assert (VN : vol g b lo hi (lev A) <> 0%Qc) by (apply Qc_pos_nz, (vol_pos g WF b BO lo hi LH), (VA g WF M OK R HR i A HA)). field. exact VN.
Qed.
Print Assumptions C75_mass_partial.

(** * C76: acceleration of a particle *)

(** The acceleration is the mean of the field over the cloud: each of the eight parts
    contributes the mean of the values of cells that overlap it, weighted by its share.
    What is missing: smaller cells across an edge or a corner ([C76_refuted]), and two
    dimensions. *)
Theorem C76_cloud_partial g P M b lo hi p R i A q (G : nat -> Z -> axis -> Qc) (D : oct -> point) :
  g3d g = true -> good_setup g P -> reachable g P M -> block_ok g b ->
  (forall a, (lo a < hi a)%Qc) -> in_box g lo hi p -> In R M -> nth_error (loc R) i = Some A -> in_block b q -> in_cell g b lo hi A q p ->
  let dirs := cloud_directions (centre g b lo hi A q) p in
  (forall d, In d dirs -> stays g b A q d) -> (forall d, In d dirs -> diagonal d -> ~ finer g b (leaves M) A q d) ->
  (forall k B q0, nth_error (loc R ++ gho R) k = Some B -> in_block b q0 -> forall a, G k (q0 AX + q0 AY * b AX + q0 AZ * b AX * b AY) a = D (cell_of b B q0) a) ->
  exists acc css, cic_gather g (loc R ++ gho R) (length (loc R)) b lo hi p G = Some acc /\
    Forall2 (fun d cs => cs <> [] /\ forall y, In y cs -> at_box g (displaced g b (cell_of b A q) d) y /\ exists B q0, In B (leaves M) /\ in_block b q0 /\ y = cell_of b B q0) dirs css /\
    forall a, acc a = csum (map (fun dc : (axis -> Z) * list oct => (cloud_share g b lo hi A q p (fst dc) * mean_of (map (fun y => D y a) (snd dc)))%Qc) (combine dirs css)).
Proof.
  intros D3 S RE BO LH IP HR HA IQ IC dirs ST NF HG. pose proof (proj1 S) as WF. pose proof (reachable_ok g P M S RE) as OK.
  destruct (gather_all g D3 WF M OK b BO lo hi p LH IP R HR i A HA q IQ IC ST G D HG) as (acc & css & ts & E & F2 & F3 & EA).
  exists acc, css. split; [exact E|]. split; [exact F2|]. intros a. rewrite EA. fold dirs in F2, F3. clearbody dirs. clear E EA ST. revert ts css F2 F3.
  induction dirs as [|d l IH]; intros ts css F2 F3; inversion F3; subst; [reflexivity|]. inversion F2; subst. cbn [combine map]. unfold csum in *. cbn [fold_right fst snd].
  rewrite (IH (fun d H => NF d (or_intror H))) by assumption. f_equal. f_equal. apply H1. intros (K1 & K2). exact (NF d (or_introl eq_refl) K1 K2).
Qed.
Print Assumptions C76_cloud_partial.

Lemma mean_bounds (u v : Qc) l : l <> [] -> (forall x, In x l -> (u <= x)%Qc /\ (x <= v)%Qc) -> (u <= mean_of l)%Qc /\ (mean_of l <= v)%Qc.
Proof.
  intros NE H. unfold mean_of. assert (LP : (0 < zq (Z.of_nat (length l)))%Qc) by (apply zq_pos; destruct l; [congruence|cbn [length]; lia]).
  assert (SB : (u * zq (Z.of_nat (length l)) <= csum l)%Qc /\ (csum l <= v * zq (Z.of_nat (length l)))%Qc).
  { clear NE LP. induction l as [|x l IH]; [cbn [length csum fold_right Z.of_nat]; rewrite zq_0; split; clear; qlin|].
    cbn [length]. rewrite Nat2Z.inj_succ, <- Z.add_1_r, zq_plus, zq_1. unfold csum in *. cbn [fold_right].
    destruct IH as (I1 & I2); [intros; apply H; right; assumption|]. destruct (H x (or_introl eq_refl)) as (H1 & H2).
    set (n := zq (Z.of_nat (length l))) in *. set (s := fold_right Qcplus (Q2Qc 0) l) in *. clearbody n s.
    replace (u * (n + 1))%Qc with (u * n + u)%Qc by ring. replace (v * (n + 1))%Qc with (v * n + v)%Qc by ring.
    set (un := (u * n)%Qc) in *. set (vn := (v * n)%Qc) in *. clearbody un vn. clear H. split; qlin. }
  fold (zq (Z.of_nat (length l))). set (n := zq (Z.of_nat (length l))) in *. split.
  - apply Qcnot_lt_le. intros K. destruct SB as (S1 & _). apply (Qclt_not_le (csum l / n) u K). rewrite Qcle_sub.
    replace (csum l / n - u)%Qc with ((csum l - u * n) * / n)%Qc by (field; apply Qc_pos_nz, LP). apply Qcmult_nonneg; [rewrite <- Qcle_sub; exact S1|apply Qclt_le_weak, Qcinv_lt_0, LP].
  - apply (proj2 (Qcdiv_le _ _ n LP)). apply SB.
Qed.

(** Hence the acceleration lies between the values of the field on the cells that the cloud
    overlaps; it is the value of the field where it is uniform. *)
Theorem C76_bounds_partial g P M b lo hi p R i A q (G : nat -> Z -> axis -> Qc) (D : oct -> point) a u v :
  g3d g = true -> good_setup g P -> reachable g P M -> block_ok g b ->
  (forall a, (lo a < hi a)%Qc) -> in_box g lo hi p -> In R M -> nth_error (loc R) i = Some A -> in_block b q -> in_cell g b lo hi A q p ->
  let dirs := cloud_directions (centre g b lo hi A q) p in
  (forall d, In d dirs -> stays g b A q d) -> (forall d, In d dirs -> diagonal d -> ~ finer g b (leaves M) A q d) ->
  (forall k B q0, nth_error (loc R ++ gho R) k = Some B -> in_block b q0 -> forall a, G k (q0 AX + q0 AY * b AX + q0 AZ * b AX * b AY) a = D (cell_of b B q0) a) ->
  (forall d B q0, In d dirs -> In B (leaves M) -> in_block b q0 -> at_box g (displaced g b (cell_of b A q) d) (cell_of b B q0) ->
     (u <= D (cell_of b B q0) a)%Qc /\ (D (cell_of b B q0) a <= v)%Qc) ->
  exists acc, cic_gather g (loc R ++ gho R) (length (loc R)) b lo hi p G = Some acc /\ (u <= acc a)%Qc /\ (acc a <= v)%Qc.
Proof.
  intros D3 S RE BO LH IP HR HA IQ IC dirs ST NF HG HB. pose proof (proj1 S) as WF. pose proof (reachable_ok g P M S RE) as OK.
  destruct (C76_cloud_partial g P M b lo hi p R i A q G D D3 S RE BO LH IP HR HA IQ IC ST NF HG) as (acc & css & E & F2 & EA).
  exists acc. split; [exact E|]. rewrite EA. fold dirs in F2 |- *.
  assert (SN : forall d, In d dirs -> (0 <= cloud_share g b lo hi A q p d)%Qc) by (intros d; apply (share_nonneg g D3 WF M OK b BO lo hi p LH R HR i A HA q IC)).
  assert (SS : csum (map (cloud_share g b lo hi A q p) dirs) = 1%Qc) by apply (shares_sum g D3 WF M OK b BO lo hi p LH R HR i A HA q IC).
  assert (K : (u * csum (map (cloud_share g b lo hi A q p) dirs) <= csum (map (fun dc => cloud_share g b lo hi A q p (fst dc) * mean_of (map (fun y => D y a) (snd dc))) (combine dirs css)))%Qc /\
              (csum (map (fun dc => cloud_share g b lo hi A q p (fst dc) * mean_of (map (fun y => D y a) (snd dc))) (combine dirs css)) <= v * csum (map (cloud_share g b lo hi A q p) dirs))%Qc).
  { clear SS EA E ST NF. revert SN HB F2. generalize dirs. intros l SN HB F2. induction F2 as [|d cs l css (N & H) F2 IH]; [cbn [combine map csum fold_right]; split; clear; qlin|].
    cbn [combine map]. unfold csum in *. cbn [fold_right fst snd].
    destruct IH as (I1 & I2); [intros; apply SN; right; assumption|intros d0 B q0 H0; apply HB; right; exact H0|].
    destruct (mean_bounds u v (map (fun y => D y a) cs)) as (B1 & B2).
    - intros Z0. apply map_eq_nil in Z0. exact (N Z0).
    - intros z Hz. apply in_map_iff in Hz. destruct Hz as (y & <- & Hy). destruct (H y Hy) as (AB & B & q0 & HBL & IB & ->). apply (HB d B q0 (or_introl eq_refl) HBL IB AB).
    - pose proof (SN d (or_introl eq_refl)) as S0. set (s := cloud_share g b lo hi A q p d) in *. set (t := mean_of _) in *. clearbody s t.
      assert (T1 : (u * s <= s * t)%Qc) by (rewrite (Qcmult_comm s t); apply Qcmult_le_compat_r; assumption).
      assert (T2 : (s * t <= v * s)%Qc) by (rewrite (Qcmult_comm s t); apply Qcmult_le_compat_r; assumption).
      split; rewrite Qcmult_plus_distr_r; apply Qcplus_le_compat; assumption. }
  rewrite SS in K. rewrite !Qcmult_1_r in K. exact K.
Qed.
Print Assumptions C76_bounds_partial.

(** With the nearest-cell scheme it is the value of the cell (any dimension). *)
Theorem C76_nearest g P M b lo hi p R i A q (G : nat -> Z -> axis -> Qc) (D : oct -> point) : good_setup g P -> reachable g P M -> block_ok g b ->
  (forall a, (lo a < hi a)%Qc) -> in_box g lo hi p -> In R M -> nth_error (loc R) i = Some A -> in_block b q -> in_cell g b lo hi A q p ->
  (forall k B q0, nth_error (loc R ++ gho R) k = Some B -> in_block b q0 -> forall a, G k (q0 AX + q0 AY * b AX + q0 AZ * b AX * b AY) a = D (cell_of b B q0) a) ->
  exists acc, ngp_gather g (loc R ++ gho R) (length (loc R)) b lo hi p G = Some acc /\ forall a, acc a = D (cell_of b A q) a.
Proof.
  intros S RE BO LH IP HR HA IQ IC HG. pose proof (proj1 S) as WF. pose proof (reachable_ok g P M S RE) as OK.
  destruct (cell_found g WF M OK b BO lo hi p LH IP R HR i A q HA IQ IC) as (c & EC & C1 & C2 & C3 & C4).
  pose proof (HA' g WF M OK R HR i A HA) as N.
  unfold ngp_gather. rewrite EC. unfold in_array, is_valid. rewrite C3. cbn [option_map]. eexists. split; [reflexivity|]. intros a. rewrite C1, C2. unfold flat_cell. rewrite !C4. apply HG; assumption.
Qed.
Print Assumptions C76_nearest.

(** The particle then moves: velocity changed by the acceleration, then position by the new
    velocity, brought back into the box by whole periods. What is missing: displacements by
    more than one period downward ([C52_refuted_large_step]). *)
Theorem C76_motion_partial lo hi dt p v acc a : (lo a < hi a)%Qc -> (lo a - (hi a - lo a) <= p a + dt * (v a + dt * acc a))%Qc ->
  let (p', v') := kick_drift lo hi dt p v acc in
  v' a = (v a + dt * acc a)%Qc /\ (lo a <= p' a)%Qc /\ (p' a < hi a)%Qc /\
  exists k : Z, p' a = (p a + dt * v' a + zq k * (hi a - lo a))%Qc.
Proof.
  intros LH HX. unfold kick_drift. split; [reflexivity|]. set (y := (p a + dt * (v a + dt * acc a))%Qc) in *.
  destruct (C52_wrap_partial (this y) (this (lo a)) (this (hi a))) as (W1 & W2 & k & W3).
  - exact LH.
  - unfold Qcle in HX. rewrite !this_minus in HX. exact HX.
  - split; [unfold Qcle; cbn [Q2Qc this]; rewrite Qred_correct; exact W1|]. split; [unfold Qclt; cbn [Q2Qc this]; rewrite Qred_correct; exact W2|].
    exists k. apply Qc_is_canon. rewrite this_plus, this_mult, this_minus, zq_this. cbn [Q2Qc this]. rewrite Qred_correct. exact W3.
Qed.
Print Assumptions C76_motion_partial.

(** * Concrete cases
    3D mesh of 2x2x2 coarse octants, periodic, on two ranks, blocks of 2x2x2 cells, the first
    octant refined; unit box. *)
Definition pt_g : geom := mkGeom true 1 3 2 2 2 true true true.
Definition pt_refine (o : oct) : Z := if (cx o =? 0) && (cy o =? 0) && (cz o =? 0) then 1 else 0.
Definition pt_M0 : mesh := match private_init id_order pt_g 2 with Some M => M | None => [] end.
Definition pt_M : mesh := match adapt 20 id_order pt_g pt_M0 (map (map pt_refine) (map loc pt_M0)) with Some M => M | None => [] end.
Definition pt_b : axis -> Z := mkoff 2 2 2.
Definition pt_R : rank := nth 0 pt_M (mkRank [] [] [] 0 0).
Definition box_lo : point := fun _ => 0%Qc.
Definition box_hi : point := fun _ => 1%Qc.
Definition pt (x y z : Z) : point := fun a => frac (match a with AX => x | AY => y | AZ => z end) 16.
Example pt_setup : good_setup pt_g 2.
Proof. split; [apply wf_geom_check; reflexivity|cbn [pt_g lmin gsx gsy gsz]; lia]. Qed.
Example pt_reach : reachable pt_g 2 pt_M.
Proof.
  apply (reach_adapt pt_g 2 id_order 20 pt_M0 (map (map pt_refine) (map loc pt_M0))); [|exact id_order_ok| |vm_compute; reflexivity].
  - apply (reach_init pt_g 2 id_order); [exact id_order_ok|vm_compute; reflexivity].
  - apply good_markers_of, good_request_check. vm_compute. reflexivity.
Qed.
Example pt_block : block_ok pt_g pt_b. Proof. intros []; cbn; split; try discriminate; lia. Qed.
Lemma pt_in : In pt_R pt_M.
Proof. apply nth_In. assert (E : length pt_M = 2%nat) by (vm_compute; reflexivity). rewrite E. lia. Qed.
Lemma pt_nflat a : flat pt_g a = false. Proof. destruct a; reflexivity. Qed.
Lemma pt_box x y z : (0 <? x) && (x <? 16) && (0 <? y) && (y <? 16) && (0 <? z) && (z <? 16) = true -> in_box pt_g box_lo box_hi (pt x y z).
Proof.
  intros H a. rewrite pt_nflat. unfold box_lo, box_hi, pt, frac, Qclt. cbn [Q2Qc this]. rewrite !Qred_correct. unfold Qlt. destruct a; cbn; lia.
Qed.
Lemma pt_inblock x y z : (0 <=? x) && (x <? 2) && (0 <=? y) && (y <? 2) && (0 <=? z) && (z <? 2) = true -> in_block pt_b (mkoff x y z).
Proof. intros H []; cbn; lia. Qed.
Lemma pt_stays A q d : stays pt_g pt_b A q d. Proof. intros []; left; reflexivity. Qed.
Lemma pt_unit a : (box_lo a < box_hi a)%Qc. Proof. reflexivity. Qed.

(** A particle whose cloud meets smaller cells across a face only: it gives all its mass, to
    eleven cells. *)
Definition pt_A : oct := mkOct 1 1 0 0.
Lemma pt_A_at : nth_error (loc pt_R) 8 = Some pt_A. Proof. vm_compute. reflexivity. Qed.
Lemma pt_A_cell : in_cell pt_g pt_b box_lo box_hi pt_A (mkoff 0 1 1) (pt 9 7 7).
Proof. intros []; split; vm_compute; congruence. Qed.
(** Smaller cells in a direction, from the neighbour query. *)
Lemma finer_check A q i d n : nth_error (loc pt_R) i = Some A -> in_block pt_b q -> (forall a, Z.abs (d a) <= 1) ->
  getNeighbor_ghost pt_g (loc pt_R ++ gho pt_R) (mkCell i q pt_b LOCAL_TO_BLOCK) d = Some n -> (finer pt_g pt_b (leaves pt_M) A q d <-> level_diff n = -1).
Proof.
  intros HA IQ D1 E. destruct (neighbour_cases pt_g eq_refl (proj1 pt_setup) pt_M (reachable_ok _ _ _ pt_setup pt_reach) pt_b pt_block pt_R pt_in i A HA q IQ d D1 (pt_stays A q d)) as (n' & E' & CS).
  assert (n' = n) as -> by congruence. destruct CS as [(L & F & _)|[(L & F & _)|(L & F & _)]]; rewrite L; split; (contradiction || discriminate || auto).
Qed.
Lemma finer_found A q i d : nth_error (loc pt_R) i = Some A -> in_block pt_b q -> (forall a, Z.abs (d a) <= 1) ->
  match getNeighbor_ghost pt_g (loc pt_R ++ gho pt_R) (mkCell i q pt_b LOCAL_TO_BLOCK) d with Some n => level_diff n =? -1 | None => false end = true -> finer pt_g pt_b (leaves pt_M) A q d.
Proof.
  intros HA IQ D1 H. destruct (getNeighbor_ghost _ _ _ d) as [n|] eqn:E; [|discriminate]. apply (finer_check A q i d n HA IQ D1 E). lia.
Qed.
Definition diagonals_ok (i : nat) (q : axis -> Z) (ds : list (axis -> Z)) : bool :=
  forallb (fun d => (moves d <=? 1) || match getNeighbor_ghost pt_g (loc pt_R ++ gho pt_R) (mkCell i q pt_b LOCAL_TO_BLOCK) d with Some n => 0 <=? level_diff n | None => false end) ds.
Lemma diagonals_spec lo hi i A q p : nth_error (loc pt_R) i = Some A -> in_block pt_b q -> diagonals_ok i q (cloud_directions (centre pt_g pt_b lo hi A q) p) = true ->
  forall d, In d (cloud_directions (centre pt_g pt_b lo hi A q) p) -> diagonal d -> ~ finer pt_g pt_b (leaves pt_M) A q d.
Proof.
  intros HA IQ H d HD DG F. unfold diagonals_ok in H. rewrite forallb_forall in H. specialize (H d HD). unfold diagonal in DG. replace (moves d <=? 1) with false in H by lia. cbn [orb] in H.
  destruct (getNeighbor_ghost _ _ _ d) as [n|] eqn:E; [|discriminate]. apply (finer_check A q i d n HA IQ) in F; [rewrite F in H; discriminate| |exact E].
  intros a. destruct (directions_chosen pt_g pt_b A q lo hi p d HD a) as [->| ->]; [cbn; lia|]. rewrite side_one. lia.
Qed.
Example C48_example : exists wss, cic_deposit pt_g (loc pt_R ++ gho pt_R) (length (loc pt_R)) pt_b box_lo box_hi (pt 9 7 7) (frac 3 1) = Some (concat wss) /\
  mass_in pt_g pt_b (extent box_lo box_hi) (loc pt_R ++ gho pt_R) (concat wss) = frac 3 1 /\ finer pt_g pt_b (leaves pt_M) pt_A (mkoff 0 1 1) (mkoff (-1) 0 0).
Proof.
  destruct (C48_cloud_partial pt_g 2 pt_M pt_b box_lo box_hi (pt 9 7 7) pt_R 8 pt_A (mkoff 0 1 1) (frac 3 1) eq_refl pt_setup pt_reach pt_block pt_unit
    (pt_box 9 7 7 eq_refl) pt_in pt_A_at (pt_inblock 0 1 1 eq_refl) pt_A_cell (fun d _ => pt_stays _ _ d)) as (wss & E & _ & T).
  - apply (diagonals_spec box_lo box_hi 8 pt_A (mkoff 0 1 1) (pt 9 7 7) pt_A_at (pt_inblock 0 1 1 eq_refl)). vm_compute. reflexivity.
  - exists wss. split; [exact E|]. split; [exact T|].
    apply (finer_found pt_A (mkoff 0 1 1) 8); [exact pt_A_at|apply pt_inblock; reflexivity|intros []; cbn; lia|vm_compute; reflexivity].
Qed.

(** A particle in the next octant, whose cloud reaches the smaller cells across an edge, loses
    a part of its mass. *)
Definition pt_B : oct := mkOct 1 1 1 0.
Lemma pt_B_at : nth_error (loc pt_R) 10 = Some pt_B. Proof. vm_compute. reflexivity. Qed.
Lemma pt_B_cell : in_cell pt_g pt_b box_lo box_hi pt_B (mkoff 0 0 1) (pt 9 9 7).
Proof. intros []; split; vm_compute; congruence. Qed.
Lemma pt_lost : match cic_deposit pt_g (loc pt_R ++ gho pt_R) (length (loc pt_R)) pt_b box_lo box_hi (pt 9 9 7) 1 with
  | Some ws => Qeq_bool (mass_in pt_g pt_b (extent box_lo box_hi) (loc pt_R ++ gho pt_R) ws) (125 # 128) | None => false end = true.
Proof. vm_compute. reflexivity. Qed.
Theorem C48_refuted : ~ (forall g P M b lo hi p R i A q m, g3d g = true -> good_setup g P -> reachable g P M -> block_ok g b ->
  (forall a, (lo a < hi a)%Qc) -> in_box g lo hi p -> In R M -> nth_error (loc R) i = Some A -> in_block b q -> in_cell g b lo hi A q p ->
  (forall d, In d (cloud_directions (centre g b lo hi A q) p) -> stays g b A q d) ->
  exists ws, cic_deposit g (loc R ++ gho R) (length (loc R)) b lo hi p m = Some ws /\ mass_in g b (extent lo hi) (loc R ++ gho R) ws = m).
Proof.
  intros H. destruct (H pt_g 2%nat pt_M pt_b box_lo box_hi (pt 9 9 7) pt_R 10%nat pt_B (mkoff 0 0 1) 1%Qc eq_refl pt_setup pt_reach pt_block pt_unit
    (pt_box 9 9 7 eq_refl) pt_in pt_B_at (pt_inblock 0 0 1 eq_refl) pt_B_cell (fun d _ => pt_stays _ _ d)) as (ws & E & T).
  pose proof pt_lost as L. rewrite E, T in L. vm_compute in L. discriminate.
Qed.
Print Assumptions C48_refuted.
(** The hypotheses of [C48_loss] are met by this particle. *)
Example C48_loss_example : exists d, In d (cloud_directions (centre pt_g pt_b box_lo box_hi pt_B (mkoff 0 0 1)) (pt 9 9 7)) /\ diagonal d /\
  finer pt_g pt_b (leaves pt_M) pt_B (mkoff 0 0 1) d /\ (0 < cloud_share pt_g pt_b box_lo box_hi pt_B (mkoff 0 0 1) (pt 9 9 7) d)%Qc.
Proof.
  exists (mkoff (-1) (-1) 0). split; [|split; [|split]].
  - unfold cloud_directions. assert (E : forall a, side (centre pt_g pt_b box_lo box_hi pt_B (mkoff 0 0 1)) (pt 9 9 7) a = match a with AZ => 1 | _ => -1 end) by (intros []; vm_compute; reflexivity).
    rewrite !E. cbn. do 3 right. left. reflexivity.
  - vm_compute. discriminate.
  - apply (finer_found pt_B (mkoff 0 0 1) 10); [exact pt_B_at|apply pt_inblock; reflexivity|intros []; cbn; lia|vm_compute; reflexivity].
  - vm_compute. reflexivity.
Qed.

(** In two dimensions the deposition reads past the only layer of cells and fails. *)
Definition pl_R : rank := nth 0 cs_M (mkRank [] [] [] 0 0).
Lemma pl_in : In pl_R cs_M.
Proof. apply nth_In. assert (E : length cs_M = 2%nat) by (vm_compute; reflexivity). rewrite E. lia. Qed.
Lemma pl_at : nth_error (loc pl_R) 4 = Some (mkOct 1 1 0 0). Proof. vm_compute. reflexivity. Qed.
Lemma pl_box : in_box cs_g box_lo box_hi (pt 9 7 0).
Proof. intros []; cbn [flat cs_g g3d negb]; [split; reflexivity|split; reflexivity|qceq]. Qed.
Lemma pl_cell : in_cell cs_g cs_b box_lo box_hi (mkOct 1 1 0 0) (mkoff 0 3 0) (pt 9 7 0).
Proof. intros []; split; vm_compute; congruence. Qed.
Lemma pl_inblock : in_block cs_b (mkoff 0 3 0). Proof. intros []; cbn; lia. Qed.
Lemma pl_fails : match cic_deposit cs_g (loc pl_R ++ gho pl_R) (length (loc pl_R)) cs_b box_lo box_hi (pt 9 7 0) 1 with Some _ => false | None => true end = true.
Proof. vm_compute. reflexivity. Qed.
Theorem C48_refuted_plane : ~ (forall g P M b lo hi p R i A q m, g3d g = false -> good_setup g P -> reachable g P M -> block_ok g b ->
  (forall a, (lo a < hi a)%Qc) -> in_box g lo hi p -> In R M -> nth_error (loc R) i = Some A -> in_block b q -> in_cell g b lo hi A q p ->
  (forall d, d AZ = 0 -> stays g b A q d) -> exists ws, cic_deposit g (loc R ++ gho R) (length (loc R)) b lo hi p m = Some ws).
Proof.
  intros H. destruct (H cs_g 2%nat cs_M cs_b box_lo box_hi (pt 9 7 0) pl_R 4%nat (mkOct 1 1 0 0) (mkoff 0 3 0) 1%Qc eq_refl cs_setup cs_reach cs_block pt_unit
    pl_box pl_in pl_at pl_inblock pl_cell) as (ws & E).
  - intros d Hd []; [left; reflexivity|left; reflexivity|right]. rewrite Hd. cbn. lia.
  - pose proof pl_fails as L. rewrite E in L. discriminate.
Qed.
Print Assumptions C48_refuted_plane.

(** In two dimensions the nearest-cell scheme multiplies the mass in refined regions: the
    thickness of the layer is taken to be halved at each level. *)
Lemma pl_at2 : nth_error (loc pl_R) 0 = Some (mkOct 2 0 0 0). Proof. vm_compute. reflexivity. Qed.
Lemma pl_box2 : in_box cs_g box_lo box_hi (pt 3 3 0).
Proof. intros []; cbn [flat cs_g g3d negb]; [split; reflexivity|split; reflexivity|qceq]. Qed.
Lemma pl_cell2 : in_cell cs_g cs_b box_lo box_hi (mkOct 2 0 0 0) (mkoff 3 3 0) (pt 3 3 0).
Proof. intros []; split; vm_compute; congruence. Qed.
Lemma pl_inblock2 : in_block cs_b (mkoff 3 3 0). Proof. intros []; cbn; lia. Qed.
Lemma pl_doubled : match ngp_deposit cs_g (loc pl_R ++ gho pl_R) (length (loc pl_R)) cs_b box_lo box_hi (pt 3 3 0) 1 with
  | Some ws => Qeq_bool (mass_in cs_g cs_b (extent box_lo box_hi) (loc pl_R ++ gho pl_R) ws) 2 | None => false end = true.
Proof. vm_compute. reflexivity. Qed.
Theorem C75_refuted : ~ (forall g P M b lo hi p R i A q m, good_setup g P -> reachable g P M -> block_ok g b ->
  (forall a, (lo a < hi a)%Qc) -> in_box g lo hi p -> In R M -> nth_error (loc R) i = Some A -> in_block b q -> in_cell g b lo hi A q p ->
  exists ws, ngp_deposit g (loc R ++ gho R) (length (loc R)) b lo hi p m = Some ws /\ mass_in g b (extent lo hi) (loc R ++ gho R) ws = m).
Proof.
  intros H. destruct (H cs_g 2%nat cs_M cs_b box_lo box_hi (pt 3 3 0) pl_R 0%nat (mkOct 2 0 0 0) (mkoff 3 3 0) 1%Qc cs_setup cs_reach cs_block pt_unit
    pl_box2 pl_in pl_at2 pl_inblock2 pl_cell2) as (ws & E & T).
  pose proof pl_doubled as L. rewrite E, T in L. vm_compute in L. discriminate.
Qed.
Print Assumptions C75_refuted.
Example C75_example : exists c rho, ngp_deposit pt_g (loc pt_R ++ gho pt_R) (length (loc pt_R)) pt_b box_lo box_hi (pt 9 7 7) 1 = Some [(c, rho)] /\
  mass_in pt_g pt_b (extent box_lo box_hi) (loc pt_R ++ gho pt_R) [(c, rho)] = 1%Qc.
Proof.
  destruct (C75_mass_partial pt_g 2 pt_M pt_b box_lo box_hi (pt 9 7 7) pt_R 8 pt_A (mkoff 0 1 1) 1 eq_refl pt_setup pt_reach pt_block pt_unit
    (pt_box 9 7 7 eq_refl) pt_in pt_A_at (pt_inblock 0 1 1 eq_refl) pt_A_cell) as (c & rho & E & _ & _ & _ & T). exists c, rho. split; assumption.
Qed.

(** The acceleration in a uniform field is too small next to smaller cells across an edge. *)
Definition one_field (k : nat) (z : Z) (a : axis) : Qc := 1%Qc.
Lemma pt_weak : match cic_gather pt_g (loc pt_R ++ gho pt_R) (length (loc pt_R)) pt_b box_lo box_hi (pt 9 9 7) one_field with
  | Some acc => Qeq_bool (acc AX) (125 # 128) | None => false end = true.
Proof. vm_compute. reflexivity. Qed.
Theorem C76_refuted : ~ (forall g P M b lo hi p R i A q, g3d g = true -> good_setup g P -> reachable g P M -> block_ok g b ->
  (forall a, (lo a < hi a)%Qc) -> in_box g lo hi p -> In R M -> nth_error (loc R) i = Some A -> in_block b q -> in_cell g b lo hi A q p ->
  (forall d, In d (cloud_directions (centre g b lo hi A q) p) -> stays g b A q d) ->
  exists acc, cic_gather g (loc R ++ gho R) (length (loc R)) b lo hi p (fun _ _ _ => 1%Qc) = Some acc /\ forall a, acc a = 1%Qc).
Proof.
  intros H. destruct (H pt_g 2%nat pt_M pt_b box_lo box_hi (pt 9 9 7) pt_R 10%nat pt_B (mkoff 0 0 1) eq_refl pt_setup pt_reach pt_block pt_unit
    (pt_box 9 9 7 eq_refl) pt_in pt_B_at (pt_inblock 0 0 1 eq_refl) pt_B_cell (fun d _ => pt_stays _ _ d)) as (acc & E & T).
  change (fun _ _ _ => 1%Qc) with one_field in E. pose proof pt_weak as L. rewrite E, T in L. vm_compute in L. discriminate.
Qed.
Print Assumptions C76_refuted.
Example C76_example : exists acc, cic_gather pt_g (loc pt_R ++ gho pt_R) (length (loc pt_R)) pt_b box_lo box_hi (pt 9 7 7) one_field = Some acc /\ (1 <= acc AX)%Qc /\ (acc AX <= 1)%Qc.
Proof.
  apply (C76_bounds_partial pt_g 2 pt_M pt_b box_lo box_hi (pt 9 7 7) pt_R 8 pt_A (mkoff 0 1 1) one_field (fun _ _ => 1%Qc) AX 1 1 eq_refl pt_setup pt_reach pt_block pt_unit
    (pt_box 9 7 7 eq_refl) pt_in pt_A_at (pt_inblock 0 1 1 eq_refl) pt_A_cell (fun d _ => pt_stays _ _ d)).
  - apply (diagonals_spec box_lo box_hi 8 pt_A (mkoff 0 1 1) (pt 9 7 7) pt_A_at (pt_inblock 0 1 1 eq_refl)). vm_compute. reflexivity.
  - reflexivity.
  - intros. split; apply Qcle_refl.
Qed.
Example C76_nearest_example : exists acc, ngp_gather cs_g (loc pl_R ++ gho pl_R) (length (loc pl_R)) cs_b box_lo box_hi (pt 9 7 0) one_field = Some acc /\ forall a, acc a = 1%Qc.
Proof.
  apply (C76_nearest cs_g 2 cs_M cs_b box_lo box_hi (pt 9 7 0) pl_R 4 (mkOct 1 1 0 0) (mkoff 0 3 0) one_field (fun _ _ => 1%Qc) cs_setup cs_reach cs_block pt_unit
    pl_box pl_in pl_at pl_inblock pl_cell). reflexivity.
Qed.
Example C76_motion_example : fst (kick_drift box_lo box_hi (frac 1 2) (pt 12 12 12) (fun _ => frac 1 2) (fun _ => frac 1 2)) AX = frac 1 8.
Proof. qceq. Qed.
