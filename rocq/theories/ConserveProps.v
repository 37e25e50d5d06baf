(** Conservation (C39), ghost layers of blocks (C66), uniform flow (C67), independence of the
    partition (C68). *)
From Coq Require Import QArith Qcanon Permutation.
From Verif Require Import Base OctreeSpec OctreeGeom OctreeModel FindNeighbors MeshSpec HistorySpec
  LookupModel CellModel CellSpec CellProofs CellProps RemapModel RemapSpec RemapProofs RemapProps HydroModel HydroSpec HydroProps
  ConserveSpec BlockGhost ConserveFaces ConserveProofs OctreeProps HistoryProofs LookupProps.
Open Scope Z_scope.

(** * The step *)

(** [U'] holds what the kernel (HydroUpdate_euler.cpp:208-223) writes for every cell of every
    rank when the input arrays are [U]. [gf] is the gravity field applied after the step, if
    any, and [old] the former content of the output arrays. *)
Record scheme := mkScheme {
  s_riem : prim -> prim -> cons * Qc; s_gamma : Qc; s_smallr : Qc; s_gi : ginfo;
  s_bval : cidx -> option cons; s_user : axis -> bool -> bool; s_ovr : cons -> prim -> axis -> bool -> cons; s_junk : Qc }.
Definition ctx (g : geom) (b : axis -> Z) (S : scheme) (R : rank) : hctx :=
  mkH g (loc R ++ gho R) b (s_riem S) (s_gamma S) (s_smallr S) (s_gi S) (s_bval S) (s_user S) (s_ovr S) (s_junk S).
Definition step_done (g : geom) (b : axis -> Z) (S : scheme) (ext : axis -> Qc) (dt : Qc) (M : mesh)
    (gf : nat -> nat -> Z -> option (axis -> Qc)) (old U U' : nat -> field) : Prop :=
  forall r R i A q, nth_error M r = Some R -> nth_error (loc R) i = Some A -> In q (positions b) ->
    let k := q AX + q AY * b AX + q AZ * b AX * b AY in
    update_cell (ctx g b S R) ext dt (U r) (gf r i k) (old r i k) (mkCell i q b LOCAL_TO_BLOCK) = Some (U' r i k).

(** * Sums over the arrays *)
Lemma indexed_in {X} (l : list X) k x : In (k, x) (indexed l) <-> nth_error l k = Some x.
Proof.
  unfold indexed. assert (G : forall s, In (k, x) (combine (seq s (length l)) l) <-> (s <= k)%nat /\ nth_error l (k - s) = Some x).
  { induction l as [|y l IH]; intros s; cbn [length seq combine In].
    - split; [intros []|]. intros (_ & H). destruct (k - s)%nat; discriminate H.
    - rewrite IH. split.
      + intros [E|(H1 & H2)]; [injection E as -> ->; split; [lia|]; rewrite Nat.sub_diag; reflexivity|]. split; [lia|]. replace (k - s)%nat with (S (k - S s)) by lia. exact H2.
      + intros (H1 & H2). destruct (Nat.eq_dec s k) as [->|N]; [left; rewrite Nat.sub_diag in H2; injection H2 as ->; reflexivity|]. right. split; [lia|].
        replace (k - s)%nat with (S (k - S s)) in H2 by lia. exact H2. }
  rewrite (G 0%nat). rewrite Nat.sub_0_r. split; [intros (_ & H); exact H|]. split; [lia|assumption].
Qed.
Lemma map_snd_combine {X} (l : list X) : forall s, map snd (combine (seq s (length l)) l) = l.
Proof. induction l as [|x l IH]; intros s; [reflexivity|]. cbn [length seq combine map snd]. rewrite IH. reflexivity. Qed.
Lemma csum_indexed {X} (h : nat * X -> Qc) (k : X -> Qc) l : (forall i x, nth_error l i = Some x -> h (i, x) = k x) -> csum (map h (indexed l)) = csum (map k l).
Proof.
  intros H. rewrite (csum_ext h (fun ix => k (snd ix))).
  - rewrite <- (map_map snd k). unfold indexed. rewrite map_snd_combine. reflexivity.
  - intros (i, x) HI. apply H, indexed_in, HI.
Qed.
Lemma csum_flat_map {X Y} (f : Y -> Qc) (h : X -> list Y) l : csum (map f (flat_map h l)) = csum (map (fun x => csum (map f (h x))) l).
Proof. induction l as [|x l IH]; [reflexivity|]. cbn [flat_map map]. rewrite map_app, csum_app, IH. reflexivity. Qed.
Lemma total_cells g b ext M v U (h : oct -> Qc) :
  (forall r R i A q, nth_error M r = Some R -> nth_error (loc R) i = Some A -> In q (positions b) -> cv v (U r i (q AX + q AY * b AX + q AZ * b AX * b AY)) = h (cell_of b A q)) ->
  total_held g b ext M v U = csum (map (fun x => (volume g b ext x * h x)%Qc) (all_cells b (leaves M))).
Proof.
  intros H. unfold total_held.
  rewrite (csum_indexed _ (fun R => csum (map (fun x => (volume g b ext x * h x)%Qc) (all_cells b (loc R))))).
  - rewrite <- csum_flat_map. unfold all_cells, leaves. rewrite <- flat_map_concat_map.
    f_equal. f_equal. clear H. induction M as [|R M' IH]; [reflexivity|]. cbn [flat_map]. rewrite flat_map_app. f_equal. apply IH.
  - intros r R HR. cbn [fst snd]. rewrite (csum_indexed _ (fun A => csum (map (fun q => (volume g b ext (cell_of b A q) * h (cell_of b A q))%Qc) (positions b)))).
    + unfold all_cells. rewrite csum_flat_map. apply csum_ext. intros A _. rewrite map_map. reflexivity.
    + intros i A HA. cbn [fst snd]. apply csum_ext. intros q Hq. rewrite (H r R i A q HR HA Hq). reflexivity.
Qed.

(** * C66 *)

(** Value read at any position of the block widened by its ghost layers: the value of the field
    there on the grid of the block, through periodic boundaries, coarse-fine faces, edges and
    corners, and ranks. *)
Theorem C66_ghost_layer g n M b D U r R i A p bval :
  good_setup g n -> reachable g n M -> block_ok g b -> periodic g -> even_blocks g b -> holds_field b M D U ->
  nth_error M r = Some R -> nth_error (loc R) i = Some A -> in_block (wide g b) p ->
  Ugroup g (loc R ++ gho R) b bval (U r) (mkCell i p (wide g b) LOCAL_TO_BLOCK) =
  Some (getCons (g3d g) (resample g (all_cells b (leaves M)) D (displaced g b (cell_of b A (fun _ => 0)) (fun a => p a - if flat g a then 0 else 2)))).
Proof.
  intros GS RC BO PER EV HF HR HA IP. exact (ghost_layer g (proj1 GS) M (reachable_ok g n M GS RC) b BO PER EV D U HF r R i A p bval HR HA IP).
Qed.

(** * C39 *)

(** Totals of the variables [vs] are unchanged by the step, for the schemes and gravity fields
    [ok]. *)
Definition conserved (ok : scheme -> (nat -> nat -> Z -> option (axis -> Qc)) -> cvar -> Prop) : Prop :=
  forall g n M b S ext dt gf D old U U',
    good_setup g n -> reachable g n M -> block_ok g b -> periodic g -> even_blocks g b -> (forall a, 0 < ext a)%Qc ->
    holds_field b M D U -> step_done g b S ext dt M gf old U U' ->
    forall v, has_var g v -> ok S gf v -> total_held g b ext M v U' = total_held g b ext M v U.

Lemma update_eq g b S R : ctx g b S R = hc g b (s_riem S) (s_gamma S) (s_smallr S) (s_gi S) (s_bval S) (s_user S) (s_ovr S) (s_junk S) R.
Proof. reflexivity. Qed.

Theorem C39_conservation_partial : conserved (fun S gf v => well_balanced (s_gi S) = false /\ (v = Mass \/ in_step (s_gi S) = false /\ forall r i k, gf r i k = None)).
Proof.
  intros g n M b S ext dt gf D old U U' GS RC BO PER EV EXT HF DONE v HV (WB & CV).
  pose proof (reachable_ok g n M GS RC) as OK. pose proof (proj1 GS) as WF.
  assert (EXT' : forall a, ext a <> 0%Qc) by (intros a K; specialize (EXT a); rewrite K in EXT; apply (Qclt_not_eq _ _ EXT); reflexivity).
  set (chg := change g M b D (s_riem S) (s_gamma S) (s_smallr S) (s_gi S) ext dt v).
  set (own := fun x : oct => match find (fun A => lev A =? lev x) (leaves M) with Some A => A | None => x end).
  assert (OWN : forall x, In x (all_cells b (leaves M)) -> In (own x) (leaves M) /\ lev (own x) = lev x).
  { intros x HX. apply cells_in in HX. destruct HX as (A & q & HA & Hq & ->). unfold own. destruct (find _ _) as [B|] eqn:E.
    - apply find_some in E. destruct E as (E1 & E2). split; [exact E1|lia].
    - exfalso. apply (find_none _ _ E A) in HA. unfold cell_of in HA. cbn [oct_of lev] in HA. lia. }
  assert (CH : forall x A, In A (leaves M) -> lev A = lev x -> In x (all_cells b (leaves M)) -> chg x A = chg x (own x)).
  { intros x A HA LA HX. destruct (OWN x HX) as (O1 & O2). unfold chg, change. apply csum_ext. intros e He. apply axes_flat in He.
    rewrite (cell_size_eq g WF M OK b BO (s_gi S) WB (s_user S) ext EXT' A e HA He), (cell_size_eq g WF M OK b BO (s_gi S) WB (s_user S) ext EXT' (own x) e O1 He), O2, LA. reflexivity. }
  rewrite (total_cells g b ext M v U' (fun x => (cv v (D x) + chg x (own x))%Qc)), (total_cells g b ext M v U (fun x => cv v (D x))).
  - rewrite (csum_ext _ (fun x => (volume g b ext x * cv v (D x) + volume g b ext x * chg x (own x))%Qc)) by (intros; ring).
    rewrite csum_plus. unfold chg. rewrite (change_total g WF M OK b BO D (s_riem S) (s_gamma S) (s_smallr S) (s_gi S) WB (s_user S) ext EXT' dt v own); [ring|tauto|exact OWN].
  - intros r R i A q HR HA Hq. f_equal. apply (HF r R i A q HR); [rewrite nth_error_app1; [exact HA|apply nth_error_Some; congruence]|apply positions_in, Hq].
  - intros r R i A q HR HA Hq. specialize (DONE r R i A q HR HA Hq). cbv zeta in DONE. rewrite update_eq in DONE.
    destruct (update_value g WF M OK b BO PER EV D U HF (s_riem S) (s_gamma S) (s_smallr S) (s_gi S) WB (s_bval S) (s_user S) (s_ovr S) (s_junk S) r R i A q ext dt
       (gf r i (q AX + q AY * b AX + q AZ * b AX * b AY)) (old r i (q AX + q AY * b AX + q AZ * b AX * b AY)) HR HA (positions_in b q Hq)) as (o & E & V).
    rewrite DONE in E. injection E as ->. rewrite (V v HV).
    assert (HX : In (cell_of b A q) (all_cells b (leaves M))) by (apply cells_in; exists A, q; split; [apply (loc_leaf M R A); [eapply nth_error_In, HR|eapply nth_error_In, HA]|split; [apply positions_in, Hq|reflexivity]]).
    rewrite <- (CH _ A); [|apply (loc_leaf M R A); [eapply nth_error_In, HR|eapply nth_error_In, HA]|reflexivity|exact HX].
    unfold chg. rewrite <- cv_base. unfold corrected. destruct CV as [-> |(_ & GN)]; [destruct (gf r i _); reflexivity|rewrite GN; reflexivity].
Qed.

(** The step computes a value for every cell. *)
Theorem C39_total g n M b S ext dt D U r R i A q gfield old :
  good_setup g n -> reachable g n M -> block_ok g b -> periodic g -> even_blocks g b -> holds_field b M D U -> well_balanced (s_gi S) = false ->
  nth_error M r = Some R -> nth_error (loc R) i = Some A -> in_block b q ->
  update_cell (ctx g b S R) ext dt (U r) gfield old (mkCell i q b LOCAL_TO_BLOCK) <> None.
Proof.
  intros GS RC BO PER EV HF WB HR HA Hq K.
  destruct (update_value g (proj1 GS) M (reachable_ok g n M GS RC) b BO PER EV D U HF (s_riem S) (s_gamma S) (s_smallr S) (s_gi S) WB (s_bval S) (s_user S) (s_ovr S) (s_junk S) r R i A q ext dt gfield old HR HA Hq) as (o & E & _).
  rewrite <- update_eq, K in E. discriminate E.
Qed.

(** * C67: a uniform flow is unchanged *)
Theorem C67_uniform g n M b S ext dt u U r R i A q old :
  good_setup g n -> reachable g n M -> block_ok g b -> periodic g -> even_blocks g b -> (forall a, 0 < ext a)%Qc -> holds_field b M (fun _ => u) U ->
  well_balanced (s_gi S) = false -> in_step (s_gi S) = false ->
  nth_error M r = Some R -> nth_error (loc R) i = Some A -> in_block b q ->
  exists o, update_cell (ctx g b S R) ext dt (U r) None old (mkCell i q b LOCAL_TO_BLOCK) = Some o /\
    forall v, has_var g v -> cv v o = cv v u.
Proof.
  intros GS RC BO PER EV EXT HF WB NG HR HA Hq.
  assert (EXT' : forall a, ext a <> 0%Qc) by (intros a K; specialize (EXT a); rewrite K in EXT; apply (Qclt_not_eq _ _ EXT); reflexivity).
  pose proof (reachable_ok g n M GS RC) as OK.
  destruct (update_value g (proj1 GS) M OK b BO PER EV (fun _ => u) U HF (s_riem S) (s_gamma S) (s_smallr S) (s_gi S) WB (s_bval S) (s_user S) (s_ovr S) (s_junk S) r R i A q ext dt None old HR HA Hq) as (o & E & V).
  exists o. split; [exact E|]. intros v HV. rewrite (V v HV). unfold corrected. rewrite cv_base.
  rewrite (change_uniform g (proj1 GS) M OK b BO PER EV (fun _ => u) (s_riem S) (s_gamma S) (s_smallr S) (s_gi S) WB (s_bval S) (s_user S) (s_ovr S) ext EXT' u r R i A q ext dt v (fun _ => eq_refl) HR HA Hq (or_intror NG)). ring.
Qed.

(** * C68: the result does not depend on how the octants are shared out *)

(** Parts of a scheme that the values in the domain can depend on. *)
Definition same_scheme (S S' : scheme) : Prop :=
  s_riem S = s_riem S' /\ s_gamma S = s_gamma S' /\ s_smallr S = s_smallr S' /\ s_gi S = s_gi S'.
Theorem C68_partition_partial g n n' M M' b S S' ext dt D U U' r r' R R' i i' A q gfield old old' :
  good_setup g n -> reachable g n M -> good_setup g n' -> reachable g n' M' -> (forall B, In B (leaves M) <-> In B (leaves M')) ->
  block_ok g b -> periodic g -> even_blocks g b -> holds_field b M D U -> holds_field b M' D U' ->
  well_balanced (s_gi S) = false -> same_scheme S S' ->
  nth_error M r = Some R -> nth_error (loc R) i = Some A -> nth_error M' r' = Some R' -> nth_error (loc R') i' = Some A -> in_block b q ->
  exists o o', update_cell (ctx g b S R) ext dt (U r) gfield old (mkCell i q b LOCAL_TO_BLOCK) = Some o /\
    update_cell (ctx g b S' R') ext dt (U' r') gfield old' (mkCell i' q b LOCAL_TO_BLOCK) = Some o' /\
    forall v, has_var g v -> cv v o = cv v o'.
Proof.
  intros GS RC GS' RC' SAME BO PER EV HF HF' WB (E1 & E2 & E3 & E4) HR HA HR' HA' Hq.
  pose proof (reachable_ok g n M GS RC) as OK. pose proof (reachable_ok g n' M' GS' RC') as OK'.
  assert (WB' : well_balanced (s_gi S') = false) by (rewrite <- E4; exact WB).
  destruct (update_value g (proj1 GS) M OK b BO PER EV D U HF (s_riem S) (s_gamma S) (s_smallr S) (s_gi S) WB (s_bval S) (s_user S) (s_ovr S) (s_junk S) r R i A q ext dt gfield old HR HA Hq) as (o & E & V).
  destruct (update_value g (proj1 GS) M' OK' b BO PER EV D U' HF' (s_riem S') (s_gamma S') (s_smallr S') (s_gi S') WB' (s_bval S') (s_user S') (s_ovr S') (s_junk S') r' R' i' A q ext dt gfield old' HR' HA' Hq) as (o' & E' & V').
  exists o, o'. split; [exact E|]. split; [exact E'|]. intros v HV. rewrite (V v HV), (V' v HV), <- E1, <- E2, <- E3, <- E4.
  rewrite (corrected_same g M M' b BO OK OK' D SAME). reflexivity.
Qed.

(** * Examples *)

(** Arrays that hold a field, and what the kernel writes. *)
Definition decode (b : axis -> Z) (k : Z) : axis -> Z := mkoff (k mod b AX) ((k / b AX) mod b AY) (k / b AX / b AY).
Definition arrays (b : axis -> Z) (M : mesh) (D : oct -> cons) : nat -> field :=
  fun r i k => match nth_error M r with
               | Some R => match nth_error (loc R ++ gho R) i with Some B => D (cell_of b B (decode b k)) | None => cons0 end
               | None => cons0
               end.
Definition stepped (g : geom) (b : axis -> Z) (S : scheme) (ext : axis -> Qc) (dt : Qc) (M : mesh) (U : nat -> field) : nat -> field :=
  fun r i k => match nth_error M r with
               | Some R => match update_cell (ctx g b S R) ext dt (U r) None cons0 (mkCell i (decode b k) b LOCAL_TO_BLOCK) with Some o => o | None => cons0 end
               | None => cons0
               end.
Lemma decode_at b x y z : 0 <= x < b AX -> 0 <= y < b AY -> 0 <= z -> decode b (x + y * b AX + z * b AX * b AY) = mkoff x y z.
Proof.
  intros HX HY HZ. unfold decode. replace (x + y * b AX + z * b AX * b AY) with (x + (y + z * b AY) * b AX) by ring.
  rewrite Z.mod_add, Z.div_add, (Z.div_small x), (Z.mod_small x) by lia. rewrite Z.add_0_l, Z.mod_add, Z.div_add, (Z.div_small y), (Z.mod_small y) by lia. reflexivity.
Qed.
Lemma arrays_hold b M D : holds_field b M D (arrays b M D).
Proof.
  intros r R k B q HR HB Hq. unfold arrays. rewrite HR, HB. rewrite decode_at by (apply Hq || (specialize (Hq AZ); lia)). reflexivity.
Qed.
Lemma stepped_done g b S ext dt M U : 
  (forall r R i A q, nth_error M r = Some R -> nth_error (loc R) i = Some A -> In q (positions b) -> update_cell (ctx g b S R) ext dt (U r) None cons0 (mkCell i q b LOCAL_TO_BLOCK) <> None) ->
  step_done g b S ext dt M (fun _ _ _ => None) (fun _ _ _ => cons0) U (stepped g b S ext dt M U).
Proof.
  intros H r R i A q HR HA Hq. cbv zeta. pose proof (positions_in b q Hq) as IB. specialize (H r R i A q HR HA Hq).
  unfold stepped. rewrite HR. rewrite decode_at by (apply IB || (specialize (IB AZ); lia)).
  assert (q = mkoff (q AX) (q AY) (q AZ)) as <-.
  { unfold positions in Hq. apply in_flat_map in Hq. destruct Hq as (z & _ & Hq). apply in_flat_map in Hq. destruct Hq as (y & _ & Hq). apply in_map_iff in Hq. destruct Hq as (x & <- & _). reflexivity. }
  destruct (update_cell _ _ _ _ _ _ _); [reflexivity|congruence].
Qed.

(** A periodic 2x2 mesh on two ranks with one octant refined, blocks of 4x4 cells. *)
Definition cs_g : geom := mkGeom false 1 2 2 2 1 true true false.
Definition cs_M0 : mesh := match private_init id_order cs_g 2 with Some M => M | None => [] end.
Definition cs_M : mesh := match adapt 20 id_order cs_g cs_M0 (map (map ex_refine) (map loc cs_M0)) with Some M => M | None => [] end.
Definition cs_b : axis -> Z := mkoff 4 4 1.
Example cs_setup : good_setup cs_g 2.
Proof. split; [apply wf_geom_check; reflexivity|cbn [cs_g lmin gsx gsy gsz]; lia]. Qed.
Example cs_reach : reachable cs_g 2 cs_M.
Proof.
  apply (reach_adapt cs_g 2 id_order 20 cs_M0 (map (map ex_refine) (map loc cs_M0))); [|exact id_order_ok| |vm_compute; reflexivity].
  - apply (reach_init cs_g 2 id_order); [exact id_order_ok|vm_compute; reflexivity].
  - apply good_markers_of, good_request_check. vm_compute. reflexivity.
Qed.
Example cs_block : block_ok cs_g cs_b. Proof. intros []; cbn; split; try discriminate; try reflexivity; lia. Qed.
Example cs_periodic : periodic cs_g. Proof. intros []; cbn; congruence. Qed.
Example cs_even : even_blocks cs_g cs_b. Proof. intros []; cbn; intros H; try discriminate H; split; lia || reflexivity. Qed.
Definition cs_D (x : oct) : cons := mkCons (frac (1 + cx x) (Z.to_pos (1 + cy x))) (frac 5 2) (frac (cy x) 3) (frac 1 7) (frac 0 1).
Definition cs_P : rparams := mkRP (frac 5 3) (frac 1 100) (frac 1 100) (frac 1 100).
Definition cs_S (gi : ginfo) : scheme :=
  mkScheme (riemann_hllc (fun x => x) cs_P) (frac 5 3) (frac 1 100) gi (fun _ => None) (fun _ _ => false) (fun u _ _ _ => u) (frac 7 3).
Definition cs_ext : axis -> Qc := fun _ => 1%Qc.
Definition cs_U : nat -> field := arrays cs_b cs_M cs_D.
Definition cs_no_gravity : ginfo := mkG (fun _ => 0%Qc) false false.
Example cs_done : step_done cs_g cs_b (cs_S cs_no_gravity) cs_ext (frac 1 10) cs_M (fun _ _ _ => None) (fun _ _ _ => cons0) cs_U
  (stepped cs_g cs_b (cs_S cs_no_gravity) cs_ext (frac 1 10) cs_M cs_U).
Proof.
  apply stepped_done. intros r R i A q HR HA Hq.
  apply (C39_total cs_g 2 cs_M cs_b (cs_S cs_no_gravity) cs_ext (frac 1 10) cs_D cs_U r R i A q); try assumption; try reflexivity;
    [exact cs_setup|exact cs_reach|exact cs_block|exact cs_periodic|exact cs_even|apply arrays_hold|apply positions_in, Hq].
Qed.
Example C39_example v : has_var cs_g v ->
  total_held cs_g cs_b cs_ext cs_M v (stepped cs_g cs_b (cs_S cs_no_gravity) cs_ext (frac 1 10) cs_M cs_U) = total_held cs_g cs_b cs_ext cs_M v cs_U.
Proof.
  intros HV. apply (C39_conservation_partial cs_g 2%nat cs_M cs_b (cs_S cs_no_gravity) cs_ext (frac 1 10) (fun _ _ _ => None) cs_D (fun _ _ _ => cons0));
    [exact cs_setup|exact cs_reach|exact cs_block|exact cs_periodic|exact cs_even|intros a; reflexivity|apply arrays_hold|exact cs_done|exact HV|].
  split; [reflexivity|]. right. split; reflexivity.
Qed.
(** The step is not the identity there. *)
Example C39_example_moves : exists r i k, u_rho (stepped cs_g cs_b (cs_S cs_no_gravity) cs_ext (frac 1 10) cs_M cs_U r i k) <> u_rho (cs_U r i k).
Proof. exists 0%nat, 0%nat, 0. intro H. apply (f_equal this) in H. vm_compute in H. discriminate H. Qed.

(** * Exceptions to C39 *)

(** With the well-balanced option the pressures on both sides of a face are extrapolated over
    the size of the cell being updated (HydroUpdate_utils.h:145-151). The two cells on either
    side of a coarse-fine face then use different fluxes, and even the mass changes. *)
Definition wb_gi : ginfo := mkG (fun a => match a with AX => frac 1 2 | _ => 0%Qc end) true true.
Definition wb_D (x : oct) : cons := mkCons 1%Qc (frac 5 2) (if lev x =? 1 then 0%Qc else 1%Qc) 0%Qc 0%Qc.
Definition wb_U : nat -> field := arrays cs_b cs_M wb_D.
Definition runs (g : geom) (b : axis -> Z) (S : scheme) (ext : axis -> Qc) (dt : Qc) (M : mesh) (U : nat -> field) : bool :=
  forallb (fun rR : nat * rank => forallb (fun iA : nat * oct => forallb (fun q =>
    match update_cell (ctx g b S (snd rR)) ext dt (U (fst rR)) None cons0 (mkCell (fst iA) q b LOCAL_TO_BLOCK) with Some _ => true | None => false end)
    (positions b)) (indexed (loc (snd rR)))) (indexed M).
Lemma runs_done g b S ext dt M U : runs g b S ext dt M U = true -> step_done g b S ext dt M (fun _ _ _ => None) (fun _ _ _ => cons0) U (stepped g b S ext dt M U).
Proof.
  intros RN. apply stepped_done. intros r R i A q HR HA Hq K. unfold runs in RN. rewrite forallb_forall in RN. specialize (RN (r, R) (proj2 (indexed_in _ _ _) HR)). cbn [fst snd] in RN.
  rewrite forallb_forall in RN. specialize (RN (i, A) (proj2 (indexed_in _ _ _) HA)). cbn [fst snd] in RN. rewrite forallb_forall in RN. specialize (RN q Hq). cbn [fst snd] in RN.
  rewrite K in RN. discriminate RN.
Qed.
Lemma wb_runs : runs cs_g cs_b (cs_S wb_gi) cs_ext (frac 1 10) cs_M wb_U = true.
Proof. vm_cast_no_check (eq_refl true). Qed.
Lemma wb_differs : Qeq_bool (total_held cs_g cs_b cs_ext cs_M Mass (stepped cs_g cs_b (cs_S wb_gi) cs_ext (frac 1 10) cs_M wb_U)) (total_held cs_g cs_b cs_ext cs_M Mass wb_U) = false.
Proof. vm_cast_no_check (eq_refl false). Qed.
Lemma differ (x y : Qc) : Qeq_bool x y = false -> x = y -> False.
Proof. intros H ->. assert (K : Qeq_bool y y = true) by (apply Qeq_bool_iff; reflexivity). congruence. Qed.
Theorem C39_refuted_well_balanced : ~ conserved (fun S gf v => v = Mass).
Proof.
  intros H. pose proof (runs_done _ _ _ _ _ _ _ wb_runs) as DONE.
  specialize (H cs_g 2%nat cs_M cs_b (cs_S wb_gi) cs_ext (frac 1 10) (fun _ _ _ => None) wb_D (fun _ _ _ => cons0) wb_U _
    cs_setup cs_reach cs_block cs_periodic cs_even (fun _ => eq_refl) (arrays_hold _ _ _) DONE Mass (fun _ K => ltac:(discriminate K)) eq_refl).
  exact (differ _ _ wb_differs H).
Qed.

(** The pass that repairs negative densities and pressures (HydroUpdate_utils.h:636-658) changes
    no other state, and creates mass otherwise. *)
Theorem C39_clean d3 gamma smallr smallp u : (0 <= u_rho u)%Qc -> (0 <= q_p (consToPrim d3 gamma (getCons d3 u)))%Qc ->
  clean_negative d3 gamma smallr smallp u = u.
Proof.
  intros H1 H2. unfold clean_negative. cbv zeta. assert (E1 : q_rho (consToPrim d3 gamma (getCons d3 u)) = u_rho u) by (destruct u; reflexivity). rewrite E1.
  apply ltb_false in H1, H2. rewrite H1, H2. reflexivity.
Qed.
Theorem C39_refuted_clean : exists u, u_rho (clean_negative false (frac 5 3) (frac 1 100) (frac 1 100) u) <> u_rho u.
Proof. exists (mkCons (frac (-1) 10) 1 0 0 0)%Qc. intro H. apply (f_equal this) in H. vm_compute in H. discriminate H. Qed.

(** * Further examples *)
Example C66_example : exists R A p, nth_error cs_M 1 = Some R /\ nth_error (loc R) 0 = Some A /\ in_block (wide cs_g cs_b) p /\ (p AX = 0 /\ p AY = 0).
Proof.
  destruct (nth_error cs_M 1) as [R|] eqn:E1; [|vm_compute in E1; discriminate]. destruct (nth_error (loc R) 0) as [A|] eqn:E2; [|apply (f_equal (option_map (fun R => nth_error (loc R) 0))) in E1; cbn [option_map] in E1; rewrite E2 in E1; vm_compute in E1; discriminate].
  exists R, A, (mkoff 0 0 0). split; [reflexivity|]. split; [exact E2|]. split; [|split; reflexivity]. intros []; vm_compute; split; congruence.
Qed.
(** The same octants on one rank and on two. *)
Definition one_M0 : mesh := match private_init id_order cs_g 1 with Some M => M | None => [] end.
Definition one_M : mesh := match adapt 20 id_order cs_g one_M0 (map (map ex_refine) (map loc one_M0)) with Some M => M | None => [] end.
Example one_setup : good_setup cs_g 1.
Proof. split; [apply wf_geom_check; reflexivity|cbn [cs_g lmin gsx gsy gsz]; lia]. Qed.
Example one_reach : reachable cs_g 1 one_M.
Proof.
  apply (reach_adapt cs_g 1 id_order 20 one_M0 (map (map ex_refine) (map loc one_M0))); [|exact id_order_ok| |vm_compute; reflexivity].
  - apply (reach_init cs_g 1 id_order); [exact id_order_ok|vm_compute; reflexivity].
  - apply good_markers_of, good_request_check. vm_compute. reflexivity.
Qed.
Example C68_example : (forall B, In B (leaves cs_M) <-> In B (leaves one_M)) /\ length cs_M = 2%nat /\ length one_M = 1%nat.
Proof. split; [|split; vm_compute; reflexivity]. assert (leaves cs_M = leaves one_M) as -> by (vm_compute; reflexivity). tauto. Qed.
Example C67_example : exists o, update_cell (ctx cs_g cs_b (cs_S cs_no_gravity) (hd (mkRank [] [] [] 0 0) cs_M)) cs_ext (frac 1 10)
    (arrays cs_b cs_M (fun _ => wb_D (mkOct 2 0 0 0)) 0) None cons0 (mkCell 3 (mkoff 3 0 0) cs_b LOCAL_TO_BLOCK) = Some o /\ u_x o = 1%Qc.
Proof.
  destruct (C67_uniform cs_g 2 cs_M cs_b (cs_S cs_no_gravity) cs_ext (frac 1 10) (wb_D (mkOct 2 0 0 0)) (arrays cs_b cs_M (fun _ => wb_D (mkOct 2 0 0 0))) 0
    (hd (mkRank [] [] [] 0 0) cs_M) 3 (mkOct 2 1 1 0) (mkoff 3 0 0) cons0) as (o & E & V);
    [exact cs_setup|exact cs_reach|exact cs_block|exact cs_periodic|exact cs_even|intros a; reflexivity|apply arrays_hold|reflexivity|reflexivity|vm_compute; reflexivity|vm_compute; reflexivity|intros []; vm_compute; split; congruence|].
  exists o. split; [exact E|]. apply (V (Mom AX)). intros _ K. discriminate K.
Qed.

Print Assumptions C66_ghost_layer.
Print Assumptions C39_conservation_partial.
Print Assumptions C39_total.
Print Assumptions C39_refuted_well_balanced.
Print Assumptions C39_clean.
Print Assumptions C39_refuted_clean.
Print Assumptions C67_uniform.
Print Assumptions C68_partition_partial.
