(** The Runge-Kutta update computes the step of RKSpec. *)
From Coq Require Import QArith Qcanon.
From Verif Require Import Base OctreeSpec OctreeGeom OctreeModel FindNeighbors MeshSpec HistorySpec
  LookupModel CellModel CellSpec CellProofs CellProps RemapModel RemapSpec RemapProofs RemapProps HydroModel HydroSpec HydroProps
  ConserveSpec BlockGhost ConserveFaces ConserveProofs OctreeProps HistoryProofs LookupProps SchemeSpec ConserveProps SchemeProps
  GravitySpec GravityModel GravityProofs GravityLoop RKModel RKSpec.
Open Scope Z_scope.

(** * States *)
Lemma seen_get g u : seen g u = getCons (g3d g) u.
Proof. destruct u. unfold seen, getCons. destruct (g3d g); reflexivity. Qed.
Lemma seen_seen g u : seen g (seen g u) = seen g u.
Proof. unfold seen. destruct (g3d g); reflexivity. Qed.
Lemma seen_cv g u w : (forall v, has_var g v -> cv v u = cv v w) -> seen g u = seen g w.
Proof.
  intros H. assert (H' : forall v, v <> Mom AZ -> cv v u = cv v w) by (intros v N; apply H; intros _; exact N).
  pose proof (H' Mass ltac:(discriminate)) as K1. pose proof (H' Energy ltac:(discriminate)) as K2. pose proof (H' (Mom AX) ltac:(discriminate)) as K3. pose proof (H' (Mom AY) ltac:(discriminate)) as K4.
  cbn [cv mom] in *. unfold seen. destruct (g3d g) eqn:E; [|rewrite K1, K2, K3, K4; reflexivity].
  pose proof (H (Mom AZ) ltac:(intros K; congruence)) as K5. cbn [cv mom] in K5. destruct u, w. cbn in *. congruence.
Qed.
Lemma cv_seen g u w v : has_var g v -> seen g u = seen g w -> cv v u = cv v w.
Proof.
  intros HV E. rewrite !seen_get in E. rewrite <- (cv_get g v u HV), <- (cv_get g v w HV), E. reflexivity.
Qed.
Lemma negative_ltb x : negative x = ltb x 0. Proof. reflexivity. Qed.
Lemma seen_clean g gamma sr sp u : seen g (clean_negative (g3d g) gamma sr sp u) = repaired gamma sr sp (seen g u).
Proof.
  unfold clean_negative, repaired. cbv zeta. rewrite gas_eq, !negative_ltb. set (q := consToPrim (g3d g) gamma (getCons (g3d g) u)).
  destruct (ltb (q_rho q) 0 || ltb (q_p q) 0); [|reflexivity].
  set (r' := if ltb (q_rho q) 0 then sr else q_rho q). set (p' := if ltb (q_p q) 0 then sp else q_p q).
  rewrite seen_get. unfold state_of, primToCons, getCons, setCons, sqnorm. cbn [u_rho u_e u_x u_y u_z q_rho q_p q_x q_y q_z vel]. rewrite half_two.
  f_equal; [unfold Qcdiv; ring|]. destruct (g3d g) eqn:E; [reflexivity|].
  unfold q, consToPrim. rewrite ?E. cbn [q_z]. ring.
Qed.
Lemma seen_kick g dt ro a u : seen g (gravity_correction (g3d g) dt ro a u) = kicked g dt ro (Some a) (seen g u).
Proof.
  unfold kicked, gravity_correction, internal, sqnorm. rewrite half_two, !seen_get. unfold getCons. cbn [u_rho u_e u_x u_y u_z mom].
  assert (DV : forall z w : Qc, (z / (two * w) = / two * z / w)%Qc) by
    (intros z w; destruct (Qc_eq_dec w 0) as [-> |N]; [|field; auto using two_nz]; replace (two * 0)%Qc with 0%Qc by ring; unfold Qcdiv; replace (/ 0)%Qc with 0%Qc by (apply Qc_is_canon; reflexivity); ring).
  destruct (g3d g); rewrite !DV; f_equal; unfold Qcdiv; ring.
Qed.
Lemma seen_kicked g dt ro a u : seen g u = u -> seen g (kicked g dt ro a u) = kicked g dt ro a u.
Proof. intros H. unfold kicked. destruct a as [a|]; [|exact H]. rewrite !seen_get in *. unfold getCons. cbn [u_rho u_e u_x u_y u_z]. destruct (g3d g); reflexivity. Qed.
Lemma seen_repaired g gamma sr sp u : seen g u = u -> seen g (repaired gamma sr sp u) = repaired gamma sr sp u.
Proof. intros H. rewrite <- H at 2. rewrite <- seen_clean. rewrite <- H at 1. rewrite <- seen_clean. apply seen_seen. Qed.

(** * Fields that agree as seen by the simulation *)
Section Agree.
Context (g : geom) (b : axis -> Z) (ext : axis -> Qc) (cells : list oct) (riem : prim -> prim -> cons) (gamma floor : Qc)
        (D D' : oct -> cons) (SEEN : forall x, seen g (D x) = seen g (D' x)).
Lemma resample_seen x : seen g (resample g cells D x) = seen g (resample g cells D' x).
Proof.
  unfold resample. destruct (existsb (oct_eqb x) cells); [apply SEEN|]. destruct (existsb _ cells); [apply SEEN|]. cbv zeta.
  apply seen_cv. intros v HV.
  assert (G : forall f : cons -> Qc, (forall x, f (D x) = f (D' x)) -> cmean f (map D (children g x)) = cmean f (map D' (children g x))).
  { intros f Hf. unfold cmean. rewrite !map_length, !map_map. erewrite map_ext; [reflexivity|]. exact Hf. }
  destruct v as [| |[]]; cbn [cv mom u_rho u_e u_x u_y u_z]; apply G; intros y.
  - exact (cv_seen g _ _ Mass HV (SEEN y)).
  - exact (cv_seen g _ _ Energy HV (SEEN y)).
  - exact (cv_seen g _ _ (Mom AX) HV (SEEN y)).
  - exact (cv_seen g _ _ (Mom AY) HV (SEEN y)).
  - exact (cv_seen g _ _ (Mom AZ) HV (SEEN y)).
Qed.
Lemma gas_at_seen x : gas_at g cells D gamma x = gas_at g cells D' gamma x.
Proof. unfold gas_at. rewrite resample_seen. reflexivity. Qed.
Lemma flux_seen e lo hi : flux_between g b ext cells D riem gamma floor e lo hi = flux_between g b ext cells D' riem gamma floor e lo hi.
Proof. unfold flux_between. rewrite !gas_at_seen. reflexivity. Qed.
Lemma mean_flux_seen v x e up : mean_flux g b ext cells D riem gamma floor v x e up = mean_flux g b ext cells D' riem gamma floor v x e up.
Proof. unfold mean_flux. erewrite map_ext; [reflexivity|]. intros z. rewrite !flux_seen. reflexivity. Qed.
Lemma forward_seen dt grav x v : has_var g v ->
  forward g b ext cells riem gamma floor dt grav D x v = forward g b ext cells riem gamma floor dt grav D' x v.
Proof.
  intros HV. unfold forward. rewrite (cv_seen g _ _ v HV (SEEN x)).
  assert (N : net_flux g b ext cells D riem gamma floor dt v x = net_flux g b ext cells D' riem gamma floor dt v x)
    by (unfold net_flux; erewrite map_ext; [reflexivity|]; intros e; rewrite !mean_flux_seen; reflexivity).
  rewrite N. destruct grav as [gr|]; [|reflexivity].
  assert (GV : gravity_source g b ext cells D riem gamma floor dt gr v x = gravity_source g b ext cells D' riem gamma floor dt gr v x); [|rewrite GV; reflexivity].
  unfold gravity_source. destruct v as [| |a]; [reflexivity| |].
  - erewrite map_ext; [reflexivity|]. intros e. rewrite !mean_flux_seen. reflexivity.
  - rewrite (cv_seen g _ _ Mass ltac:(intros _; discriminate) (SEEN x) : u_rho (D x) = u_rho (D' x)). reflexivity.
Qed.
Lemma unrepaired_seen dt grav acc x : unrepaired g b ext cells riem gamma floor dt grav acc D x = unrepaired g b ext cells riem gamma floor dt grav acc D' x.
Proof.
  unfold unrepaired. rewrite (cv_seen g _ _ Mass ltac:(intros _; discriminate) (SEEN x) : u_rho (D x) = u_rho (D' x)).
  unfold forward_state. cbv zeta. rewrite !(forward_seen dt grav x) by (intros _; discriminate). destruct (g3d g) eqn:E; [|reflexivity].
  rewrite (forward_seen dt grav x (Mom AZ)) by (intros K; congruence). reflexivity.
Qed.
End Agree.
Lemma forward_planar g b ext cells riem gamma floor dt grav D x : seen g (forward_state g b ext cells riem gamma floor dt grav D x) = forward_state g b ext cells riem gamma floor dt grav D x.
Proof. rewrite seen_get. unfold getCons, forward_state. cbn [u_rho u_e u_x u_y u_z]. destruct (g3d g); reflexivity. Qed.
Lemma unrepaired_planar g b ext cells riem gamma floor dt grav acc D x : seen g (unrepaired g b ext cells riem gamma floor dt grav acc D x) = unrepaired g b ext cells riem gamma floor dt grav acc D x.
Proof. unfold unrepaired. apply seen_kicked, forward_planar. Qed.
Lemma stage_planar g b ext cells riem gamma floor sp dt grav acc D x : seen g (stage g b ext cells riem gamma floor sp dt grav acc D x) = stage g b ext cells riem gamma floor sp dt grav acc D x.
Proof. unfold stage. apply seen_repaired, unrepaired_planar. Qed.

(** * Lists of arrays *)
Lemma spread1 {X} (P : oct -> X -> Prop) (D0 : oct -> X) L V : NoDup L -> Forall2 P L V ->
  exists E, V = map E L /\ (forall x, In x L -> P x (E x)) /\ (forall x, ~ In x L -> E x = D0 x).
Proof.
  intros ND F. induction F as [|x v L V H F IH]; [exists D0; repeat split; intros; contradiction|].
  inversion ND as [|x' L' N1 N2]; subst. destruct (IH N2) as (E & -> & H1 & H2).
  assert (DEC : forall y z : oct, {y = z} + {y <> z}) by (decide equality; apply Z.eq_dec).
  exists (fun y => if DEC y x then v else E y). split; [|split].
  - cbn [map]. f_equal; [destruct (DEC x x); congruence|]. apply map_ext_in. intros y Hy. destruct (DEC y x); [congruence|reflexivity].
  - intros y [->|Hy]; destruct (DEC y y) as [_|N]; try congruence; try (destruct (DEC y x) as [->|]; [exact H|apply H1, Hy]).
  - intros y Hy. cbn [In] in Hy. destruct (DEC y x) as [->|]; [exfalso; apply Hy; left; reflexivity|]. apply H2. tauto.
Qed.
Lemma F2_concat {X Y} (P : X -> Y -> Prop) LL VV : Forall2 (Forall2 P) LL VV -> Forall2 P (concat LL) (concat VV).
Proof. intros F. induction F; [constructor|]. cbn [concat]. apply Forall2_app; assumption. Qed.
Lemma F2_len {X Y} (P : X -> Y -> Prop) L V : Forall2 P L V -> length L = length V.
Proof. intros F. induction F; cbn; congruence. Qed.
Lemma concat_pieces {X Y} (P : X -> Y -> Prop) (E : X -> Y) LL VV : Forall2 (Forall2 P) LL VV -> concat VV = map E (concat LL) -> VV = map (map E) LL.
Proof.
  intros F. induction F as [|L V LL VV H F IH]; intros C; [reflexivity|]. cbn [concat map] in *. rewrite map_app in C.
  assert (length V = length (map E L)) as LE by (rewrite map_length; symmetry; apply (F2_len _ _ _ H)).
  assert (S : forall (a c a' c' : list Y), a ++ c = a' ++ c' -> length a = length a' -> a = a' /\ c = c').
  { induction a as [|y a IHa]; intros c [|y' a'] c' EQ LEN; try discriminate LEN; [split; [reflexivity|exact EQ]|].
    injection EQ as -> EQ. injection LEN as LEN. destruct (IHa c a' c' EQ LEN) as (-> & ->). split; reflexivity. }
  destruct (S _ _ _ _ C LE) as (-> & C'). rewrite (IH C'). reflexivity.
Qed.
Lemma spread {X} (P : oct -> X -> Prop) (D0 : oct -> X) b (M : mesh) Vs : NoDup (all_cells b (leaves M)) ->
  Forall2 (fun R V => Forall2 P (all_cells b (loc R)) V) M Vs ->
  exists E, Vs = owned_values b M E /\ (forall x, In x (all_cells b (leaves M)) -> P x (E x)) /\ (forall x, ~ In x (all_cells b (leaves M)) -> E x = D0 x).
Proof.
  intros ND F.
  assert (F' : Forall2 (Forall2 P) (map (fun R => all_cells b (loc R)) M) Vs) by (clear ND; induction F; cbn [map]; constructor; assumption).
  rewrite all_cells_leaves in *. destruct (spread1 P D0 _ _ ND (F2_concat _ _ _ F')) as (E & C & H1 & H2).
  exists E. split; [|split; assumption]. rewrite (concat_pieces P E _ _ F' C). unfold owned_values. rewrite map_map. reflexivity.
Qed.
Lemma mapM_rel {X Y} (f : X -> option Y) (P : X -> Y -> Prop) l : (forall x, In x l -> exists y, f x = Some y /\ P x y) -> exists ys, mapM f l = Some ys /\ Forall2 P l ys.
Proof.
  induction l as [|x l IH]; intros H; [exists []; split; [reflexivity|constructor]|].
  destruct (H x (or_introl eq_refl)) as (y & E & HP). destruct IH as (ys & E' & F); [intros z Hz; apply H; right; exact Hz|].
  exists (y :: ys). split; [cbn [mapM]; rewrite E, E'; reflexivity|constructor; assumption].
Qed.
Lemma kernel_rel {X} b R (f : cidx -> option X) (P : oct -> X -> Prop) :
  (forall i A q, nth_error (loc R) i = Some A -> in_block b q -> exists o, f (mkCell i q b LOCAL_TO_BLOCK) = Some o /\ P (cell_of b A q) o) ->
  exists V, kernel b R f = Some V /\ Forall2 P (all_cells b (loc R)) V.
Proof.
  intros H. unfold kernel, owned_cells, all_cells. rewrite block_positions_eq.
  assert (G : forall Ls k, (forall i A, nth_error Ls i = Some A -> nth_error (loc R) (k + i) = Some A) ->
    exists V, mapM f (flat_map (fun i => map (fun p => mkCell i p b LOCAL_TO_BLOCK) (positions b)) (seq k (length Ls))) = Some V /\
      Forall2 P (flat_map (fun A => map (cell_of b A) (positions b)) Ls) V).
  { induction Ls as [|A Ls IH]; intros k HK; [exists []; split; [reflexivity|constructor]|]. cbn [length seq flat_map].
    destruct (IH (S k)) as (V2 & E2 & F2); [intros i B HB; replace (S k + i)%nat with (k + S i)%nat by lia; apply HK; exact HB|].
    assert (KA : nth_error (loc R) k = Some A) by (specialize (HK 0%nat A eq_refl); rewrite Nat.add_0_r in HK; exact HK).
    destruct (mapM_rel (fun p => f (mkCell k p b LOCAL_TO_BLOCK)) (fun p o => P (cell_of b A p) o) (positions b)) as (V1 & E1 & F1).
    { intros q Hq. apply (H k A q KA), (positions_in b), Hq. }
    exists (V1 ++ V2). split; [apply mapM_app; [rewrite mapM_map; exact E1|exact E2]|]. apply Forall2_app; [|exact F2].
    clear - F1. induction F1; cbn [map]; constructor; assumption. }
  apply (G (loc R) 0%nat). intros i A HA. exact HA.
Qed.
Lemma field_of_holds g b M (D : oct -> cons) : block_ok g b -> holds_field b M D (fun r => field_of b (nth r (field_arrays b M D) [])).
Proof.
  intros BO r R k B q HR HB Hq. unfold field_of, field_arrays.
  assert (nth r (map (fun R => map D (all_cells b (loc R ++ gho R))) M) [] = map D (all_cells b (loc R ++ gho R))) as ->
    by (apply nth_error_nth; rewrite nth_error_map, HR; reflexivity).
  pose proof (all_cells_nth b (b_pos g b BO) (loc R ++ gho R) k B q HB Hq) as E.
  apply nth_error_nth. rewrite nth_error_map. unfold flat_cell in E. rewrite E. reflexivity.
Qed.
Lemma combine_snd {X Y} (l : list X) (l' : list Y) : length l = length l' -> map snd (combine l l') = l'.
Proof. revert l'. induction l as [|x l IH]; intros [|y l'] H; try discriminate; [reflexivity|]. cbn. rewrite IH by (injection H; auto). reflexivity. Qed.

(** * A stage, and the step *)
Section Run.
Context (g : geom) (n : nat) (M : mesh) (b : axis -> Z) (S : scheme) (ext : axis -> Qc) (dt smallp : Qc)
        (gf : nat -> nat -> Z -> option (axis -> Qc)) (acc : option (oct -> axis -> Qc))
        (GS : good_setup g n) (RC : reachable g n M) (BO : block_ok g b) (PER : periodic g) (EV : even_blocks g b) (EXT : forall a, (0 < ext a)%Qc)
        (WB : well_balanced (s_gi S) = false)
        (GF : forall r R i A q, nth_error M r = Some R -> nth_error (loc R) i = Some A -> in_block b q ->
                gf r i (flat_cell b q) = option_map (fun G => G (cell_of b A q)) acc).
Local Notation cells := (all_cells b (leaves M)).
Local Notation rm := (fun a c => fst (s_riem S a c)).
Local Notation grav := (if in_step (s_gi S) then Some (gg (s_gi S)) else None).
Local Notation stageS := (stage g b ext cells rm (s_gamma S) (s_smallr S) smallp dt grav acc).
Local Notation rawS := (unrepaired g b ext cells rm (s_gamma S) (s_smallr S) dt grav acc).

Lemma cell_value D r R i A q old : nth_error M r = Some R -> nth_error (loc R) i = Some A -> in_block b q ->
  exists o, update_cell (ctx g b S R) ext dt (field_of b (nth r (field_arrays b M D) [])) (gf r i (flat_cell b q)) old (mkCell i q b LOCAL_TO_BLOCK) = Some o /\
    seen g o = rawS D (cell_of b A q).
Proof.
  intros HR HA Hq. pose proof (reachable_ok g n M GS RC) as OK. set (x := cell_of b A q).
  destruct (update_value g (proj1 GS) M OK b BO PER EV D _ (field_of_holds g b M D BO) (s_riem S) (s_gamma S) (s_smallr S) (s_gi S) WB (s_bval S) (s_user S) (s_ovr S) (s_junk S) r R i A q ext dt (gf r i (flat_cell b q)) old HR HA Hq) as (o & E & V).
  exists o. split; [exact E|]. rewrite (seen_cv g _ _ V). fold x. unfold rawS, unrepaired, corrected. rewrite (GF r R i A q HR HA Hq). fold x.
  assert (HRM : In R M) by (eapply nth_error_In, HR).
  assert (HX : In x cells) by (apply (own_in M b R HRM i A HA q Hq)).
  assert (LA : In A (leaves M)) by (apply (loc_leaf M R A HRM); eapply nth_error_In, HA).
  assert (B : seen g (base g M b D (s_riem S) (s_gamma S) (s_smallr S) (s_gi S) ext dt x A) = forward_state g b ext cells rm (s_gamma S) (s_smallr S) dt grav D x).
  { assert (F : forall v, has_var g v -> (cv v (D x) + change g M b D (s_riem S) (s_gamma S) (s_smallr S) (s_gi S) ext dt v x A)%Qc = forward g b ext cells rm (s_gamma S) (s_smallr S) dt grav D x v).
    { intros v HV. rewrite (change_eq g (proj1 GS) M OK b BO D (s_riem S) (s_gamma S) (s_smallr S) (s_gi S) WB ext EXT dt v x A HX LA eq_refl HV).
      unfold forward. destruct (in_step (s_gi S)); reflexivity. }
    rewrite seen_get. unfold getCons, base, forward_state. cbn [u_rho u_e u_x u_y u_z]. rewrite !F by (intros _; discriminate).
    destruct (g3d g) eqn:E3; [|reflexivity]. rewrite F by (intros K; congruence). reflexivity. }
  destruct acc as [G|]; cbn [option_map].
  - rewrite seen_kick, B. reflexivity.
  - cbn [kicked]. exact B.
Qed.

Lemma stage_run D D0 old : exists E, rk_update (ctx g b S) ext dt smallp b M gf old (field_arrays b M D) = Some (owned_values b M E) /\
  (forall x, In x cells -> seen g (E x) = stageS D x) /\ forall x, ~ In x cells -> E x = D0 x.
Proof.
  pose proof (reachable_ok g n M GS RC) as OK.
  set (P := fun x o => seen g o = stageS D x).
  destruct (mapM_rel (fun rRU : nat * (rank * list cons) =>
    let r := fst rRU in let R := fst (snd rRU) in let U := snd (snd rRU) in
    do out <- kernel b R (fun c =>
      let k := flat_cell b (c_pos c) in
      update_cell (ctx g b S R) ext dt (field_of b U) (gf r (c_oct c) k) (old r (c_oct c) k) c) ;
    Some (map (clean_negative (g3d (h_g (ctx g b S R))) (h_gamma (ctx g b S R)) (h_smallr (ctx g b S R)) smallp) out))
    (fun rRU V => Forall2 P (all_cells b (loc (fst (snd rRU)))) V) (numbered (combine M (field_arrays b M D)))) as (Vs & E & F).
  - intros (r, (R, U)) HI. apply indexed_in in HI. cbn [fst snd].
    assert (HRU : nth_error M r = Some R /\ U = nth r (field_arrays b M D) []).
    { unfold field_arrays in *. rewrite combine_self, nth_error_map in HI. destruct (nth_error M r) as [R'|] eqn:HR; [|discriminate HI]. cbn [option_map] in HI. injection HI as -> <-.
      split; [reflexivity|]. symmetry. apply nth_error_nth. rewrite nth_error_map, HR. reflexivity. }
    destruct HRU as (HR & ->).
    destruct (kernel_rel b R (fun c => let k := flat_cell b (c_pos c) in
      update_cell (ctx g b S R) ext dt (field_of b (nth r (field_arrays b M D) [])) (gf r (c_oct c) k) (old r (c_oct c) k) c)
      (fun x o => seen g o = rawS D x)) as (V & EV' & FV).
    + intros i A q HA Hq. cbn [c_pos c_oct]. apply cell_value; assumption.
    + cbv zeta in EV'. cbv zeta. rewrite EV'. eexists. split; [reflexivity|]. cbn [ctx h_g h_gamma h_smallr].
      clear - FV. induction FV as [|x o L V H FV IH]; cbn [map]; constructor; [|exact IH]. unfold P. rewrite seen_clean, H. reflexivity.
  - assert (F' : Forall2 (fun R V => Forall2 P (all_cells b (loc R)) V) M Vs).
    { assert (MM : map (fun z : nat * (rank * list cons) => fst (snd z)) (numbered (combine M (field_arrays b M D))) = M).
      { unfold numbered. rewrite <- (map_map snd fst), map_snd_combine. unfold field_arrays. rewrite combine_self, map_map. apply map_id. }
      rewrite <- MM at 1. clear - F. induction F; cbn [map]; constructor; assumption. }
    destruct (spread P D0 b M Vs (cells_NoDup g M OK b BO) F') as (W & -> & H1 & H2).
    exists W. split; [exact E|]. split; assumption.
Qed.

(** The step in terms of the two stages. *)
Lemma step_stages D E E' old_star old_next :
  rk_update (ctx g b S) ext dt smallp b M gf old_star (field_arrays b M D) = Some (owned_values b M E) ->
  rk_update (ctx g b S) ext dt smallp b M gf old_next (field_arrays b M E) = Some (owned_values b M E') ->
  rk2 (g3d g) (ctx g b S) ext dt smallp b M gf old_star old_next (field_arrays b M D) = Some (owned_values b M (fun x => rk_correct_cell (g3d g) (D x) (E' x))).
Proof.
  intros E1 E2. unfold rk2. rewrite E1, (exchange_eq g M (reachable_ok g n M GS RC) b BO E), E2.
  - f_equal. unfold rk_correct, owned_values, field_arrays. rewrite combine_maps, map_map. apply map_ext. intros R. cbn [fst snd].
    rewrite all_cells_app, map_app.
    assert (G : forall L t, map (fun c : cons * cons => rk_correct_cell (g3d g) (fst c) (snd c)) (combine (map D L ++ t) (map E' L)) = map (fun x => rk_correct_cell (g3d g) (D x) (E' x)) L).
    { clear. induction L as [|x L IH]; intros t; cbn [map app combine]; [destruct t; reflexivity|]. cbn [fst snd]. rewrite IH. reflexivity. }
    apply G.
  - clear. unfold owned_values. induction M as [|R M' IH]; cbn [map]; constructor; [|exact IH]. exists []. rewrite app_nil_r. reflexivity.
Qed.
Lemma correct_cv u w v : has_var g v -> cv v (rk_correct_cell (g3d g) u w) = ((cv v u + cv v w) / two)%Qc.
Proof.
  intros HV. unfold rk_correct_cell. rewrite (cv_set g v _ _ HV).
  assert (Q : forall u w, cv v (cmap (fun z => half_f * z)%Qc (cmap2 Qcplus u w)) = ((cv v u + cv v w) / two)%Qc).
  { clear. intros u w. rewrite half_two. destruct v as [| |[]]; cbn; unfold Qcdiv; ring. }
  rewrite Q, !(cv_get g v _ HV). reflexivity.
Qed.
Lemma stage_seen D D' x : (forall y, seen g (D y) = seen g (D' y)) -> stageS D x = stageS D' x.
Proof. intros A. unfold stage. rewrite (unrepaired_seen g b ext cells rm (s_gamma S) (s_smallr S) D D' A). reflexivity. Qed.

Lemma step_run D old_star old_next : exists D', rk2 (g3d g) (ctx g b S) ext dt smallp b M gf old_star old_next (field_arrays b M D) = Some (owned_values b M D') /\
  forall x v, In x cells -> has_var g v -> cv v (D' x) = heun g b ext cells rm (s_gamma S) (s_smallr S) smallp dt grav acc D x v.
Proof.
  destruct (stage_run D (stageS D) old_star) as (E & E1 & H1 & O1). destruct (stage_run E (stageS E) old_next) as (E' & E2 & H2 & _).
  exists (fun x => rk_correct_cell (g3d g) (D x) (E' x)). split; [apply (step_stages D E E'); assumption|].
  intros x v HX HV. unfold heun. rewrite correct_cv by exact HV.
  assert (DEC : forall y z : oct, {y = z} + {y <> z}) by (decide equality; apply Z.eq_dec).
  assert (A : forall y, seen g (E y) = seen g (stageS D y)).
  { intros y. rewrite stage_planar. destruct (in_dec DEC y cells) as [HY|HY]; [apply H1, HY|]. rewrite (O1 y HY). apply stage_planar. }
  assert (SS : cv v (E' x) = cv v (stageS (stageS D) x)); [|rewrite SS; reflexivity].
  rewrite <- (stage_seen E (stageS D) x A). apply (cv_seen g _ _ v HV). rewrite H2, stage_planar by exact HX. reflexivity.
Qed.

(** The update of a cell by the kernel, for arrays filled with the field. *)
Lemma raw_done D : exists U', step_done g b S ext dt M gf (fun _ _ _ => cons0) (fun r => field_of b (nth r (field_arrays b M D) [])) U' /\
  forall r R i A q, nth_error M r = Some R -> nth_error (loc R) i = Some A -> In q (positions b) -> 
    seen g (U' r i (q AX + q AY * b AX + q AZ * b AX * b AY)) = rawS D (cell_of b A q).
Proof.
  set (U' := fun r i k => match nth_error M r with
     | Some R => match update_cell (ctx g b S R) ext dt (field_of b (nth r (field_arrays b M D) [])) (gf r i k) cons0 (mkCell i (decode b k) b LOCAL_TO_BLOCK) with Some o => o | None => cons0 end
     | None => cons0 end).
  assert (K : forall r R i A q, nth_error M r = Some R -> nth_error (loc R) i = Some A -> In q (positions b) ->
    update_cell (ctx g b S R) ext dt (field_of b (nth r (field_arrays b M D) [])) (gf r i (q AX + q AY * b AX + q AZ * b AX * b AY)) cons0 (mkCell i q b LOCAL_TO_BLOCK) = Some (U' r i (q AX + q AY * b AX + q AZ * b AX * b AY)) /\
    seen g (U' r i (q AX + q AY * b AX + q AZ * b AX * b AY)) = rawS D (cell_of b A q)).
  { intros r R i A q HR HA Hq. pose proof (positions_in b q Hq) as IB. destruct (cell_value D r R i A q cons0 HR HA IB) as (o & E & SO).
    unfold flat_cell in E. unfold U'. rewrite HR. rewrite decode_at by (apply IB || (specialize (IB AZ); lia)).
    assert (QE : q = mkoff (q AX) (q AY) (q AZ)).
    { unfold positions in Hq. apply in_flat_map in Hq. destruct Hq as (z & _ & Hq). apply in_flat_map in Hq. destruct Hq as (y & _ & Hq). apply in_map_iff in Hq. destruct Hq as (x & <- & _). reflexivity. }
    rewrite <- QE, E. split; [reflexivity|exact SO]. }
  exists U'. split.
  - intros r R i A q HR HA Hq. cbv zeta. apply (K r R i A q HR HA Hq).
  - intros r R i A q HR HA Hq. apply (K r R i A q HR HA Hq).
Qed.
(** Sum over the domain. *)
Definition domain_sum (f : oct -> Qc) : Qc := csum (map (fun x => (volume g b ext x * f x)%Qc) cells).
Lemma raw_total0 D v : has_var g v -> v = Mass \/ (in_step (s_gi S) = false /\ forall r i k, gf r i k = None) ->
  domain_sum (fun x => cv v (rawS D x)) = domain_sum (fun x => cv v (D x)).
Proof.
  intros HV CV. destruct (raw_done D) as (U' & DONE & SN).
  pose proof (C39_conservation_partial g n M b S ext dt gf D _ _ U' GS RC BO PER EV EXT (field_of_holds g b M D BO) DONE v HV (conj WB CV)) as C.
  rewrite (total_cells g b ext M v U' (fun x => cv v (rawS D x))) in C.
  - rewrite (total_cells g b ext M v _ (fun x => cv v (D x))) in C; [exact C|].
    intros r R i A q HR HA Hq. rewrite (field_of_holds g b M D BO r R i A q HR); [reflexivity| |apply positions_in, Hq].
    rewrite nth_error_app1; [exact HA|apply nth_error_Some; congruence].
  - intros r R i A q HR HA Hq. apply (cv_seen g _ _ v HV). rewrite (SN r R i A q HR HA Hq), unrepaired_planar. reflexivity.
Qed.
End Run.

Lemma raw_total g n M b S ext dt acc D v : good_setup g n -> reachable g n M -> block_ok g b -> periodic g -> even_blocks g b -> (forall a, 0 < ext a)%Qc -> well_balanced (s_gi S) = false ->
  has_var g v -> v = Mass \/ (in_step (s_gi S) = false /\ acc = None) ->
  domain_sum g M b ext (fun x => cv v (unrepaired g b ext (all_cells b (leaves M)) (fun a c => fst (s_riem S a c)) (s_gamma S) (s_smallr S) dt (if in_step (s_gi S) then Some (gg (s_gi S)) else None) acc D x)) = domain_sum g M b ext (fun x => cv v (D x)).
Proof.
  intros GS RC BO PER EV EXT WB HV CV.
  set (gf := fun (r i : nat) (k : Z) => match acc with
    | Some G => match nth_error M r with Some R => match nth_error (loc R) i with Some A => Some (G (cell_of b A (decode b k))) | None => None end | None => None end
    | None => None end).
  assert (CELL : forall A q, in_block b q -> cell_of b A (decode b (flat_cell b q)) = cell_of b A q).
  { intros A q IB. unfold flat_cell. rewrite decode_at by (apply IB || (specialize (IB AZ); lia)). reflexivity. }
  apply (raw_total0 g n M b S ext dt gf acc GS RC BO PER EV EXT WB); [|exact HV|].
  - intros r R i A q HR HA Hq. unfold gf. destruct acc as [G|]; [|reflexivity]. rewrite HR, HA, CELL by exact Hq. reflexivity.
  - destruct CV as [->|(C1 & ->)]; [left; reflexivity|right; split; [exact C1|]]. intros r i k. reflexivity.
Qed.
