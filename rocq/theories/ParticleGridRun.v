(** The grid of particles: numbering, and the two passes of the initial condition. *)
From Coq Require Import QArith Qround Qcanon Permutation Lqa.
From Verif Require Import Base OctreeSpec OctreeGeom OctreeModel FindNeighbors MeshSpec HistorySpec HistoryProofs OctreeProps
  LookupSpec LookupModel LookupProps CommModel CommSpec CommProps FieldModel CellModel CellSpec ParticleProps ConserveProofs GhostExchange RemapModel RemapSpec RemapProofs HydroModel HydroSpec HydroProps ConserveSpec ParticleSpec ParticleModel ParticleProofs CloudProofs CloudProps LocateProps
  GravityModel GravityLoop RKModel RKProofs ParticleGridModel ParticleGridSpec ParticleGridProofs.
Open Scope Z_scope.

(** * Numbers *)
Lemma upto_S n : 0 <= n -> upto (n + 1) = upto n ++ [n].
Proof. intros H. unfold upto. replace (Z.to_nat (n + 1)) with (S (Z.to_nat n)) by lia. rewrite seq_S, map_app. cbn [map Nat.add]. rewrite Z2Nat.id by exact H. reflexivity. Qed.
Lemma upto_in n i : In i (upto n) <-> 0 <= i < n.
Proof.
  unfold upto. rewrite in_map_iff. split.
  - intros (k & <- & H). apply in_seq in H. lia.
  - intros H. exists (Z.to_nat i). split; [lia|]. apply in_seq. lia.
Qed.
Lemma upto_add n m : 0 <= n -> 0 <= m -> upto (n + m) = upto n ++ map (fun i => n + i) (upto m).
Proof.
  intros Hn Hm. pattern m. apply natlike_ind; [|intros x Hx IH|exact Hm].
  - rewrite Z.add_0_r, app_nil_r. reflexivity.
  - rewrite <- Z.add_1_r. replace (n + (x + 1)) with (n + x + 1) by lia. rewrite !upto_S by lia. rewrite IH, map_app, <- app_assoc. reflexivity.
Qed.
Lemma upto_mult n m : 0 <= n -> 0 <= m -> upto (n * m) = flat_map (fun j => map (fun i => j * n + i) (upto n)) (upto m).
Proof.
  intros Hn Hm. pattern m. apply natlike_ind; [|intros x Hx IH|exact Hm].
  - rewrite Z.mul_0_r. reflexivity.
  - rewrite <- Z.add_1_r, upto_S by lia. rewrite flat_map_app, <- IH. cbn [flat_map]. rewrite app_nil_r. replace (n * (x + 1)) with (n * x + n) by lia. rewrite upto_add by nia. f_equal. apply map_ext. intros i. lia.
Qed.

(** * Positions *)
Lemma frac_zq z : frac z 1 = Q2Qc (inject_Z z). Proof. reflexivity. Qed.
Lemma grid_pos_at nx ny nz lo hi i j k : 0 <= i < nx -> 0 <= j < ny -> 0 <= k < nz -> nx * ny * nz < 2^32 ->
  grid_pos nx ny nz lo hi ((k * ny + j) * nx + i) = [slice lo hi AX nx i; slice lo hi AY ny j; slice lo hi AZ nz k].
Proof.
  intros Hi Hj Hk HN. unfold grid_pos. cbv zeta.
  assert (E1 : ((k * ny + j) * nx + i) mod nx = i) by (rewrite Z.add_comm, Z_mod_plus_full; apply Z.mod_small; exact Hi).
  assert (E2 : ((k * ny + j) * nx + i) / nx = k * ny + j) by (rewrite Z.div_add_l by lia; rewrite (Z.div_small i nx Hi); lia).
  assert (E3 : (k * ny + j) mod ny = j) by (rewrite Z.add_comm, Z_mod_plus_full; apply Z.mod_small; exact Hj).
  assert (E4 : (k * ny + j) / ny = k) by (rewrite Z.div_add_l by lia; rewrite (Z.div_small j ny Hj); lia).
  rewrite E1, E2, E3, E4. assert (N0 : 0 < nx /\ 0 < ny /\ 0 < nz) by lia.
  assert (B : nx < 2^32 /\ ny < 2^32 /\ nz < 2^32) by nia.
  rewrite !u32_small by lia.
  assert (S : forall a n c, 0 < n -> (lo a + frac c 1 * (extent lo hi a / frac n 1) + half_f * (extent lo hi a / frac n 1))%Qc = slice lo hi a n c).
  { intros a n c Hn. unfold slice, extent. rewrite !frac_zq. assert (NN : Q2Qc (inject_Z n) <> 0%Qc) by (apply Qc_pos_nz, zq_pos; lia).
    replace half_f with (1 / two)%Qc by (apply half_two). field. split; [exact two_nz|exact NN]. }
  rewrite !S by lia. reflexivity.
Qed.
Lemma grid_all nx ny nz lo hi : 0 <= nx -> 0 <= ny -> 0 <= nz -> nx * ny * nz < 2^32 -> map (grid_pos nx ny nz lo hi) (upto (nx * ny * nz)) = grid_points nx ny nz lo hi.
Proof.
  intros H1 H2 H3 HN. unfold grid_points. replace (nx * ny * nz) with (nx * (ny * nz)) in * by lia. rewrite (upto_mult nx (ny * nz)) by lia. rewrite (upto_mult ny nz) by lia.
  rewrite flat_map_concat_map, concat_map, map_map, <- flat_map_concat_map.
  transitivity (flat_map (fun k => flat_map (fun J => map (grid_pos nx ny nz lo hi) (map (fun i => J * nx + i) (upto nx))) (map (fun j => k * ny + j) (upto ny))) (upto nz)).
  { clear. induction (upto nz) as [|k l IH]; [reflexivity|]. cbn [flat_map]. rewrite flat_map_app, IH. reflexivity. }
  rewrite !flat_map_concat_map. f_equal. apply map_ext_in. intros k HK. rewrite !flat_map_concat_map, map_map. f_equal. apply map_ext_in. intros j HJ. rewrite map_map. apply map_ext_in. intros i HI.
  apply upto_in in HK, HJ, HI. apply grid_pos_at; try assumption. nia.
Qed.
Lemma grid_in nx ny nz lo hi p : In p (grid_points nx ny nz lo hi) <-> exists i j k, 0 <= i < nx /\ 0 <= j < ny /\ 0 <= k < nz /\ p = [slice lo hi AX nx i; slice lo hi AY ny j; slice lo hi AZ nz k].
Proof.
  unfold grid_points. rewrite in_flat_map. split.
  - intros (k & HK & H). apply in_flat_map in H. destruct H as (j & HJ & H). apply in_map_iff in H. destruct H as (i & <- & HI). apply upto_in in HK, HJ, HI. exists i, j, k. auto.
  - intros (i & j & k & HI & HJ & HK & ->). exists k. split; [apply upto_in; exact HK|]. apply in_flat_map. exists j. split; [apply upto_in; exact HJ|]. apply in_map_iff. exists i. split; [reflexivity|apply upto_in; exact HI].
Qed.

(** * Share of each rank *)
Lemma begin_eq nb P r : 0 <= nb < 2^32 -> 0 < P < 2^32 -> 0 <= r <= P -> ipart_begin nb P r = nb * r / P.
Proof. intros H1 H2 H3. unfold ipart_begin. rewrite u64_small by nia. reflexivity. Qed.
Lemma begin_bounds nb P r : 0 <= nb < 2^32 -> 0 < P < 2^32 -> 0 <= r < P -> 0 <= nb * r / P <= nb * (r + 1) / P /\ nb * (r + 1) / P <= nb.
Proof.
  intros H1 H2 H3. split; [split|].
  - apply Z.div_pos; nia.
  - apply Z.div_le_mono; nia.
  - apply Z.div_le_upper_bound; nia.
Qed.
Lemma grid_array_eq nx ny nz P r lo hi : let nb := nbpart_global nx ny nz in 0 < P < 2^32 -> 0 <= r < P ->
  grid_array nx ny nz P r lo hi = map (fun i => grid_pos nx ny nz lo hi (nb * r / P + i)) (upto (nb * (r + 1) / P - nb * r / P)).
Proof.
  intros nb HP HR. assert (NB : 0 <= nb < 2^32) by (apply Z.mod_pos_bound; lia).
  unfold grid_array. fold nb. unfold nbpart_local. rewrite !begin_eq by lia. pose proof (begin_bounds nb P r NB HP HR) as B. rewrite u64_small by lia. rewrite u32_small by lia.
  unfold upto. rewrite map_map. apply map_ext_in. intros i HI. apply in_seq in HI. rewrite u64_small by lia. reflexivity.
Qed.
Lemma shares nx ny nz lo hi (P : nat) : let nb := nbpart_global nx ny nz in (0 < P)%nat -> Z.of_nat P < 2^32 ->
  concat (map (fun r => grid_array nx ny nz (Z.of_nat P) (Z.of_nat r) lo hi) (seq 0 P)) = map (grid_pos nx ny nz lo hi) (upto nb).
Proof.
  intros nb HP0 HP. assert (NB : 0 <= nb < 2^32) by (apply Z.mod_pos_bound; lia).
  assert (K : forall n, (n <= P)%nat -> concat (map (fun r => grid_array nx ny nz (Z.of_nat P) (Z.of_nat r) lo hi) (seq 0 n)) = map (grid_pos nx ny nz lo hi) (upto (nb * Z.of_nat n / Z.of_nat P))).
  { induction n as [|n IH]; intros HN.
    - cbn [seq map concat Z.of_nat]. rewrite Z.mul_0_r, Z.div_0_l by lia. reflexivity.
    - rewrite seq_S, map_app, concat_app. cbn [map concat Nat.add]. rewrite app_nil_r, IH by lia. rewrite grid_array_eq by lia. fold nb. rewrite Nat2Z.inj_succ, <- Z.add_1_r.
      pose proof (begin_bounds nb (Z.of_nat P) (Z.of_nat n) NB ltac:(lia) ltac:(lia)) as B.
      replace (nb * (Z.of_nat n + 1) / Z.of_nat P) with (nb * Z.of_nat n / Z.of_nat P + (nb * (Z.of_nat n + 1) / Z.of_nat P - nb * Z.of_nat n / Z.of_nat P)) at 2 by lia.
      rewrite upto_add by lia. rewrite map_app, map_map. reflexivity. }
  rewrite (K P (le_n P)). rewrite Z.div_mul by lia. reflexivity.
Qed.

(** * The two passes *)
Lemma map_snd_zip {A B} (l : list A) : forall m : list B, length l = length m -> map snd (combine l m) = m.
Proof. induction l as [|a l IH]; intros [|b m] H; try discriminate; [reflexivity|]. cbn. rewrite IH by (cbn in H; lia). reflexivity. Qed.
Lemma slice_in lo hi a n i : (lo a < hi a)%Qc -> 0 <= i < n -> (lo a < slice lo hi a n i)%Qc /\ (slice lo hi a n i < hi a)%Qc.
Proof.
  intros LH HI. unfold slice. assert (NP : (0 < Q2Qc (inject_Z n))%Qc) by (apply zq_pos; lia). assert (NN : Q2Qc (inject_Z n) <> 0%Qc) by (apply Qc_pos_nz, NP).
  assert (EP : (0 < hi a - lo a)%Qc) by (rewrite <- Qclt_sub; exact LH). set (L := (hi a - lo a)%Qc) in *. set (N := Q2Qc (inject_Z n)) in *.
  assert (HH : (0 < 1 / two)%Qc) by reflexivity.
  assert (I0 : (0 <= Q2Qc (inject_Z i))%Qc) by (unfold Qcle; cbn [Q2Qc this]; rewrite !Qred_correct; change 0%Q with (inject_Z 0); rewrite <- Zle_Qle; lia).
  assert (I1 : (Q2Qc (inject_Z i) + 1 <= N)%Qc) by (change N with (zq n); change (Q2Qc (inject_Z i)) with (zq i); rewrite <- zq_1, <- zq_plus; apply (proj1 (zq_le _ _)); lia).
  set (c := (Q2Qc (inject_Z i) + 1 / two)%Qc) in *.
  assert (C0 : (0 < c)%Qc) by (unfold c; assert (T : (1 / two + 1 / two = 1)%Qc) by (apply Qc_is_canon; reflexivity); qlin).
  assert (C1 : (0 < N - c)%Qc). { assert (T : (1 / two + 1 / two = 1)%Qc) by (apply Qc_is_canon; reflexivity). unfold c. set (h := (1 / two)%Qc) in *. clearbody h. clear - I1 T HH. qlin. }
  split.
  - assert (K : (0 < c * L / N)%Qc) by (apply Qcdiv_lt_0; [apply Qcmult_lt_0; assumption|exact NP]). qlin.
  - assert (K : (0 < (N - c) * L / N)%Qc) by (apply Qcdiv_lt_0; [apply Qcmult_lt_0; assumption|exact NP]).
    assert (E : ((N - c) * L / N = L - c * L / N)%Qc) by (field; exact NN). rewrite E in K. unfold L in *. qlin.
Qed.

Section Grid.
Context (checked contiguous : bool) (sch : list (nat * Qc) -> list (nat * Qc)) (SCH : forall ws, Permutation (sch ws) ws)
  (g : geom) (P : nat) (M : mesh) (GS : good_setup g P) (RC : reachable g P M) (CU : cubic g) (D3 : g3d g = true) (b : axis -> Z) (BO : block_ok g b)
  (lo hi : point) (LH : forall a, (lo a < hi a)%Qc) (D : oct -> cons) (U : nat -> field) (HU : holds_field b M D U).

Lemma no_flat a : flat g a = false. Proof. destruct a; cbn [flat]; rewrite ?D3; reflexivity. Qed.
Lemma grid_strict nx ny nz p : In p (grid_points nx ny nz lo hi) -> length p = 3%nat /\ in_box g lo hi (coordinate p).
Proof.
  intros HP. apply grid_in in HP. destruct HP as (i & j & k & HI & HJ & HK & ->). split; [reflexivity|]. intros a. rewrite no_flat. destruct a; cbn [coordinate nth]; apply slice_in; auto.
Qed.

(** The cell of a position, and what the particle gets there. *)
Definition starts (m dt : Qc) (p : list Qc) (x : particle) : Prop :=
  exists A q, In A (leaves M) /\ in_block b q /\ in_cell g b lo hi A q (coordinate p) /\ started lo hi m dt p (D (cell_of b A q)) x.
Lemma start_ok m dt r R p A0 : nth_error M r = Some R -> length p = 3%nat -> in_box g lo hi (coordinate p) -> In A0 (loc R) -> lies_in g lo hi A0 p ->
  (forall A q a, In A (leaves M) -> in_block b q -> in_cell g b lo hi A q (coordinate p) -> (lo a - (hi a - lo a) <= coordinate p a + dt * speed (D (cell_of b A q)) a)%Qc) ->
  exists x, start_particle g b lo hi m dt R (U r) p = Some x /\ starts m dt p x.
Proof.
  intros HR LP IB HA0 LI SM. pose proof (reachable_ok g P M GS RC) as OK. pose proof (proj1 GS) as WF. pose proof (nth_error_In _ _ HR) as HRM.
  destruct (C74_cell g P M b lo hi (coordinate p) GS RC BO LH IB) as (A & q & LA & IQ & IC & _ & RK). destruct (RK R HRM) as (RK1 & _).
  assert (EA : A0 = A).
  { destruct (C18_location g M R _ WF OK HRM (inside01 g lo hi (coordinate p) LH IB)) as (B & _ & _ & UN & _).
    rewrite (UN A0); [|unfold leaves; apply in_concat; exists (loc R); split; [apply in_map; exact HRM|exact HA0]|exact LI].
    symmetry. apply UN; [exact LA|]. apply (cell_contains g WF b BO lo hi (coordinate p) LH A q); [apply (leaf_ok g M OK A LA)|exact IQ|exact IC]. }
  subst A0. destruct (In_nth_error _ _ HA0) as (i & HI). destruct (RK1 i HI) as (c & EC & C1 & C2 & C3 & C4).
  unfold start_particle. change (at_axis p) with (coordinate p). rewrite EC.
  assert (IN : all3 (fun a => (0 <=? c_pos c a) && (c_pos c a <? b a)) = true).
  { assert (B : forall a, (0 <=? c_pos c a) && (c_pos c a <? b a) = true) by (intros a; rewrite C4; pose proof (IQ a); apply Bool.andb_true_iff; split; [apply Z.leb_le|apply Z.ltb_lt]; lia). unfold all3. rewrite !B. reflexivity. }
  rewrite IN. cbn [negb].
  assert (EV : U r (c_oct c) (flat_cell b (c_pos c)) = D (cell_of b A q)).
  { rewrite C1. unfold flat_cell. rewrite !C4. apply (HU r R i A q HR); [|exact IQ]. rewrite nth_error_app1; [exact HI|]. apply nth_error_Some. congruence. }
  rewrite EV. set (u := D (cell_of b A q)) in *. cbv zeta.
  set (v := fun a : axis => (match a with AX => u_x u | AY => u_y u | AZ => u_z u end / u_rho u)%Qc). change v with (speed u).
  eexists. split; [reflexivity|]. exists A, q. split; [exact LA|]. split; [exact IQ|]. split; [exact IC|]. fold u.
  assert (W : forall a, let w := Q2Qc (wrap_position (this (coordinate p a + speed u a * dt)%Qc) (this (lo a)) (this (hi a))) in (lo a <= w)%Qc /\ (w < hi a)%Qc /\ exists k : Z, w = (coordinate p a + dt * speed u a + zq k * (hi a - lo a))%Qc).
  { intros a. assert (HX : (lo a - (hi a - lo a) <= coordinate p a + speed u a * dt)%Qc) by (rewrite (Qcmult_comm (speed u a) dt); apply SM; assumption).
    destruct (C52_wrap_partial (this (coordinate p a + speed u a * dt)%Qc) (this (lo a)) (this (hi a)) (LH a)) as (W1 & W2 & k & W3).
    - unfold Qcle in HX. rewrite !this_minus in HX. exact HX.
    - split; [unfold Qcle; cbn [Q2Qc this]; rewrite Qred_correct; exact W1|]. split; [unfold Qclt; cbn [Q2Qc this]; rewrite Qred_correct; exact W2|].
      exists k. rewrite (Qcmult_comm dt). set (y := (coordinate p a + speed u a * dt)%Qc) in *. clearbody y. apply Qc_is_canon. rewrite this_plus, this_mult, this_minus, zq_this. cbn [Q2Qc this]. rewrite Qred_correct. exact W3. }
  split; [reflexivity|]. split; [reflexivity|]. cbn [fst]. split.
  - intros a. destruct a; cbn [row3 coordinate nth]; split; apply W.
  - intros a. destruct (W a) as (_ & _ & k & E). exists k. etransitivity; [|exact E]. destruct a; reflexivity.
Qed.

Lemma fits_zip (l : list particle) e : (forall x, In x l -> length (fst x) = 3%nat /\ length (snd x) = e) -> fits_array e (map fst l, map snd l).
Proof.
  intros H. split; [cbn [fst snd]; rewrite !map_length; reflexivity|]. split; cbn [fst snd]; intros p HP; apply in_map_iff in HP; destruct HP as (x & <- & HX); apply (H x HX).
Qed.
Lemma held_zip (l : list particle) : held (map fst l, map snd l) = l.
Proof. unfold held. cbn [fst snd]. induction l as [|(p & d) l IH]; [reflexivity|]. cbn [map combine fst snd]. rewrite IH. reflexivity. Qed.

Lemma grid_run nx ny nz total dt : 1 <= nx -> 1 <= ny -> 1 <= nz -> nx * ny * nz < 2^32 ->
  (forall p A q a, In p (grid_points nx ny nz lo hi) -> In A (leaves M) -> in_block b q -> in_cell g b lo hi A q (coordinate p) -> (lo a - (hi a - lo a) <= coordinate p a + dt * speed (D (cell_of b A q)) a)%Qc) ->
  (checked = true -> forall p A q a (k : Z), In p (grid_points nx ny nz lo hi) -> In A (leaves M) -> in_block b q -> in_cell g b lo hi A q (coordinate p) -> (coordinate p a + dt * speed (D (cell_of b A q)) a + zq k * (hi a - lo a) <> lo a)%Qc) ->
  exists parts l, particle_grid checked contiguous sch g M b lo hi nx ny nz total dt (map U (seq 0 (length M))) = Some parts /\ length parts = length M /\
    (forall x, In x parts -> fits_array 4 x) /\ Permutation (all_particles parts) l /\
    Forall2 (starts (total / zq (nx * ny * nz)) dt) (grid_points nx ny nz lo hi) l /\
    forall r R x p, nth_error M r = Some R -> nth_error parts r = Some x -> In p (fst x) -> exists A, In A (loc R) /\ lies_in g lo hi A p.
Proof.
  intros Hx Hy Hz HN SM AW. pose proof (reachable_ok g P M GS RC) as OK. pose proof (proj1 GS) as WF.
  pose proof (reachable_ranks g P M GS RC) as LM. destruct GS as (_ & _ & P1 & P2).
  assert (NE : M <> []) by (intros E; rewrite E in LM; cbn in LM; lia).
  assert (NB : nbpart_global nx ny nz = nx * ny * nz) by (assert (K1 : 1 <= nx * ny) by nia; assert (K2 : nx * ny <= nx * ny * nz) by nia; unfold nbpart_global; rewrite (u32_small (nx * ny)) by lia; apply u32_small; lia).
  pose proof (shares nx ny nz lo hi (length M) ltac:(lia) ltac:(lia)) as SH. cbv zeta in SH. rewrite NB, grid_all in SH by lia.
  unfold particle_grid. cbv zeta. set (pos := map (fun r => grid_array nx ny nz (Z.of_nat (length M)) (Z.of_nat r) lo hi) (seq 0 (length M))) in *.
  assert (GP : forall l p, In l pos -> In p l -> In p (grid_points nx ny nz lo hi)) by (intros l p HL HP; rewrite <- SH; apply in_concat; exists l; auto).
  set (arrays := map (fun l : list prow => (l, map (fun _ : prow => (@nil Qc : prow)) l) : list prow * list prow) pos : list (list prow * list prow)).
  assert (E1 : map fst arrays = pos) by (unfold arrays; rewrite map_map; cbn [fst]; apply map_id).
  assert (E2 : map snd arrays = map (map (fun _ => [])) pos) by (unfold arrays; rewrite map_map; reflexivity).
  assert (LP : length pos = length M) by (unfold pos; rewrite map_length, seq_length; reflexivity).
  destruct (distribute_ok checked contiguous sch SCH g M WF CU OK NE lo hi LH 0 arrays) as (parts1 & D1 & L1 & F1 & PE1 & O1).
  { unfold arrays. rewrite map_length. exact LP. }
  { intros x HX. apply in_map_iff in HX. destruct HX as (l & <- & HL). split; [cbn [fst snd]; rewrite map_length; reflexivity|]. split; cbn [fst snd].
    - intros p HP. apply (grid_strict nx ny nz), (GP l p HL HP).
    - intros d HD. apply in_map_iff in HD. destruct HD as (p & <- & _). reflexivity. }
  { intros x p HX HP. apply in_map_iff in HX. destruct HX as (l & <- & HL). cbn [fst] in HP. destruct (grid_strict nx ny nz p (GP l p HL HP)) as (_ & IB).
    split; [|intros _ a; specialize (IB a); exact IB]. intros a. specialize (IB a). rewrite no_flat in IB. destruct IB as (B1 & B2). split; [apply Qclt_le_weak; exact B1|exact B2]. }
  rewrite E1, E2 in D1. rewrite D1. rewrite NB, frac_zq. set (m := (total / Q2Qc (inject_Z (nx * ny * nz)))%Qc).
  assert (PP : Permutation (concat (map fst parts1)) (grid_points nx ny nz lo hi)).
  { assert (FH : forall (l : list (list prow * list prow)), (forall x, In x l -> fits_array 0 x) -> concat (map fst l) = map fst (all_particles l)).
    { clear. induction l as [|x l IH]; intros H; [reflexivity|]. unfold all_particles in *. cbn [map concat]. rewrite map_app, <- IH by (intros y HY; apply H; right; exact HY). f_equal.
      destruct (H x (or_introl eq_refl)) as (L & _). unfold held. clear - L. destruct x as (p & d). cbn [fst snd] in *. revert d L. induction p as [|a p IH]; intros [|c d] L; try discriminate; [reflexivity|]. cbn [combine map fst]. rewrite <- IH by (cbn in L; lia). reflexivity. }
    rewrite (FH parts1 F1), PE1. rewrite <- FH, E1, SH; [reflexivity|]. intros x HX. apply in_map_iff in HX. destruct HX as (l & <- & HL). split; [cbn [fst snd]; rewrite map_length; reflexivity|]. split; cbn [fst snd].
    - intros p HP. apply (grid_strict nx ny nz), (GP l p HL HP).
    - intros d HD. apply in_map_iff in HD. destruct HD as (p & <- & _). reflexivity. }
  assert (G1 : forall x p, In x parts1 -> In p (fst x) -> In p (grid_points nx ny nz lo hi)).
  { intros x p HX HP. apply (Permutation_in _ PP). apply in_concat. exists (fst x). split; [apply in_map; exact HX|exact HP]. }
  destruct (mapM_rel (fun x : (rank * field) * (list prow * list prow) => mapM (start_particle g b lo hi m dt (fst (fst x)) (snd (fst x))) (fst (snd x)))
     (fun x l => Forall2 (starts m dt) (fst (snd x)) l) (combine (combine M (map U (seq 0 (length M)))) parts1)) as (st & ES & FS).
  { intros ((R & V) & x) HI. cbn [fst snd]. apply In_nth_error in HI. destruct HI as (r & HI). apply nth_error_combine in HI. destruct HI as (HI & HX). apply nth_error_combine in HI. destruct HI as (HR & HV).
    rewrite nth_error_map in HV. destruct (nth_error (seq 0 (length M)) r) as [r'|] eqn:HS; [|discriminate]. injection HV as <-.
    assert (r' = r). { assert (H : (r < length (seq 0 (length M)))%nat) by (apply nth_error_Some; congruence). rewrite (nth_error_nth' _ 0%nat) in HS by exact H. rewrite seq_length in H. rewrite seq_nth in HS by exact H. injection HS as <-. reflexivity. }
    subst r'. apply mapM_rel. intros p HP. pose proof (G1 x p (nth_error_In _ _ HX) HP) as GPp. destruct (grid_strict nx ny nz p GPp) as (L3 & IB). destruct (O1 r R x p HR HX HP) as (A & HA & LI).
    apply (start_ok m dt r R p A HR L3 IB HA LI). intros A' q a HA' IQ IC. exact (SM p A' q a GPp HA' IQ IC). }
  rewrite ES.
  assert (LC : length (combine (combine M (map U (seq 0 (length M)))) parts1) = length M) by (rewrite !combine_length, map_length, seq_length, L1; lia).
  assert (MS : map (fun x : (rank * field) * (list prow * list prow) => fst (snd x)) (combine (combine M (map U (seq 0 (length M)))) parts1) = map fst parts1).
  { rewrite <- (map_map snd fst). rewrite map_snd_zip; [reflexivity|]. rewrite combine_length, map_length, seq_length, L1. lia. }
  assert (FC : Forall2 (starts m dt) (concat (map fst parts1)) (concat st)).
  { rewrite <- MS. clear - FS. induction FS as [|x l xs ls F FS IH]; [constructor|]. cbn [map concat]. apply Forall2_app; assumption. }
  assert (STX : forall x, In x (concat st) -> exists p, In p (grid_points nx ny nz lo hi) /\ starts m dt p x).
  { intros x HX. apply In_nth_error in HX. destruct HX as (i & HX). apply Forall2_nth in FC. destruct FC as (FL & FC). destruct (nth_error (concat (map fst parts1)) i) as [p|] eqn:EP.
    - exists p. split; [apply (Permutation_in _ PP); eapply nth_error_In; exact EP|exact (FC i p x EP HX)].
    - apply nth_error_None in EP. assert (nth_error (concat st) i <> None) by congruence. apply nth_error_Some in H. lia. }
  set (arrays2 := map (fun l : list (prow * prow) => (map fst l, map snd l)) st : list (list prow * list prow)).
  destruct (distribute_ok checked contiguous sch SCH g M WF CU OK NE lo hi LH 4 arrays2) as (parts & D2 & L2 & F2 & PE2 & O2).
  { unfold arrays2. rewrite map_length, (mapM_length _ _ _ ES). exact LC. }
  { intros x HX. apply in_map_iff in HX. destruct HX as (l & <- & HL). apply fits_zip. intros x HX. destruct (STX x) as (p & _ & A & q & _ & _ & _ & S1 & S2 & _); [apply in_concat; exists l; auto|]. split; [exact S2|rewrite S1; reflexivity]. }
  { intros x p HX HP. apply in_map_iff in HX. destruct HX as (l & <- & HL). cbn [fst] in HP. apply in_map_iff in HP. destruct HP as (x & <- & HX).
    destruct (STX x) as (p & HG & A & q & HA & IQ & IC & _ & _ & S3 & S4); [apply in_concat; exists l; auto|]. split; [exact S3|].
    intros CH a. rewrite no_flat. destruct (S3 a) as (B1 & B2). split; [|exact B2]. destruct (S4 a) as (k & EK). destruct (Qcle_lt_or_eq _ _ B1) as [LT|EQ]; [exact LT|]. exfalso. apply (AW CH p A q a k HG HA IQ IC). change (zq k) with (Q2Qc (inject_Z k)). rewrite <- EK. symmetry. exact EQ. }
  assert (A1 : map fst arrays2 = map (map fst) st) by (unfold arrays2; rewrite map_map; reflexivity).
  assert (A2 : map snd arrays2 = map (map snd) st) by (unfold arrays2; rewrite map_map; reflexivity).
  rewrite A1, A2 in D2. rewrite D2.
  assert (A3 : all_particles arrays2 = concat st). { unfold all_particles, arrays2. rewrite map_map. f_equal. erewrite map_ext; [apply map_id|]. intros l. apply held_zip. }
  destruct (Permutation_Forall2 PP FC) as (l & PL & FL).
  exists parts, l. split; [reflexivity|]. split; [exact L2|]. split; [exact F2|]. split; [rewrite PE2, A3; exact PL|]. split; [unfold m in FL; exact FL|exact O2].
Qed.
End Grid.
