(** Proofs for the initial conditions given by a formula. *)
From Coq Require Import QArith Qcanon Permutation.
From Verif Require Import Base OctreeSpec OctreeGeom OctreeModel FindNeighbors MeshSpec GhostExchange HistorySpec LookupModel CellModel CellSpec CellProofs CellIterProps RemapModel RemapSpec RemapProofs
  HydroModel HydroSpec HydroProps ConserveSpec BlockGhost ConserveProofs OctreeProps HistoryProofs IndexProps GravitySpec GravityProofs ParticleModel ParticleSpec ParticleProofs CloudProofs OutputModel AnalyticModel AnalyticSpec.
Open Scope Z_scope.

Section Args.
Context (g : geom) (WF : wf_geom g) (M : mesh) (OK : mesh_ok g M) (b : axis -> Z) (BO : block_ok g b).
Context (lo hi : axis -> Qc) (LH : forall a, (lo a < hi a)%Qc).
Context (R : rank) (HR : In R M).
Lemma args_eq i A p : nth_error (loc R) i = Some A -> in_block b p ->
  formula_args g b lo hi (loc R) (Z.of_nat i, p) = Some (cell_centre g b lo hi (cell_of b A p), cell_extent g b lo hi (cell_of b A p)).
Proof.
  intros HA IP. unfold formula_args, getCellCenter. cbn [fst snd c_oct c_pos c_blk]. rewrite Nat2Z.id, HA.
  assert (C : forall a, (if flat g a then 0%Qc else (lo a + Q2Qc (getCenter g A a) * extent lo hi a + (frac (p a) 1 - frac (b a) 1 * half_f + half_f) * cell_size g b (extent lo hi) A a)%Qc) =
    (if flat g a then 0%Qc else (lo a + Q2Qc (inject_Z (2 * coord (cell_of b A p) a + 1)) / Q2Qc (inject_Z (2 * ncells g b (lev (cell_of b A p)) a)) * (hi a - lo a))%Qc)).
  { intros a. destruct (flat g a) eqn:F; [reflexivity|]. rewrite (center_eq_at g WF M OK b BO R HR i A HA p lo hi LH a F).
    unfold centre, grid_line. assert (E : coord (cell_of b A p) a = gpos b A p a) by (destruct a; reflexivity). rewrite E. reflexivity. }
  assert (S : forall a, cell_size g b (extent lo hi) A a = ((hi a - lo a) / Q2Qc (inject_Z (if flat g a then 2 ^ (lev (cell_of b A p) - lmin g) else ncells g b (lev (cell_of b A p)) a)))%Qc).
  { intros a. destruct (flat g a) eqn:F.
    - change (lev (cell_of b A p)) with (lev A). unfold cell_size, getSize. rewrite (proj2 (BO a) F).
      assert (VA : valid g A) by (apply (leaf_valid g M OK A); unfold leaves; apply in_concat; exists (loc R); split; [apply in_map, HR|eapply nth_error_In, HA]).
      assert (CC : cell_count g a (lev A) = 2 ^ (lev A - lmin g)).
      { unfold cell_count. assert (G1 : gsize g a = 1) by (destruct a; try discriminate F; destruct WF as (_ & _ & _ & _ & W); cbn [gsize]; apply W; destruct (g3d g) eqn:D3; [unfold flat in F; rewrite D3 in F; discriminate F|reflexivity]).
        rewrite G1, Z.mul_1_l. apply u32_small. pose proof (wf_max20 g WF). destruct WF as (W0 & _). destruct VA as (VL & _).
        assert (2 ^ (lev A - lmin g) <= 2 ^ 20) by (apply Z.pow_le_mono_r; lia). assert (0 < 2 ^ (lev A - lmin g)) by (apply Z.pow_pos_nonneg; lia). change (2 ^ 20) with 1048576 in *. change (2 ^ 32) with 4294967296. lia. }
      rewrite CC, Q2Qc_div1. fold (zq (2 ^ (lev A - lmin g))) (zq 1). rewrite zq_1. unfold extent. field.
      split; [apply Qc_pos_nz, zq_pos, Z.pow_pos_nonneg; [lia|destruct VA as (VL & _); lia]|discriminate].
    - rewrite (size_len_at g WF M OK b BO R HR i A HA lo hi LH a F). reflexivity. }
  unfold coords, cell_centre, cell_extent. rewrite !C, !S. reflexivity.
Qed.
End Args.

(** * Marking *)

Lemma write_at_map {X} (f : nat -> X) n i v : 0 <= i < Z.of_nat n ->
  write_at (map f (seq 0 n)) i v = Some (map (fun k => if Z.of_nat k =? i then v else f k) (seq 0 n)).
Proof.
  intros H. unfold write_at. rewrite map_length, seq_length. replace ((0 <=? i) && (i <? Z.of_nat n)) with true by lia. f_equal.
  set (k0 := Z.to_nat i). assert (K : i = Z.of_nat k0) by (unfold k0; lia). clearbody k0. subst i.
  replace n with (k0 + S (n - S k0))%nat by lia. rewrite !seq_app, !map_app. rewrite firstn_app, map_length, seq_length, Nat.sub_diag, firstn_O, app_nil_r. rewrite firstn_all2 by (rewrite map_length, seq_length; lia). f_equal.
  - apply map_ext_in. intros k HK. apply in_seq in HK. destruct (Z.eqb_spec (Z.of_nat k) (Z.of_nat k0)); [lia|reflexivity].
  - rewrite skipn_app, map_length, seq_length. rewrite skipn_all2 by (rewrite map_length, seq_length; lia). replace (S k0 - k0)%nat with 1%nat by lia. cbn [seq map skipn app]. rewrite Nat.add_0_l, Z.eqb_refl. f_equal.
    apply map_ext_in. intros k HK. apply in_seq in HK. destruct (Z.eqb_spec (Z.of_nat k) (Z.of_nat k0)); [lia|reflexivity].
Qed.
Definition b2z (t : bool) : Z := if t then 1 else 0.
Lemma b2z_or s t : Z.lor (b2z s) (b2z t) = b2z (s || t). Proof. destruct s, t; reflexivity. Qed.

(** The formula asks to refine a cell. *)
Definition asksb (need : triple -> triple -> bool) (g : geom) (b : axis -> Z) (lo hi : axis -> Qc) (x : oct) : bool := need (cell_centre g b lo hi x) (cell_extent g b lo hi x).
Definition call_asks need g b lo hi (octs : list oct) (c : icell) : bool :=
  match nth_error octs (Z.to_nat (fst c)) with Some A => asksb need g b lo hi (cell_of b A (snd c)) | None => false end.
Section Marks.
Context (need : triple -> triple -> bool) (g : geom) (b : axis -> Z) (lo hi : axis -> Qc) (octs : list oct).
Context (AE : forall i A p, nth_error octs i = Some A -> in_block b p -> formula_args g b lo hi octs (Z.of_nat i, p) = Some (cell_centre g b lo hi (cell_of b A p), cell_extent g b lo hi (cell_of b A p))).
Local Notation good c := (0 <= fst c < Z.of_nat (length octs) /\ in_block b (snd c)).
Lemma args_call (c : icell) : good c -> exists A, nth_error octs (Z.to_nat (fst c)) = Some A /\
  formula_args g b lo hi octs c = Some (cell_centre g b lo hi (cell_of b A (snd c)), cell_extent g b lo hi (cell_of b A (snd c))).
Proof.
  intros (H & IP). destruct c as (k & p). cbn [fst snd] in *. destruct (nth_error octs (Z.to_nat k)) as [A|] eqn:E; [|apply nth_error_None in E; lia]. exists A. split; [reflexivity|].
  pose proof (AE _ A p E IP) as Q. rewrite Z2Nat.id in Q by lia. exact Q.
Qed.
Lemma mark_fold cs : (forall c, In c cs -> good c) -> forall f,
  foldM (mark_cell need g b lo hi octs) cs (map (fun k => b2z (f k)) (seq 0 (length octs))) =
  Some (map (fun k => b2z (f k || existsb (fun c => (fst c =? Z.of_nat k) && call_asks need g b lo hi octs c) cs)) (seq 0 (length octs))).
Proof.
  induction cs as [|c cs IH]; intros HG f; cbn [foldM].
  - f_equal. apply map_ext. intros k. cbn [existsb]. rewrite orb_false_r. reflexivity.
  - destruct (args_call c (HG c (or_introl eq_refl))) as (A & EA & EF). pose proof (HG c (or_introl eq_refl)) as (RG & _). unfold mark_cell at 1. rewrite EF.
    rewrite nth_error_map, (nth_error_nth' _ 0%nat) by (rewrite seq_length; lia). rewrite seq_nth by lia. cbn [option_map Nat.add].
    rewrite write_at_map by exact RG. fold (b2z (need (cell_centre g b lo hi (cell_of b A (snd c))) (cell_extent g b lo hi (cell_of b A (snd c))))). rewrite b2z_or.
    assert (CA : call_asks need g b lo hi octs c = need (cell_centre g b lo hi (cell_of b A (snd c))) (cell_extent g b lo hi (cell_of b A (snd c)))) by (unfold call_asks; rewrite EA; reflexivity).
    rewrite <- CA. clear CA EF EA.
    replace (map _ (seq 0 (length octs))) with (map (fun k => b2z (f k || ((fst c =? Z.of_nat k) && call_asks need g b lo hi octs c))) (seq 0 (length octs))).
    + rewrite IH by (intros; apply HG; right; assumption). f_equal. apply map_ext. intros k. cbn [existsb]. rewrite orb_assoc. reflexivity.
    + apply map_ext. intros k. rewrite (Z.eqb_sym (Z.of_nat k)). destruct (Z.eqb_spec (fst c) (Z.of_nat k)) as [E|NE]; [rewrite E, Nat2Z.id; reflexivity|rewrite andb_false_l, orb_false_r; reflexivity].
Qed.
Lemma calls_good n : (forall a, 1 <= b a) -> forall c, In c (foreach_cell b n) -> 0 <= fst c < Z.of_nat n /\ in_block b (snd c).
Proof.
  clear AE. intros B1 c H. unfold foreach_cell in H. apply in_map_iff in H. destruct H as (k & <- & HK). apply in_zrange in HK.
  assert (P : 0 < b AX * b AY * b AZ) by (pose proof (B1 AX); pose proof (B1 AY); pose proof (B1 AZ); nia).
  assert (U : forall x, 0 <= x -> u32 x <= x /\ 0 <= u32 x) by (intros x Hx; unfold u32; pose proof (Z.mod_le x (2^32) Hx ltac:(lia)); pose proof (Z.mod_pos_bound x (2^32) ltac:(lia)); lia).
  destruct (U (b AX * b AY * b AZ) ltac:(lia)) as (U1 & U2). destruct (U (u32 (b AX * b AY * b AZ) * Z.of_nat n) ltac:(nia)) as (U3 & _).
  assert (KN : 0 <= k < (b AX * b AY * b AZ) * Z.of_nat n) by nia.
  destruct (decode_full b k B1 ltac:(lia)) as (D1 & D2 & _). rewrite D1. split; [|exact D2]. unfold cells_per_block. split; [apply Z.div_pos; lia|]. apply Z.div_lt_upper_bound; lia.
Qed.
(** Markers, whatever the number of cells. *)
Definition marks visit : list Z := map (fun k => b2z (existsb (fun c : icell => (fst c =? Z.of_nat k) && call_asks need g b lo hi octs c) (visit (foreach_cell b (length octs))))) (seq 0 (length octs)).
Lemma mark_eq visit : (forall a, 1 <= b a) -> reorders visit -> mark_octants visit need g b lo hi octs = Some (marks visit).
Proof.
  intros B1 RO. unfold mark_octants. replace (repeat 0 (length octs)) with (map (fun k => b2z ((fun _ => false) k)) (seq 0 (length octs))) by (generalize 0%nat; induction (length octs) as [|n IH]; intros k; [reflexivity|cbn [seq map repeat]; rewrite IH; reflexivity]).
  rewrite mark_fold by (intros c HC; apply (calls_good _ B1); eapply Permutation_in; [apply RO|exact HC]). f_equal. unfold marks. rewrite map_map. apply map_ext. intros k. cbn [orb]. destruct (existsb _ _); reflexivity.
Qed.
(** Marker of an octant when all cells are visited. *)
Definition wanted (A : oct) : Z := b2z (existsb (asksb need g b lo hi) (map (cell_of b A) (positions b))).
Lemma marks_wanted visit : (forall a, 1 <= b a) -> reorders visit -> cells_per_block b * Z.of_nat (length octs) < 2 ^ 32 -> marks visit = map wanted octs.
Proof.
  clear AE. intros B1 RO FIT. apply nth_error_ext'. intros k. unfold marks. rewrite !nth_error_map. destruct (nth_error octs k) as [A|] eqn:EA.
  - assert (LK : (k < length octs)%nat) by (apply nth_error_Some; congruence). rewrite (nth_error_nth' _ 0%nat) by (rewrite seq_length; exact LK). rewrite seq_nth by exact LK. cbn [option_map Nat.add]. do 2 f_equal. unfold wanted. f_equal.
    destruct (C23_foreach_cell_partial b (length octs) B1 FIT) as (V1 & V2).
    apply eq_true_iff_eq. rewrite !existsb_exists. split.
    + intros (c & HC & HT). apply andb_prop in HT. destruct HT as (HK & HT). apply Z.eqb_eq in HK. apply (Permutation_in _ (RO _)) in HC. destruct (V2 c HC) as (_ & IP).
      unfold call_asks in HT. rewrite HK, Nat2Z.id, EA in HT. exists (cell_of b A (snd c)). split; [|exact HT]. destruct (positions_all b (snd c) IP) as (p' & HP & EP).
      apply in_map_iff. exists p'. split; [|exact HP]. unfold cell_of, oct_of, gpos. rewrite !EP. reflexivity.
    + intros (x & HX & HT). apply in_map_iff in HX. destruct HX as (p & <- & HP). apply positions_in in HP. destruct (V1 (Z.of_nat k) p ltac:(lia) HP) as (j & c & HJ & (HC1 & HC2) & _).
      exists c. split; [apply (Permutation_in _ (Permutation_sym (RO _))); eapply nth_error_In, HJ|]. rewrite HC1, Z.eqb_refl. cbn [andb]. unfold call_asks. rewrite HC1, Nat2Z.id, EA.
      replace (cell_of b A (snd c)) with (cell_of b A p); [exact HT|]. unfold cell_of, oct_of, gpos. rewrite !HC2. reflexivity.
  - apply nth_error_None in EA. assert (Q : nth_error (seq 0 (length octs)) k = None) by (apply nth_error_None; rewrite seq_length; exact EA). rewrite Q. reflexivity.
Qed.
Lemma marks_range visit : Forall (fun m => 0 <= m <= 1) (marks visit).
Proof. clear AE. unfold marks. apply Forall_forall. intros m H. apply in_map_iff in H. destruct H as (k & <- & _). destruct (existsb _ _); cbn; lia. Qed.
Lemma marks_len visit : length (marks visit) = length octs. Proof. clear AE. unfold marks. rewrite map_length, seq_length. reflexivity. Qed.
End Marks.

(** * Rounds *)

(** Ranks differ by at most one octant. *)
Definition even (M : mesh) : Prop := forall R R', In R M -> In R' M -> Z.of_nat (length (loc R)) <= Z.of_nat (length (loc R')) + 1.
(** No rank has 2^32 cells. *)
Definition roomy (b : axis -> Z) (M : mesh) : Prop := forall R, In R M -> cells_per_block b * Z.of_nat (length (loc R)) < 2 ^ 32.

Lemma sum_le_max (M : mesh) K : (forall R, In R M -> Z.of_nat (length (loc R)) <= K) -> Z.of_nat (length (leaves M)) <= Z.of_nat (length M) * K.
Proof.
  unfold leaves. induction M as [|R M IH]; intros H; [cbn; lia|]. cbn [map concat length]. rewrite app_length. specialize (IH (fun R' I => H R' (or_intror I))). pose proof (H R (or_introl eq_refl)). lia.
Qed.
Lemma sum_ge_min (M : mesh) K : (forall R, In R M -> K <= Z.of_nat (length (loc R))) -> Z.of_nat (length M) * K <= Z.of_nat (length (leaves M)).
Proof.
  unfold leaves. induction M as [|R M IH]; intros H; [cbn; lia|]. cbn [map concat length]. rewrite app_length. specialize (IH (fun R' I => H R' (or_intror I))). pose proof (H R (or_introl eq_refl)). lia.
Qed.
Lemma sum_gt (M : mesh) R K : In R M -> K + 1 <= Z.of_nat (length (loc R)) -> (forall R', In R' M -> K <= Z.of_nat (length (loc R'))) -> Z.of_nat (length M) * K + 1 <= Z.of_nat (length (leaves M)).
Proof.
  intros HR HK H. apply in_split in HR. destruct HR as (l1 & l2 & ->).
  assert (E : length (leaves (l1 ++ R :: l2)) = (length (leaves l1) + (length (loc R) + length (leaves l2)))%nat) by (unfold leaves; rewrite map_app, concat_app, app_length; cbn [map concat]; rewrite app_length; reflexivity).
  pose proof (sum_ge_min l1 K (fun R' I => H R' (in_or_app l1 (R :: l2) R' (or_introl I)))). pose proof (sum_ge_min l2 K (fun R' I => H R' (in_or_app l1 (R :: l2) R' (or_intror (or_intror I))))).
  rewrite app_length. cbn [length]. lia.
Qed.
(** Room on a later, bigger mesh is room on an evenly shared smaller one. *)
Lemma roomy_back b M M' : (forall a, 1 <= b a) -> even M -> length M = length M' -> (length (leaves M) <= length (leaves M'))%nat -> roomy b M' -> roomy b M.
Proof.
  intros B1 EV LM LL RM R HR. set (c := cells_per_block b) in *. assert (C0 : 0 < c) by (unfold c, cells_per_block; pose proof (B1 AX); pose proof (B1 AY); pose proof (B1 AZ); nia).
  set (n := Z.of_nat (length (loc R))). destruct (Z.lt_ge_cases (c * n) (2 ^ 32)) as [H|H]; [exact H|exfalso].
  assert (G : Z.of_nat (length M) * (n - 1) + 1 <= Z.of_nat (length (leaves M))).
  { apply (sum_gt M R (n - 1) HR); [unfold n; lia|]. intros R' HR'. pose proof (EV R R' HR HR'). unfold n. lia. }
  assert (L : Z.of_nat (length (leaves M')) <= Z.of_nat (length M') * (n - 1)); [|rewrite LM in G; lia].
  apply sum_le_max. intros R' HR'. specialize (RM R' HR'). fold c in RM. clear - C0 H RM. nia.
Qed.

Lemma NoDup_map_in {X Y} (f : X -> Y) l : NoDup l -> (forall x y, In x l -> In y l -> f x = f y -> x = y) -> NoDup (map f l).
Proof.
  induction l as [|x l IH]; intros ND H; [constructor|]. inversion ND as [|? ? N1 N2]; subst. cbn [map]. constructor.
  - intros Q. apply in_map_iff in Q. destruct Q as (y & E & HY). apply N1. rewrite (H x y (or_introl eq_refl) (or_intror HY) (eq_sym E)). exact HY.
  - apply IH; [exact N2|]. intros y z HY HZ. apply H; right; assumption.
Qed.
(** Refinement only adds leaves. *)
Lemma leaves_grow g L L' m : tiles g L -> tiles g L' -> leaf_change g L L' m -> (forall A, In A L -> 0 <= m A) -> (length L <= length L')%nat.
Proof.
  intros T T' CH MP. set (f := fun A => cell_at g (lev A + m A) (corner g A)). rewrite <- (map_length f L).
  assert (IN : forall A, In A L -> In (f A) L' /\ covers g (f A) (corner g A) /\ lev A <= lev (f A)).
  { intros A HA. pose proof (tiles_valid g L A T HA) as V. destruct (tiles_leaf g L' _ T' (corner_in_dom g A V)) as (B & HB & CB).
    pose proof (CH _ A B (corner_in_dom g A V) HA HB (corner_covers g A V) CB) as E. assert (f A = B) as -> by (unfold f; rewrite <- E; symmetry; apply covers_cell_at, CB).
    split; [exact HB|]. split; [exact CB|]. specialize (MP A HA). lia. }
  apply NoDup_incl_length; [|intros x HX; apply in_map_iff in HX; destruct HX as (A & <- & HA); apply IN, HA].
  apply NoDup_map_in; [apply (tiles_NoDup g L T)|]. intros A A' HA HA' E. destruct (IN A HA) as (I1 & I2 & I3). destruct (IN A' HA') as (_ & J2 & _). rewrite <- E in J2.
  pose proof (tiles_valid g L A T HA) as V. pose proof (tiles_valid g L A' T HA') as V'. pose proof (tiles_valid g L' _ T' I1) as (VB & _).
  apply (tiles_unique g L (corner g A') A A' T (corner_in_dom g A' V') HA HA'); [|apply corner_covers, V'].
  apply (covers_nest g A (f A) (corner g A) (corner g A')); [lia|apply corner_covers, V|exact I2|exact J2].
Qed.

Lemma mapM_ranks {X} (f : nat -> rank -> option X) (h : nat -> rank -> X) (M : mesh) : (forall r R, In R M -> f r R = Some (h r R)) -> forall k,
  mapM (fun rR : nat * rank => f (fst rR) (snd rR)) (combine (seq k (length M)) M) = Some (map (fun rR : nat * rank => h (fst rR) (snd rR)) (combine (seq k (length M)) M)).
Proof.
  induction M as [|R M IH]; intros H k; [reflexivity|]. cbn [length seq combine mapM map fst snd]. rewrite (H k R (or_introl eq_refl)), IH by (intros; apply H; right; assumption). reflexivity.
Qed.

(** Levels after a round. *)
Lemma change_up g' L L' m req : tiles g' L -> tiles g' L' -> leaf_change g' L L' m -> least_legal g' L req m -> (forall A, In A L -> 0 <= req A) ->
  forall B, In B L' -> exists A, In A L /\ 0 <= m A <= 1 /\ req A <= m A /\ lev B = lev A + m A /\ (m A = 0 -> B = A) /\ (m A = 1 -> parent g' B = A).
Proof.
  intros T T' CH (LG & _) RN B HB. pose proof (tiles_valid g' L' B T' HB) as V. destruct (tiles_leaf g' L _ T (corner_in_dom g' B V)) as (A & HA & CA). exists A. split; [exact HA|].
  pose proof (CH _ A B (corner_in_dom g' B V) HA HB CA (corner_covers g' B V)) as E. destruct (LG A HA) as (L1 & L2 & _). specialize (RN A HA). split; [lia|]. split; [exact L1|]. split; [exact E|]. split.
  - intros M0. apply (covers_same_level g' B A (corner g' B)); [apply corner_covers, V|exact CA|lia].
  - intros M1. pose proof (covers_coarser g' A B (corner g' B) CA (corner_covers g' B V)) as Q. destruct V as (VL & VC). specialize (Q ltac:(lia)).
    unfold parent. apply oct_ext; [cbn [oct_of lev]; lia|]. intros a. rewrite coord_oct_of. rewrite (Q a). replace (lev B - lev A) with 1 by lia. change (2 ^ 1) with 2. unfold half. destruct (flat g' a) eqn:F; [|reflexivity].
    rewrite (valid_flat g' B a (conj VL VC) F). reflexivity.
Qed.

Section Rounds.
Context (g : geom) (P : nat) (GS : good_setup g P) (b : axis -> Z) (BO : block_ok g b) (lo hi : axis -> Qc) (LH : forall a, (lo a < hi a)%Qc) (need : triple -> triple -> bool).
Local Notation WF := (proj1 GS).
Lemma b1' : forall a, 1 <= b a. Proof. intros a. apply (proj1 (BO a)). Qed.
Local Notation want := (wanted need g b lo hi).

Definition mesh_marks (visits : nat -> list icell -> list icell) (M : mesh) : list (list Z) :=
  map (fun rR : nat * rank => marks need g b lo hi (loc (snd rR)) (visits (fst rR))) (combine (seq 0 (length M)) M).
Lemma round_marks fuel ords visits M : mesh_ok g M -> (forall r, reorders (visits r)) ->
  init_round fuel ords visits need g b lo hi M = match adapt fuel (ords false) g M (mesh_marks visits M) with None => None | Some M => loadBalance (ords true) g O M end.
Proof.
  intros OK RO. unfold init_round. rewrite (mapM_ranks (fun r R => mark_octants (visits r) need g b lo hi (loc R)) (fun r R => marks need g b lo hi (loc R) (visits r))); [reflexivity|].
  intros r R HR. apply mark_eq; [|exact b1'|apply RO]. intros i A p HA IP. apply (args_eq g WF M OK b BO lo hi LH R HR i A p HA IP).
Qed.
Lemma marks_good visits M : mesh_ok g M -> (forall A, In A (leaves M) -> lev A < lmax g) -> good_markers g M (mesh_marks visits M).
Proof.
  intros OK LV. assert (V : forall A, In A (leaves M) -> lmin g <= lev A < lmax g) by (intros A HA; pose proof (leaf_valid g M OK A HA) as (Q & _); specialize (LV A HA); lia).
  clear OK LV. unfold good_markers, mesh_marks. revert V. generalize 0%nat. induction M as [|R M IH]; intros k V; [constructor|]. cbn [length seq combine map fst snd]. constructor.
  - assert (VR : forall A, In A (loc R) -> lmin g <= lev A < lmax g) by (intros A HA; apply V; unfold leaves; cbn [map concat]; apply in_app_iff; left; exact HA).
    pose proof (marks_range need g b lo hi (loc R) (visits k)) as F. pose proof (marks_len need g b lo hi (loc R) (visits k)) as L. revert F L VR. generalize (marks need g b lo hi (loc R) (visits k)) as l. generalize (loc R) as os. clear.
    induction os as [|A os IH]; intros [|m l] F L VR; try discriminate L; constructor.
    + inversion F; subst. specialize (VR A (or_introl eq_refl)). lia.
    + apply IH; [inversion F; assumption|cbn in L; lia|intros; apply VR; right; assumption].
  - apply IH. intros A HA. apply V. unfold leaves. cbn [map concat]. apply in_app_iff. right. exact HA.
Qed.
Lemma marks_roomy visits M : roomy b M -> (forall r, reorders (visits r)) -> mesh_marks visits M = map (map want) (map loc M).
Proof.
  intros RM RO. unfold mesh_marks. generalize 0%nat. induction M as [|R M IH]; intros k; [reflexivity|]. cbn [length seq combine map fst snd].
  rewrite marks_wanted by (try exact b1'; try apply RO; apply RM; left; reflexivity). rewrite IH by (intros R' H; apply RM; right; exact H). reflexivity.
Qed.
Lemma req_nonneg visits M req : mesh_marks visits M = map (map req) (map loc M) -> forall A, In A (leaves M) -> 0 <= req A <= 1.
Proof.
  unfold mesh_marks. generalize 0%nat. induction M as [|R M IH]; intros k E A HA; [destruct HA|]. cbn [length seq combine map fst snd] in E. injection E as E1 E2.
  unfold leaves in HA. cbn [map concat] in HA. apply in_app_iff in HA. destruct HA as [HA|HA]; [|apply (IH (S k) E2 A HA)].
  pose proof (marks_range need g b lo hi (loc R) (visits k)) as F. rewrite E1, Forall_forall in F. apply F. apply in_map, HA.
Qed.
Lemma maps_agree (M : mesh) (f h : oct -> Z) : map (map f) (map loc M) = map (map h) (map loc M) -> forall A, In A (leaves M) -> f A = h A.
Proof.
  induction M as [|R M IH]; intros E A HA; [destruct HA|]. cbn [map] in E. injection E as E1 E2. unfold leaves in HA. cbn [map concat] in HA. apply in_app_iff in HA. destruct HA as [HA|HA]; [|apply IH; assumption].
  clear - E1 HA. induction (loc R) as [|B l IL]; [destruct HA|]. cbn [map] in E1. injection E1 as E E1. destruct HA as [->|HA]; [exact E|apply IL; assumption].
Qed.

(** What a round does. *)
Lemma round_props fuel ords visits M M' : reachable g P M -> even M -> (forall A, In A (leaves M) -> lev A < lmax g) -> (forall t, ord_ok (ords t)) -> (forall r, reorders (visits r)) ->
  init_round fuel ords visits need g b lo hi M = Some M' ->
  reachable g P M' /\ even M' /\ exists req m, good_request g (leaves M) req /\ (forall A, In A (leaves M) -> 0 <= req A <= 1) /\ least_legal g (leaves M) req m /\ leaf_change g (leaves M) (leaves M') m /\ (roomy b M -> forall A, In A (leaves M) -> req A = want A).
Proof.
  intros RC EV LV HO RO E. pose proof (reachable_ok g P M GS RC) as OK. rewrite round_marks in E by assumption.
  destruct (adapt fuel (ords false) g M (mesh_marks visits M)) as [M1|] eqn:EA; [|discriminate E].
  pose proof (marks_good visits M OK LV) as GM. pose proof (reach_adapt g P (ords false) fuel M _ M1 RC (HO false) GM EA) as RC1. pose proof (reachable_ok g P M1 GS RC1) as OK1.
  pose proof (reach_balance g P (ords true) 0%nat M1 M' RC1 (HO true) E) as RC'.
  assert (NE : M1 <> []) by (intros ->; pose proof (reachable_ranks g P [] GS RC1) as Q; destruct GS as (_ & _ & HP & _); cbn in Q; lia).
  destruct (C11_load_balance g (ords true) 0%nat M1 WF (HO true) OK1 NE ltac:(cbn; lia)) as (M2 & E2 & _ & EL & _ & _ & EV2). assert (M2 = M') as -> by congruence.
  split; [exact RC'|]. split; [exact (EV2 eq_refl)|].
  destruct (good_markers_fun g M _ (tiles_NoDup g _ (ok_tiles g M OK)) GM) as (req & EQ & GR). rewrite EQ in EA.
  destruct (C06_least_change g (ords false) M req fuel M1 WF (proj1 (proj2 GS)) (HO false) OK GR EA) as (m & LL & CH). rewrite <- EL in CH.
  exists req, m. split; [exact GR|]. split; [apply (req_nonneg visits), EQ|]. split; [exact LL|]. split; [exact CH|]. intros RM. apply maps_agree. rewrite <- EQ. apply marks_roomy; assumption.
Qed.
Lemma round_total ords visits M : reachable g P M -> (forall A, In A (leaves M) -> lev A < lmax g) -> (forall t, ord_ok (ords t)) -> (forall r, reorders (visits r)) ->
  exists F, forall fuel, (F <= fuel)%nat -> exists M', init_round fuel ords visits need g b lo hi M = Some M'.
Proof.
  intros RC LV HO RO. pose proof (reachable_ok g P M GS RC) as OK. exists (S (2 * length (leaves M))). intros fuel HF. rewrite round_marks by assumption.
  pose proof (marks_good visits M OK LV) as GM. destruct (good_markers_fun g M _ (tiles_NoDup g _ (ok_tiles g M OK)) GM) as (req & EQ & GR). rewrite EQ.
  destruct (adapt_total g (ords false) M req fuel WF (proj1 (proj2 GS)) (HO false) OK GR) as (M1 & EA); [|lia|].
  { intros R HR. pose proof (ok_nonempty g M OK R HR) as NE. destruct (loc R) as [|A L] eqn:E; [congruence|]. exists A. rewrite E. split; [left; reflexivity|]. left.
    apply (req_nonneg visits M req EQ). unfold leaves. apply in_concat. exists (loc R). split; [apply in_map, HR|rewrite E; left; reflexivity]. }
  rewrite EA. rewrite <- EQ in EA. pose proof (reach_adapt g P (ords false) fuel M _ M1 RC (HO false) GM EA) as RC1. pose proof (reachable_ok g P M1 GS RC1) as OK1.
  assert (NE : M1 <> []) by (intros ->; pose proof (reachable_ranks g P [] GS RC1) as Q; destruct GS as (_ & _ & HP & _); cbn in Q; lia).
  destruct (C11_load_balance g (ords true) 0%nat M1 WF (HO true) OK1 NE ltac:(cbn; lia)) as (M2 & E2 & _). exists M2. exact E2.
Qed.
End Rounds.
