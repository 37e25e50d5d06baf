(** C88: particles are held by the process that owns their position. C89: the grid of particles. *)
From Coq Require Import QArith Qround Qcanon Permutation Lqa.
From Verif Require Import Base OctreeSpec OctreeGeom OctreeModel FindNeighbors MeshSpec HistorySpec HistoryProofs OctreeProps
  LookupSpec LookupModel LookupProps CommModel CommSpec CommProps FieldModel CellModel CellSpec ParticleProps GhostExchange RemapModel RemapSpec RemapProofs HydroModel HydroSpec HydroProps ConserveSpec ConserveProofs ConserveProps ParticleSpec ParticleModel ParticleProofs CloudProofs CloudProps LocateProps
  GravitySpec GravityModel GravityLoop RKModel RKSpec RKProofs ParticleGridModel ParticleGridSpec ParticleGridProofs ParticleGridRun.
Open Scope Z_scope.

(** * C88 *)

(** What the call needs: one array per rank, positions in the box. With the assertions compiled
    in, positions on the lower sides of the box are refused, and in two dimensions positions
    outside of the plane of its lower side. *)
Definition ready (checked : bool) (g : geom) (M : mesh) (lo hi : point) (e : nat) (arrays : list (list (list Qc) * list (list Qc))) : Prop :=
  length arrays = length M /\ (forall x, In x arrays -> fits_array e x) /\
  forall x p, In x arrays -> In p (fst x) -> in_bounds lo hi p /\ (checked = true -> strictly_in g lo hi p).
(** What it gives: the same particles, each with its attributes, on the ranks that own the
    octants of their positions. *)
Definition delivered_to (g : geom) (M : mesh) (lo hi : point) (e : nat) (arrays parts : list (list (list Qc) * list (list Qc))) : Prop :=
  length parts = length M /\ (forall x, In x parts -> fits_array e x) /\ Permutation (all_particles parts) (all_particles arrays) /\
  forall r R x p, nth_error M r = Some R -> nth_error parts r = Some x -> In p (fst x) -> exists A, In A (loc R) /\ lies_in g lo hi A p.

Theorem C88_distribute_partial checked contiguous sch g P M lo hi e arrays :
  good_setup g P -> reachable g P M -> cubic g -> (forall a, (lo a < hi a)%Qc) -> (forall ws, Permutation (sch ws) ws) -> ready checked g M lo hi e arrays ->
  exists parts, distribute checked contiguous sch g M lo hi e (map fst arrays) (map snd arrays) = Some parts /\ delivered_to g M lo hi e arrays parts.
Proof.
  intros GS RC CU LH SCH (L & F & B). pose proof (reachable_ok g P M GS RC) as OK. pose proof (reachable_ranks g P M GS RC) as LM.
  assert (NE : M <> []) by (intros E; rewrite E in LM; cbn in LM; destruct GS as (_ & _ & P1 & _); lia).
  destruct (distribute_ok checked contiguous sch SCH g M (proj1 GS) CU OK NE lo hi LH e arrays L F B) as (parts & E & D). exists parts. split; [exact E|exact D].
Qed.

(** The rank that holds a particle finds its cell among its own octants. *)
Theorem C88_found_partial checked contiguous sch g P M b lo hi e arrays parts r R x p :
  good_setup g P -> reachable g P M -> cubic g -> block_ok g b -> (forall a, (lo a < hi a)%Qc) -> (forall ws, Permutation (sch ws) ws) -> ready checked g M lo hi e arrays ->
  distribute checked contiguous sch g M lo hi e (map fst arrays) (map snd arrays) = Some parts ->
  nth_error M r = Some R -> nth_error parts r = Some x -> In p (fst x) -> strictly_in g lo hi p ->
  exists c A, getCellFromPos g (loc R ++ gho R) (length (loc R)) b lo hi (coordinate p) = Some c /\
    nth_error (loc R) (c_oct c) = Some A /\ in_cell g b lo hi A (c_pos c) (coordinate p).
Proof.
  intros GS RC CU BO LH SCH RD RUN HR HX HP SI. pose proof (reachable_ok g P M GS RC) as OK. pose proof (proj1 GS) as WF. pose proof (nth_error_In _ _ HR) as HRM.
  destruct (C88_distribute_partial checked contiguous sch g P M lo hi e arrays GS RC CU LH SCH RD) as (parts' & E & _ & _ & _ & O). assert (parts' = parts) as -> by congruence.
  destruct (O r R x p HR HX HP) as (A0 & HA0 & LI). assert (IB : in_box g lo hi (coordinate p)) by exact SI.
  destruct (C74_cell g P M b lo hi (coordinate p) GS RC BO LH IB) as (A & q & LA & IQ & IC & _ & RK). destruct (RK R HRM) as (RK1 & _).
  assert (EA : A0 = A).
  { destruct (C18_location g M R _ WF OK HRM (inside01 g lo hi (coordinate p) LH IB)) as (B & _ & _ & UN & _).
    rewrite (UN A0); [|unfold leaves; apply in_concat; exists (loc R); split; [apply in_map; exact HRM|exact HA0]|exact LI].
    symmetry. apply UN; [exact LA|]. apply (cell_contains g WF b BO lo hi (coordinate p) LH A q); [apply (leaf_ok g M OK A LA)|exact IQ|exact IC]. }
  subst A0. destruct (In_nth_error _ _ HA0) as (i & HI). destruct (RK1 i HI) as (c & EC & C1 & C2 & C3 & C4).
  exists c, A. split; [exact EC|]. split; [rewrite C1; exact HI|]. intros a. unfold gpos. rewrite C4. apply (IC a).
Qed.

(** * C89 *)

(** Every particle of the grid, once, in the right state, on the rank that owns its position. *)
Definition on_grid (g : geom) (M : mesh) (b : axis -> Z) (lo hi : point) (D : oct -> cons) (nx ny nz : Z) (total dt : Qc) (parts : list (list (list Qc) * list (list Qc))) : Prop :=
  (exists l, Permutation (all_particles parts) l /\
     Forall2 (fun p x => exists A q, In A (leaves M) /\ in_block b q /\ in_cell g b lo hi A q (coordinate p) /\
                started lo hi (total / Q2Qc (inject_Z (nx * ny * nz))) dt p (D (cell_of b A q)) x) (grid_points nx ny nz lo hi) l) /\
  length parts = length M /\
  forall r R x p, nth_error M r = Some R -> nth_error parts r = Some x -> In p (fst x) -> exists A, In A (loc R) /\ lies_in g lo hi A p.
(** The displacements: at most one period downward and, with the assertions compiled in, not
    exactly onto a side of the box. *)
Definition moderate (checked : bool) (g : geom) (M : mesh) (b : axis -> Z) (lo hi : point) (D : oct -> cons) (nx ny nz : Z) (dt : Qc) : Prop :=
  forall p A q a, In p (grid_points nx ny nz lo hi) -> In A (leaves M) -> in_block b q -> in_cell g b lo hi A q (coordinate p) ->
    (lo a - (hi a - lo a) <= coordinate p a + dt * speed (D (cell_of b A q)) a)%Qc /\
    (checked = true -> forall k : Z, coordinate p a + dt * speed (D (cell_of b A q)) a + Q2Qc (inject_Z k) * (hi a - lo a) <> lo a)%Qc.
(** The fields of all the ranks. *)
Definition fields_of (b : axis -> Z) (M : mesh) (D : oct -> cons) : list field := map (fun r => field_of b (nth r (field_arrays b M D) [])) (seq 0 (length M)).

Theorem C89_grid_partial checked contiguous sch g P M b lo hi D nx ny nz total dt :
  good_setup g P -> reachable g P M -> cubic g -> g3d g = true -> block_ok g b -> (forall a, (lo a < hi a)%Qc) -> (forall ws, Permutation (sch ws) ws) ->
  1 <= nx -> 1 <= ny -> 1 <= nz -> nx * ny * nz < 2^32 -> moderate checked g M b lo hi D nx ny nz dt ->
  exists parts, particle_grid checked contiguous sch g M b lo hi nx ny nz total dt (fields_of b M D) = Some parts /\ on_grid g M b lo hi D nx ny nz total dt parts.
Proof.
  intros GS RC CU D3 BO LH SCH Hx Hy Hz HN MO.
  destruct (grid_run checked contiguous sch SCH g P M GS RC CU D3 b BO lo hi LH D _ (field_of_holds g b M D BO) nx ny nz total dt Hx Hy Hz HN) as (parts & l & E & L & F & PE & FL & O).
  - intros p A q a H1 H2 H3 H4. apply (MO p A q a H1 H2 H3 H4).
  - intros CH p A q a k H1 H2 H3 H4. apply (MO p A q a H1 H2 H3 H4). exact CH.
  - exists parts. split; [exact E|]. split; [exists l; split; [exact PE|exact FL]|]. split; [exact L|exact O].
Qed.

(** The masses add up to the total, and no particle is missing. *)
Lemma Forall2_same_length {A B} (R : A -> B -> Prop) l l' : Forall2 R l l' -> length l = length l'.
Proof. induction 1; cbn; congruence. Qed.
Lemma grid_length nx ny nz lo hi : 0 <= nx -> 0 <= ny -> 0 <= nz -> Z.of_nat (length (grid_points nx ny nz lo hi)) = nx * ny * nz.
Proof.
  intros H1 H2 H3. assert (U : forall n, 0 <= n -> Z.of_nat (length (upto n)) = n) by (intros n Hn; unfold upto; rewrite map_length, seq_length; lia).
  assert (K : forall {A B} (f : A -> list B) c l, (forall x, Z.of_nat (length (f x)) = c) -> Z.of_nat (length (flat_map f l)) = c * Z.of_nat (length l)).
  { intros A B f c l H. induction l as [|x l IH]; [cbn; lia|]. cbn [flat_map length]. rewrite app_length, Nat2Z.inj_add, H, IH. lia. }
  unfold grid_points. rewrite (K _ _ _ (nx * ny)); [rewrite U by lia; reflexivity|]. intros k. rewrite (K _ _ _ nx); [rewrite U by lia; reflexivity|]. intros j. rewrite map_length. apply U. lia.
Qed.
Theorem C89_mass_partial checked contiguous sch g P M b lo hi D nx ny nz total dt parts :
  good_setup g P -> reachable g P M -> cubic g -> g3d g = true -> block_ok g b -> (forall a, (lo a < hi a)%Qc) -> (forall ws, Permutation (sch ws) ws) ->
  1 <= nx -> 1 <= ny -> 1 <= nz -> nx * ny * nz < 2^32 -> moderate checked g M b lo hi D nx ny nz dt ->
  particle_grid checked contiguous sch g M b lo hi nx ny nz total dt (fields_of b M D) = Some parts ->
  Z.of_nat (length (all_particles parts)) = nx * ny * nz /\ csum (map (fun x => nth 3 (snd x) 0%Qc) (all_particles parts)) = total.
Proof.
  intros GS RC CU D3 BO LH SCH Hx Hy Hz HN MO RUN.
  destruct (C89_grid_partial checked contiguous sch g P M b lo hi D nx ny nz total dt GS RC CU D3 BO LH SCH Hx Hy Hz HN MO) as (parts' & E & (l & PE & F) & _). assert (parts' = parts) as -> by congruence.
  assert (LL : Z.of_nat (length l) = nx * ny * nz) by (rewrite <- (Forall2_same_length _ _ _ F); apply grid_length; lia).
  split; [rewrite (Permutation_length PE); exact LL|]. rewrite (csum_perm (map (fun x : particle => nth 3 (snd x) 0%Qc) (all_particles parts)) (map (fun x : particle => nth 3 (snd x) 0%Qc) l)) by (apply Permutation_map; exact PE).
  set (m := (total / Q2Qc (inject_Z (nx * ny * nz)))%Qc) in *.
  assert (EM : map (fun x : particle => nth 3 (snd x) 0%Qc) l = repeat m (length l)).
  { clear - F. induction F as [|p x ps xs (A & q & _ & _ & _ & S & _) F IH]; [reflexivity|]. cbn [map length repeat]. rewrite IH, S. reflexivity. }
  assert (CS : forall n, csum (repeat m n) = (zq (Z.of_nat n) * m)%Qc).
  { induction n as [|n IH]; [cbn; change (zq 0) with 0%Qc; ring|]. rewrite Nat2Z.inj_succ, <- Z.add_1_r, zq_plus. change (zq 1) with 1%Qc. cbn [repeat csum fold_right] in *. unfold csum in IH. rewrite IH. ring. }
  rewrite EM, CS, LL. unfold m. change (Q2Qc (inject_Z (nx * ny * nz))) with (zq (nx * ny * nz)). field. apply Qc_pos_nz, zq_pos. nia.
Qed.

(** Without displacement the positions are those of the grid. *)
Theorem C89_still_partial checked contiguous sch g P M b lo hi D nx ny nz total :
  good_setup g P -> reachable g P M -> cubic g -> g3d g = true -> block_ok g b -> (forall a, (lo a < hi a)%Qc) -> (forall ws, Permutation (sch ws) ws) ->
  1 <= nx -> 1 <= ny -> 1 <= nz -> nx * ny * nz < 2^32 ->
  exists parts, particle_grid checked contiguous sch g M b lo hi nx ny nz total 0 (fields_of b M D) = Some parts /\
    on_grid g M b lo hi D nx ny nz total 0 parts /\ Permutation (map fst (all_particles parts)) (grid_points nx ny nz lo hi).
Proof.
  intros GS RC CU D3 BO LH SCH Hx Hy Hz HN.
  assert (KZ : forall p a (k : Z), (lo a < p)%Qc -> (p < hi a)%Qc -> (lo a <= p + zq k * (hi a - lo a))%Qc -> (p + zq k * (hi a - lo a) < hi a)%Qc -> k = 0).
  { intros p a k B1 B2 B3 B4. specialize (LH a). assert (EP : (0 < hi a - lo a)%Qc) by (rewrite <- Qclt_sub; exact LH). set (Le := (hi a - lo a)%Qc) in *.
    assert (U1 : (zq k * Le < 1 * Le)%Qc) by (unfold Le; unfold Le in B4; qlin).
    assert (U2 : (- (1) * Le < zq k * Le)%Qc) by (unfold Le; unfold Le in B3; qlin).
    assert (V1 : k < 1). { destruct (Z_lt_le_dec k 1) as [|C]; [assumption|]. exfalso. apply zq_le in C. change (zq 1) with 1%Qc in C. assert (K : (1 * Le <= zq k * Le)%Qc) by (apply Qcmult_le_compat_r; [exact C|apply Qclt_le_weak; exact EP]). exact (Qclt_not_le _ _ U1 K). }
    assert (V2 : -1 < k). { destruct (Z_lt_le_dec (-1) k) as [|C]; [assumption|]. exfalso. apply zq_le in C. change (zq (-1)) with (- (1))%Qc in C. assert (K : (zq k * Le <= - (1) * Le)%Qc) by (apply Qcmult_le_compat_r; [exact C|apply Qclt_le_weak; exact EP]). exact (Qclt_not_le _ _ U2 K). }
    lia. }
  assert (GI : forall p a, In p (grid_points nx ny nz lo hi) -> (lo a < coordinate p a)%Qc /\ (coordinate p a < hi a)%Qc).
  { intros p a HP. apply grid_in in HP. destruct HP as (i & j & k & HI & HJ & HK & ->). destruct a; cbn [coordinate nth]; apply slice_in; auto. }
  assert (MO : moderate checked g M b lo hi D nx ny nz 0).
  { intros p A q a HP _ _ _. destruct (GI p a HP) as (B1 & B2). replace (coordinate p a + 0 * speed (D (cell_of b A q)) a)%Qc with (coordinate p a) by ring. specialize (LH a). split; [qlin|].
    intros _ k EK. assert (k = 0). { apply (KZ (coordinate p a) a k B1 B2); change (zq k) with (Q2Qc (inject_Z k)); rewrite EK; [apply Qcle_refl|exact LH]. } subst k. change (Q2Qc (inject_Z 0)) with 0%Qc in EK. clear - EK B1. qlin. }
  destruct (C89_grid_partial checked contiguous sch g P M b lo hi D nx ny nz total 0 GS RC CU D3 BO LH SCH Hx Hy Hz HN MO) as (parts & E & (l & PE & F) & R2). exists parts. split; [exact E|]. split; [split; [exists l; auto|exact R2]|].
  rewrite PE. assert (EQ : map fst l = grid_points nx ny nz lo hi); [|rewrite EQ; reflexivity].
  assert (GI' : forall p, In p (grid_points nx ny nz lo hi) -> length p = 3%nat /\ forall a, (lo a < coordinate p a)%Qc /\ (coordinate p a < hi a)%Qc).
  { intros p HP. split; [|intros a; apply GI, HP]. apply grid_in in HP. destruct HP as (i & j & k & _ & _ & _ & ->). reflexivity. }
  clear - F GI' KZ. induction F as [|p x ps xs (A & q & _ & _ & _ & _ & L3 & IB & S) F IH]; [reflexivity|]. cbn [map]. rewrite IH by (intros p' HP'; apply GI'; right; exact HP'). f_equal.
  destruct (GI' p (or_introl eq_refl)) as (L3' & B). assert (C : forall a, coordinate (fst x) a = coordinate p a).
  { intros a. destruct (S a) as (k & EK). destruct (IB a) as (C1 & C2). destruct (B a) as (B1 & B2). replace (coordinate p a + 0 * speed (D (cell_of b A q)) a)%Qc with (coordinate p a) in EK by ring. rewrite EK in C1, C2. pose proof (KZ _ a k B1 B2 C1 C2) as ->. rewrite EK. change (Q2Qc (inject_Z 0)) with 0%Qc. ring. }
  destruct x as (y & d). cbn [fst] in *. destruct y as [|y1 [|y2 [|y3 [|]]]]; try discriminate L3. destruct p as [|p1 [|p2 [|p3 [|]]]]; try discriminate L3'. pose proof (C AX). pose proof (C AY). pose proof (C AZ). cbn [coordinate nth] in *. congruence.
Qed.

(** * What does not hold *)

Definition in_order (ws : list (nat * Qc)) : list (nat * Qc) := ws.
Lemma in_order_ok ws : Permutation (in_order ws) ws. Proof. reflexivity. Qed.
Definition alone (p : list Qc) (n : nat) : list (list (list Qc) * list (list Qc)) := ([p], [[]]) :: repeat ([], []) n.

(** On a domain that is not a cube, C88 fails: the particle goes to a rank that does not own its octant. *)
Definition nc_row : list Qc := [frac 1 8; frac 3 4; 0%Qc].
Definition nc_parts : list (list (list Qc) * list (list Qc)) := match distribute false true in_order nc_g nc_M box_lo box_hi 0 (map fst (alone nc_row 3)) (map snd (alone nc_row 3)) with Some x => x | None => [] end.
Lemma nc_setup : good_setup nc_g 4. Proof. split; [apply wf_geom_check; reflexivity|cbn [nc_g lmin gsx gsy gsz]; lia]. Qed.
Lemma nc_reach : reachable nc_g 4 nc_M. Proof. apply (reach_init nc_g 4 id_order); [exact id_order_ok|vm_compute; reflexivity]. Qed.
Lemma alone_ready checked g M lo hi p n : length M = S n -> length p = 3%nat -> in_bounds lo hi p -> (checked = true -> strictly_in g lo hi p) -> ready checked g M lo hi 0 (alone p n).
Proof.
  intros LM LP IB SI. split; [cbn [alone length]; rewrite repeat_length; auto|]. split.
  - intros x [<-|H]; [|apply repeat_spec in H; subst x; split; [reflexivity|split; intros y []]]. split; [reflexivity|]. split; intros y [<-|[]]; [exact LP|reflexivity].
  - intros x y [<-|H] HY; [|apply repeat_spec in H; subst x; destruct HY]. destruct HY as [<-|[]]. split; assumption.
Qed.
Ltac below := unfold in_bounds, strictly_in; intros []; vm_compute; repeat split; try reflexivity; discriminate.
Theorem C88_refuted_non_cubic :
  ~ (forall contiguous sch g P M lo hi e arrays parts, good_setup g P -> reachable g P M -> (forall a, (lo a < hi a)%Qc) -> (forall ws, Permutation (sch ws) ws) -> ready true g M lo hi e arrays ->
       distribute false contiguous sch g M lo hi e (map fst arrays) (map snd arrays) = Some parts -> delivered_to g M lo hi e arrays parts).
Proof.
  intros H. destruct (H true in_order nc_g 4%nat nc_M box_lo box_hi 0%nat (alone nc_row 3) nc_parts nc_setup nc_reach pt_unit in_order_ok) as (_ & _ & _ & O).
  - apply alone_ready; [vm_compute; reflexivity|reflexivity|below|intros _; below].
  - vm_compute. reflexivity.
  - destruct (O 0%nat (nth 0 nc_M (mkRank [] [] [] 0 0)) (nth 0 nc_parts ([], [])) nc_row) as (A & HA & LI); [vm_compute; reflexivity|vm_compute; reflexivity|vm_compute; left; reflexivity|].
    vm_compute in HA. destruct HA as [<-|[<-|[]]]; destruct (LI AY) as (_ & K); vm_compute in K; discriminate K.
Qed.
(** With the assertions compiled in, a particle on a lower side of the box stops the program,
    though the box is periodic and positions are brought back to [lo] included (C52). *)
Definition side_row : list Qc := [0%Qc; frac 1 2; frac 1 2].
Lemma pt_cubic : cubic pt_g. Proof. intros []; reflexivity. Qed.
Theorem C88_refuted_side :
  ~ (forall contiguous sch g P M lo hi e arrays, good_setup g P -> reachable g P M -> cubic g -> (forall a, (lo a < hi a)%Qc) -> (forall ws, Permutation (sch ws) ws) -> ready false g M lo hi e arrays ->
       exists parts, distribute true contiguous sch g M lo hi e (map fst arrays) (map snd arrays) = Some parts).
Proof.
  intros H. destruct (H true in_order pt_g 2%nat pt_M box_lo box_hi 0%nat (alone side_row 1) pt_setup pt_reach pt_cubic pt_unit in_order_ok) as (parts & E).
  - apply alone_ready; [vm_compute; reflexivity|reflexivity|below|discriminate].
  - vm_compute in E. discriminate E.
Qed.
(** So does, in two dimensions, one that is inside of the box but not in the plane of its lower side. *)
Definition off_row : list Qc := [frac 1 3; frac 1 2; frac 1 2].
Lemma cs_cubic : cubic cs_g. Proof. intros []; reflexivity || discriminate. Qed.
Theorem C88_refuted_plane :
  ~ (forall contiguous sch g P M lo hi e arrays, good_setup g P -> reachable g P M -> cubic g -> (forall a, (lo a < hi a)%Qc) -> (forall ws, Permutation (sch ws) ws) -> ready false g M lo hi e arrays ->
       (forall x p a, In x arrays -> In p (fst x) -> (lo a < coordinate p a)%Qc) ->
       exists parts, distribute true contiguous sch g M lo hi e (map fst arrays) (map snd arrays) = Some parts).
Proof.
  intros H. destruct (H true in_order cs_g 2%nat cs_M box_lo box_hi 0%nat (alone off_row 1) cs_setup cs_reach cs_cubic pt_unit in_order_ok) as (parts & E).
  - apply alone_ready; [vm_compute; reflexivity|reflexivity|below|discriminate].
  - intros x p a [<-|[<-|[]]] HP; [|destruct HP]. destruct HP as [<-|[]]. destruct a; reflexivity.
  - vm_compute in E. discriminate E.
Qed.

(** C89: the number of particles is a product of 32-bit numbers. A grid of 65536 x 65536 x 1
    particles has none at all. *)
Theorem C89_refuted_large :
  ~ (forall checked contiguous sch g P M b lo hi D nx ny nz total,
       good_setup g P -> reachable g P M -> cubic g -> g3d g = true -> block_ok g b -> (forall a, (lo a < hi a)%Qc) -> (forall ws, Permutation (sch ws) ws) ->
       1 <= nx < 2^32 -> 1 <= ny < 2^32 -> 1 <= nz < 2^32 ->
       exists parts, particle_grid checked contiguous sch g M b lo hi nx ny nz total 0 (fields_of b M D) = Some parts /\ on_grid g M b lo hi D nx ny nz total 0 parts).
Proof.
  intros H. destruct (H false true in_order pt_g 2%nat pt_M pt_b box_lo box_hi cs_D 65536 65536 1 1%Qc pt_setup pt_reach pt_cubic eq_refl pt_block pt_unit in_order_ok) as (parts & E & (l & PE & F) & _); [lia..|].
  assert (EV : particle_grid false true in_order pt_g pt_M pt_b box_lo box_hi 65536 65536 1 1 0 (fields_of pt_b pt_M cs_D) = Some [([], []); ([], [])]) by (vm_compute; reflexivity).
  rewrite EV in E. assert (parts = [([], []); ([], [])]) as -> by congruence. change (all_particles [([], []); ([], [])]) with (@nil particle) in PE. apply Permutation_nil in PE. subst l.
  assert (HI : In [slice box_lo box_hi AX 65536 0; slice box_lo box_hi AY 65536 0; slice box_lo box_hi AZ 1 0] (grid_points 65536 65536 1 box_lo box_hi)) by (apply grid_in; exists 0, 0, 0; repeat split; lia).
  remember (grid_points 65536 65536 1 box_lo box_hi) as G eqn:EG. clear EG. inversion F. subst G. destruct HI.
Qed.
(** In two dimensions the particles are put halfway between the planes: with the assertions
    compiled in the program stops, without them it reads outside of the blocks of refined octants. *)
Theorem C89_refuted_plane checked :
  ~ (forall contiguous sch g P M b lo hi D nx ny nz total,
       good_setup g P -> reachable g P M -> cubic g -> block_ok g b -> (forall a, (lo a < hi a)%Qc) -> (forall ws, Permutation (sch ws) ws) ->
       1 <= nx -> 1 <= ny -> 1 <= nz -> nx * ny * nz < 2^32 ->
       exists parts, particle_grid checked contiguous sch g M b lo hi nx ny nz total 0 (fields_of b M D) = Some parts).
Proof.
  intros H. destruct (H true in_order cs_g 2%nat cs_M cs_b box_lo box_hi cs_D 2 2 1 1%Qc cs_setup cs_reach cs_cubic cs_block pt_unit in_order_ok) as (parts & E); [lia..|].
  destruct checked; vm_compute in E; discriminate E.
Qed.

(** * Examples *)

(** A particle in the box, on the wrong rank. *)
Definition far_row : list Qc := [frac 9 10; frac 9 10; frac 9 10].
Example C88_ready : ready true pt_g pt_M box_lo box_hi 0 (alone far_row 1).
Proof. apply alone_ready; [vm_compute; reflexivity|reflexivity|below|intros _; below]. Qed.
Example C88_moves : option_map (map (fun x : list (list Qc) * list (list Qc) => length (fst x))) (distribute true true in_order pt_g pt_M box_lo box_hi 0 (map fst (alone far_row 1)) (map snd (alone far_row 1))) = Some [0; 1]%nat.
Proof. vm_compute. reflexivity. Qed.
Example C88_found_example : exists parts c A, distribute true true in_order pt_g pt_M box_lo box_hi 0 (map fst (alone far_row 1)) (map snd (alone far_row 1)) = Some parts /\
  getCellFromPos pt_g (loc (nth 1 pt_M pt_R) ++ gho (nth 1 pt_M pt_R)) (length (loc (nth 1 pt_M pt_R))) pt_b box_lo box_hi (coordinate far_row) = Some c /\
  nth_error (loc (nth 1 pt_M pt_R)) (c_oct c) = Some A.
Proof.
  destruct (distribute true true in_order pt_g pt_M box_lo box_hi 0 (map fst (alone far_row 1)) (map snd (alone far_row 1))) as [parts|] eqn:E; [|vm_compute in E; discriminate E].
  assert (HP : exists x, nth_error parts 1 = Some x /\ In far_row (fst x)).
  { assert (EV : distribute true true in_order pt_g pt_M box_lo box_hi 0 (map fst (alone far_row 1)) (map snd (alone far_row 1)) = Some [([], []); ([far_row], [[]])]) by (vm_compute; reflexivity).
    rewrite EV in E. assert (parts = [([], []); ([far_row], [[]])]) as -> by congruence. eexists. split; [reflexivity|left; reflexivity]. }
  destruct HP as (x & HX & HP). exists parts.
  destruct (C88_found_partial true true in_order pt_g 2%nat pt_M pt_b box_lo box_hi 0%nat (alone far_row 1) parts 1%nat (nth 1 pt_M pt_R) x far_row pt_setup pt_reach pt_cubic pt_block pt_unit in_order_ok C88_ready E) as (c & A & H1 & H2 & _);
    [vm_compute; reflexivity|exact HX|exact HP|below|]. exists c, A. auto.
Qed.

(** Twenty-seven particles in moving gas. *)
Definition pg_D (x : oct) : cons := mkCons (frac (1 + cx x) 1) (frac 5 1) (frac (- cy x) 1) (frac 1 7) (frac 1 7).
Lemma pg_moderate : moderate false pt_g pt_M pt_b box_lo box_hi (fun _ => pg_D (mkOct 1 1 1 1)) 3 3 3 (frac 1 10).
Proof.
  intros p A q a HP _ _ _. split; [|discriminate]. apply grid_in in HP. destruct HP as (i & j & k & HI & HJ & HK & ->).
  destruct (slice_in box_lo box_hi AX 3 i (pt_unit AX) HI) as (S1 & _). destruct (slice_in box_lo box_hi AY 3 j (pt_unit AY) HJ) as (S2 & _). destruct (slice_in box_lo box_hi AZ 3 k (pt_unit AZ) HK) as (S3 & _).
  set (v := speed (pg_D (mkOct 1 1 1 1)) a). assert (V : (- (1) <= frac 1 10 * v)%Qc) by (destruct a; vm_compute; discriminate). clearbody v.
  destruct a; cbn [coordinate nth]; unfold box_lo, box_hi in *; match goal with |- context [slice ?f ?h ?a ?n ?i] => set (y := slice f h a n i) in * end; clearbody y; generalize dependent (frac 1 10 * v)%Qc; intros w V; qlin.
Qed.
Example C89_grid_example : exists parts, particle_grid false true in_order pt_g pt_M pt_b box_lo box_hi 3 3 3 1 (frac 1 10) (fields_of pt_b pt_M (fun _ => pg_D (mkOct 1 1 1 1))) = Some parts /\
  length (all_particles parts) = 27%nat.
Proof.
  destruct (C89_grid_partial false true in_order pt_g 2%nat pt_M pt_b box_lo box_hi (fun _ => pg_D (mkOct 1 1 1 1)) 3 3 3 1%Qc (frac 1 10) pt_setup pt_reach pt_cubic eq_refl pt_block pt_unit in_order_ok) as (parts & E & _); [lia..|exact pg_moderate|].
  exists parts. split; [exact E|].
  destruct (C89_mass_partial false true in_order pt_g 2%nat pt_M pt_b box_lo box_hi (fun _ => pg_D (mkOct 1 1 1 1)) 3 3 3 1%Qc (frac 1 10) parts pt_setup pt_reach pt_cubic eq_refl pt_block pt_unit in_order_ok) as (L & _); [lia..|exact pg_moderate|exact E|lia].
Qed.
Example C89_still_example : exists parts, particle_grid true true in_order pt_g pt_M pt_b box_lo box_hi 3 2 5 1 0 (fields_of pt_b pt_M pg_D) = Some parts /\
  Permutation (map fst (all_particles parts)) (grid_points 3 2 5 box_lo box_hi).
Proof.
  destruct (C89_still_partial true true in_order pt_g 2%nat pt_M pt_b box_lo box_hi pg_D 3 2 5 1%Qc pt_setup pt_reach pt_cubic eq_refl pt_block pt_unit in_order_ok) as (parts & E & _ & PE); [lia..|]. exists parts. auto.
Qed.

Print Assumptions C88_distribute_partial.
Print Assumptions C88_found_partial.
Print Assumptions C88_refuted_non_cubic.
Print Assumptions C88_refuted_side.
Print Assumptions C88_refuted_plane.
Print Assumptions C89_grid_partial.
Print Assumptions C89_mass_partial.
Print Assumptions C89_still_partial.
Print Assumptions C89_refuted_large.
Print Assumptions C89_refuted_plane.
