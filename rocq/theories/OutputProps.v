(** The snapshots written for visualisation describe the mesh and its fields (C81); the main file of
    the time series lists the snapshots (C82). *)
From Coq Require Import QArith Qcanon Permutation Ascii.
From Verif Require Import Base OctreeSpec OctreeGeom OctreeModel FindNeighbors MeshSpec HistorySpec LookupModel CellModel CellSpec CellProofs CellIterProps RemapModel RemapSpec
  HydroModel HydroSpec HydroProps ConserveSpec BlockGhost ConserveProofs OctreeProps HistoryProofs RestartModel RestartProps GravitySpec GravityModel GravityProofs GravityLoop ParticleProofs CloudProps OutputModel OutputSpec.
Open Scope Z_scope.

(** * Tables *)
Lemma zrange_split lo mid hi : lo <= mid <= hi -> zrange lo hi = zrange lo mid ++ zrange mid hi.
Proof.
  intros H. unfold zrange. replace (Z.to_nat (hi - lo)) with (Z.to_nat (mid - lo) + Z.to_nat (hi - mid))%nat by lia.
  rewrite seq_app, map_app. f_equal. cbn [Nat.add]. replace (Z.to_nat (mid - lo)) with (Z.to_nat (mid - lo) + 0)%nat at 1 by lia.
  generalize (Z.to_nat (hi - mid)) as n. generalize 0%nat. intros k n. revert k. induction n as [|n IH]; intros k; [reflexivity|]. cbn [seq map]. f_equal; [lia|].
  replace (S (Z.to_nat (mid - lo) + k))%nat with (Z.to_nat (mid - lo) + S k)%nat by lia. apply IH.
Qed.
Lemma zrange_rows n k0 m : 0 < n -> zrange (k0 * n) ((k0 + Z.of_nat m) * n) = flat_map (fun i => map (fun c => (k0 + Z.of_nat i) * n + c) (zrange 0 n)) (seq 0 m).
Proof.
  intros N. induction m as [|m IH]; [unfold zrange; replace (Z.to_nat ((k0 + Z.of_nat 0) * n - k0 * n)) with 0%nat by lia; reflexivity|].
  rewrite (zrange_split _ ((k0 + Z.of_nat m) * n)) by nia. rewrite IH, seq_S, flat_map_app. f_equal. cbn [flat_map]. rewrite app_nil_r. cbn [Nat.add].
  replace ((k0 + Z.of_nat m) * n) with ((k0 + Z.of_nat m) * n + 0) at 1 by lia. replace ((k0 + Z.of_nat (S m)) * n) with ((k0 + Z.of_nat m) * n + n) by lia.
  rewrite zrange_shift. reflexivity.
Qed.
Lemma mapM_rows {A Y} n (h : A -> Z -> Y) (f : Z -> option Y) (L : list A) : 0 < n ->
  (forall i x c, nth_error L i = Some x -> 0 <= c < n -> f (Z.of_nat i * n + c) = Some (h x c)) ->
  mapM f (zrange 0 (Z.of_nat (length L) * n)) = Some (flat_map (fun x => map (h x) (zrange 0 n)) L).
Proof.
  intros N H. pose proof (zrange_rows n 0 (length L) N) as E. cbn [Z.add] in E. change (0 * n) with 0 in E. rewrite E. clear E.
  assert (G : forall K k, (forall i x, nth_error K i = Some x -> nth_error L (k + i) = Some x) ->
    mapM f (flat_map (fun i => map (fun c => Z.of_nat i * n + c) (zrange 0 n)) (seq k (length K))) = Some (flat_map (fun x => map (h x) (zrange 0 n)) K)).
  { induction K as [|x K IH]; intros k HK; [reflexivity|]. cbn [length seq flat_map]. apply mapM_app.
    - rewrite mapM_map. apply mapM_map_some. intros c HC. apply H; [|apply in_zrange in HC; lia].
      pose proof (HK 0%nat x eq_refl) as E. rewrite Nat.add_0_r in E. exact E.
    - apply IH. intros i y E. replace (S k + i)%nat with (k + S i)%nat by lia. apply HK. exact E. }
  apply (G L 0%nat). intros i x E. exact E.
Qed.
Lemma map_rows {Y} n (F : Z -> Y) m : 0 < n ->
  map F (zrange 0 (Z.of_nat m * n)) = flat_map (fun i => map (fun c => F (Z.of_nat i * n + c)) (zrange 0 n)) (seq 0 m).
Proof.
  intros N. pose proof (zrange_rows n 0 m N) as E. change (0 * n) with 0 in E. cbn [Z.add] in E. rewrite E. clear E.
  induction (seq 0 m) as [|i l IH]; [reflexivity|]. cbn [flat_map]. rewrite map_app, IH, map_map. reflexivity.
Qed.
Lemma row_lt i n m c j k : 0 <= c < m -> 0 <= j < k -> i < n -> (i * m + c) * k + j < n * m * k.
Proof. intros H1 H2 H3. assert ((i + 1) * m <= n * m) by (apply Z.mul_le_mono_nonneg_r; lia). assert ((i * m + c + 1) * k <= n * m * k) by (apply Z.mul_le_mono_nonneg_r; lia). lia. Qed.
Lemma div_row n i c : 0 <= c < n -> (i * n + c) / n = i. Proof. intros H. rewrite Z.div_add_l by lia. rewrite Z.div_small by exact H. lia. Qed.
Lemma mod_row n i c : 0 <= c < n -> (i * n + c) mod n = c. Proof. intros H. rewrite Z.add_comm, Z.mod_add by lia. apply Z.mod_small, H. Qed.
Lemma nth_rows {A Y} n (h : A -> Z -> Y) L i x c : nth_error L i = Some x -> 0 <= c < n ->
  nth_error (flat_map (fun x => map (h x) (zrange 0 n)) L) (Z.to_nat (Z.of_nat i * n + c)) = Some (h x c).
Proof.
  intros E C. replace (Z.to_nat (Z.of_nat i * n + c)) with (i * Z.to_nat n + Z.to_nat c)%nat by (rewrite Z2Nat.inj_add, Z2Nat.inj_mul by nia; lia).
  rewrite (nth_flat _ (Z.to_nat n) L i _ x); [|intros y _; rewrite map_length; apply zrange_len|exact E|lia]. rewrite nth_error_map, zrange_nth by lia. reflexivity.
Qed.
Lemma length_rows {A Y} n (h : A -> Z -> Y) L : 0 <= n -> Z.of_nat (length (flat_map (fun x => map (h x) (zrange 0 n)) L)) = Z.of_nat (length L) * n.
Proof. intros N. rewrite (length_flat _ (Z.to_nat n)); [nia|]. intros x _. rewrite map_length. apply zrange_len. Qed.
Lemma concat_rows {R A Y} (l : R -> list A) (f : A -> list Y) (M : list R) : concat (map (fun r => flat_map f (l r)) M) = flat_map f (concat (map l M)).
Proof. induction M as [|r M IH]; [reflexivity|]. cbn [map concat]. rewrite flat_map_app, IH. reflexivity. Qed.

(** Digits of a position. *)
Lemma digits B p : (forall a, 1 <= B a) -> in_block B p ->
  flat_cell B p mod B AX = p AX /\ (flat_cell B p / B AX) mod B AY = p AY /\ flat_cell B p / (B AX * B AY) = p AZ.
Proof.
  intros BP IP. pose proof (BP AX). pose proof (BP AY). pose proof (IP AX). pose proof (IP AY). pose proof (IP AZ). unfold flat_cell.
  assert (E1 : (p AX + p AY * B AX + p AZ * B AX * B AY) / B AX = p AZ * B AY + p AY).
  { replace (p AX + p AY * B AX + p AZ * B AX * B AY) with ((p AZ * B AY + p AY) * B AX + p AX) by ring. apply div_row. lia. }
  split; [|split].
  - replace (p AX + p AY * B AX + p AZ * B AX * B AY) with ((p AZ * B AY + p AY) * B AX + p AX) by ring. apply mod_row. lia.
  - rewrite E1. apply mod_row. lia.
  - replace (p AX + p AY * B AX + p AZ * B AX * B AY) with (p AZ * (B AX * B AY) + (p AX + p AY * B AX)) by ring. apply div_row. nia.
Qed.

(** Successive writes at successive places. *)
Lemma write_next {X} (pre : list X) z post v : write_at (pre ++ z :: post) (Z.of_nat (length pre)) v = Some (pre ++ v :: post).
Proof.
  unfold write_at. rewrite app_length. cbn [length]. replace ((0 <=? Z.of_nat (length pre)) && (Z.of_nat (length pre) <? Z.of_nat (length pre + S (length post)))) with true by lia.
  rewrite Nat2Z.id, firstn_app, Nat.sub_diag, firstn_all, app_nil_r. f_equal. f_equal. f_equal.
  rewrite skipn_app, skipn_all2 by lia. replace (S (length pre) - length pre)%nat with 1%nat by lia. reflexivity.
Qed.
Lemma fill {X C} (call : nat -> C) (rd : C -> option X) (ix : C -> Z) (zero : X) T :
  (forall n v, nth_error T n = Some v -> rd (call n) = Some v /\ ix (call n) = Z.of_nat n) -> forall post pre, T = pre ++ post ->
  foldM (fun view c => match rd c with Some v => write_at view (ix c) v | None => None end) (map call (seq (length pre) (length post))) (pre ++ repeat zero (length post)) = Some T.
Proof.
  intros H. induction post as [|v post IH]; intros pre E; [cbn; rewrite app_nil_r in *; congruence|]. cbn [length seq map foldM repeat].
  destruct (H (length pre) v) as (E1 & E2); [rewrite E, nth_error_app2, Nat.sub_diag by lia; reflexivity|]. rewrite E1, E2, write_next.
  specialize (IH (pre ++ [v])). rewrite <- !app_assoc in IH. cbn [app] in IH. specialize (IH E). rewrite app_length, Nat.add_1_r in IH. exact IH.
Qed.

(** * C81 *)

(** The numbers of a rank fit in 32 bits: corners of all its cells, nodes of all its octants. *)
Definition fits (g : geom) (b : axis -> Z) (n : Z) : Prop :=
  n * (b AX * b AY * b AZ) * nodes_per_cell g < 2^32 /\ n * ((b AX + 1) * (b AY + 1) * (if g3d g then b AZ + 1 else 1)) < 2^32.

Section Snap.
Context (g : geom) (WF : wf_geom g) (M : mesh) (OK : mesh_ok g M) (b : axis -> Z) (BO : block_ok g b) (lo hi : axis -> Qc).
Context (GI : global_indices M = map Z.of_nat (seq 0 (length (leaves M)))).
Context (FITS : forall R, In R M -> fits g b (Z.of_nat (length (loc R)))).
Local Notation nc := (b AX * b AY * b AZ).
Local Notation B := (node_count g b).
Local Notation np := (B AX * B AY * B AZ).
Lemma b1 : forall a, 1 <= b a. Proof. intros a. apply (proj1 (BO a)). Qed.
Lemma npc_pos : 4 <= nodes_per_cell g <= 8. Proof. unfold nodes_per_cell. destruct (g3d g); lia. Qed.
Lemma nc_pos : 0 < nc. Proof. pose proof (b1 AX). pose proof (b1 AY). pose proof (b1 AZ). nia. Qed.
Lemma B_eq a : B a = if flat g a then 1 else b a + 1.
Proof. unfold node_count. destruct (flat g a); [reflexivity|]. apply u32_small. pose proof (proj1 (BO a)). lia. Qed.
Lemma B_eq' a : b a <= B a <= b a + 1 /\ (flat g a = true -> B a = 1) /\ (flat g a = false -> B a = b a + 1).
Proof. rewrite B_eq. pose proof (b1 a). destruct (BO a) as (_ & F). destruct (flat g a); split; try split; intros; try discriminate; try lia; try (specialize (F eq_refl); lia). Qed.
Lemma B1 a : 1 <= B a. Proof. pose proof (B_eq' a). pose proof (b1 a). lia. Qed.
Lemma np_eq : np = (b AX + 1) * (b AY + 1) * (if g3d g then b AZ + 1 else 1).
Proof. rewrite !B_eq. unfold flat. destruct (g3d g); reflexivity. Qed.
Lemma np_pos : 0 < np. Proof. pose proof (B1 AX). pose proof (B1 AY). pose proof (B1 AZ). nia. Qed.

(** Position of node [k] of an octant. *)
Definition node_at (A : oct) (k : Z) : Qc * Qc * Qc :=
  let ijk a := match a with AX => k mod B AX | AY => (k / B AX) mod B AY | AZ => k / (B AX * B AY) end in
  let co a := (lo a + (Q2Qc (getCorner g A a) + frac (ijk a) 1 * Q2Qc (getSize g A a) / frac (b a) 1) * (hi a - lo a))%Qc in
  (co AX, co AY, co AZ).
(** Corners of cell [c] of the octant of global index [K]. *)
Definition corner_of (j : Z) : axis -> Z := let s := node_shuffle j in mkoff (s mod 2) ((s / 2) mod 2) (s / 4).
Definition element_nodes (K c : Z) : list Z :=
  map (fun j => K * np + flat_cell B (fun a => corner_of j a + match a with AX => c mod b AX | AY => (c / b AX) mod b AY | AZ => c / (b AX * b AY) end)) (zrange 0 (nodes_per_cell g)).
Lemma corner_bound j : In j (zrange 0 (nodes_per_cell g)) -> (forall a, 0 <= corner_of j a <= 1) /\ (flat g AZ = true -> corner_of j AZ = 0).
Proof.
  intros H. apply in_zrange in H. pose proof npc_pos. unfold nodes_per_cell in H.
  assert (C : j = 0 \/ j = 1 \/ j = 2 \/ j = 3 \/ (g3d g = true /\ (j = 4 \/ j = 5 \/ j = 6 \/ j = 7))) by (destruct (g3d g); lia).
  unfold flat. destruct C as [->|[->|[->|[->|(-> & [->|[->|[->| ->]]])]]]]; (split; [intros []; vm_compute; split; discriminate|intros HZ; first [vm_compute; reflexivity|discriminate HZ]]).
Qed.
Lemma corner_in c j : 0 <= c < nc -> In j (zrange 0 (nodes_per_cell g)) ->
  in_block B (fun a => corner_of j a + match a with AX => c mod b AX | AY => (c / b AX) mod b AY | AZ => c / (b AX * b AY) end).
Proof.
  intros HC HJ. destruct (corner_bound j HJ) as (CB & CZ). destruct (decode_spec b c b1 HC) as (IP & FC). generalize dependent (snd (decode_cell b 0 c)). intros p IP FC.
  destruct (digits b p b1 IP) as (E1 & E2 & E3). rewrite FC in *. rewrite E1, E2, E3. revert CB CZ. generalize (corner_of j) as d. intros d CB CZ.
  assert (K : forall a, 0 <= d a + p a < B a).
  { intros a. pose proof (IP a) as I. specialize (CB a). destruct (B_eq' a) as (BA & BF & BT). pose proof (BO a) as (_ & F). destruct (flat g a) eqn:FL.
    - destruct a; [discriminate FL|discriminate FL|]. specialize (BF eq_refl). specialize (CZ FL). specialize (F eq_refl). clear - I CB CZ BF F. lia.
    - specialize (BT eq_refl). clear - I CB BT. lia. }
  intros a. specialize (K a). destruct a; exact K.
Qed.

Section Rank.
Context (R : rank) (HR : In R M).
Local Notation n := (Z.of_nat (length (loc R))).
Lemma n_pos : 1 <= n. Proof. pose proof (ok_nonempty g M OK R HR). destruct (loc R); [congruence|cbn [length]; lia]. Qed.
Lemma fit_np : nodes_per_oct g b = np.
Proof. unfold nodes_per_oct. apply u32_small. destruct (FITS R HR) as (_ & F). rewrite <- np_eq in F. pose proof np_pos. pose proof n_pos. nia. Qed.
Lemma fit_lt : np < 2^32.
Proof. destruct (FITS R HR) as (_ & F). rewrite <- np_eq in F. pose proof np_pos. pose proof n_pos. assert (1 * np <= n * np) by (apply Z.mul_le_mono_nonneg_r; lia). lia. Qed.
Lemma fit_nnp : u32 (n * np) = n * np.
Proof. apply u32_small. destruct (FITS R HR) as (_ & F). rewrite <- np_eq in F. pose proof np_pos. pose proof n_pos. nia. Qed.
Lemma fit_nc : out_cells_per_oct b = nc.
Proof. apply u32_small. destruct (FITS R HR) as (F & _). pose proof npc_pos. pose proof nc_pos. pose proof n_pos. nia. Qed.
Lemma fit_cells : getNumCells b (length (loc R)) = n * nc.
Proof. unfold getNumCells. replace (n * b AX * b AY * b AZ) with (n * nc) by ring. apply u32_small. destruct (FITS R HR) as (F & _). pose proof npc_pos. pose proof nc_pos. pose proof n_pos. nia. Qed.
Lemma fit_ncells : u32 (n * nc) = n * nc.
Proof. rewrite <- fit_cells at 2. unfold getNumCells. f_equal. ring. Qed.
Lemma fit_corners : u32 (n * nc * nodes_per_cell g) = n * nc * nodes_per_cell g.
Proof. apply u32_small. destruct (FITS R HR) as (F & _). pose proof npc_pos. pose proof nc_pos. pose proof n_pos. nia. Qed.

Lemma coordinates_eq : coordinates g b lo hi (loc R) = Some (flat_map (fun A => map (node_at A) (zrange 0 np)) (loc R)).
Proof.
  unfold coordinates. rewrite fit_np, fit_nnp. apply mapM_rows; [apply np_pos|]. intros i A c HA HC. cbv beta zeta. rewrite div_row, mod_row, Nat2Z.id, HA by exact HC. reflexivity.
Qed.
Lemma connectivity_eq : connectivity g b (gfirst R) (length (loc R)) =
  flat_map (fun K => map (element_nodes K) (zrange 0 nc)) (map (fun i => gfirst R + Z.of_nat i) (seq 0 (length (loc R)))).
Proof.
  unfold connectivity. rewrite fit_cells, fit_corners. rewrite map_rows by apply nc_pos. rewrite !flat_map_concat_map, map_map. f_equal. apply map_ext_in. intros i HI. apply in_seq in HI.
  apply map_ext_in. intros c HC. apply in_zrange in HC. apply map_ext_in. intros j HJ. pose proof HJ as HJ'. apply in_zrange in HJ. pose proof npc_pos.
  replace ((Z.of_nat i * nc + c) * nodes_per_cell g + j <? n * nc * nodes_per_cell g) with true by (symmetry; apply Z.ltb_lt, row_lt; lia).
  unfold node_number. rewrite fit_nc, fit_np, div_row, mod_row by exact HC. f_equal.
  pose proof (corner_in c j HC HJ') as CI. pose proof (flat_cell_range B _ B1 CI) as FR. unfold cells_per_block in FR.
  pose proof fit_lt. unfold flat_cell in *. unfold corner_of in *. cbn [mkoff] in *. match type of FR with 0 <= ?X < _ => match goal with |- u32 ?Y = _ => replace Y with X by ring end end.
  apply u32_small. lia.
Qed.
Lemma linear_eq (D : oct -> Qc) k v : nth_error (map D (all_cells b (loc R))) k = Some v ->
  nth_error (map D (all_cells b (loc R ++ gho R))) (Z.to_nat (fst (decode_cell b 0 (Z.of_nat k)) * nc + flat_cell b (snd (decode_cell b 0 (Z.of_nat k))))) = Some v /\
  linearize_iCell b (decode_cell b 0 (Z.of_nat k)) = Z.of_nat k.
Proof.
  intros H. destruct (decode_full b (Z.of_nat k) b1 ltac:(lia)) as (E1 & E2 & E3). unfold cells_per_block in *. rewrite E1, E3.
  pose proof (Z.div_mod (Z.of_nat k) nc ltac:(pose proof nc_pos; lia)) as DM.
  assert (KL : (k < length (all_cells b (loc R)))%nat) by (rewrite <- (map_length D); apply nth_error_Some; congruence).
  split.
  - replace (Z.to_nat (Z.of_nat k / nc * nc + Z.of_nat k mod nc)) with k by lia. rewrite all_cells_app, map_app. rewrite nth_error_app1; [exact H|]. rewrite map_length. exact KL.
  - unfold linearize_iCell. rewrite E1. unfold flat_cell in E3.
    match goal with |- u32 ?Y = _ => replace Y with (Z.of_nat k) end. 2: { rewrite DM at 1. rewrite <- E3. ring. }
    apply u32_small.
    assert (LK : Z.of_nat k < n * nc).
    { unfold all_cells in KL. rewrite (length_flat _ (Z.to_nat nc)) in KL; [pose proof nc_pos; nia|]. intros x _. rewrite map_length. apply (positions_len b b1). }
    pose proof fit_cells as FC. unfold getNumCells in FC. pose proof (Z.mod_pos_bound (n * b AX * b AY * b AZ) (2^32) ltac:(lia)) as MB. unfold u32 in FC. rewrite FC in MB. lia.
Qed.
Lemma variable_eq D : variable 0%Qc b (length (loc R)) (map D (all_cells b (loc R ++ gho R))) = Some (map D (all_cells b (loc R))).
Proof.
  assert (LN : length (map D (all_cells b (loc R))) = Z.to_nat (n * nc)).
  { rewrite map_length. unfold all_cells. rewrite (length_flat _ (Z.to_nat nc)); [pose proof nc_pos; nia|]. intros x _. rewrite map_length. apply (positions_len b b1). }
  unfold variable. rewrite fit_cells, <- LN.
  assert (FE : foreach_cell b (length (loc R)) = map (fun k => decode_cell b 0 (Z.of_nat k)) (seq 0 (length (map D (all_cells b (loc R)))))).
  { unfold foreach_cell. rewrite LN. fold (out_cells_per_oct b). rewrite fit_nc. rewrite (Z.mul_comm nc n), fit_ncells.
    unfold zrange. rewrite map_map, Z.sub_0_r. apply map_ext. intros k. rewrite Z.add_0_l. reflexivity. }
  rewrite FE. apply (fill (fun k => decode_cell b 0 (Z.of_nat k)) (fun c => nth_error (map D (all_cells b (loc R ++ gho R))) (Z.to_nat (fst c * nc + flat_cell b (snd c)))) (linearize_iCell b) 0%Qc
    (map D (all_cells b (loc R))) (linear_eq D) (map D (all_cells b (loc R))) [] eq_refl).
Qed.
Lemma ioct_eq : variable_ioct b (gfirst R) (length (loc R)) = flat_map (fun K => map (fun _ => K) (zrange 0 nc)) (map (fun i => gfirst R + Z.of_nat i) (seq 0 (length (loc R)))).
Proof.
  unfold variable_ioct. rewrite fit_cells, fit_nc. rewrite map_rows by apply nc_pos. rewrite !flat_map_concat_map, map_map. f_equal. apply map_ext. intros i.
  apply map_ext_in. intros c HC. apply in_zrange in HC. rewrite div_row by exact HC. reflexivity.
Qed.
Lemma level_eq : variable_level b (loc R) = Some (flat_map (fun A => map (fun _ => lev A) (zrange 0 nc)) (loc R)).
Proof.
  unfold variable_level. rewrite fit_cells, fit_nc. apply mapM_rows; [apply nc_pos|]. intros i A c HA HC. rewrite div_row, Nat2Z.id, HA by exact HC. reflexivity.
Qed.
Lemma rank_eq r : variable_rank b r (length (loc R)) = flat_map (fun _ => map (fun _ => r) (zrange 0 nc)) (loc R).
Proof.
  unfold variable_rank. rewrite fit_cells. rewrite map_rows by apply nc_pos. rewrite !flat_map_concat_map. f_equal.
  generalize (map (fun _ : Z => r) (zrange 0 nc)). intros l. generalize 0%nat. induction (loc R) as [|A L IH]; intros k; [reflexivity|]. cbn [length seq map]. f_equal. apply IH.
Qed.
End Rank.
Lemma node_corner A c j : In A (leaves M) -> 0 <= c < nc -> In j (zrange 0 (nodes_per_cell g)) ->
  node_at A (flat_cell B (fun a => corner_of j a + match a with AX => c mod b AX | AY => (c / b AX) mod b AY | AZ => c / (b AX * b AY) end)) =
  cell_corner g b lo hi (cell_of b A (snd (decode_cell b 0 c))) (corner_of j).
Proof.
  intros HA HC HJ. pose proof (corner_in c j HC HJ) as CI. destruct (digits B _ B1 CI) as (E1 & E2 & E3). cbv beta in E1, E2, E3.
  destruct (decode_spec b c b1 HC) as (IP & FC). set (p := snd (decode_cell b 0 c)) in *. destruct (digits b p b1 IP) as (F1 & F2 & F3). rewrite FC in *. clearbody p.
  destruct (corner_bound j HJ) as (CB & CZ). destruct (leaf_valid g M OK A HA) as (LV & CV).
  unfold node_at. rewrite E1, E2, E3, F1, F2, F3. unfold cell_corner.
  assert (G : forall a, (lo a + (Q2Qc (getCorner g A a) + frac (corner_of j a + p a) 1 * Q2Qc (getSize g A a) / frac (b a) 1) * (hi a - lo a))%Qc =
    (if flat g a then lo a else (lo a + Q2Qc (inject_Z (coord (cell_of b A p) a + corner_of j a)) / Q2Qc (inject_Z (ncells g b (lev (cell_of b A p)) a)) * (hi a - lo a))%Qc)).
  { intros a. assert (N0 : 0 < ncell g a (lev A)) by (apply (ncell_pos g WF); lia). pose proof (zq_pos _ N0) as N1. pose proof (zq_pos _ (Z.lt_le_trans _ _ _ Z.lt_0_1 (b1 a))) as N2.
    unfold getCorner, getSize, cell_of. rewrite coord_oct_of. cbn [oct_of lev]. unfold gpos. rewrite Q2Qc_div, Q2Qc_div1, !frac_zq.
    destruct (flat g a) eqn:FL.
    - destruct a; [discriminate FL|discriminate FL|]. pose proof (valid_flat g A AZ (conj LV CV) FL) as C0. assert (P0 : p AZ = 0) by (pose proof (IP AZ); pose proof (proj2 (BO AZ) FL); clear - H H0; lia).
      rewrite C0, (CZ FL), P0. change (0 + 0) with 0. rewrite !zq_0. unfold Qcdiv. ring.
    - rewrite (cell_count_eq g WF a (lev A)) by (lia || exact FL).
      fold (zq (coord A a * b a + p a + corner_of j a)) (zq (ncells g b (lev A) a)). unfold ncells. rewrite !zq_plus, !zq_mult. field. split; apply Qc_pos_nz; assumption. }
  rewrite <- (G AX), <- (G AY), <- (G AZ). reflexivity.
Qed.
Context (sched : list nat) (SC : Permutation sched (seq 0 (length M))) (D : oct -> Qc).
Definition tables : snapshot :=
  mkSnapshot (collective_write sched (map (fun R => flat_map (fun A => map (node_at A) (zrange 0 np)) (loc R)) M))
             (collective_write sched (map (fun R => flat_map (fun K => map (element_nodes K) (zrange 0 nc)) (map (fun i => gfirst R + Z.of_nat i) (seq 0 (length (loc R))))) M))
             (collective_write sched (map (fun R => map D (all_cells b (loc R))) M))
             (collective_write sched (map (fun R => flat_map (fun K => map (fun _ => K) (zrange 0 nc)) (map (fun i => gfirst R + Z.of_nat i) (seq 0 (length (loc R))))) M))
             (collective_write sched (map (fun R => flat_map (fun A => map (fun _ => lev A) (zrange 0 nc)) (loc R)) M))
             (collective_write sched (map (fun rR : nat * rank => flat_map (fun _ => map (fun _ => Z.of_nat (fst rR)) (zrange 0 nc)) (loc (snd rR))) (combine (seq 0 (length M)) M))).
Lemma save_eq : save_snapshot sched g b lo hi M (field_arrays b M D) = Some tables.
Proof.
  unfold save_snapshot.
  rewrite (mapM_map_some _ (fun R => flat_map (fun A => map (node_at A) (zrange 0 np)) (loc R)) M) by (intros R HR; apply coordinates_eq, HR).
  unfold field_arrays. rewrite combine_self, mapM_map. cbn [fst snd].
  rewrite (mapM_map_some _ (fun R => map D (all_cells b (loc R))) M) by (intros R HR; apply variable_eq, HR).
  rewrite (mapM_map_some _ (fun R => flat_map (fun A => map (fun _ => lev A) (zrange 0 nc)) (loc R)) M) by (intros R HR; apply level_eq, HR).
  unfold tables. f_equal. f_equal; f_equal.
  - apply map_ext_in. intros R HR. apply connectivity_eq, HR.
  - apply map_ext_in. intros R HR. apply ioct_eq, HR.
  - apply map_ext_in. intros (r, R) HR. cbn [fst snd]. apply rank_eq. apply in_combine_r in HR. exact HR.
Qed.
Lemma row_written {X} (T : list (list X)) k : length T = length M -> row (collective_write sched T) k = if 0 <=? k then nth_error (concat T) (Z.to_nat k) else None.
Proof.
  intros L. unfold row. rewrite written by (rewrite L; exact SC). cbn [collective_write ds_rows]. unfold total. rewrite sum_concat. destruct (Z.leb_spec 0 k); [|reflexivity]. cbn [andb].
  destruct (Z.ltb_spec k (Z.of_nat (length (concat T)))); [reflexivity|]. symmetry. apply nth_error_None. lia.
Qed.
Lemma owner_rows : forall Ms k, concat (map (fun rR : nat * rank => flat_map (fun _ => map (fun _ => Z.of_nat (fst rR)) (zrange 0 nc)) (loc (snd rR))) (combine (seq k (length Ms)) Ms)) =
  flat_map (fun r => map (fun _ => Z.of_nat r) (zrange 0 nc)) (flat_map (fun rR : nat * rank => map (fun _ => fst rR) (loc (snd rR))) (combine (seq k (length Ms)) Ms)).
Proof.
  induction Ms as [|R Ms IH]; intros k; [reflexivity|]. cbn [length seq combine map concat flat_map fst snd]. rewrite flat_map_app, IH. f_equal.
  induction (loc R) as [|A l IHl]; [reflexivity|]. cbn [flat_map map]. rewrite IHl. reflexivity.
Qed.
Lemma owner_at : forall Ms k K A, nth_error (leaves Ms) K = Some A ->
  exists r R, nth_error Ms r = Some R /\ In A (loc R) /\ nth_error (flat_map (fun rR : nat * rank => map (fun _ => fst rR) (loc (snd rR))) (combine (seq k (length Ms)) Ms)) K = Some (k + r)%nat.
Proof.
  unfold leaves. induction Ms as [|R Ms IH]; intros k K A H; [destruct K; discriminate|]. cbn [map concat length seq combine flat_map fst snd] in *.
  destruct (Nat.lt_ge_cases K (length (loc R))) as [L|L].
  - rewrite nth_error_app1 in H by exact L. exists 0%nat, R. split; [reflexivity|]. split; [apply (nth_error_In _ _ H)|]. rewrite nth_error_app1 by (rewrite map_length; exact L).
    rewrite nth_error_map, H. cbn. f_equal. lia.
  - rewrite nth_error_app2 in H by exact L. destruct (IH (S k) _ A H) as (r & R' & E1 & E2 & E3). exists (S r), R'. split; [exact E1|]. split; [exact E2|].
    rewrite nth_error_app2 by (rewrite map_length; exact L). rewrite map_length, E3. f_equal. lia.
Qed.
Lemma tables_ok e x : nth_error (all_cells b (leaves M)) e = Some x ->
  element tables (Z.of_nat e) = Some (outline g b lo hi x) /\ row (s_field tables) (Z.of_nat e) = Some (D x) /\ row (s_level tables) (Z.of_nat e) = Some (lev x) /\
  exists K A p r R, nth_error (leaves M) K = Some A /\ in_block b p /\ x = cell_of b A p /\ row (s_ioct tables) (Z.of_nat e) = Some (Z.of_nat K) /\
    nth_error M r = Some R /\ In A (loc R) /\ row (s_rank tables) (Z.of_nat e) = Some (Z.of_nat r).
Proof.
  intros H. set (K := Z.to_nat (Z.of_nat e / nc)). set (c := Z.of_nat e mod nc). pose proof nc_pos as NC.
  assert (HC : 0 <= c < nc) by (apply Z.mod_pos_bound; exact NC).
  assert (EE : Z.of_nat e = Z.of_nat K * nc + c).
  { unfold K, c. pose proof (Z.div_mod (Z.of_nat e) nc ltac:(lia)). pose proof (Z.div_pos (Z.of_nat e) nc ltac:(lia) NC). rewrite Z2Nat.id by lia. lia. }
  assert (EL : (e < length (leaves M) * Z.to_nat nc)%nat).
  { assert (Q : (e < length (all_cells b (leaves M)))%nat) by (apply nth_error_Some; congruence). unfold all_cells in Q. rewrite (length_flat _ (Z.to_nat nc)) in Q; [exact Q|].
    intros y _. rewrite map_length. apply (positions_len b b1). }
  assert (KL : (K < length (leaves M))%nat) by nia.
  destruct (nth_error (leaves M) K) as [A|] eqn:EA; [|apply nth_error_None in EA; lia].
  destruct (decode_spec b c b1 HC) as (IP & FC). set (p := snd (decode_cell b 0 c)) in *.
  assert (EX : x = cell_of b A p).
  { pose proof (all_cells_nth b b1 (leaves M) K A p EA IP) as Q. rewrite FC in Q. replace (Z.to_nat (Z.of_nat K * block_len b + c)) with e in Q by (unfold block_len; lia). congruence. }
  assert (GK : nth_error (global_indices M) K = Some (Z.of_nat K)).
  { rewrite GI, nth_error_map. rewrite (nth_error_nth' _ 0%nat) by (rewrite seq_length; exact KL). rewrite seq_nth by exact KL. reflexivity. }
  split; [|split; [|split]].
  - unfold element, tables. cbn [s_connectivity s_coordinates]. rewrite row_written by apply map_length. replace (0 <=? Z.of_nat e) with true by lia.
    rewrite concat_rows, <- flat_map_concat_map. fold (global_indices M). rewrite EE, (nth_rows nc element_nodes (global_indices M) K (Z.of_nat K) c GK HC).
    unfold element_nodes. rewrite mapM_map. unfold outline.
    replace ([mkoff 0 0 0; mkoff 1 0 0; mkoff 1 1 0; mkoff 0 1 0] ++ (if g3d g then [mkoff 0 0 1; mkoff 1 0 1; mkoff 1 1 1; mkoff 0 1 1] else [])) with (map corner_of (zrange 0 (nodes_per_cell g)))
      by (unfold nodes_per_cell; destruct (g3d g); reflexivity).
    rewrite map_map. apply mapM_map_some. intros j HJ. rewrite row_written by apply map_length.
    pose proof (flat_cell_range B _ B1 (corner_in c j HC HJ)) as FR. unfold cells_per_block in FR. pose proof np_pos.
    match goal with |- (if 0 <=? ?n then _ else _) = _ => replace (0 <=? n) with true by (symmetry; apply Z.leb_le, Z.add_nonneg_nonneg; [apply Z.mul_nonneg_nonneg; clear - H0; lia|apply FR]) end.
    rewrite concat_rows. fold (leaves M). rewrite (nth_rows np node_at (leaves M) K A _ EA FR). rewrite (node_corner A c j (nth_error_In _ _ EA) HC HJ). rewrite EX. reflexivity.
  - unfold tables. cbn [s_field]. rewrite row_written by apply map_length. replace (0 <=? Z.of_nat e) with true by lia. rewrite Nat2Z.id.
    replace (concat (map (fun R => map D (all_cells b (loc R))) M)) with (map D (all_cells b (leaves M))); [rewrite nth_error_map, H; reflexivity|].
    rewrite all_cells_leaves, concat_map, map_map. reflexivity.
  - unfold tables. cbn [s_level]. rewrite row_written by apply map_length. replace (0 <=? Z.of_nat e) with true by lia. rewrite concat_rows. fold (leaves M).
    rewrite EE, (nth_rows nc (fun A _ => lev A) (leaves M) K A c EA HC). rewrite EX. reflexivity.
  - destruct (owner_at M 0 K A EA) as (r & R & HR & HA & HO). exists K, A, p, r, R. split; [exact EA|]. split; [exact IP|]. split; [exact EX|]. split; [|split; [exact HR|split; [exact HA|]]].
    + unfold tables. cbn [s_ioct]. rewrite row_written by apply map_length. replace (0 <=? Z.of_nat e) with true by lia.
      rewrite concat_rows, <- flat_map_concat_map. fold (global_indices M). rewrite EE. apply (nth_rows nc (fun K _ => K) (global_indices M) K (Z.of_nat K) c GK HC).
    + unfold tables. cbn [s_rank]. rewrite row_written by (rewrite map_length, combine_length, seq_length; lia). replace (0 <=? Z.of_nat e) with true by lia.
      rewrite owner_rows, EE. apply (nth_rows nc (fun r _ => Z.of_nat r) _ K r c HO HC).
Qed.
End Snap.

(** What a snapshot must say, for a mesh, a box and a field [D]. *)
Definition describes (g : geom) (b : axis -> Z) (lo hi : axis -> Qc) (M : mesh) (D : oct -> Qc) (S : snapshot) : Prop :=
  let cells := all_cells b (leaves M) in
  (ds_rows (s_connectivity S) = length cells /\ ds_rows (s_field S) = length cells /\ ds_rows (s_ioct S) = length cells /\
   ds_rows (s_level S) = length cells /\ ds_rows (s_rank S) = length cells) /\
  forall e x, nth_error cells e = Some x ->
    element S (Z.of_nat e) = Some (outline g b lo hi x) /\ row (s_field S) (Z.of_nat e) = Some (D x) /\ row (s_level S) (Z.of_nat e) = Some (lev x) /\
    exists K A p r R, nth_error (leaves M) K = Some A /\ in_block b p /\ x = cell_of b A p /\ row (s_ioct S) (Z.of_nat e) = Some (Z.of_nat K) /\
      nth_error M r = Some R /\ In A (loc R) /\ row (s_rank S) (Z.of_nat e) = Some (Z.of_nat r).
(** Every snapshot describes the mesh, if the ranks satisfy [ok]. *)
Definition snapshots_describe (ok : geom -> (axis -> Z) -> Z -> Prop) : Prop :=
  forall g P M b lo hi sched D, good_setup g P -> reachable g P M -> block_ok g b -> Permutation sched (seq 0 P) ->
  (forall R, In R M -> ok g b (Z.of_nat (length (loc R)))) ->
  exists S, save_snapshot sched g b lo hi M (field_arrays b M D) = Some S /\ describes g b lo hi M D S.

Lemma rows_concat {X} sched (T : list (list X)) : ds_rows (collective_write sched T) = length (concat T). Proof. apply sum_concat. Qed.
Theorem C81_snapshot_partial : snapshots_describe fits.
Proof.
  intros g P M b lo hi sched D GS RC BO SC FITS. pose proof (reachable_ok g P M GS RC) as OK. rewrite <- (reachable_ranks g P M GS RC) in SC.
  pose proof (proj1 (C45_indices g P M GS RC)) as GI. pose proof (proj1 GS) as WF.
  exists (tables g M b lo hi sched D). split; [apply save_eq; assumption|].
  pose proof (nc_pos g b BO) as NC.
  assert (LC : length (all_cells b (leaves M)) = (length (leaves M) * Z.to_nat (b AX * b AY * b AZ))%nat).
  { unfold all_cells. rewrite (length_flat _ (Z.to_nat (b AX * b AY * b AZ))); [reflexivity|]. intros y _. rewrite map_length. apply (positions_len b (b1 g b BO)). }
  assert (LR : forall {A Y} (h : A -> Z -> Y) L, length L = length (leaves M) -> length (flat_map (fun x => map (h x) (zrange 0 (b AX * b AY * b AZ))) L) = length (all_cells b (leaves M))).
  { intros A Y h L EL. pose proof (length_rows (b AX * b AY * b AZ) h L ltac:(lia)) as Q. rewrite LC, <- EL. nia. }
  split.
  - unfold tables. cbn [s_connectivity s_field s_ioct s_level s_rank]. rewrite !rows_concat, !concat_rows, <- !flat_map_concat_map. fold (leaves M) (global_indices M).
    assert (LG : length (global_indices M) = length (leaves M)) by (rewrite GI, map_length, seq_length; reflexivity).
    split; [apply LR, LG|]. split; [unfold leaves; clear; induction M as [|R M IH]; [reflexivity|cbn [map concat flat_map]; rewrite all_cells_app, !app_length, map_length, IH; reflexivity]|]. split; [apply (LR Z Z (fun K _ => K)), LG|]. split; [apply (LR oct Z (fun A _ => lev A)); unfold leaves; rewrite flat_map_concat_map; reflexivity|].
    rewrite flat_map_concat_map, owner_rows. apply (LR nat Z (fun r _ => Z.of_nat r)). unfold leaves. clear. generalize 0%nat. induction M as [|R M IH]; intros k; [reflexivity|]. cbn [length seq combine flat_map map concat fst snd].
    rewrite !app_length, map_length, IH. reflexivity.
  - intros e x. apply tables_ok; assumption.
Qed.

Lemma row_all {X} sched (T : list (list X)) k : Permutation sched (seq 0 (length T)) -> row (collective_write sched T) k = if 0 <=? k then nth_error (concat T) (Z.to_nat k) else None.
Proof.
  intros L. unfold row. rewrite written by exact L. cbn [collective_write ds_rows]. unfold total. rewrite sum_concat. destruct (Z.leb_spec 0 k); [|reflexivity]. cbn [andb].
  destruct (Z.ltb_spec k (Z.of_nat (length (concat T)))); [reflexivity|]. symmetry. apply nth_error_None. lia.
Qed.
(** With 2^29 cells on a rank the connectivity is not computed. *)
Lemma save_conn sched g b lo hi M Us S : save_snapshot sched g b lo hi M Us = Some S ->
  s_connectivity S = collective_write sched (map (fun R => connectivity g b (gfirst R) (length (loc R))) M).
Proof. unfold save_snapshot. repeat (match goal with |- context [match mapM ?f ?l with _ => _ end] => destruct (mapM f l) end; [|discriminate]). intros H. injection H as <-. reflexivity. Qed.
Lemma large_refuted (ok : geom -> (axis -> Z) -> Z -> Prop) g R b : good_setup g 1 -> reachable g 1 [R] -> block_ok g b -> ok g b (Z.of_nat (length (loc R))) -> g3d g = true ->
  0 < getNumCells b (length (loc R)) -> u32 (getNumCells b (length (loc R)) * nodes_per_cell g) = 0 -> ~ snapshots_describe ok.
Proof.
  intros GS RC BO OKR D3 NC0 WR H. pose proof (reachable_ok g 1 [R] GS RC) as OK. pose proof (proj1 GS) as WF.
  destruct (H g 1%nat [R] b (fun _ => 0%Qc) (fun _ => 1%Qc) [0%nat] (fun _ => 0%Qc) GS RC BO (Permutation_refl _)) as (S & E & _ & DS).
  { intros R' [<-|[]]. exact OKR. }
  apply save_conn in E.
  assert (IP : in_block b (fun _ => 0)) by (intros a; pose proof (proj1 (BO a)); lia).
  destruct (loc R) as [|A l] eqn:EL; [exfalso; exact (ok_nonempty g [R] OK R (or_introl eq_refl) EL)|].
  assert (E0 : nth_error (all_cells b (leaves [R])) 0 = Some (cell_of b A (fun _ => 0))).
  { pose proof (all_cells_nth b (b1 g b BO) (leaves [R]) 0 A (fun _ => 0)) as Q. unfold leaves in Q. cbn [map concat] in Q. rewrite EL in Q. specialize (Q eq_refl IP). cbn in Q.
    unfold leaves. cbn [map concat]. rewrite EL. exact Q. }
  destruct (DS 0%nat _ E0) as (EL0 & _). unfold element in EL0.
  assert (RW : row (s_connectivity S) (Z.of_nat 0) = Some [0; 0; 0; 0; 0; 0; 0; 0]).
  { rewrite E. cbn [map]. rewrite (row_all [0%nat]) by apply Permutation_refl. replace (0 <=? Z.of_nat 0) with true by reflexivity. cbn [concat]. rewrite app_nil_r, EL. unfold connectivity. rewrite WR.
    rewrite nth_error_map, zrange_nth by (clear - NC0; lia). cbn [option_map]. unfold nodes_per_cell. rewrite D3. reflexivity. }
  rewrite RW in EL0. cbn [mapM] in EL0. destruct (row (s_coordinates S) 0) as [v|]; [|discriminate EL0]. unfold outline in EL0. rewrite D3 in EL0. cbn [map app] in EL0.
  injection EL0 as E1 E2 _ _ _ _ _ _. rewrite E1 in E2. unfold cell_corner in E2. cbn [flat] in E2. apply (f_equal (fun t => fst (fst t))) in E2. cbn [fst mkoff] in E2.
  pose proof (leaf_valid g [R] OK A) as V. unfold leaves in V. cbn [map concat] in V. rewrite EL in V. specialize (V (or_introl eq_refl)).
  pose proof (zq_pos _ (N_pos g WF b BO (lev A) AX (proj1 (proj1 V)))) as NP. change (lev (cell_of b A (fun _ => 0))) with (lev A) in E2. set (N := Q2Qc (inject_Z (ncells g b (lev A) AX))) in *. fold N in NP.
  set (k := coord (cell_of b A (fun _ => 0)) AX) in *. fold (zq (k + 0)) (zq (k + 1)) in E2. change (zq (ncells g b (lev A) AX)) with N in NP. rewrite zq_plus, (zq_plus k 1), zq_0, zq_1 in E2.
  apply (f_equal (fun x => (x * N - zq k)%Qc)) in E2. assert (K : (0 = 1)%Qc); [|discriminate K].
  transitivity ((0 + (zq k + 0) / N * (1 - 0)) * N - zq k)%Qc; [field; apply Qc_pos_nz, NP|]. rewrite E2. field. apply Qc_pos_nz, NP.
Qed.
Definition ou_g : geom := mkGeom true 1 2 2 2 2 true true true.
Definition ou_M : mesh := match private_init id_order ou_g 1 with Some M => M | None => [] end.
Definition ou_R : rank := hd (mkRank [] [] [] 0 0) ou_M.
Lemma ou_eq : private_init id_order ou_g 1 = Some [ou_R]. Proof. vm_compute. reflexivity. Qed.
Lemma ou_setup : good_setup ou_g 1. Proof. split; [apply wf_geom_check; reflexivity|cbn [ou_g lmin gsx gsy gsz]; lia]. Qed.
Lemma ou_reach : reachable ou_g 1 [ou_R]. Proof. apply (reach_init ou_g 1 id_order); [exact id_order_ok|exact ou_eq]. Qed.
Definition ou_b : axis -> Z := mkoff 512 512 256.
Lemma ou_block : block_ok ou_g ou_b. Proof. intros []; (split; [unfold ou_b, mkoff; lia|intros F; discriminate F]). Qed.
Lemma ou_refuted R : reachable ou_g 1 [R] -> length (loc R) = 8%nat -> ~ snapshots_describe (fun _ _ _ => True).
Proof.
  intros RC L. apply (large_refuted _ ou_g R ou_b ou_setup RC ou_block I eq_refl); rewrite L; vm_compute; reflexivity.
Qed.
Lemma ou_len : length (loc ou_R) = 8%nat. Proof. vm_compute. reflexivity. Qed.
Theorem C81_refuted_large : ~ snapshots_describe (fun _ _ _ => True).
Proof. exact (ou_refuted ou_R ou_reach ou_len). Qed.

(** * Particles *)

(** Row by row, the tables of coordinates and of an attribute speak of the same particle, and every
    particle of every rank has one row. *)
Theorem C81_particles X sched (P : list (list (X * Qc))) : Permutation sched (seq 0 (length P)) ->
  let T := save_particles sched P in
  ds_rows (fst T) = length (concat P) /\ ds_rows (snd T) = length (concat P) /\
  forall k p, nth_error (concat P) k = Some p -> row (fst T) (Z.of_nat k) = Some (fst p) /\ row (snd T) (Z.of_nat k) = Some (snd p).
Proof.
  intros SC. unfold save_particles. cbn [fst snd]. rewrite !rows_concat, <- !concat_map, !map_length. split; [reflexivity|]. split; [reflexivity|].
  intros k p H. rewrite !row_all by (rewrite map_length; exact SC). replace (0 <=? Z.of_nat k) with true by lia. rewrite Nat2Z.id, <- !concat_map, !nth_error_map, H. split; reflexivity.
Qed.

(** * The main file of the time series *)

(** The file that lists the snapshots [names]. *)
Definition series (header footer : text) (include : text -> text) (names : list text) : text := header ++ concat (map include names) ++ footer.
Lemma overwrite_end (a f new : text) : (length f <= length new)%nat -> overwrite_from (length (a ++ f) - length f) (a ++ f) new = a ++ new.
Proof.
  intros L. unfold overwrite_from. rewrite app_length. replace (length a + length f - length f)%nat with (length a) by lia.
  rewrite firstn_app, firstn_all, Nat.sub_diag, firstn_O, app_nil_r. rewrite skipn_all2 by (rewrite app_length; lia). rewrite app_nil_r. reflexivity.
Qed.
Lemma append_series header footer include names name :
  append_xmf header footer include (mkXmf (series header footer include names) true) name = Some (mkXmf (series header footer include (names ++ [name])) true).
Proof.
  unfold append_xmf. cbn [x_created x_text]. unfold series. rewrite !app_assoc. replace (length footer <=? length ((header ++ concat (map include names)) ++ footer))%nat with true by (rewrite app_length; symmetry; apply Nat.leb_le; lia).
  rewrite overwrite_end by (rewrite app_length; lia). rewrite map_app, concat_app. cbn [map concat]. rewrite app_nil_r, <- !app_assoc. reflexivity.
Qed.
Lemma foldM_series header footer include names : forall pre,
  foldM (append_xmf header footer include) names (mkXmf (series header footer include pre) true) = Some (mkXmf (series header footer include (pre ++ names)) true).
Proof.
  induction names as [|n names IH]; intros pre; cbn [foldM]; [rewrite app_nil_r; reflexivity|]. rewrite append_series, IH, <- app_assoc. reflexivity.
Qed.
(** Whatever is on the disk before, a run that has written a snapshot leaves the list of its snapshots. *)
Theorem C82_series_partial header footer include disk names : names <> [] ->
  run_appends header footer include disk names = Some (series header footer include names).
Proof.
  intros NE. unfold run_appends. destruct names as [|n names]; [congruence|]. cbn [foldM].
  assert (E : append_xmf header footer include (mkXmf disk false) n = Some (mkXmf (series header footer include [n]) true)).
  { change (append_xmf header footer include (mkXmf disk false) n) with (append_xmf header footer include (mkXmf (series header footer include []) true) n). apply append_series. }
  rewrite E, foldM_series. reflexivity.
Qed.
(** The full statement: a run adds its snapshots to those listed already. *)
Definition runs_add_to_series : Prop :=
  forall header footer include before names, run_appends header footer include (series header footer include before) names = Some (series header footer include (before ++ names)).
Theorem C82_refuted_restart : ~ runs_add_to_series.
Proof.
  intros H. specialize (H [] [] (fun n => n) [["1"%char]] [["2"%char]]). rewrite C82_series_partial in H by discriminate. discriminate H.
Qed.
(** Every run after the first one loses the earlier snapshots. *)
Corollary C82_refuted_every header footer include before names : names <> [] -> concat (map include before) <> [] ->
  run_appends header footer include (series header footer include before) names <> Some (series header footer include (before ++ names)).
Proof.
  intros NE NB. rewrite C82_series_partial by exact NE. unfold series. rewrite map_app, concat_app. intros H. injection H as H. apply app_inv_head in H.
  rewrite <- app_assoc in H. apply (f_equal (@length _)) in H. rewrite !app_length in H. apply NB, length_zero_iff_nil. unfold text in *. lia.
Qed.

(** * Cases *)

(** A mesh of two ranks and two levels meets the hypotheses of C81. *)
Lemma fits_check g b (M : mesh) :
  forallb (fun R => let n := Z.of_nat (length (loc R)) in
    (n * (b AX * b AY * b AZ) * nodes_per_cell g <? 2 ^ 32) && (n * ((b AX + 1) * (b AY + 1) * (if g3d g then b AZ + 1 else 1)) <? 2 ^ 32)) M = true ->
  forall R, In R M -> fits g b (Z.of_nat (length (loc R))).
Proof. intros H R I. rewrite forallb_forall in H. specialize (H R I). apply andb_prop in H. destruct H as (H1 & H2). split; apply Z.ltb_lt; assumption. Qed.
Example C81_example : good_setup pt_g 2 /\ reachable pt_g 2 pt_M /\ block_ok pt_g pt_b /\ (forall R, In R pt_M -> fits pt_g pt_b (Z.of_nat (length (loc R)))) /\ Permutation [1%nat; 0%nat] (seq 0 2).
Proof.
  split; [exact pt_setup|]. split; [exact pt_reach|]. split; [exact pt_block|]. split; [|apply perm_swap].
  apply fits_check. vm_compute. reflexivity.
Qed.
(** Three particles on two ranks; the second rank writes first. *)
Example C81_example_particles : let T := save_particles [1%nat; 0%nat] [[(5, Q2Qc 1); (6, Q2Qc 2)]; [(7, Q2Qc 3)]] in
  map (fun k => (row (fst T) k, row (snd T) k)) [0; 1; 2; 3] = [(Some 5, Some (Q2Qc 1)); (Some 6, Some (Q2Qc 2)); (Some 7, Some (Q2Qc 3)); (None, None)].
Proof. vm_compute. reflexivity. Qed.
Example C82_example : run_appends ["h"%char] ["f"%char] (fun n => n ++ [";"%char]) ["o"%char; "l"%char; "d"%char] [["1"%char]; ["2"%char]] =
  Some ["h"%char; "1"%char; ";"%char; "2"%char; ";"%char; "f"%char].
Proof. reflexivity. Qed.

Print Assumptions C81_snapshot_partial.
Print Assumptions C81_refuted_large.
Print Assumptions C81_particles.
Print Assumptions C82_series_partial.
Print Assumptions C82_refuted_restart.
Print Assumptions C82_refuted_every.
