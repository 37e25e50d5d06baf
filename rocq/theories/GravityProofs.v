(** The matrix product of the solver is the finite volume Laplacian of the specification. *)
From Coq Require Import QArith Qcanon.
From Verif Require Import Base OctreeSpec OctreeGeom OctreeModel FindNeighbors MeshSpec GhostExchange
  LookupModel CellModel CellSpec CellProofs CellProps RemapModel RemapSpec RemapProofs RemapProps HydroModel HydroSpec HydroProps ConserveSpec BlockGhost ConserveFaces ConserveProofs ParticleProofs
  GravitySpec GravityModel GravityFaces.
Open Scope Z_scope.

(** * Arrays *)
Lemma nth_flat {X Y} (f : X -> list Y) n l i j x : (forall x, In x l -> length (f x) = n) -> nth_error l i = Some x -> (j < n)%nat ->
  nth_error (flat_map f l) (i * n + j) = nth_error (f x) j.
Proof.
  revert i. induction l as [|y l IH]; intros i H E J; [destruct i; discriminate|]. cbn [flat_map].
  destruct i as [|i]; cbn [nth_error] in E.
  - injection E as ->. cbn [Nat.mul Nat.add]. apply nth_error_app1. rewrite H by (left; reflexivity). exact J.
  - rewrite nth_error_app2; rewrite (H y) by (left; reflexivity); [|lia].
    replace (S i * n + j - n)%nat with (i * n + j)%nat by lia. apply IH; [intros; apply H; right; assumption|exact E|exact J].
Qed.
Lemma length_flat {X Y} (f : X -> list Y) n l : (forall x, In x l -> length (f x) = n) -> length (flat_map f l) = (length l * n)%nat.
Proof. induction l as [|y l IH]; intros H; [reflexivity|]. cbn [flat_map length]. rewrite app_length, IH, H by (intros; try apply H; cbn; auto). lia. Qed.
Lemma zrange_nth m i : 0 <= i < m -> nth_error (zrange 0 m) (Z.to_nat i) = Some i.
Proof.
  intros H. unfold zrange. rewrite nth_error_map. rewrite (nth_error_nth' _ 0%nat) by (rewrite seq_length; lia). rewrite seq_nth by lia. cbn. f_equal. lia.
Qed.
Lemma zrange_len m : length (zrange 0 m) = Z.to_nat m.
Proof. unfold zrange. rewrite map_length, seq_length. f_equal. lia. Qed.

Section Arr.
Context (b : axis -> Z) (B1 : forall a, 1 <= b a).
Lemma block_pos : 0 < block_len b. Proof. unfold block_len. pose proof (B1 AX). pose proof (B1 AY). pose proof (B1 AZ). nia. Qed.
Lemma positions_len : length (positions b) = Z.to_nat (block_len b).
Proof.
  unfold positions, block_len. rewrite (length_flat _ (Z.to_nat (b AX) * Z.to_nat (b AY))).
  - rewrite zrange_len. pose proof (B1 AX). pose proof (B1 AY). pose proof (B1 AZ). rewrite !Z2Nat.inj_mul by nia. lia.
  - intros z _. rewrite (length_flat _ (Z.to_nat (b AX))); [rewrite zrange_len; lia|]. intros y _. rewrite map_length. apply zrange_len.
Qed.
Lemma flat_range p : in_block b p -> 0 <= flat_cell b p < block_len b.
Proof.
  intros H. unfold flat_cell, block_len. pose proof (H AX) as HX. pose proof (H AY) as HY. pose proof (H AZ) as HZ. pose proof (B1 AX). pose proof (B1 AY).
  assert (0 <= p AY * b AX) by nia. assert (p AY * b AX + b AX <= b AX * b AY) by nia. assert (P : 0 <= b AX * b AY) by nia.
  assert (0 <= p AZ * (b AX * b AY)) by nia. assert (p AZ * (b AX * b AY) + b AX * b AY <= b AX * b AY * b AZ) by nia. lia.
Qed.
Lemma positions_nth p : in_block b p -> nth_error (positions b) (Z.to_nat (flat_cell b p)) = Some (mkoff (p AX) (p AY) (p AZ)).
Proof.
  intros H. pose proof (H AX) as HX. pose proof (H AY) as HY. pose proof (H AZ) as HZ. pose proof (B1 AX). pose proof (B1 AY). unfold flat_cell, positions.
  replace (Z.to_nat (p AX + p AY * b AX + p AZ * b AX * b AY)) with (Z.to_nat (p AZ) * (Z.to_nat (b AX) * Z.to_nat (b AY)) + (Z.to_nat (p AY) * Z.to_nat (b AX) + Z.to_nat (p AX)))%nat.
  2: { rewrite !Z2Nat.inj_add by nia. rewrite !Z2Nat.inj_mul by nia. lia. }
  rewrite (nth_flat _ (Z.to_nat (b AX) * Z.to_nat (b AY)) _ (Z.to_nat (p AZ)) _ (p AZ)); [| |apply zrange_nth; lia|].
  - rewrite (nth_flat _ (Z.to_nat (b AX)) _ (Z.to_nat (p AY)) _ (p AY)); [| |apply zrange_nth; lia|lia].
    + rewrite nth_error_map, zrange_nth by lia. reflexivity.
    + intros y _. rewrite map_length. apply zrange_len.
  - intros z _. rewrite (length_flat _ (Z.to_nat (b AX))); [rewrite zrange_len; lia|]. intros y _. rewrite map_length. apply zrange_len.
  - assert (Z.to_nat (p AX) < Z.to_nat (b AX))%nat by lia. assert (Z.to_nat (p AY) < Z.to_nat (b AY))%nat by lia. nia.
Qed.
Lemma cell_of_ext A p q : (forall a, p a = q a) -> cell_of b A p = cell_of b A q.
Proof. intros H. apply oct_ext; [reflexivity|]. intros a. unfold cell_of, gpos. rewrite !coord_oct_of, H. reflexivity. Qed.
Lemma all_cells_len L : length (all_cells b L) = (length L * Z.to_nat (block_len b))%nat.
Proof. unfold all_cells. apply length_flat. intros A _. rewrite map_length. apply positions_len. Qed.
Lemma all_cells_nth L k A p : nth_error L k = Some A -> in_block b p ->
  nth_error (all_cells b L) (Z.to_nat (Z.of_nat k * block_len b + flat_cell b p)) = Some (cell_of b A p).
Proof.
  intros E H. pose proof (flat_range p H) as F. unfold all_cells.
  replace (Z.to_nat (Z.of_nat k * block_len b + flat_cell b p)) with (k * Z.to_nat (block_len b) + Z.to_nat (flat_cell b p))%nat by (rewrite Z2Nat.inj_add, Z2Nat.inj_mul by nia; lia).
  rewrite (nth_flat _ (Z.to_nat (block_len b)) _ k _ A); [|intros; rewrite map_length; apply positions_len|exact E|lia].
  rewrite nth_error_map, positions_nth by exact H. reflexivity.
Qed.
Lemma all_cells_app L L' : all_cells b (L ++ L') = all_cells b L ++ all_cells b L'. Proof. apply flat_map_app. Qed.

(** Reading a cell of an array that holds a field. *)
Lemma at_cell_holds (M : mesh) st (D : oct -> Qc) n y : is_cell M b st n y -> is_valid n = true -> at_cell (map D (all_cells b st)) n = Some (D y).
Proof.
  intros (EB & IQ & B & NTH & _ & EY) V. unfold at_cell. rewrite V, EB, nth_error_map, (all_cells_nth st (c_oct n) B (c_pos n) NTH IQ). cbn. rewrite EY. reflexivity.
Qed.
(** A kernel over the owned cells gives one value per owned cell. *)
Lemma block_positions_eq : block_positions b = positions b. Proof. reflexivity. Qed.
Lemma mapM_app {X Y} (f : X -> option Y) l l' r r' : mapM f l = Some r -> mapM f l' = Some r' -> mapM f (l ++ l') = Some (r ++ r').
Proof.
  revert r. induction l as [|x l IH]; intros r H H'; cbn in *; [injection H as <-; exact H'|].
  destruct (f x); [|discriminate]. destruct (mapM f l) as [t|] eqn:E; [|discriminate]. injection H as <-. rewrite (IH t eq_refl H'). reflexivity.
Qed.
Lemma mapM_map_some {X Y} (f : X -> option Y) (h : X -> Y) l : (forall x, In x l -> f x = Some (h x)) -> mapM f l = Some (map h l).
Proof. induction l as [|x l IH]; intros H; [reflexivity|]. cbn. rewrite H by (left; reflexivity). rewrite IH by (intros; apply H; right; assumption). reflexivity. Qed.
Lemma kernel_eq {X} R (f : cidx -> option X) (D : oct -> X) :
  (forall i A p, nth_error (loc R) i = Some A -> in_block b p -> f (mkCell i p b LOCAL_TO_BLOCK) = Some (D (cell_of b A p))) ->
  kernel b R f = Some (map D (all_cells b (loc R))).
Proof.
  intros H. unfold kernel, owned_cells. rewrite block_positions_eq.
  assert (G : forall Ls k, (forall i A, nth_error Ls i = Some A -> nth_error (loc R) (k + i) = Some A) ->
    mapM f (flat_map (fun i => map (fun p => mkCell i p b LOCAL_TO_BLOCK) (positions b)) (seq k (length Ls))) = Some (map D (all_cells b Ls))).
  { induction Ls as [|A Ls IH]; intros k HK; [reflexivity|]. cbn [length seq flat_map]. unfold all_cells. cbn [flat_map]. fold (all_cells b Ls). rewrite map_app. apply mapM_app.
    - assert (KA : nth_error (loc R) k = Some A) by (specialize (HK 0%nat A eq_refl); rewrite Nat.add_0_r in HK; exact HK).
      assert (GP : forall P, incl P (positions b) -> mapM f (map (fun p => mkCell k p b LOCAL_TO_BLOCK) P) = Some (map D (map (cell_of b A) P))).
      { induction P as [|p P IHP]; intros I; [reflexivity|]. cbn [map mapM]. rewrite (H k A p KA) by (apply (positions_in b p), I; left; reflexivity).
        rewrite IHP by (intros x Hx; apply I; right; exact Hx). reflexivity. }
      apply GP. apply incl_refl.
    - apply IH. intros i A' E. replace (S k + i)%nat with (k + S i)%nat by lia. apply HK. exact E. }
  apply (G (loc R) 0%nat). intros i A E. exact E.
Qed.
End Arr.

(** * Geometry of faces *)
Section Geo.
Context (g : geom) (D3 : g3d g = true) (WF : wf_geom g) (b : axis -> Z) (BO : block_ok g b) (ext : axis -> Qc) (EXT : forall a, (0 < ext a)%Qc).
Local Notation N := (ncells g b).
Local Notation side := (GravitySpec.side g b ext).
Local Notation face := (face g b ext).
Lemma zqn l a : lmin g <= l -> (0 < zq (N l a))%Qc. Proof. intros H. apply zq_pos, (N_pos g WF b BO l a H). Qed.
Lemma side_pos l a : lmin g <= l -> (0 < side l a)%Qc.
Proof. intros H. unfold GravitySpec.side. fold (zq (N l a)). apply Qcdiv_lt_0; [apply EXT|apply zqn, H]. Qed.
Lemma side_nz l a : lmin g <= l -> side l a <> 0%Qc. Proof. intros H. apply Qc_pos_nz, side_pos, H. Qed.
Lemma side_half l a : lmin g <= l -> side (l + 1) a = (side l a / two)%Qc.
Proof.
  intros H. unfold GravitySpec.side. fold (zq (N (l + 1) a)) (zq (N l a)). rewrite (N_double g b l a H (nflat g D3 a)), zq_mult, zq_2.
  pose proof (Qc_pos_nz _ (zqn l a H)). field. split; [assumption|exact two_nz] || (split; [exact two_nz|assumption]).
Qed.
Lemma face_pos e l : lmin g <= l -> (0 < face e l)%Qc.
Proof. intros H. unfold GravitySpec.face. destruct e; cbn [others map fold_right]; (apply Qcmult_lt_0; [apply side_pos, H|apply Qcmult_lt_0; [apply side_pos, H|reflexivity]]). Qed.
Lemma face_nz e l : lmin g <= l -> face e l <> 0%Qc. Proof. intros H. apply Qc_pos_nz, face_pos, H. Qed.
Lemma face_quarter e l : lmin g <= l -> face e (l + 1) = (face e l / (two * two))%Qc.
Proof.
  intros H. unfold GravitySpec.face. destruct e; cbn [others map fold_right]; rewrite !side_half by exact H; field; exact two_nz.
Qed.
Lemma volume_side x : volume g b ext x = (side (lev x) AX * side (lev x) AY * side (lev x) AZ)%Qc. Proof. reflexivity. Qed.
Lemma volume_face x e : lmin g <= lev x -> (volume g b ext x / side (lev x) e)%Qc = face e (lev x).
Proof.
  intros H. rewrite volume_side. unfold GravitySpec.face. pose proof (side_nz (lev x) e H). destruct e; cbn [others map fold_right]; field; assumption.
Qed.
Lemma size_side A a : lmin g <= lev A <= lmax g -> cell_size g b ext A a = side (lev A) a.
Proof.
  intros H. unfold cell_size, getSize, GravitySpec.side, ncells. fold (zq (b a)) (zq (ncell g a (lev A) * b a)).
  rewrite (cell_count_eq g WF a (lev A)) by (try apply (nflat g D3); lia).
  rewrite Q2Qc_div1, zq_mult. pose proof (ncell_pos g WF a (lev A) ltac:(lia)) as P1. pose proof (BO a) as (P2 & _). field.
  split; apply Qc_pos_nz, zq_pos; lia.
Qed.
End Geo.

Lemma total_csum l : total l = csum l.
Proof.
  unfold total. assert (G : forall l a, fold_left Qcplus l a = (a + csum l)%Qc).
  { clear. induction l as [|x l IH]; intros a; cbn; [ring|]. rewrite IH. fold (csum l). ring. }
  rewrite G. ring.
Qed.
Lemma frac34 : frac 3 4 = ((two + 1) / (two * two))%Qc. Proof. apply Qc_is_canon. reflexivity. Qed.
Lemma frac32 : frac 3 2 = ((two + 1) / two)%Qc. Proof. apply Qc_is_canon. reflexivity. Qed.
Lemma frac41 : frac 4 1 = (two * two)%Qc. Proof. apply Qc_is_canon. reflexivity. Qed.
Lemma three_nz : (two + 1)%Qc <> 0%Qc. Proof. intro H. discriminate H. Qed.

(** * The matrix product *)
Section Op.
Context (q : gconf) (D3 : g3d (q_g q) = true) (WF : wf_geom (q_g q)) (M : mesh) (OK : mesh_ok (q_g q) M) (BO : block_ok (q_g q) (q_b q))
        (EXT : forall a, (0 < q_ext q a)%Qc).
Local Notation g := (q_g q).
Local Notation b := (q_b q).
Local Notation ext := (q_ext q).
Local Notation cells := (all_cells b (leaves M)).
Local Notation flux := (face_flux g b ext (q_absorbing q) cells).

Lemma filter_single (p : oct -> bool) (l : list oct) y : NoDup l -> (forall z, In z l /\ p z = true <-> z = y) -> Permutation [y] (filter p l).
Proof.
  intros ND H. apply filter_perm; [exact ND|repeat constructor; intros []|]. intros z. rewrite H. cbn. intuition.
Qed.

Section Cell.
Context (R : rank) (HR : In R M) (i : nat) (A : oct) (HA : nth_error (loc R) i = Some A) (c : axis -> Z) (IB : in_block b c) (u : oct -> Qc).
Local Notation st := (loc R ++ gho R).
Local Notation x := (cell_of b A c).
Local Notation cell := (mkCell i c b LOCAL_TO_BLOCK).
Local Notation U := (map u (all_cells b st)).
Local Notation size := (cell_size g b ext A).

Lemma lev_x : lmin g <= lev A <= lmax g.
Proof. apply (leaf_valid g M OK A), (A_leaf M R HR i A HA). Qed.
Lemma size_at a : size a = GravitySpec.side g b ext (lev A) a. Proof. apply (size_side g D3 WF b BO ext EXT), lev_x. Qed.
Lemma at_own : at_cell U cell = Some (u x).
Proof.
  apply (at_cell_holds b (b_pos g b BO) M st u cell x); [|reflexivity].
  split; [reflexivity|split; [exact IB|]]. exists A. cbn [c_oct c_pos]. split; [rewrite nth_error_app1; [exact HA|apply nth_error_Some; congruence]|].
  split; [apply (A_leaf M R HR i A HA)|reflexivity].
Qed.

(** What one face contributes: both for the matrix product and for the gradient. *)
Lemma face_term e up : exists n v, getNeighbor_ghost g st cell (step e (sg up)) = Some n /\
  get_value g st U n (step e (sg up)) = Some v /\
  (if q_absorbing q e && is_boundary n then 0%Qc else (size AX * size AY * size AZ / size e * (v - u x) / distance n (size e))%Qc) = flux u x e up /\
  distance n (size e) <> 0%Qc.
Proof.
  pose proof lev_x as LX. pose proof (own_cells M b R HR i A HA c IB) as XC.
  assert (SS : (size AX * size AY * size AZ / size e)%Qc = face g b ext e (lev A)).
  { rewrite !size_at. exact (volume_face g WF b BO ext EXT x e (proj1 LX)). }
  rewrite SS, size_at. clear SS. pose proof (side_nz g WF b BO ext EXT (lev A) e ltac:(lia)) as NZ. set (h := GravitySpec.side g b ext (lev A) e) in *.
  unfold face_flux. change (lev x) with (lev A). destruct (at_boundary g b e up x) eqn:AB.
  - destruct (face_boundary g D3 WF M OK b BO R HR i A HA c IB e up AB) as (n & E & S). exists n, 0%Qc. split; [exact E|].
    unfold get_value, is_boundary, distance, level_diff. rewrite S. cbn [Z.eqb Pos.eqb]. split; [reflexivity|]. rewrite andb_true_r. split; [|exact NZ].
    fold h. destruct (q_absorbing q e); reflexivity.
  - pose proof (cells_NoDup g M OK b BO) as ND.
    destruct (face_found g D3 WF M OK b BO R HR i A HA c IB e up AB) as (n & E & (P1 & P2) & CASE). exists n.
    assert (NBD : is_boundary n = false) by (unfold is_boundary; destruct (c_status n); congruence).
    assert (NV : is_valid n = true) by (unfold is_valid; destruct (c_status n); congruence).
    destruct CASE as [(LD & y & IC & LY & HY)|[(LD & y & IC & LY & HY)|(LD & l & zs & EL & F2 & NDZ & LEN & VAL & LZ & HZ)]].
    + exists (u y). split; [exact E|]. unfold get_value, distance. rewrite NBD, LD. cbn [Z.geb Z.compare Z.eqb]. rewrite andb_false_r.
      split; [apply (at_cell_holds b (b_pos g b BO) M st u n y IC NV)|]. split; [|exact NZ].
      rewrite (csum_perm _ _ (Permutation_map _ (Permutation_sym (filter_single (touches g b e up x) cells y ND HY)))).
      cbn [map csum fold_right]. unfold common_face, centre_distance. rewrite LY. change (lev x) with (lev A). rewrite Z.max_id. fold h.
      replace ((h + h) / two)%Qc with h by (unfold two; field; exact two_nz). field. exact NZ.
    + exists (u y). split; [exact E|]. unfold get_value, distance. rewrite NBD, LD. cbn [Z.geb Z.compare Z.eqb Pos.eqb]. rewrite andb_false_r.
      assert (LYM : lmin g <= lev A - 1) by (pose proof (cell_lev g M OK b y (is_cell_in M b _ _ _ IC)); change (lev x) with (lev A) in LY; lia).
      assert (HH : GravitySpec.side g b ext (lev y) e = (two * h)%Qc).
      { unfold h. rewrite LY. change (lev x) with (lev A). replace (lev A) with (lev A - 1 + 1) at 2 by lia. rewrite (side_half g D3 WF b BO ext (lev A - 1) e LYM). field. exact two_nz. }
      split; [apply (at_cell_holds b (b_pos g b BO) M st u n y IC NV)|]. rewrite frac32. split.
      * rewrite (csum_perm _ _ (Permutation_map _ (Permutation_sym (filter_single (touches g b e up x) cells y ND HY)))).
        cbn [map csum fold_right]. unfold common_face, centre_distance. rewrite HH. rewrite LY. change (lev x) with (lev A). rewrite Z.max_l by lia. fold h.
        replace ((h + two * h) / two)%Qc with (h * ((two + 1) / two))%Qc by (field; exact two_nz). field. repeat split; try exact two_nz; try exact NZ; exact three_nz.
      * intros K. apply Qcmult_integral in K. destruct K as [K|K]; [exact (NZ K)|discriminate K].
    + exists (csum (map u zs) / (two * two))%Qc. split; [exact E|]. unfold get_value, distance. rewrite NBD, LD. cbn [Z.geb Z.compare Z.eqb Pos.eqb]. rewrite andb_false_r, EL.
      assert (EV : mapM (at_cell U) l = Some (map u zs)).
      { clear - F2 VAL BO. revert VAL. induction F2 as [|k z l zs K F2 IH]; intros VAL; [reflexivity|]. cbn [mapM map].
        rewrite (at_cell_holds b (b_pos g b BO) M st u k z K (VAL k (or_introl eq_refl))). rewrite IH by (intros k' Hk'; apply VAL; right; exact Hk'). reflexivity. }
      rewrite EV, map_length, LEN. change (frac (Z.of_nat 4) 1) with (frac 4 1). rewrite total_csum, frac41. split; [reflexivity|].
      rewrite frac34. split.
      * rewrite (csum_perm _ _ (Permutation_map _ (Permutation_sym (filter_perm (touches g b e up x) cells zs ND NDZ (fun z => iff_sym (HZ z)))))).
        set (sm := csum (map u zs)).
        rewrite (csum_ext (fun y => common_face g b ext e x y * (u y - u x) / centre_distance g b ext e x y)%Qc (fun z => (face g b ext e (lev A) / (two * two) / (h * ((two + 1) / (two * two))) * (u z + (0 - 1) * u x))%Qc) zs).
        -- rewrite csum_scale, csum_plus. rewrite (csum_ext (fun z => (0 - 1) * u x)%Qc (fun z => ((0 - 1) * u x) * 1)%Qc zs) by (intros; ring). rewrite csum_scale.
           replace (csum (map (fun _ => 1%Qc) zs)) with (two * two)%Qc.
           ++ fold sm. field. repeat split; try exact two_nz; try exact NZ; exact three_nz.
           ++ destruct zs as [|z1 [|z2 [|z3 [|z4 [|]]]]]; try discriminate LEN. apply Qc_is_canon. reflexivity.
        -- intros z ZZ. specialize (LZ z ZZ). unfold common_face, centre_distance. rewrite LZ. change (lev x) with (lev A). rewrite Z.max_r by lia.
           rewrite (face_quarter g D3 WF b BO ext e (lev A)), (side_half g D3 WF b BO ext (lev A) e) by lia. fold h.
           replace ((h + h / two) / two)%Qc with (h * ((two + 1) / (two * two)))%Qc by (field; exact two_nz). field. repeat split; try exact two_nz; try exact NZ; exact three_nz.
      * intros K. apply Qcmult_integral in K. destruct K as [K|K]; [exact (NZ K)|discriminate K].
Qed.

Lemma dir_term e : matprod_dir q st U cell size e = Some (flux u x e true + flux u x e false)%Qc.
Proof.
  destruct (face_term e false) as (nl & vl & EL & GL & VL & ZL). destruct (face_term e true) as (nr & vr & ER & GR & VR & ZR). cbn [sg] in *.
  unfold matprod_dir. rewrite EL, ER, at_own, GL, GR. f_equal. rewrite <- VL, <- VR.
  destruct (q_absorbing q e && is_boundary nl), (q_absorbing q e && is_boundary nr); unfold Qcdiv; ring.
Qed.
Lemma matprod_eq : matprod q st U cell size = Some (0 - laplacian g b ext (q_absorbing q) cells u x)%Qc.
Proof.
  unfold matprod. rewrite !dir_term. f_equal. unfold laplacian, faces. cbn [map fst snd csum fold_right]. ring.
Qed.
Lemma gradient_eq e : gradient q st U cell size e = Some (acceleration g b ext (q_absorbing q) cells u x e).
Proof.
  destruct (face_term e false) as (nl & vl & EL & GL & VL & ZL). destruct (face_term e true) as (nr & vr & ER & GR & VR & ZR). cbn [sg] in *.
  unfold gradient. rewrite at_own, EL, ER, GL, GR. f_equal. unfold acceleration, slope. change (lev x) with (lev A).
  pose proof lev_x as LX. pose proof (face_nz g WF b BO ext EXT e (lev A) ltac:(lia)) as FZ.
  assert (SS : (size AX * size AY * size AZ / size e)%Qc = face g b ext e (lev A)).
  { rewrite !size_at. exact (volume_face g WF b BO ext EXT x e (proj1 LX)). }
  rewrite SS in VL, VR. rewrite <- VL, <- VR. replace (frac 2 1) with two by (apply Qc_is_canon; reflexivity).
  destruct (q_absorbing q e && is_boundary nl), (q_absorbing q e && is_boundary nr); field; repeat split; try exact two_nz; assumption.
Qed.
End Cell.
End Op.
