(** Checkpoint and restart (C36, C37, C71). *)
From Coq Require Import QArith Qround Qfield Lqa.
From Verif Require Import Base MortonModel OctreeSpec OctreeGeom OctreeModel FindNeighbors MeshSpec GhostExchange AdaptProofs InitProofs
  BalanceMain HistorySpec HistoryProofs OctreeProps LookupSpec LookupModel LookupProps RestartModel.
Open Scope Z_scope.

(** * Datasets *)
Lemma first_row_sum c r : first_row c r = list_sum (firstn r c).
Proof.
  unfold first_row. revert r. induction c as [|x c IH]; intros r; [destruct r; reflexivity|].
  destruct r as [|r]; [cbn; lia|]. specialize (IH r). cbn [firstn list_sum fold_right nth] in *.
  change (fold_right Nat.add 0%nat) with list_sum in *.
  assert (nth r c 0%nat <= list_sum (firstn (S r) c))%nat.
  { clear. revert r. induction c as [|y c IH]; intros r; [destruct r; cbn; lia|]. destruct r as [|r]; [cbn; lia|].
    specialize (IH r). cbn [firstn list_sum fold_right nth] in *. change (fold_right Nat.add 0%nat) with list_sum in *. lia. }
  cbn [firstn] in *. destruct c; cbn in *; lia.
Qed.
Lemma sum_firstn_concat {X} (D : list (list X)) r : list_sum (firstn r (map (@length X) D)) = length (concat (firstn r D)).
Proof. revert r. induction D as [|l D IH]; intros [|r]; cbn; try reflexivity. rewrite app_length, <- IH. reflexivity. Qed.
Lemma sum_concat {X} (D : list (list X)) : list_sum (map (@length X) D) = length (concat D).
Proof. induction D as [|l D IH]; cbn; [reflexivity|]. rewrite app_length, <- IH. reflexivity. Qed.

Lemma slab_concat {X} (D : list (list X)) r k : let f := first_row (map (@length X) D) r in
  (f <= k < f + length (nth r D []))%nat -> nth_error (nth r D []) (k - f) = nth_error (concat D) k.
Proof.
  cbv zeta. rewrite first_row_sum, sum_firstn_concat. revert r k. induction D as [|l D IH]; intros r k.
  - destruct r; cbn; lia.
  - destruct r as [|r]; cbn [nth firstn concat].
    + cbn. intros H. rewrite Nat.sub_0_r. symmetry. apply nth_error_app1. lia.
    + rewrite app_length. intros H. rewrite nth_error_app2 by lia. rewrite <- (IH r) by lia. f_equal. lia.
Qed.
Lemma some_slab {X} (D : list (list X)) : forall k, (k < length (concat D))%nat ->
  exists r, (r < length D)%nat /\ (let f := first_row (map (@length X) D) r in (f <=? k)%nat && (k <? f + length (nth r D []))%nat) = true.
Proof.
  cbv zeta. induction D as [|l D IH]; intros k H; [cbn in H; lia|].
  cbn [concat] in H. rewrite app_length in H. destruct (Nat.lt_ge_cases k (length l)) as [K|K].
  - exists O. split; [cbn; lia|]. rewrite first_row_sum. cbn. apply Nat.ltb_lt. exact K.
  - destruct (IH (k - length l)%nat ltac:(lia)) as (r & Hr & E). exists (S r). split; [cbn; lia|].
    rewrite first_row_sum in *. cbn [map firstn list_sum fold_right nth]. change (fold_right Nat.add 0%nat) with list_sum.
    apply andb_true_iff in E. destruct E as (E1 & E2). apply Nat.leb_le in E1. apply Nat.ltb_lt in E2.
    apply andb_true_iff. split; [apply Nat.leb_le|apply Nat.ltb_lt]; lia.
Qed.
Lemma written {X} sched (D : list (list X)) k : Permutation sched (seq 0 (length D)) ->
  ds_at (collective_write sched D) k = nth_error (concat D) k.
Proof.
  intros HP. unfold collective_write. cbn [ds_at].
  set (in_slab := fun r => let f := first_row (map (@length X) D) r in (f <=? k)%nat && (k <? f + length (nth r D []))%nat).
  assert (G : forall s f0, fold_left (fun f r => write_slab (first_row (map (@length X) D) r) (nth r D []) f) s f0 k =
    if existsb in_slab s then nth_error (concat D) k else f0 k).
  { induction s as [|r s IH]; intros f0; [reflexivity|]. cbn [fold_left existsb]. rewrite IH. destruct (existsb in_slab s); [rewrite orb_true_r; reflexivity|].
    rewrite orb_false_r. unfold write_slab at 1. fold (in_slab r). destruct (in_slab r) eqn:E; [|reflexivity].
    unfold in_slab in E. apply andb_true_iff in E. destruct E as (E1 & E2). apply Nat.leb_le in E1. apply Nat.ltb_lt in E2. apply (slab_concat D r k). lia. }
  rewrite G. destruct (existsb in_slab sched) eqn:E; [reflexivity|]. symmetry. apply nth_error_None.
  destruct (Nat.le_gt_cases (length (concat D)) k) as [H|H]; [exact H|exfalso].
  destruct (some_slab D k H) as (r & Hr & Q).
 assert (existsb in_slab sched = true); [|congruence].
  apply existsb_exists. exists r. split; [|exact Q]. apply (Permutation_in _ (Permutation_sym HP)). apply in_seq. lia.
Qed.
Lemma read_slab_ok {X} (f : dataset X) L first n : ds_rows f = length L -> (forall k, ds_at f k = nth_error L k) -> (first + n <= length L)%nat ->
  read_slab f first n = Some (firstn n (skipn first L)).
Proof.
  intros HR HA. unfold read_slab. revert first. induction n as [|n IH]; intros first H; [reflexivity|].
  cbn [seq mapM]. rewrite HR, HA. replace (first <? length L)%nat with true by (symmetry; apply Nat.ltb_lt; lia).
  rewrite HR in IH. rewrite (IH (S first)) by lia.
  destruct (nth_error L first) as [x|] eqn:E; [|apply nth_error_None in E; lia].
  assert (SK : skipn first L = x :: skipn (S first) L).
  { clear - E. revert first E. induction L as [|y L IH]; intros [|n] E; try discriminate E; cbn in *; [congruence|]. rewrite (IH n E). reflexivity. }
  rewrite SK. reflexivity.
Qed.
Lemma firstn_add {X} x n (L : list X) : firstn (x + n) L = firstn x L ++ firstn n (skipn x L).
Proof. revert L. induction x as [|x IH]; intros L; [reflexivity|]. destruct L as [|y L]; [cbn; rewrite firstn_nil; reflexivity|]. cbn. f_equal. apply IH. Qed.
Lemma skipn_add {X} x n (L : list X) : skipn (x + n) L = skipn n (skipn x L).
Proof. revert L. induction x as [|x IH]; intros L; [reflexivity|]. destruct L as [|y L]; [cbn; rewrite skipn_nil; reflexivity|]. cbn. apply IH. Qed.
Lemma pieces {X} (c : list nat) : forall L : list X,
  concat (map (fun r => firstn (nth r c 0%nat) (skipn (list_sum (firstn r c)) L)) (seq 0 (length c))) = firstn (list_sum c) L.
Proof.
  induction c as [|x c IH]; intros L; [reflexivity|]. cbn [length seq map concat nth firstn list_sum fold_right skipn].
  change (fold_right Nat.add 0%nat) with list_sum. rewrite <- seq_shift, map_map, firstn_add, <- IH. f_equal. f_equal.
  apply map_ext. intros r. cbn [nth firstn list_sum fold_right]. change (fold_right Nat.add 0%nat) with list_sum. rewrite skipn_add. reflexivity.
Qed.
Lemma list_sum_pos c r : (list_sum (firstn r c) + nth r c 0 <= list_sum c)%nat.
Proof.
  revert r. induction c as [|x c IH]; intros r; [destruct r; cbn; lia|]. destruct r as [|r]; [cbn; lia|].
  specialize (IH r). cbn [firstn list_sum fold_right nth] in *. change (fold_right Nat.add 0%nat) with list_sum in *. lia.
Qed.
Lemma read_view_ok {X} (f : dataset X) L c : ds_rows f = length L -> (forall k, ds_at f k = nth_error L k) -> list_sum c = length L ->
  exists D, read_view f c = Some D /\ map (@length X) D = c /\ concat D = L.
Proof.
  intros HR HA HS. exists (map (fun r => firstn (nth r c 0%nat) (skipn (list_sum (firstn r c)) L)) (seq 0 (length c))). split; [|split].
  - unfold read_view. apply mapM_Some.
    assert (G : forall l, Forall2 (fun x y => read_slab f (first_row c x) (nth x c 0%nat) = Some y) l (map (fun r => firstn (nth r c 0%nat) (skipn (list_sum (firstn r c)) L)) l)).
    { induction l as [|r l IH]; cbn [map]; constructor; [|exact IH]. rewrite first_row_sum. pose proof (list_sum_pos c r). apply (read_slab_ok f L); [exact HR|exact HA|lia]. }
    apply G.
  - rewrite map_map. transitivity (map (fun r => nth r c 0%nat) (seq 0 (length c))).
    + apply map_ext_in. intros r _. rewrite firstn_length, skipn_length. pose proof (list_sum_pos c r). lia.
    + clear. induction c as [|x c IH]; [reflexivity|]. cbn [length seq map nth]. rewrite <- seq_shift, map_map. f_equal. exact IH.
  - rewrite pieces, HS. apply firstn_all.
Qed.
Lemma written_read {X} sched (D : list (list X)) c : Permutation sched (seq 0 (length D)) -> list_sum c = length (concat D) ->
  exists D', read_view (collective_write sched D) c = Some D' /\ map (@length X) D' = c /\ concat D' = concat D.
Proof.
  intros HP HS. apply read_view_ok; [unfold collective_write; cbn [ds_rows]; apply sum_concat|intros k; apply written, HP|exact HS].
Qed.
Lemma written_all {X} sched (D : list (list X)) : Permutation sched (seq 0 (length D)) -> read_all (collective_write sched D) = Some (concat D).
Proof.
  intros HP. unfold read_all. rewrite (read_slab_ok _ (concat D)).
  - cbn [collective_write ds_rows]. unfold total. rewrite sum_concat. cbn [skipn]. rewrite firstn_all. reflexivity.
  - apply sum_concat.
  - intros k. apply written, HP.
  - cbn [collective_write ds_rows]. unfold total. rewrite sum_concat. lia.
Qed.

(** * The mesh *)
Section Restart.
Variable g : geom.
Hypothesis WF : wf_geom g.
Hypothesis HL1 : 1 <= lmin g.

Lemma mark_inside B : valid g B -> inside_domain g (mark_pos g B) /\ contains g B (mark_pos g B).
Proof.
  intros (Hl & Hc).
  assert (K : forall a, flat g a = false -> let n := inject_Z (ncell g a (lev B)) in
     (0 < n)%Q /\ (mark_pos g B a == (inject_Z (coord B a) + (51 # 100)) / n)%Q).
  { intros a F. cbv zeta. pose proof (ncell_pos g WF a (lev B) ltac:(lia)) as NP. pose proof (inject_pos _ NP) as NQ. split; [exact NQ|].
    unfold mark_pos, getCorner. rewrite F, (cell_count_eq g WF) by (lia || assumption). field. lra. }
  assert (Z0 : forall a, flat g a = true -> (mark_pos g B a == 0)%Q /\ coord B a = 0).
  { intros a F. pose proof (Hc a) as C. unfold ncell in C. rewrite F in C. assert (E : coord B a = 0) by lia. split; [|exact E].
    unfold mark_pos, getCorner. rewrite F, E. unfold Qdiv. rewrite Qmult_0_l. reflexivity. }
  split; [split|].
  - intros a F. destruct (K a F) as (NQ & E). rewrite E. pose proof (Hc a) as (C0 & C1).
    assert (Q0 : (0 <= inject_Z (coord B a))%Q) by (change 0%Q with (inject_Z 0); rewrite <- Zle_Qle; exact C0).
    assert (Q1 : (inject_Z (coord B a) + 1 <= inject_Z (ncell g a (lev B)))%Q) by (change 1%Q with (inject_Z 1); rewrite <- inject_Z_plus, <- Zle_Qle; lia).
    split; [apply Qlt_shift_div_l|apply Qlt_shift_div_r]; try exact NQ; lra.
  - intros a F. apply Z0, F.
  - intros a. cbv zeta. destruct (flat g a) eqn:F.
    + destruct (Z0 a F) as (E & EC). rewrite E, EC. unfold ncell. rewrite F. split; vm_compute; [discriminate|reflexivity].
    + destruct (K a F) as (NQ & E). rewrite E. rewrite inject_Z_plus.
      split; [apply Qle_shift_div_l|apply Qlt_shift_div_r]; try exact NQ.
      * assert (Q : (inject_Z (coord B a) / inject_Z (ncell g a (lev B)) * inject_Z (ncell g a (lev B)) == inject_Z (coord B a))%Q) by (field; lra). rewrite Q. lra.
      * assert (Q : ((inject_Z (coord B a) + inject_Z 1) / inject_Z (ncell g a (lev B)) * inject_Z (ncell g a (lev B)) == inject_Z (coord B a) + 1)%Q) by (change (inject_Z 1) with 1%Q; field; lra). rewrite Q. lra.
Qed.

Variable IN : list oct.
Hypothesis T : tiles g IN.
Hypothesis BAL : balanced g IN.
Lemma mark_found B l : valid g B -> exists q A, in_dom g q /\ covers g B q /\ In A IN /\ covers g A q /\ mark_oct g IN l B = Some (if lev A >? l then 1 else 0).
Proof.
  intros V. destruct (mark_inside B V) as (ID & CT). pose proof (pt_in_dom g WF _ ID) as D.
  destruct (tiles_leaf g IN _ T D) as (A & HA & CA). exists (pt_at g (mark_pos g B)), A. split; [exact D|]. split; [apply (contains_covers g WF B _ ID V), CT|].
  split; [exact HA|]. split; [exact CA|]. unfold mark_oct, getiOctFromPos. rewrite (finest_at g WF _ ID).
  pose proof (tiles_valid g IN A T HA) as (VA & _). pose proof (wf_minmax g WF).
  destruct (descend_found g IN IN _ A T (incl_refl _) D HA CA (Z.to_nat (lmax g - lmin g + 1)) (lmax g)) as (F & _); try lia.
  destruct (F HA) as (i & -> & ->). reflexivity.
Qed.
Definition req_at (l : Z) (B : oct) : Z := match mark_oct g IN l B with Some x => x | None => 0 end.

(** The leaves are those of the file, cut at level [l]. *)
Definition cut (l : Z) (L : list oct) : Prop :=
  forall p A B, in_dom g p -> In A IN -> In B L -> covers g A p -> covers g B p -> lev B = Z.min (lev A) l.

Lemma req_level l M A B p : lmin g <= l -> mesh_ok g M -> cut l (leaves M) -> in_dom g p -> In A IN -> In B (leaves M) -> covers g A p -> covers g B p ->
  lev B + req_at l B = Z.min (lev A) (l + 1) /\ 0 <= req_at l B <= 1.
Proof.
  intros Hl OK HC D HA HB CA CB. pose proof (ok_tiles g M OK) as TM. pose proof (tiles_valid g _ B TM HB) as VB.
  destruct (mark_found B l VB) as (q & A' & Dq & CBq & HA' & CA' & E). unfold req_at. rewrite E.
  pose proof (HC p A B D HA HB CA CB) as E1. pose proof (HC q A' B Dq HA' HB CA' CBq) as E2.
  (* if one of the two leaves of the file is B, both are *)
  assert (S : forall A1 A2 p1 p2, in_dom g p1 -> in_dom g p2 -> In A1 IN -> In A2 IN -> covers g A1 p1 -> covers g A2 p2 -> covers g B p1 -> covers g B p2 ->
     lev A1 = lev B -> A2 = A1).
  { intros A1 A2 p1 p2 D1 D2 I1 I2 C1 C2 B1 B2 EL. pose proof (covers_same_level g A1 B p1 C1 B1 EL). subst A1.
    apply (tiles_unique g IN p2 A2 B T D2 I2 I1 C2 B2). }
  destruct (lev A' >? l) eqn:GT; [apply Z.gtb_lt in GT|rewrite Z.gtb_ltb in GT; apply Z.ltb_ge in GT].
  - destruct (Z_lt_le_dec l (lev A)) as [K|K]; [lia|].
    assert (A' = A) by (apply (S A A' p q); auto; lia). subst. lia.
  - assert (A = A') by (apply (S A' A q p); auto; lia). subst. lia.
Qed.

Lemma least_eq l M m : lmin g <= l < lmax g -> mesh_ok g M -> cut l (leaves M) -> least_legal g (leaves M) (req_at l) m ->
  forall B, In B (leaves M) -> m B = req_at l B.
Proof.
  intros Hl OK HC (LG & LE) B HB. pose proof (ok_tiles g M OK) as TM.
  assert (LQ : forall B p, In B (leaves M) -> in_dom g p -> covers g B p -> exists A, In A IN /\ covers g A p /\ lev B + req_at l B = Z.min (lev A) (l + 1) /\ 0 <= req_at l B <= 1).
  { intros X p HX D CX. destruct (tiles_leaf g IN p T D) as (A & HA & CA). exists A. split; [exact HA|]. split; [exact CA|]. apply (req_level l M A X p); auto; lia. }
  assert (LEG : legal g (leaves M) (req_at l) (req_at l)).
  { intros X HX. pose proof (tiles_valid g _ X TM HX) as VX.
    destruct (LQ X (corner g X) HX (corner_in_dom g X VX) (corner_covers g X VX)) as (A & HA & CA & E1 & E2).
    pose proof (tiles_valid g IN A T HA) as (VA & _).
    split; [lia|]. split; [lia|]. split; [lia|]. split; [|intros K; lia].
    intros Y HY (p & q & Dp & Dq & Cp & Cq & NR).
    destruct (LQ X p HX Dp Cp) as (A1 & HA1 & CA1 & EX & _). destruct (LQ Y q HY Dq Cq) as (A2 & HA2 & CA2 & EY & _).
    assert (TC : touch g A1 A2) by (exists p, q; auto). pose proof (BAL A1 A2 HA1 HA2 TC). lia. }
  pose proof (LE _ LEG B HB). pose proof (LG B HB) as (K & _). lia.
Qed.

Lemma round_eq fuel ord l M : mesh_ok g M -> restart_round fuel ord g IN l M = adapt fuel ord g M (map (map (req_at l)) (map loc M)).
Proof.
  intros OK. unfold restart_round.
  assert (E : mapM (mapM (mark_oct g IN l)) (map loc M) = Some (map (map (req_at l)) (map loc M))); [|rewrite E; reflexivity].
  assert (V : forall R B, In R M -> In B (loc R) -> mark_oct g IN l B = Some (req_at l B)).
  { intros R B HR HB. destruct (mark_found B l) as (q & A & _ & _ & _ & _ & E); [|unfold req_at; rewrite E; reflexivity].
    apply (tiles_valid g (leaves M)); [apply OK|]. unfold leaves. apply in_concat. exists (loc R). split; [apply in_map, HR|exact HB]. }
  apply mapM_Some. revert V. generalize M as N. induction N as [|R N IH]; intros V; cbn [map]; constructor.
  - apply mapM_Some. assert (V' : forall B, In B (loc R) -> mark_oct g IN l B = Some (req_at l B)) by (intros B HB; apply (V R); [left; reflexivity|exact HB]).
    revert V'. generalize (loc R) as L. induction L as [|B L IL]; intros V'; cbn [map]; constructor; [apply V'; left; reflexivity|apply IL; intros; apply V'; right; assumption].
  - apply IH. intros R' B HR. apply V. right. exact HR.
Qed.

Lemma round_ok fuel ord l M M' : lmin g <= l < lmax g -> ord_ok ord -> mesh_ok g M -> cut l (leaves M) ->
  restart_round fuel ord g IN l M = Some M' -> mesh_ok g M' /\ cut (l + 1) (leaves M') /\ length M' = length M.
Proof.
  intros Hl Ho OK HC E. rewrite round_eq in E by exact OK.
  assert (GR : good_request g (leaves M) (req_at l)).
  { intros B HB. pose proof (tiles_valid g _ B (ok_tiles g M OK) HB) as VB.
    destruct (tiles_leaf g IN _ T (corner_in_dom g B VB)) as (A & HA & CA).
    pose proof (req_level l M A B (corner g B) ltac:(lia) OK HC (corner_in_dom g B VB) HA HB CA (corner_covers g B VB)) as (E1 & E2).
    pose proof (tiles_valid g IN A T HA) as (VA & _). lia. }
  destruct (adapt_inv g ord M (req_at l) fuel M' WF HL1 Ho OK GR E) as (m & LL & OK' & EL & _).
  destruct (C06_least_change g ord M (req_at l) fuel M' WF HL1 Ho OK GR E) as (m' & LL' & CH).
  split; [exact OK'|]. split.
  - intros p A B' D HA HB' CA CB'. destruct (tiles_leaf g _ p (ok_tiles g M OK) D) as (B & HB & CB).
    rewrite (CH p B B' D HB HB' CB CB'). rewrite (least_eq l M m' Hl OK HC LL' B HB).
    apply (req_level l M A B p); auto; lia.
  - rewrite <- (map_length loc M'), EL. unfold new_locs. rewrite map_length. reflexivity.
Qed.
Lemma round_total ord l M : lmin g <= l < lmax g -> ord_ok ord -> mesh_ok g M -> cut l (leaves M) ->
  exists F, forall fuel, (F <= fuel)%nat -> exists M', restart_round fuel ord g IN l M = Some M'.
Proof.
  intros Hl Ho OK HC. exists (S (2 * length (leaves M))). intros fuel HF. rewrite round_eq by exact OK.
  assert (RQ : forall B, In B (leaves M) -> 0 <= req_at l B <= 1 /\ lmin g <= lev B + req_at l B <= lmax g).
  { intros B HB. pose proof (tiles_valid g _ B (ok_tiles g M OK) HB) as VB.
    destruct (tiles_leaf g IN _ T (corner_in_dom g B VB)) as (A & HA & CA).
    pose proof (req_level l M A B (corner g B) ltac:(lia) OK HC (corner_in_dom g B VB) HA HB CA (corner_covers g B VB)) as (E1 & E2).
    pose proof (tiles_valid g IN A T HA) as (VA & _). lia. }
  apply adapt_total; auto; [intros B HB; pose proof (RQ B HB); lia| |lia].
  intros R HR. pose proof (ok_nonempty g M OK R HR) as NE. destruct (loc R) as [|A L] eqn:E; [congruence|]. exists A. rewrite E. split; [left; reflexivity|].
  left. apply RQ. unfold leaves. apply in_concat. exists (loc R). split; [apply in_map, HR|rewrite E; left; reflexivity].
Qed.

Definition rounds (fuel : nat) (ords : Z -> order) (ls : list Z) (M : mesh) : option mesh :=
  foldM (fun M level => restart_round fuel (ords level) g IN level M) ls M.
Lemma rounds_ok fuel ords M' : (forall l, ord_ok (ords l)) -> forall n l M, lmin g <= l -> l + Z.of_nat n <= lmax g -> mesh_ok g M -> cut l (leaves M) ->
  rounds fuel ords (zrange l (l + Z.of_nat n)) M = Some M' -> mesh_ok g M' /\ cut (l + Z.of_nat n) (leaves M') /\ length M' = length M.
Proof.
  intros HO. induction n as [|n IH]; intros l M H1 H2 OK HC.
  - replace (l + Z.of_nat 0) with l by lia. unfold zrange. rewrite Z.sub_diag. cbn. intros E. injection E as <-. auto.
  - assert (E0 : zrange l (l + Z.of_nat (S n)) = l :: zrange (l + 1) (l + 1 + Z.of_nat n)).
    { unfold zrange. replace (Z.to_nat (l + Z.of_nat (S n) - l)) with (S n) by lia. replace (Z.to_nat (l + 1 + Z.of_nat n - (l + 1))) with n by lia.
      cbn [seq map]. f_equal; [lia|]. rewrite <- seq_shift, map_map. apply map_ext. intros i. lia. }
    rewrite E0. unfold rounds. cbn [foldM]. destruct (restart_round fuel (ords l) g IN l M) as [M1|] eqn:E; [|discriminate].
    destruct (round_ok fuel (ords l) l M M1 ltac:(lia) (HO l) OK HC E) as (OK1 & HC1 & LN). intros E1.
    destruct (IH (l + 1) M1 ltac:(lia) ltac:(lia) OK1 HC1 E1) as (A1 & A2 & A3).
    split; [exact A1|]. split; [replace (l + Z.of_nat (S n)) with (l + 1 + Z.of_nat n) by lia; exact A2|congruence].
Qed.
Lemma rounds_total ords : (forall l, ord_ok (ords l)) -> forall n l M, lmin g <= l -> l + Z.of_nat n <= lmax g -> mesh_ok g M -> cut l (leaves M) ->
  exists F, forall fuel, (F <= fuel)%nat -> exists M', rounds fuel ords (zrange l (l + Z.of_nat n)) M = Some M'.
Proof.
  intros HO. induction n as [|n IH]; intros l M H1 H2 OK HC.
  - exists O. intros. exists M. replace (l + Z.of_nat 0) with l by lia. unfold zrange. rewrite Z.sub_diag. reflexivity.
  - assert (E0 : zrange l (l + Z.of_nat (S n)) = l :: zrange (l + 1) (l + 1 + Z.of_nat n)).
    { unfold zrange. replace (Z.to_nat (l + Z.of_nat (S n) - l)) with (S n) by lia. replace (Z.to_nat (l + 1 + Z.of_nat n - (l + 1))) with n by lia.
      cbn [seq map]. f_equal; [lia|]. rewrite <- seq_shift, map_map. apply map_ext. intros i. lia. }
    destruct (round_total (ords l) l M ltac:(lia) (HO l) OK HC) as (F1 & HF1). destruct (HF1 F1 (le_n _)) as (M1 & E1).
    destruct (round_ok F1 (ords l) l M M1 ltac:(lia) (HO l) OK HC E1) as (OK1 & HC1 & _).
    destruct (IH (l + 1) M1 ltac:(lia) ltac:(lia) OK1 HC1) as (F2 & HF2). exists (Nat.max F1 F2). intros fuel HF.
    rewrite E0. unfold rounds. cbn [foldM]. rewrite round_eq in * by exact OK. rewrite (adapt_mono F1 fuel _ _ _ _ _ ltac:(lia) E1). apply HF2. lia.
Qed.
End Restart.


(** C36: a restart on any number of ranks from a checkpoint written by any number of ranks
    rebuilds the saved octants, in the same global order, as a consistent mesh. The order in
    which ranks reach the file ([sched]) and the orders of the hash tables do not matter.
    Missing: meshes of 2^32 octants or more, which the reader cannot hold (it keeps the number of
    octants of the whole file in 32 bits, InitialConditions_restart.cpp:211). Writer and reader
    use the same level range, coarse grid and boundary conditions [g]. *)
Theorem C36_restart_partial g P P' M sched ords : good_setup g P -> good_setup g P' -> reachable g P M ->
  Permutation sched (seq 0 P) -> (forall l, ord_ok (ords l)) -> Z.of_nat (length (leaves M)) < 2^32 ->
  (* the restart succeeds *)
  (exists F, forall fuel, (F <= fuel)%nat -> exists M', restart_mesh fuel ords g P' (checkpoint_octree sched M) = Some M') /\
  (* and any success gives the saved mesh *)
  (forall fuel M', restart_mesh fuel ords g P' (checkpoint_octree sched M) = Some M' ->
     leaves M' = leaves M /\ mesh_ok g M' /\ length M' = P').
Proof.
  intros GS GS' RC HP HO H32. pose proof GS' as (WF & HL1 & HP' & HC).
  pose proof (reachable_ok g P M GS RC) as OK. pose proof (reachable_ranks g P M GS RC) as HLen.
  unfold restart_mesh, checkpoint_octree.
  rewrite written_all by (rewrite map_length, HLen; exact HP). fold (leaves M).
  destruct (private_init_ok g WF P' HP' ltac:(lia) ltac:(lia) (ords (-2)) (HO _)) as (M0 & -> & OK0 & LN0 & IN0 & _).
  replace (Z.of_nat (ds_rows (collective_write sched (map loc M))) <? 2^32) with true
    by (symmetry; apply Z.ltb_lt; cbn [collective_write ds_rows]; unfold total; rewrite sum_concat; exact H32).
  pose proof (wf_minmax g WF) as MM.
  assert (C0 : cut g (leaves M) (lmin g) (leaves M0)).
  { intros p A B D HA HB CA CB. apply IN0 in HB. destruct (tiles_valid g _ A (ok_tiles g M OK) HA) as (V & _). lia. }
  replace (lmax g) with (lmin g + Z.of_nat (Z.to_nat (lmax g - lmin g))) by lia. set (n := Z.to_nat (lmax g - lmin g)) in *.
  assert (HN : lmin g + Z.of_nat n = lmax g) by lia.
  assert (FIN : forall fuel M1, rounds g (leaves M) fuel ords (zrange (lmin g) (lmin g + Z.of_nat n)) M0 = Some M1 ->
     exists M', loadBalance (ords (-1)) g 0 M1 = Some M' /\ leaves M' = leaves M /\ mesh_ok g M' /\ length M' = P').
  { intros fuel M1 E. destruct (rounds_ok g WF HL1 (leaves M) (ok_tiles g M OK) (ok_balanced g M OK) fuel ords M1 HO n (lmin g) M0 ltac:(lia) ltac:(lia) OK0 C0 E) as (OK1 & C1 & LN1).
    destruct (C11_load_balance g (ords (-1)) 0 M1 WF (HO _) OK1) as (M' & E' & LN' & LV' & _ & OK' & _); [intros ->; cbn in LN1; lia|cbn; lia|].
    exists M'. split; [exact E'|]. split; [|split; [exact OK'|congruence]]. rewrite LV'.
    apply (tiles_same_levels g _ _ (ok_tiles g M1 OK1) (ok_tiles g M OK) (ok_sorted g M1 OK1) (ok_sorted g M OK)).
    intros p B A D HB HA CB CA. rewrite (C1 p A B D HA HB CA CB). destruct (tiles_valid g _ A (ok_tiles g M OK) HA) as (V & _). lia. }
  split.
  - destruct (rounds_total g WF HL1 (leaves M) (ok_tiles g M OK) (ok_balanced g M OK) ords HO n (lmin g) M0 ltac:(lia) ltac:(lia) OK0 C0) as (F & HF).
    exists F. intros fuel Hf. destruct (HF fuel Hf) as (M1 & E1). destruct (FIN fuel M1 E1) as (M' & E' & _). exists M'. unfold rounds in E1. rewrite E1. exact E'.
  - intros fuel M'. destruct (foldM _ _ M0) as [M1|] eqn:E1; [|discriminate]. intros E'. destruct (FIN fuel M1 E1) as (M2 & E2 & R). rewrite E2 in E'.
    injection E' as <-. exact R.
Qed.

(** C37: a field written for the mesh [M] (rows [D], one per octant) and read after the restart
    holds for every octant exactly the row that was written for it. Missing: as C36. *)
Theorem C37_fields_partial {X} g P P' M M' sched sched' ords fuel (D : list (list X)) : good_setup g P -> good_setup g P' -> reachable g P M ->
  Permutation sched (seq 0 P) -> Permutation sched' (seq 0 P) -> (forall l, ord_ok (ords l)) -> Z.of_nat (length (leaves M)) < 2^32 ->
  restart_mesh fuel ords g P' (checkpoint_octree sched M) = Some M' ->
  map (@length X) D = map (@length oct) (map loc M) ->
  exists D', restart_field M' (collective_write sched' D) = Some D' /\ map (@length X) D' = map (@length oct) (map loc M') /\
    forall A x, payload_at M' D' A x <-> payload_at M D A x.
Proof.
  intros GS GS' RC HP HP2 HO H32 E HD.
  destruct (C36_restart_partial g P P' M sched ords GS GS' RC HP HO H32) as (_ & K). destruct (K fuel M' E) as (LV & _).
  pose proof (reachable_ranks g P M GS RC) as HLen.
  assert (LD : length D = P) by (rewrite <- (map_length (@length X) D), HD, !map_length; exact HLen).
  assert (CE : map (fun R => length (loc R)) M' = map (@length oct) (map loc M')) by (rewrite map_map; reflexivity).
  destruct (written_read sched' D (map (fun R => length (loc R)) M')) as (D' & E1 & E2 & E3); [rewrite LD; exact HP2| |].
  { rewrite CE, sum_concat. fold (leaves M'). rewrite LV. rewrite <- sum_concat, HD. unfold leaves. rewrite <- sum_concat. reflexivity. }
  exists D'. split; [exact E1|]. rewrite CE in E2. split; [exact E2|]. intros A x.
  rewrite (payload_at_concat M' D' A x E2), (payload_at_concat M D A x HD), LV, E3. reflexivity.
Qed.

(** * Particles *)

(** C71: every particle of the checkpoint is read by exactly one rank, in the same order, when
    the number of particles times the number of ranks fits in 32 bits. *)
Theorem C71_particles_partial {X} P' sched (D : list (list X)) : (1 <= P')%nat -> Permutation sched (seq 0 (length D)) ->
  Z.of_nat (length (concat D)) * Z.of_nat P' < 2^32 ->
  exists D', restart_particles P' (collective_write sched D) = Some D' /\ length D' = P' /\ concat D' = concat D.
Proof.
  intros HP1 HP HN. unfold restart_particles.
  replace (ds_rows (collective_write sched D)) with (length (concat D)) by (symmetry; apply sum_concat).
  set (n := Z.of_nat (length (concat D))) in *.
  set (c := fun r => Z.to_nat (particle_count n (Z.of_nat P') (Z.of_nat r))).
  assert (PC : forall r, (r < P')%nat -> particle_count n (Z.of_nat P') (Z.of_nat r) = n * (Z.of_nat r + 1) / Z.of_nat P' - n * Z.of_nat r / Z.of_nat P').
  { intros r Hr. assert (0 <= n) by lia. assert (N1 : n * (Z.of_nat r + 1) <= n * Z.of_nat P') by (apply Z.mul_le_mono_nonneg_l; lia).
    assert (N2 : 0 <= n * Z.of_nat r <= n * (Z.of_nat r + 1)) by (split; [apply Z.mul_nonneg_nonneg; lia|apply Z.mul_le_mono_nonneg_l; lia]).
    assert (N3 : n <= n * Z.of_nat P') by nia.
    unfold particle_count. assert (U : forall z, 0 <= z < 2^32 -> u32 z = z) by (intros z Hz; unfold u32; apply Z.mod_small; lia).
    rewrite (U n), (U (n * (Z.of_nat r + 1))), (U (n * Z.of_nat r)) by lia. apply U.
    assert (M1 : n * Z.of_nat r / Z.of_nat P' <= n * (Z.of_nat r + 1) / Z.of_nat P') by (apply Z.div_le_mono; lia).
    assert (M2 : 0 <= n * Z.of_nat r / Z.of_nat P') by (apply Z.div_pos; lia).
    assert (M3 : n * (Z.of_nat r + 1) / Z.of_nat P' <= n * (Z.of_nat r + 1)) by (apply Z.div_le_upper_bound; nia). lia. }
  assert (SUM : forall k, (k <= P')%nat -> Z.of_nat (list_sum (map c (seq 0 k))) = n * Z.of_nat k / Z.of_nat P').
  { induction k as [|k IH]; intros Hk; [cbn; rewrite Z.mul_0_r; reflexivity|]. rewrite seq_S, map_app, list_sum_app. cbn [map list_sum fold_right Nat.add].
    rewrite Nat2Z.inj_add, IH by lia. unfold c at 1. rewrite PC by lia.
    assert (M1 : n * Z.of_nat k / Z.of_nat P' <= n * (Z.of_nat k + 1) / Z.of_nat P') by (apply Z.div_le_mono; nia).
    rewrite Nat.add_0_r, Z2Nat.id by lia. replace (Z.of_nat (S k)) with (Z.of_nat k + 1) by lia. lia. }
  destruct (written_read sched D (map c (seq 0 P'))) as (D' & E1 & E2 & E3); [exact HP| |].
  { apply Nat2Z.inj. rewrite SUM by lia. rewrite Z.div_mul by lia. reflexivity. }
  exists D'. split; [exact E1|]. split; [rewrite <- (map_length (@length X) D'), E2, map_length, seq_length; reflexivity|exact E3].
Qed.
(** Without that bound the counts of the ranks overflow: with 2^30 particles on 8 ranks, ranks 3
    and 7 ask for 3892314112 particles each instead of 2^27. *)
Lemma sum_counts n P : Z.of_nat (list_sum (map (fun r => Z.to_nat (particle_count n P (Z.of_nat r))) (seq 0 8))) =
  fold_right Z.add 0 (map (fun r => Z.max 0 (particle_count n P (Z.of_nat r))) (seq 0 8)).
Proof.
  generalize (seq 0 8) as l. induction l as [|r l IH]; [reflexivity|]. cbn [map list_sum fold_right]. fold (list_sum (map (fun r => Z.to_nat (particle_count n P (Z.of_nat r))) l)).
  rewrite Nat2Z.inj_add, IH. set (t := fold_right _ _ _). clearbody t. set (c := particle_count _ _ _). clearbody c. lia.
Qed.
Theorem C71_refuted_many : ~ (forall (P' : nat) sched (D : list (list unit)), (1 <= P')%nat -> Permutation sched (seq 0 (length D)) ->
  exists D', restart_particles P' (collective_write sched D) = Some D' /\ concat D' = concat D).
Proof.
  intros H. assert (W : exists N, Z.of_nat N = 2^30) by (exists (Z.to_nat (2^30)); apply Z2Nat.id; lia). destruct W as (N & HN).
  destruct (H 8%nat [0%nat] [repeat tt N] ltac:(lia) (Permutation_refl _)) as (D' & E & EC).
  assert (EN : Z.of_nat (ds_rows (collective_write [0%nat] [repeat tt N])) = 2^30).
  { cbn [collective_write ds_rows map]. unfold total. cbn [list_sum fold_right]. rewrite repeat_length. lia. }
  unfold restart_particles in E. rewrite EN in E. apply (f_equal (@length unit)) in EC. cbn [concat] in EC. rewrite app_nil_r, repeat_length in EC.
  assert (L : forall (f : dataset unit) counts R, read_view f counts = Some R -> map (@length unit) R = counts).
  { intros f counts R HR. unfold read_view in HR. apply (nth_ext _ _ O O); [rewrite map_length, (mapM_length _ _ _ HR), seq_length; reflexivity|].
    intros k Hk. rewrite map_length in Hk. pose proof Hk as Hk'. rewrite (mapM_length _ _ _ HR), seq_length in Hk'.
    assert (HS : nth_error (seq 0 (length counts)) k = Some k) by (rewrite (nth_error_nth' _ O) by (rewrite seq_length; lia); rewrite seq_nth by lia; reflexivity).
    destruct (mapM_nth _ _ _ k k HR HS) as (y & Hy & Fy). unfold read_slab in Fy. apply mapM_length in Fy. rewrite seq_length in Fy.
    rewrite <- Fy. apply nth_error_nth. rewrite nth_error_map, Hy. reflexivity. }
  apply L in E. rewrite <- sum_concat, E in EC. apply (f_equal Z.of_nat) in EC. change (Z.of_nat 8) with 8 in EC. rewrite sum_counts, HN in EC. vm_compute in EC. discriminate.
Qed.

(** Attributes of particles: written correctly when all ranks have equally many particles. *)
Theorem C71_attributes_partial {X} P' sched (D : list (list X)) n : (1 <= P')%nat -> D <> [] -> Permutation sched (seq 0 (length D)) ->
  (forall l, In l D -> length l = n) -> Z.of_nat (length (concat D)) * Z.of_nat P' < 2^32 ->
  exists f D', collective_write_attribute sched D = Some f /\ restart_particles P' f = Some D' /\ concat D' = concat D.
Proof.
  intros HP1 NE HP HL HN. destruct (C71_particles_partial P' sched D HP1 HP HN) as (D' & E1 & _ & E2).
  exists (collective_write sched D), D'. split; [|split; [exact E1|exact E2]].
  unfold collective_write_attribute. destruct D as [|l D0]; [congruence|].
  replace (forallb _ (l :: D0)) with true; [reflexivity|]. symmetry. apply forallb_forall. intros l' Hl'. apply Nat.eqb_eq. rewrite (HL l' Hl'), (HL l (or_introl eq_refl)). reflexivity.
Qed.
(** Otherwise the ranks ask HDF5 for datasets of different shapes. *)
Theorem C71_refuted_attributes {X} (x : X) : ~ (forall (D : list (list X)) sched, D <> [] -> Permutation sched (seq 0 (length D)) ->
  exists f, collective_write_attribute sched D = Some f).
Proof. intros H. destruct (H [[x]; [x; x]] [0%nat; 1%nat]) as (f & E); [discriminate|apply Permutation_refl|]. discriminate E. Qed.

(** * Examples *)

(** The mesh of 11 octants on 2 ranks, written by rank 1 first, read on 3 ranks. *)
Example ex_setup3 : good_setup ex_g 3.
Proof. split; [apply wf_geom_check; reflexivity|]. cbn [ex_g lmin gsx gsy gsz]. lia. Qed.
Example C36_example_setup : good_setup ex_g 2 /\ good_setup ex_g 3 /\ reachable ex_g 2 ex_M2 /\ Permutation [1%nat; 0%nat] (seq 0 2) /\
  (forall l : Z, ord_ok ((fun _ => id_order) l)) /\ Z.of_nat (length (leaves ex_M2)) < 2^32.
Proof.
  split; [exact ex_setup|split; [exact ex_setup3|split; [exact ex_reach2|split; [apply perm_swap|split; [intros _; exact id_order_ok|]]]]].
  rewrite (proj1 (proj2 ex_sizes)). lia.
Qed.
Definition ex_restart : option mesh := restart_mesh 20 (fun _ => id_order) ex_g 3 (checkpoint_octree [1%nat; 0%nat] ex_M2).
Example C36_example : match ex_restart with
  | Some M' => map (fun R => length (loc R)) M' = [3; 4; 4]%nat /\ leaves M' = leaves ex_M2
  | None => False end.
Proof. vm_compute. split; reflexivity. Qed.
(** A field whose rows are numbered in the order of the 2 ranks. *)
Definition ex_rows : list (list Z) := [[0; 1; 2; 3; 4]; [5; 6; 7; 8; 9; 10]].
Example C37_example : map (@length Z) ex_rows = map (@length oct) (map loc ex_M2) /\
  match ex_restart with
  | Some M' => restart_field M' (collective_write [1%nat; 0%nat] ex_rows) = Some [[0; 1; 2]; [3; 4; 5; 6]; [7; 8; 9; 10]]
  | None => False end.
Proof. vm_compute. split; reflexivity. Qed.
(** 7 particles on 3 ranks, one of them without particles, read on 2 ranks. *)
Example C71_example : let D := [[10; 11; 12; 13; 14]; []; [15; 16]] in
  Permutation [2; 0; 1]%nat (seq 0 (length D)) /\ Z.of_nat (length (concat D)) * 2 < 2^32 /\
  restart_particles 2 (collective_write [2; 0; 1]%nat D) = Some [[10; 11; 12]; [13; 14; 15; 16]].
Proof.
  cbv zeta. split; [|split; vm_compute; reflexivity]. cbn [length seq]. apply Permutation_sym. change [0; 1; 2]%nat with ([0; 1] ++ [2])%nat.
  apply Permutation_sym. apply (Permutation_cons_append [0; 1]%nat 2%nat).
Qed.
Example C71_attributes_example : let D := [[1; 2]; [3; 4]; [5; 6]] in (forall l, In l D -> length l = 2%nat) /\
  match collective_write_attribute [0; 1; 2]%nat D with Some f => restart_particles 2 f = Some [[1; 2; 3]; [4; 5; 6]] | None => False end.
Proof. cbv zeta. split; [intros l [<-|[<-|[<-|[]]]]; reflexivity|vm_compute; reflexivity]. Qed.

Print Assumptions C36_restart_partial.
Print Assumptions C37_fields_partial.
Print Assumptions C71_particles_partial.
Print Assumptions C71_attributes_partial.
Print Assumptions C71_refuted_many.
Print Assumptions C71_refuted_attributes.
