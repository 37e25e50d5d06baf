(** Neighbours of a cell through its faces, as cells of the grid (used for C39). *)
From Coq Require Import QArith Qcanon.
From Verif Require Import Base OctreeSpec OctreeGeom OctreeModel FindNeighbors MeshSpec GhostExchange
  LookupModel CellModel CellSpec CellProofs CellProps RemapModel RemapSpec RemapProofs RemapProps HydroModel HydroSpec HydroProps ConserveSpec BlockGhost.
Open Scope Z_scope.

Lemma axis_eqb_spec a c : axis_eqb a c = true <-> a = c.
Proof. destruct a, c; cbn; split; congruence. Qed.
Lemma step_on e s : step e s e = s. Proof. unfold step. replace (axis_eqb e e) with true by (destruct e; reflexivity). reflexivity. Qed.
Lemma step_off e s a : a <> e -> step e s a = 0.
Proof. intros H. unfold step. destruct (axis_eqb e a) eqn:E; [|reflexivity]. apply axis_eqb_spec in E. congruence. Qed.
Lemma axis_case (a e : axis) : a = e \/ a <> e. Proof. destruct a, e; (left; congruence) || (right; congruence). Qed.

Section CF.
Context (g : geom) (WF : wf_geom g) (M : mesh) (OK : mesh_ok g M) (b : axis -> Z) (BO : block_ok g b)
        (PER : periodic g) (EV : even_blocks g b).
Local Notation L := (leaves M).
Local Notation cells := (all_cells b (leaves M)).
Local Notation N := (ncells g b).

Lemma cells_NoDup : NoDup cells.
Proof.
  unfold all_cells. apply NoDup_flat_map'.
  - eapply tiles_NoDup. apply (ok_tiles g M OK).
  - intros A HA. unfold positions.
    assert (G : forall c, NoDup (zrange 0 c)) by (intros; unfold zrange; apply (FinFun.Injective_map_NoDup (f := fun k => 0 + Z.of_nat k)); [intros x y; lia|apply seq_NoDup]).
    assert (NM : forall (P : list (axis -> Z)), NoDup (map (fun p => (p AX, p AY, p AZ)) P) -> NoDup (map (cell_of b A) P)).
    { intros P ND. induction P as [|p P IH]; cbn [map] in *; [constructor|]. inversion ND; subst. constructor; [|apply IH; assumption].
      intro K. apply in_map_iff in K. destruct K as (q & E & Hq). apply H1. apply in_map_iff. exists q. split; [|exact Hq].
      assert (Q : forall a, q a = p a).
      { intros a. assert (K : coord (cell_of b A q) a = coord (cell_of b A p) a) by (rewrite E; reflexivity). unfold cell_of in K. rewrite !coord_oct_of in K. unfold gpos in K. lia. }
      rewrite !Q. reflexivity. }
    apply NM. clear NM. rewrite flat_map_concat_map, concat_map, map_map, <- flat_map_concat_map.
    apply NoDup_flat_map'; [apply G| |].
    + intros z _. rewrite flat_map_concat_map, concat_map, map_map, <- flat_map_concat_map. apply NoDup_flat_map'; [apply G| |].
      * intros y _. rewrite map_map. cbn [mkoff]. apply FinFun.Injective_map_NoDup; [intros x x' E; congruence|apply G].
      * intros y y' p _ _ H1 H2. apply in_map_iff in H1, H2. destruct H1 as (? & <- & H1), H2 as (? & E & H2). apply in_map_iff in H1, H2.
        destruct H1 as (? & <- & _), H2 as (? & <- & _). cbn [mkoff] in E. congruence.
    + intros z z' p _ _ H1 H2. apply in_map_iff in H1, H2. destruct H1 as (? & <- & H1), H2 as (? & E & H2). apply in_flat_map in H1, H2.
      destruct H1 as (? & _ & H1), H2 as (? & _ & H2). apply in_map_iff in H1, H2. destruct H1 as (? & <- & _), H2 as (? & <- & _). cbn [mkoff] in E. congruence.
  - intros A A' x HA HA' H1 H2. apply in_map_iff in H1, H2. destruct H1 as (q & E1 & Hq), H2 as (q' & E2 & Hq').
    pose proof (positions_in b q Hq) as I1. pose proof (positions_in b q' Hq') as I2. pose proof (f_equal lev (eq_trans E1 (eq_sym E2))) as EL. unfold cell_of in EL. cbn [oct_of lev] in EL.
    apply (cell_overlap g M OK b BO A q A' q' HA I1 HA' I2); [lia|]. intros a. rewrite EL, Z.sub_diag. change (2^0) with 1. rewrite Z.div_1_r.
    assert (K : coord (cell_of b A q) a = coord (cell_of b A' q') a) by congruence. unfold cell_of in K. rewrite !coord_oct_of in K. destruct (flat g a); exact K.
Qed.

(** Positions inside the domain. *)
Definition inside (x : oct) : Prop := lmin g <= lev x <= lmax g /\ forall a, 0 <= coord x a < N (lev x) a.
Lemma cells_inside x : In x cells -> inside x.
Proof. intros H. split; [apply (cell_lev g M OK b x H)|intros a; apply (cell_range g M OK b BO x a H)]. Qed.

Definition disp (x : oct) (e : axis) (s : Z) : oct := displaced g b x (step e s).
Lemma disp_lev x e s : lev (disp x e s) = lev x. Proof. reflexivity. Qed.
Lemma disp_on x e s : coord (disp x e s) e = (coord x e + s) mod N (lev x) e.
Proof. unfold disp, displaced. rewrite coord_oct_of, step_on. reflexivity. Qed.
Lemma disp_off x e s a : inside x -> a <> e -> coord (disp x e s) a = coord x a.
Proof. intros H Ha. unfold disp, displaced. rewrite coord_oct_of, step_off by exact Ha. rewrite Z.add_0_r. apply Z.mod_small, H. Qed.
Lemma disp_inside x e s : inside x -> inside (disp x e s).
Proof.
  intros H. split; [apply H|]. intros a. unfold disp, displaced. rewrite coord_oct_of. cbn [oct_of lev]. apply Z.mod_pos_bound.
  apply (N_pos g WF b BO). apply H.
Qed.
Lemma disp_back x e s : inside x -> disp (disp x e s) e (- s) = x.
Proof.
  intros H. apply oct_ext; [reflexivity|]. intros a. destruct (axis_case a e) as [->|Ha].
  - rewrite disp_on, disp_lev, disp_on. rewrite Zplus_mod_idemp_l. replace (coord x e + s + - s) with (coord x e) by lia. apply Z.mod_small, H.
  - rewrite disp_off by (try apply disp_inside; assumption). apply disp_off; assumption.
Qed.
Lemma disp_ext x y e s : lev y = lev x -> (forall a, coord y a = coord x a + step e s a) -> inside x -> inside y -> disp x e s = y.
Proof.
  intros HL HC HX HY. apply oct_ext; [rewrite disp_lev; lia|]. intros a. unfold disp, displaced. rewrite coord_oct_of, HC. apply Z.mod_small.
  rewrite <- HC, <- HL. apply HY.
Qed.

(** [y] lies on the side [s] (1: upper, -1: lower) of [x] along [e]. *)
Definition rel (e : axis) (s : Z) (x y : oct) : Prop :=
  y = disp x e s \/ y = parent g (disp x e s) \/ x = parent g (disp y e (- s)).
Definition relb (e : axis) (s : Z) (x y : oct) : bool :=
  oct_eqb y (disp x e s) || oct_eqb y (parent g (disp x e s)) || oct_eqb x (parent g (disp y e (- s))).
Lemma relb_spec e s x y : relb e s x y = true <-> rel e s x y.
Proof. unfold relb, rel. rewrite !orb_true_iff, !oct_eqb_eq. tauto. Qed.
Lemma rel_sym e s x y : inside x -> inside y -> rel e s x y <-> rel e (- s) y x.
Proof.
  intros HX HY. unfold rel. rewrite Z.opp_involutive.
  assert (y = disp x e s <-> x = disp y e (- s)); [|tauto].
  split; intros ->; [symmetry; apply disp_back, HX|]. rewrite <- (Z.opp_involutive s) at 2. symmetry. apply disp_back, HY.
Qed.
Lemma relb_sym e s x y : inside x -> inside y -> relb e s x y = relb e (- s) y x.
Proof. intros HX HY. apply Bool.eq_iff_eq_true. rewrite !relb_spec. apply rel_sym; assumption. Qed.

Definition unit_step (s : Z) : Prop := s = 1 \/ s = -1.
Definition facing (s : Z) : Z := if s =? 1 then 0 else 1.

Lemma parent_lev x : lev (parent g x) = lev x - 1. Proof. reflexivity. Qed.
Lemma parent_coord x a : coord (parent g x) a = if flat g a then coord x a else coord x a / 2.
Proof. unfold parent. rewrite coord_oct_of. reflexivity. Qed.

(** A smaller cell next to [x]: it is a half of the position next to [x], the facing one. *)
Lemma kid x y e s : unit_step s -> flat g e = false -> In x cells -> In y cells -> x = parent g (disp y e (- s)) ->
  parent g y = disp x e s /\ coord y e = 2 * coord (disp x e s) e + facing s.
Proof.
  intros US FE HX HY E. pose proof (cells_inside x HX) as IX. pose proof (cells_inside y HY) as IY.
  assert (LV : lev y = lev x + 1) by (rewrite E, parent_lev, disp_lev; lia).
  assert (NL : N (lev y) e = 2 * N (lev x) e) by (rewrite LV; apply (N_double g b); [apply IX|exact FE]).
  assert (OFF : forall a, a <> e -> coord x a = if flat g a then coord y a else coord y a / 2).
  { intros a Ha. rewrite E at 1. rewrite parent_coord, disp_off by assumption. reflexivity. }
  assert (ON : coord x e = ((coord y e - s) mod (2 * N (lev x) e)) / 2).
  { rewrite E at 1. rewrite parent_coord, FE, disp_on. rewrite NL. reflexivity. }
  assert (NX : coord y e / 2 <> coord x e).
  { intro K. apply (parent_overlap g M OK b BO x y HX HY). apply oct_ext; [rewrite parent_lev; lia|]. intros a. rewrite parent_coord.
    destruct (axis_case a e) as [->|Ha]; [rewrite FE; lia|apply OFF, Ha]. }
  pose proof (proj2 IY e) as RY. pose proof (proj2 IX e) as RX. rewrite NL in RY. set (n := N (lev x) e) in *. set (cy := coord y e) in *. set (cx := coord x e) in *.
  assert (C2 : cy = 2 * ((cx + s) mod n) + facing s).
  { clearbody n cx cy. clear - US ON NX RY RX. destruct US as [-> | ->]; unfold facing; cbn [Z.eqb Pos.eqb].
    - destruct (Z.eq_dec cy 0) as [Z0|Z0].
      + rewrite Z0 in *. replace ((0 - 1) mod (2 * n)) with (2 * n - 1) in ON by (apply (Z.mod_unique _ _ (-1)); lia).
        assert (cx = n - 1) as -> by (rewrite ON; symmetry; apply (Z.div_unique _ _ _ 1); lia). replace (n - 1 + 1) with n by lia. rewrite Z.mod_same by lia. lia.
      + rewrite Z.mod_small in ON by lia. pose proof (Z.div_mod (cy - 1) 2 ltac:(lia)) as D1. pose proof (Z.mod_pos_bound (cy - 1) 2 ltac:(lia)).
        pose proof (Z.div_mod cy 2 ltac:(lia)). pose proof (Z.mod_pos_bound cy 2 ltac:(lia)). rewrite Z.mod_small by lia. lia.
    - destruct (Z.eq_dec cy (2 * n - 1)) as [Z0|Z0].
      + rewrite Z0 in *. replace (2 * n - 1 - -1) with (1 * (2 * n)) in ON by lia. rewrite Z.mod_mul in ON by lia. change (0 / 2) with 0 in ON. rewrite ON.
        replace ((0 + -1) mod n) with (n - 1); [lia|]. apply (Z.mod_unique _ _ (-1)); lia.
      + rewrite Z.mod_small in ON by lia. pose proof (Z.div_mod (cy - -1) 2 ltac:(lia)) as D1. pose proof (Z.mod_pos_bound (cy - -1) 2 ltac:(lia)).
        pose proof (Z.div_mod cy 2 ltac:(lia)). pose proof (Z.mod_pos_bound cy 2 ltac:(lia)). rewrite Z.mod_small by lia. lia. }
  assert (DE : coord (disp x e s) e = (cx + s) mod n) by apply disp_on.
  split; [|rewrite DE; exact C2]. apply oct_ext; [rewrite parent_lev, disp_lev; lia|]. intros a. rewrite parent_coord.
  destruct (axis_case a e) as [->|Ha].
  - rewrite FE, DE. fold cy. rewrite C2. unfold facing. symmetry; destruct (s =? 1); [apply Z.div_unique with 0|apply Z.div_unique with 1]; lia.
  - rewrite disp_off by assumption. symmetry. apply OFF, Ha.
Qed.
Lemma kid_conv x y e s : unit_step s -> flat g e = false -> inside x -> inside y -> parent g y = disp x e s -> coord y e = 2 * coord (disp x e s) e + facing s ->
  x = parent g (disp y e (- s)).
Proof.
  intros US FE IX IY E C. assert (LV : lev y = lev x + 1) by (apply (f_equal lev) in E; rewrite parent_lev, disp_lev in E; lia).
  assert (NL : N (lev y) e = 2 * N (lev x) e) by (rewrite LV; apply (N_double g b); [apply IX|exact FE]).
  apply oct_ext; [rewrite parent_lev, disp_lev; lia|]. intros a. rewrite parent_coord. destruct (axis_case a e) as [->|Ha].
  - rewrite FE, disp_on, NL, C, disp_on. pose proof (proj2 IX e) as RX. set (n := N (lev x) e) in *. set (cx := coord x e) in *. clearbody n cx. clear - US RX.
    destruct US as [-> | ->]; unfold facing; cbn [Z.eqb Pos.eqb].
    + destruct (Z.eq_dec cx (n - 1)) as [-> | NE].
      * replace (n - 1 + 1) with n by lia. rewrite Z.mod_same by lia. replace ((2 * 0 + 0 + - (1)) mod (2 * n)) with (2 * n - 1) by (apply (Z.mod_unique _ _ (-1)); lia).
        apply (Z.div_unique _ _ _ 1); lia.
      * rewrite (Z.mod_small (cx + 1)) by lia. rewrite Z.mod_small by lia. apply (Z.div_unique _ _ _ 1); lia.
    + destruct (Z.eq_dec cx 0) as [-> | NE].
      * replace ((0 + -1) mod n) with (n - 1) by (apply (Z.mod_unique _ _ (-1)); lia). replace (2 * (n - 1) + 1 + - -1) with (1 * (2 * n)) by lia. rewrite Z.mod_mul by lia. reflexivity.
      * rewrite (Z.mod_small (cx + -1)) by lia. rewrite Z.mod_small by lia. apply (Z.div_unique _ _ _ 0); lia.
  - rewrite disp_off by assumption. rewrite <- parent_coord, E, disp_off by assumption. reflexivity.
Qed.

(** Cells visited by foreach_smaller_neighbor from the cell [y]. *)
Definition side_offsets (e : axis) (s : Z) : list (axis -> Z) :=
  let count a := if flat g a then 1 else if step e s a =? 0 then 2 else 1 in
  flat_map (fun dk => flat_map (fun dj => map (fun di => mkoff di dj dk)
       (zrange 0 (count AX))) (zrange 0 (count AY))) (zrange 0 (count AZ)).
Definition side (y : oct) (e : axis) (s : Z) : list oct := map (fun o => oct_of (lev y) (fun a => coord y a + o a)) (side_offsets e s).

Lemma side_offsets_in e s o : unit_step s -> flat g e = false -> In o (side_offsets e s) ->
  o e = 0 /\ forall a, 0 <= o a <= 1 /\ (flat g a = true -> o a = 0).
Proof.
  intros US FE H. unfold side_offsets in H. apply in_flat_map in H. destruct H as (z & Hz & H). apply in_flat_map in H. destruct H as (y & Hy & H).
  apply in_map_iff in H. destruct H as (x & <- & Hx). apply in_zrange in Hx, Hy, Hz.
  assert (S0 : (s =? 0) = false) by (destruct US as [-> | ->]; reflexivity).
  destruct e; cbn [step axis_eqb flat] in *; rewrite S0 in *; cbn [Z.eqb] in *; (split; [|intros []; cbn [mkoff flat]; destruct (g3d g); cbn [negb] in *; split; try discriminate; lia]);
    cbn [mkoff]; destruct (g3d g); cbn [negb] in *; try discriminate; lia.
Qed.
Lemma side_offsets_all e s o : unit_step s -> flat g e = false -> o e = 0 -> (forall a, 0 <= o a <= 1 /\ (flat g a = true -> o a = 0)) ->
  exists o', In o' (side_offsets e s) /\ forall a, o' a = o a.
Proof.
  intros US FE H0 H. exists (mkoff (o AX) (o AY) (o AZ)). split; [|intros []; reflexivity]. unfold side_offsets.
  assert (S0 : (s =? 0) = false) by (destruct US as [-> | ->]; reflexivity).
  pose proof (H AX) as (HX & _). pose proof (H AY) as (HY & _). pose proof (H AZ) as (HZ & HZ0).
  apply in_flat_map. exists (o AZ). split; [|apply in_flat_map; exists (o AY); split; [|apply in_map_iff; exists (o AX); split; [reflexivity|]]];
    apply in_zrange; destruct e; cbn [step axis_eqb flat] in *; rewrite ?S0; cbn [Z.eqb]; destruct (g3d g); cbn [negb] in *; try discriminate; try specialize (HZ0 eq_refl); lia.
Qed.
Lemma side_length y e s : unit_step s -> flat g e = false -> length (side y e s) = (if g3d g then 4 else 2)%nat.
Proof.
  intros US FE. unfold side. rewrite map_length. unfold side_offsets.
  destruct US as [-> | ->]; destruct e; cbn [step axis_eqb flat] in *; destruct (g3d g); cbn [negb] in *; try discriminate FE; reflexivity.
Qed.
Lemma side_NoDup y e s : unit_step s -> flat g e = false -> NoDup (side y e s).
Proof.
  intros US FE. unfold side, side_offsets.
  assert (S0 : (s =? 0) = false) by (destruct US as [-> | ->]; reflexivity).
  destruct e; cbn [step axis_eqb flat] in *; rewrite S0; cbn [Z.eqb]; destruct (g3d g); cbn [negb] in *; try discriminate FE;
    cbn -[Z.add Z.mul]; unfold oct_of; cbn [mkoff]; repeat constructor; cbn [In]; intros H;
    repeat (destruct H as [H|H]; [injection H; lia|]); exact H.
Qed.

(** The neighbour of a cell of a block through one of its faces. *)
Section Query.
Context (R : rank) (HR : In R M) (i : nat) (A : oct) (HA : nth_error (loc R) i = Some A) (c : axis -> Z) (IB : in_block b c)
        (e : axis) (s : Z) (US : unit_step s) (FE : flat g e = false).
Local Notation st := (loc R ++ gho R).
Local Notation x := (cell_of b A c).
Local Notation T := (disp x e s).
Local Notation cell := (mkCell i c b LOCAL_TO_BLOCK).

Lemma A_leaf : In A L.
Proof. unfold leaves; apply in_concat; exists (loc R); split; [apply in_map, HR|eapply nth_error_In, HA]. Qed.
Lemma own_cell : is_cell M b st cell x.
Proof.
  split; [reflexivity|]. split; [exact IB|]. exists A. cbn [c_oct c_pos]. split; [rewrite nth_error_app1; [exact HA|apply nth_error_Some; congruence]|].
  split; [exact A_leaf|reflexivity].
Qed.
Lemma own_in : In x cells. Proof. apply (is_cell_in M b _ _ _ own_cell). Qed.

Lemma is_cell_step n y s' : unit_step s' -> is_cell M b st n y -> 0 <= c_pos n e + s' < b e ->
  exists m, getNeighbor n (step e s') = Some m /\ getNeighbor_ghost g st n (step e s') = Some m /\ is_cell M b st m (disp y e s') /\
    c_status m = (if is_local n then LOCAL_TO_BLOCK else SAME_SIZE).
Proof.
  intros US' IC H. pose proof IC as (_ & IQ & _).
  assert (ST : forall a, 0 <= c_pos n a + step e s' a < b a) by (intros a; destruct (axis_case a e) as [->|Ha]; [rewrite step_on; exact H|rewrite step_off by exact Ha; specialize (IQ a); lia]).
  destruct (step_in g M b BO st n y (step e s') IC ST) as (m & y' & G1 & G2 & IC' & LY & CY & SM & _).
  assert (disp y e s' = y') as ->; [|exists m; auto].
  apply disp_ext; [exact LY|exact CY|apply cells_inside, (is_cell_in M b _ _ _ IC)|apply cells_inside, (is_cell_in M b _ _ _ IC')].
Qed.

Lemma in_block_case : 0 <= c e + s < b e ->
  exists n, getNeighbor_ghost g st cell (step e s) = Some n /\ is_cell M b st n T /\ c_status n = LOCAL_TO_BLOCK.
Proof.
  intros H. destruct (is_cell_step cell x s US own_cell H) as (m & _ & G & IC & SM). exists m. auto.
Qed.

Lemma rel_same : In T cells -> forall z, In z cells -> (rel e s x z <-> z = T).
Proof.
  intros HT z HZ. split; [|intros ->; left; reflexivity]. intros [->|[-> |E]]; [reflexivity| |].
  - exfalso. exact (parent_overlap g M OK b BO _ _ HZ HT eq_refl).
  - destruct (kid x z e s US FE own_in HZ E) as (K & _). exfalso. apply (parent_overlap g M OK b BO _ _ HT HZ). symmetry. exact K.
Qed.
Lemma rel_bigger : In (parent g T) cells -> forall z, In z cells -> (rel e s x z <-> z = parent g T).
Proof.
  intros HT z HZ. split; [|intros ->; right; left; reflexivity]. intros [->|[-> |E]]; [|reflexivity|].
  - exfalso. exact (parent_overlap g M OK b BO _ _ HT HZ eq_refl).
  - destruct (kid x z e s US FE own_in HZ E) as (K & _). exfalso. apply (parent2_overlap g M OK b BO _ _ HT HZ). rewrite K. reflexivity.
Qed.
Lemma rel_smaller w : In w cells -> parent g w = T -> forall z, In z cells -> (rel e s x z <-> x = parent g (disp z e (- s))).
Proof.
  intros HW PW z HZ. split; [|intros E; right; right; exact E]. intros [->|[-> |E]]; [| |exact E].
  - exfalso. apply (parent_overlap g M OK b BO _ _ HZ HW). symmetry. exact PW.
  - exfalso. apply (parent2_overlap g M OK b BO _ _ HZ HW). rewrite PW. reflexivity.
Qed.

(** Cells of even rank have a next one in their block, cells of odd rank a previous one. *)
Lemma pos_parity n y k : is_cell M b st n y -> coord y e = 2 * k + facing s -> 0 <= c_pos n e + s < b e.
Proof.
  intros (_ & IQ & B & _ & _ & EY) C. specialize (IQ e). destruct (EV e FE) as (E1 & E2).
  assert (GY : gpos b B (c_pos n) e = 2 * k + facing s) by (rewrite <- C, <- EY; unfold cell_of; rewrite coord_oct_of; reflexivity).
  unfold gpos in GY. pose proof (Z.div_mod (b e) 2 ltac:(lia)) as DM. rewrite E2 in DM. set (h := b e / 2) in *.
  replace (coord B e * b e) with (2 * (coord B e * h)) in GY by (rewrite DM; ring). set (m := coord B e * h) in *.
  destruct US as [-> | ->]; unfold facing in GY; cbn [Z.eqb Pos.eqb] in GY; lia.
Qed.

Lemma edge_case : ~ 0 <= c e + s < b e -> 0 <= c e + - s < b e /\ (s = 1 -> c e = b e - 1) /\ (s = -1 -> c e = 0).
Proof. intros H. specialize (IB e). destruct (EV e FE). destruct US as [-> | ->]; lia. Qed.

(** A bigger neighbour. *)
Lemma bigger_pos n : ~ 0 <= c e + s < b e -> is_cell M b st n (parent g T) -> 0 <= c_pos n e + s < b e.
Proof.
  intros H IC. destruct (edge_case H) as (_ & H1 & H2). destruct IC as (_ & IQ & B & _ & _ & EY). specialize (IQ e).
  destruct (EV e FE) as (E1 & E2).
  assert (GY : gpos b B (c_pos n) e = coord (parent g T) e) by (rewrite <- EY; unfold cell_of; rewrite coord_oct_of; reflexivity).
  rewrite parent_coord, FE, disp_on in GY. unfold cell_of in GY at 1. rewrite coord_oct_of in GY. unfold ncells in GY. change (lev x) with (lev A) in GY.
  pose proof (proj2 (leaf_valid g M OK A A_leaf) e) as VA. set (n0 := ncell g e (lev A)) in *. unfold gpos in GY.
  pose proof (Z.div_mod (b e) 2 ltac:(lia)) as DM. rewrite E2, Z.add_0_r in DM. set (h := b e / 2) in *.
  assert (FIN : exists m, 0 <= m /\ coord B e * b e + c_pos n e = m * h + (if s =? 1 then 0 else -1)).
  { destruct US as [US1|US1]; rewrite US1 in GY |- *; cbn [Z.eqb Pos.eqb].
    - rewrite (H1 US1) in GY. replace (coord A e * b e + (b e - 1) + 1) with ((coord A e + 1) * b e) in GY by ring.
      destruct (Z.eq_dec (coord A e + 1) n0) as [EN|EN].
      + rewrite EN, Z.mod_same in GY by nia. exists 0. rewrite GY. split; [lia|]. reflexivity.
      + rewrite Z.mod_small in GY by nia. exists (coord A e + 1). split; [lia|]. rewrite GY, DM. replace ((coord A e + 1) * (2 * h)) with ((coord A e + 1) * h * 2) by ring. rewrite Z.div_mul by lia. lia.
    - rewrite (H2 US1) in GY. rewrite Z.add_0_r in GY. destruct (Z.eq_dec (coord A e) 0) as [EN|EN].
      + rewrite EN in GY. replace ((0 * b e + -1) mod (n0 * b e)) with (n0 * b e - 1) in GY by (apply (Z.mod_unique _ _ (-1)); nia).
        exists n0. split; [lia|]. rewrite GY, DM. symmetry. apply (Z.div_unique _ _ _ 1); nia.
      + rewrite Z.mod_small in GY by nia. exists (coord A e). split; [lia|]. rewrite GY, DM. symmetry. apply (Z.div_unique _ _ _ 1); nia. }
  destruct FIN as (m & M0 & FIN). replace (coord B e * b e) with (2 * coord B e * h) in FIN by (rewrite DM; ring).
  clear GY VA. destruct US as [-> | ->]; cbn [Z.eqb Pos.eqb] in FIN.
  - assert (c_pos n e = (m - 2 * coord B e) * h) by nia. assert (0 <= m - 2 * coord B e < 2) by nia. nia.
  - assert (c_pos n e = (m - 2 * coord B e) * h - 1) by nia. assert (1 <= m - 2 * coord B e) by nia. nia.
Qed.

Theorem face_query : exists n y, getNeighbor_ghost g st cell (step e s) = Some n /\ is_cell M b st n y /\ proper n /\
  ((level_diff n = 0 /\ y = T /\ forall z, In z cells -> (rel e s x z <-> z = T)) \/
   (level_diff n = 1 /\ y = parent g T /\ ~ 0 <= c e + s < b e /\ (forall z, In z cells -> (rel e s x z <-> z = parent g T)) /\
      exists m, getNeighbor n (step e s) = Some m /\ is_cell M b st m (disp y e s)) \/
   (level_diff n = -1 /\ ~ 0 <= c e + s < b e /\
      exists l zs, smaller_neighbors true g st n (step e s) = Some l /\ Forall2 (fun k z => is_cell M b st k z /\
                     exists m, getNeighbor k (step e s) = Some m /\ is_cell M b st m (disp z e s)) l zs /\ NoDup zs /\ length zs = (if g3d g then 4 else 2)%nat /\
        (forall z, In z zs -> lev z = lev x + 1) /\ forall z, In z zs <-> In z cells /\ rel e s x z)).
Proof.
  assert (RO : reach_offset g b (step e s)).
  { intros a. destruct (axis_case a e) as [->|Ha]; [rewrite step_on; destruct (EV e FE); destruct US as [-> | ->]; split; [lia|congruence|lia|congruence]|].
    rewrite step_off by exact Ha. pose proof (b_pos g b BO a). split; [lia|reflexivity]. }
  destruct (query g WF M OK b BO PER R i A c (step e s) HR HA IB RO) as (n & y & EQ & IC & PR & CASE).
  change (displaced g b x (step e s)) with T in CASE.
  pose proof (is_cell_in M b _ _ _ IC) as YC.
  exists n, y. split; [exact EQ|]. split; [exact IC|]. split; [exact PR|].
  assert (NB : level_diff n <> 0 -> ~ 0 <= c e + s < b e).
  { intros NZ H. destruct (in_block_case H) as (n' & EQ' & _ & ST). rewrite EQ in EQ'. injection EQ' as <-. apply NZ. unfold level_diff. rewrite ST. reflexivity. }
  destruct CASE as [(LD & ->)|[(LD & ->)|(ST & LY & CY)]].
  - left. split; [exact LD|]. split; [reflexivity|]. apply rel_same, YC.
  - right. left. split; [exact LD|]. split; [reflexivity|]. assert (NB' : ~ 0 <= c e + s < b e) by (apply NB; lia). split; [exact NB'|].
    split; [apply rel_bigger, YC|]. destruct (is_cell_step n (parent g T) s US IC (bigger_pos n NB' IC)) as (m & G & _ & IC' & _). exists m. auto.
  - right. right. assert (LD : level_diff n = -1) by (unfold level_diff; rewrite ST; reflexivity). split; [exact LD|].
    assert (NB' : ~ 0 <= c e + s < b e) by (apply NB; lia). split; [exact NB'|].
    assert (CY' : forall a, coord y a = if flat g a then coord T a else 2 * coord T a + (if axis_eqb e a then facing s else 0)).
    { intros a. rewrite CY. destruct (flat g a) eqn:F; [reflexivity|]. f_equal. destruct (axis_case a e) as [->|Ha].
      - rewrite (proj2 (axis_eqb_spec e e) eq_refl), step_on. destruct (edge_case NB') as (_ & H1 & H2). destruct US as [US1|US1]; [rewrite (H1 US1)|rewrite (H2 US1)]; rewrite US1;
          unfold facing; cbn [Z.eqb Pos.eqb]; destruct (EV e FE); destruct (_ <? 0) eqn:E0; lia.
      - replace (axis_eqb e a) with false by (symmetry; destruct (axis_eqb e a) eqn:E0; [apply axis_eqb_spec in E0; congruence|reflexivity]).
        rewrite step_off by exact Ha. specialize (IB a). destruct (_ <? 0) eqn:E0; lia. }
    assert (PY : parent g y = T).
    { apply oct_ext; [rewrite parent_lev, disp_lev; change (lev x) with (lev A); lia|]. intros a. rewrite parent_coord, CY'. destruct (flat g a); [reflexivity|].
      symmetry. destruct (axis_eqb e a); [unfold facing; destruct (s =? 1); [apply (Z.div_unique _ _ _ 0)|apply (Z.div_unique _ _ _ 1)]|apply (Z.div_unique _ _ _ 0)]; lia. }
    destruct (mapM_exists (get_sibling_cell true g st n) (fun o k => is_cell M b st k (oct_of (lev y) (fun a => coord y a + o a)) /\
       exists m, getNeighbor k (step e s) = Some m /\ is_cell M b st m (disp (oct_of (lev y) (fun a => coord y a + o a)) e s)) (side_offsets e s)) as (l & E & F2).
    { intros o Ho. apply side_offsets_in in Ho; [|exact US|exact FE]. destruct Ho as (O0 & H01).
      assert (Q1 : forall a, 0 <= c_pos n a + o a < b a).
      { pose proof IC as (_ & IQ & B & _ & _ & EY). intros a. pose proof (IQ a) as IQa. destruct (H01 a) as (H1 & H2). destruct (flat g a) eqn:F; [rewrite (H2 eq_refl); lia|].
        destruct (axis_case a e) as [->|Ha]; [rewrite O0; lia|].
        assert (GY : gpos b B (c_pos n) a = 2 * coord T a).
        { transitivity (coord y a); [rewrite <- EY; unfold cell_of; rewrite coord_oct_of; reflexivity|]. rewrite CY', F.
          replace (axis_eqb e a) with false by (symmetry; destruct (axis_eqb e a) eqn:E0; [apply axis_eqb_spec in E0; congruence|reflexivity]). lia. }
        pose proof (even_pos g b EV B (c_pos n) a _ F IQ GY). lia. }
      destruct (step_in g M b BO st n y o IC Q1) as (k & y' & _ & G2 & IC' & LY' & CY2 & _). exists k. split; [exact G2|].
      assert (y' = oct_of (lev y) (fun a => coord y a + o a)) as <-.
      { apply oct_ext; [exact LY'|]. intros a. rewrite coord_oct_of. apply CY2. }
      split; [exact IC'|].
      assert (PP : 0 <= c_pos k e + s < b e).
      { apply (pos_parity k y' (coord T e) IC'). rewrite CY2, O0, CY', FE, (proj2 (axis_eqb_spec e e) eq_refl). lia. }
      destruct (is_cell_step k y' s US IC' PP) as (m & G & _ & IC2 & _). exists m. auto. }
    exists l, (side y e s). split; [exact E|].
    assert (F2' : Forall2 (fun k z => is_cell M b st k z /\ exists m, getNeighbor k (step e s) = Some m /\ is_cell M b st m (disp z e s)) l (side y e s)).
    { unfold side. clear -F2. induction F2; cbn [map]; constructor; auto. }
    split; [exact F2'|]. split; [apply side_NoDup; assumption|]. split; [apply side_length; assumption|].
    split; [intros z HZ; unfold side in HZ; apply in_map_iff in HZ; destruct HZ as (o & <- & _); cbn [oct_of lev]; rewrite LY; reflexivity|].
    intros z. split.
    + intros HZ. destruct (Forall2_in_r _ _ _ z F2' HZ) as (k & Hk & ICZ & _). pose proof (is_cell_in M b _ _ _ ICZ) as ZC. split; [exact ZC|].
      unfold side in HZ. apply in_map_iff in HZ. destruct HZ as (o & EZ & Ho). apply side_offsets_in in Ho; [|exact US|exact FE]. destruct Ho as (O0 & H01).
      assert (LZ : lev z = lev x + 1) by (rewrite <- EZ; cbn [oct_of lev]; rewrite LY; reflexivity).
      apply (rel_smaller y YC PY z ZC).
      apply kid_conv; [exact US|exact FE|apply cells_inside, own_in|apply cells_inside, ZC| |].
      * apply oct_ext; [rewrite parent_lev, disp_lev; lia|]. intros a. rewrite parent_coord, <- EZ, coord_oct_of, CY'. destruct (H01 a) as (H1 & H2).
        destruct (flat g a) eqn:F; [rewrite (H2 eq_refl); lia|]. destruct (axis_eqb e a) eqn:EA.
        -- apply axis_eqb_spec in EA. subst a. rewrite O0. unfold facing. symmetry. destruct (s =? 1); [apply (Z.div_unique _ _ _ 0)|apply (Z.div_unique _ _ _ 1)]; lia.
        -- symmetry. apply (Z.div_unique _ _ _ (o a)); lia.
      * rewrite <- EZ, coord_oct_of, CY', FE, (proj2 (axis_eqb_spec e e) eq_refl), O0. lia.
    + intros (ZC & RZ). apply (rel_smaller y YC PY z ZC) in RZ. destruct (kid x z e s US FE own_in ZC RZ) as (PZ & CZ).
      assert (LZ : lev z = lev x + 1) by (apply (f_equal lev) in PZ; rewrite parent_lev, disp_lev in PZ; lia).
      assert (HZ : forall a, if flat g a then coord z a = coord T a else coord z a = 2 * coord T a + coord z a mod 2).
      { intros a. rewrite <- PZ, parent_coord. destruct (flat g a); [reflexivity|]. apply Z.div_mod. lia. }
      destruct (side_offsets_all e s (fun a => coord z a - coord y a) US FE) as (o & Ho & EO).
      { rewrite CZ, CY', FE, (proj2 (axis_eqb_spec e e) eq_refl). lia. }
      { intros a. specialize (HZ a). rewrite CY'. destruct (flat g a); [split; lia|]. split; [|congruence].
        pose proof (Z.mod_pos_bound (coord z a) 2 ltac:(lia)). destruct (axis_eqb e a) eqn:EA; [apply axis_eqb_spec in EA; subst a; lia|]. lia. }
      unfold side. apply in_map_iff. exists o. split; [|exact Ho]. apply oct_ext; [cbn [oct_of lev]; rewrite LY, LZ; reflexivity|].
      intros a. rewrite coord_oct_of, EO. lia.
Qed.
End Query.
End CF.
