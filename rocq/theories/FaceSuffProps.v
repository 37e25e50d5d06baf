(** C56: the cells exchanged by partial ghost blocks are enough for neighbour queries. *)
From Verif Require Import Base OctreeSpec OctreeGeom OctreeModel FindNeighbors MarkerProofs MarkerLoop MeshSpec GhostProofs GhostExchange InitProofs RefineModel RefineProps
  CommSpec CommModel CommProofs CommProps LookupModel CellModel CellSpec CellProofs CellProps FaceMaskModel FaceMaskProps IndexProps FaceCommProps FaceAxis AdaptProofs HistorySpec OctreeProps.

(** * Masks *)
Lemma face_of_range d : 0 <= face_of d < 6.
Proof. unfold face_of. repeat match goal with |- context [if ?x then _ else _] => destruct x end; lia. Qed.
Lemma fold_mask (cond : offset -> bool) l : forall m0, 0 <= m0 < 64 ->
  let m := fold_left (fun m d => if cond d then Z.lor m (2^(face_of d)) else m) l m0 in
  0 <= m < 64 /\ forall f, 0 <= f -> Z.testbit m f = Z.testbit m0 f || existsb (fun d => cond d && (face_of d =? f)) l.
Proof.
  induction l as [|d l IH]; intros m0 H0; cbn [fold_left existsb].
  - split; [exact H0|]. intros f _. rewrite orb_false_r. reflexivity.
  - assert (H1 : 0 <= (if cond d then Z.lor m0 (2^(face_of d)) else m0) < 64).
    { destruct (cond d); [|exact H0]. pose proof (face_of_range d) as F. split; [apply Z.lor_nonneg; split; [lia|apply Z.pow_nonneg; lia]|].
      destruct (Z.eq_dec (Z.lor m0 (2 ^ face_of d)) 0) as [->|N]; [lia|]. change 64 with (2^6).
      assert (0 <= Z.lor m0 (2^face_of d)) by (apply Z.lor_nonneg; split; [lia|apply Z.pow_nonneg; lia]).
      apply Z.log2_lt_pow2; [lia|]. rewrite Z.log2_lor by (try apply Z.pow_nonneg; lia). rewrite Z.log2_pow2 by lia.
      apply Z.max_lub_lt; [|lia]. destruct (Z.eq_dec m0 0) as [->|]; [reflexivity|]. apply Z.log2_lt_pow2; [lia|]. exact (proj2 H0). }
    destruct (IH _ H1) as (R & T). split; [exact R|]. intros f Hf. rewrite T by exact Hf. destruct (cond d); cbn [andb orb]; [|reflexivity].
    rewrite Z.lor_spec, <- orb_assoc. f_equal. f_equal. rewrite Z.pow2_bits_eqb by apply face_of_range. reflexivity.
Qed.

Section Masks.
Variable g : geom.
Hypothesis WF : wf_geom g.
Variable locs : list (list oct).
Variable J : list Z.
Hypothesis HJ : intervals_ok g locs J.
Hypothesis HT : tiles g (concat locs).
Hypothesis HB : balanced g (concat locs).

(** Bit [f] of the mask of [A] for rank [r] tells that a leaf of [r] is adjacent to [A] in a
    direction recorded as face [f]. *)
Lemma oct_mask_spec A r : In A (concat locs) -> 0 <= oct_mask g (lmax g) J A r < 64 /\
  forall f, 0 <= f -> (Z.testbit (oct_mask g (lmax g) J A r) f = true <->
    exists d B, In d (directions g) /\ face_of d = f /\ owns locs r B /\ adjacent g A d B).
Proof.
  intros HA. unfold oct_mask.
  pose proof (fold_mask (fun d => match dir_ranks g (lmax g) J A d with Some rs => existsb (Z.eqb (Z.of_nat r)) rs | None => false end)
    (filter (dir_inside g A) (directions g)) 0 ltac:(lia)) as (R & T).
  assert (E : forall l m0, fold_left (fun m d => match dir_ranks g (lmax g) J A d with Some rs => if existsb (Z.eqb (Z.of_nat r)) rs then Z.lor m (2 ^ face_of d) else m | None => m end) l m0 =
     fold_left (fun m d => if match dir_ranks g (lmax g) J A d with Some rs => existsb (Z.eqb (Z.of_nat r)) rs | None => false end then Z.lor m (2^(face_of d)) else m) l m0).
  { induction l as [|d l IH]; intros m0; [reflexivity|]. cbn [fold_left]. rewrite IH. destruct (dir_ranks g (lmax g) J A d); reflexivity. }
  rewrite E. split; [exact R|]. intros f Hf. rewrite T by exact Hf. rewrite Z.testbit_0_l. cbn [orb]. rewrite existsb_exists.
  pose proof (tiles_valid g _ A HT HA) as VA. split.
  - intros (d & Hd & H). apply filter_In in Hd. destruct Hd as [Hd Hi]. apply andb_true_iff in H. destruct H as [H1 H2]. apply Z.eqb_eq in H2.
    apply (dir_inside_spec g WF A d VA (directions_spec g d Hd)) in Hi.
    destruct (dir_ranks_spec g WF locs J HJ HT HB A d HA (directions_spec g d Hd) Hi) as (rs & Er & _ & HR). rewrite Er in H1. apply existsb_exists in H1. destruct H1 as (z & Hz & Ez).
    apply Z.eqb_eq in Ez. subst z. apply HR in Hz. destruct Hz as (B & O & AD). exists d, B. auto.
  - intros (d & B & Hd & Ef & O & AD). exists d.
    assert (Hi : inside g A d) by (eapply adjacent_inside; eauto; apply directions_spec, Hd).
    split; [apply filter_In; split; [exact Hd|apply (dir_inside_spec g WF A d VA (directions_spec g d Hd)); exact Hi]|].
    destruct (dir_ranks_spec g WF locs J HJ HT HB A d HA (directions_spec g d Hd) Hi) as (rs & Er & _ & HR). rewrite Er.
    apply andb_true_iff. split; [|lia]. apply existsb_exists. exists (Z.of_nat r). split; [apply HR; eauto|apply Z.eqb_refl].
Qed.

(** Cells of [A] within [gc] layers of the side where a leaf of rank [r] is adjacent are
    exchanged with [r]. *)
Theorem C56_facing_cells A r B d b gc c : In A (concat locs) -> owns locs r B -> direction g d -> adjacent g A d B ->
  (forall a, (d a = -1 -> c a < gc) /\ (d a = 1 -> b a - gc <= c a)) ->
  near_face b gc (oct_mask g (lmax g) J A r) c.
Proof.
  intros HA O Hd AD HC. destruct (oct_mask_spec A r HA) as (_ & T).
  destruct (directions_complete g d Hd) as (d' & Hd' & ED).
  assert (AD' : adjacent g A d' B).
  { destruct AD as (p & q & H1 & H2 & H3 & H4 & H5 & H6). exists p, q. repeat split; auto; try (apply H1 || apply H2).
    - destruct (H5 a) as [K _]. rewrite ED. exact K.
    - destruct (H5 a) as [_ K]. rewrite ED. exact K.
    - intros a. rewrite ED. apply H6. }
  assert (BIT : Z.testbit (oct_mask g (lmax g) J A r) (face_of d') = true) by (apply T; [apply face_of_range|exists d', B; auto]).
  destruct Hd as (HR & (a0 & Ha0) & _). unfold face_of in BIT. rewrite !ED in BIT. unfold near_face.
  pose proof (HR AX). pose proof (HR AY). pose proof (HR AZ). 
  destruct (Z.eqb_spec (d AX) (-1)); [exists AX; left; split; [exact BIT|apply HC; assumption]|].
  destruct (Z.eqb_spec (d AX) 1); [exists AX; right; split; [exact BIT|apply HC; assumption]|].
  destruct (Z.eqb_spec (d AY) (-1)); [exists AY; left; split; [exact BIT|apply HC; assumption]|].
  destruct (Z.eqb_spec (d AY) 1); [exists AY; right; split; [exact BIT|apply HC; assumption]|].
  destruct (Z.eqb_spec (d AZ) (-1)); [exists AZ; left; split; [exact BIT|apply HC; assumption]|].
  exists AZ. right. split; [exact BIT|]. apply HC. destruct a0; lia.
Qed.
End Masks.

(** * Which cells a query can reach *)
Lemma axis_of_designates g b A B c o q s gc a : wf_geom g -> valid g A -> valid g B -> block_ok g b -> in_block b c -> in_block b q ->
  reach_offset g b o -> stays g b B c o -> Z.abs (o a) <= gc -> (s = SMALLER -> 2 * Z.abs (o a) - 1 <= gc) -> A <> B ->
  designates g b B A q (wanted g b B c o) (fun a => c a + o a <? 0) s ->
  axis_link (per g a) (ncell g a (lmax g)) (2^(lmax g - lev A)) (coord A a) (2^(lmax g - lev B)) (coord B a) (b a) gc (q a).
Proof.
  intros WF VA VB OKb IC IQ RO ST HG HS NE D. destruct VA as [LA CA]. destruct VB as [LB CB]. specialize (CA a). specialize (CB a).
  destruct (flat g a) eqn:F.
  - (* flat axes: a single cell *)
    unfold ncell in *. rewrite F in *. assert (EA : coord A a = 0) by lia. assert (EB : coord B a = 0) by lia. rewrite EA, EB.
    apply (link_same_point _ _ _ _ _ _ _ _ _ 0); [lia|apply Z.div_0_l, Z.pow_nonzero; lia..].
  - destruct (OKb a) as [B1 _]. specialize (IC a). specialize (IQ a). specialize (ST a). destruct (RO a) as [R1 _].
    assert (N : ncell g a (lmax g) = ncell g a (lev B) * 2^(lmax g - lev B)).
    { pose proof (ncell_split g a (lev B) (lmax g - lev B) ltac:(lia) ltac:(lia)) as E. rewrite F in E. replace (lev B + (lmax g - lev B)) with (lmax g) in E by ring. exact E. }
    assert (W : 0 < 2^(lmax g - lev B)) by (apply Z.pow_pos_nonneg; lia).
    assert (NC : 0 < ncell g a (lev B)) by (apply ncell_pos; [exact WF|lia]).
    assert (RB : Z.abs (o a) <= b a) by lia.
    unfold wanted, ncells, gpos in *. rewrite N. destruct s; cbn [designates] in D; try contradiction.
    + destruct D as [-> _]. congruence.
    + destruct D as [EL E]. rewrite EL. apply (link_same (per g a) _ (ncell g a (lev B)) (b a) (coord B a) (c a) (o a) gc); auto. apply (E a).
    + destruct D as [EL E]. rewrite EL. replace (lmax g - (lev B + 1)) with (lmax g - lev B - 1) by ring.
      apply (link_smaller (per g a) _ (ncell g a (lev B)) (b a) (coord B a) (c a) (o a) gc); auto.
      * replace (lmax g - lev B) with (1 + (lmax g - lev B - 1)) at 1 by ring. rewrite Z.pow_add_r by lia. reflexivity.
      * specialize (E a). rewrite F in E. exact E.
    + destruct D as [EL E]. rewrite EL. replace (lmax g - (lev B - 1)) with (1 + (lmax g - lev B)) by ring. rewrite Z.pow_add_r by lia. change (2^1) with 2.
      apply (link_bigger (per g a) _ (ncell g a (lev B)) (b a) (coord B a) (c a) (o a) gc); auto.
      * exists (ncell g a (lev B - 1)). pose proof (ncell_split g a (lev B - 1) 1 ltac:(lia) ltac:(lia)) as E'. rewrite F in E'. replace (lev B - 1 + 1) with (lev B) in E' by ring. lia.
      * specialize (E a). unfold half in E. rewrite F in E. exact E.
Qed.

(** The first keys of the ranks, which the construction of the ghosts uses to find owners. *)
Definition mesh_heads (g : geom) (M : mesh) : list Z := map (head_key g) (map loc M) ++ [morton_max64].

(** A neighbour query of rank [r] that reaches at most [gc] cells, counted in the smaller
    cells, and finds a cell of another octant, finds one that is exchanged with [r] when the
    octant belongs to another rank. *)
Theorem C56_needed_cells g M r R i B b gc c o n A : wf_geom g -> mesh_ok g M ->
  nth_error M r = Some R -> nth_error (loc R) i = Some B -> block_ok g b -> in_block b c ->
  reach_offset g b o -> stays g b B c o -> (forall a, Z.abs (o a) <= gc) ->
  getNeighbor_ghost g (loc R ++ gho R) (mkCell i c b LOCAL_TO_BLOCK) o = Some n ->
  nth_error (loc R ++ gho R) (c_oct n) = Some A -> A <> B ->
  (c_status n = SMALLER -> forall a, 2 * Z.abs (o a) - 1 <= gc) ->
  near_face b gc (oct_mask g (lmax g) (mesh_heads g M) A r) (c_pos n).
Proof.
  intros WF OK HR HB OKb IC RO ST HG HN HA NE HS.
  destruct (C25_neighbour g M R i B b c o WF OK (nth_error_In _ _ HR) HB OKb IC RO ST) as (n' & A' & E1 & E2 & E3 & E4 & E5 & E6).
  rewrite HN in E1. injection E1 as <-. rewrite HA in E3. injection E3 as <-.
  pose proof (ok_tiles g M OK) as T. pose proof (tiles_valid g _ A T E4) as VA.
  assert (INB : In B (leaves M)) by (unfold leaves; apply in_concat; exists (loc R); split; [apply in_map, (nth_error_In _ _ HR)|apply (nth_error_In _ _ HB)]).
  pose proof (tiles_valid g _ B T INB) as VB.
  assert (AX' : forall a, axis_link (per g a) (ncell g a (lmax g)) (2^(lmax g - lev A)) (coord A a) (2^(lmax g - lev B)) (coord B a) (b a) gc (c_pos n a)).
  { intros a. apply (axis_of_designates g b A B c o (c_pos n) (c_status n) gc a); auto. }
  destruct (AX' AX) as (px & qx & dx & X1 & X2 & X3 & X4 & X5 & X6 & X7 & X8 & X9 & X10).
  destruct (AX' AY) as (py & qy & dy & Y1 & Y2 & Y3 & Y4 & Y5 & Y6 & Y7 & Y8 & Y9 & Y10).
  destruct (AX' AZ) as (pz & qz & dz & Z1 & Z2 & Z3 & Z4 & Z5 & Z6 & Z7 & Z8 & Z9 & Z10). clear AX'.
  set (dz' := if flat g AZ then 0 else dz).
  assert (ZF : flat g AZ = true -> pz = 0 /\ qz = 0). { intros F. unfold ncell in Z1, Z2. rewrite F in Z1, Z2. lia. }
  set (d := fun a => match a with AX => dx | AY => dy | AZ => dz' end).
  set (p := mkPt px py pz). set (q := mkPt qx qy qz).
  assert (IP : in_dom g p) by (intros []; assumption). assert (IQ : in_dom g q) by (intros []; assumption).
  assert (CP : covers g A p) by (intros []; assumption). assert (CQ : covers g B q) by (intros []; assumption).
  assert (MV : move g d p q).
  { intros []; cbn [p q d pc ptx pty ptz]; auto. unfold dz'. destruct (flat g AZ) eqn:F; [|auto]. destruct (ZF eq_refl) as [-> ->]. unfold ncell. rewrite F. split; [right; lia|reflexivity]. }
  apply (C56_facing_cells g WF (map loc M) (mesh_heads g M)) with (B := B) (d := d).
  - apply heads_ok; [exact WF|exact T|exact (ok_sorted g M OK)|]. intros l Hl. apply in_map_iff in Hl. destruct Hl as (R' & <- & H). exact (ok_nonempty g M OK R' H).
  - exact T.
  - exact (ok_balanced g M OK).
  - exact E4.
  - exists (loc R). rewrite nth_error_map, HR. split; [reflexivity|exact (nth_error_In _ _ HB)].
  - split; [|split].
    + intros []; cbn [d]; auto. unfold dz'. destruct (flat g AZ); lia.
    + destruct (Z.eq_dec dx 0) as [->|NX]; [|exists AX; exact NX]. destruct (Z.eq_dec dy 0) as [->|NY]; [|exists AY; exact NY].
      destruct (Z.eq_dec dz' 0) as [EZ|NZ]; [|exists AZ; exact NZ]. exfalso. apply NE. apply (tiles_unique g (leaves M) p); auto.
      replace p with q; [exact CQ|]. unfold p, q. f_equal.
      * rewrite X6, Z.add_0_r. apply Z.mod_small, X1.
      * rewrite Y6, Z.add_0_r. apply Z.mod_small, Y1.
      * unfold dz' in EZ. destruct (flat g AZ) eqn:F; [destruct (ZF eq_refl); congruence|]. rewrite Z6, EZ, Z.add_0_r. apply Z.mod_small, Z1.
    + intros [] F; try discriminate F. cbn [d]. unfold dz'. rewrite F. reflexivity.
  - exists p, q. repeat (split; [assumption|]). intros []; cbn [p d pc ptx pty ptz]; auto. unfold dz'. destruct (flat g AZ); [intros H; destruct (H eq_refl)|exact Z8].
  - intros []; cbn [d]; auto. unfold dz'. destruct (flat g AZ); [split; lia|auto].
Qed.

(** * Reading exchanged data *)
Definition mask_at (g : geom) (M : mesh) (K : Z) (J : list Z) (r : nat) (so : nat * nat) : Z :=
  match nth_error M (fst so) with
  | Some Q => match nth_error (loc Q) (snd so) with Some A => oct_mask g K J A r | None => 0 end
  | None => 0
  end.
Lemma entries_masked g M K J s S r : nth_error M s = Some S -> (r < length (snds S))%nat ->
  map (pair s) (entries (map (masked_sends g K J) M) s r) =
  map (fun so : nat * nat => (fst so, (snd so, mask_at g M K J r so))) (map (pair s) (nth r (snds S) [])).
Proof.
  intros HS Hr. unfold entries. replace (nth s (map (masked_sends g K J) M) []) with (masked_sends g K J S) by (symmetry; apply nth_error_nth; rewrite nth_error_map, HS; reflexivity).
  assert (E : nth_error (snds S) r = Some (nth r (snds S) [])) by (apply nth_error_nth'; exact Hr).
  erewrite nth_error_nth.
  2:{ unfold masked_sends. rewrite nth_error_map. rewrite (proj2 (nth_error_combine (seq 0 (length (snds S))) (snds S) r r (nth r (snds S) []))); [reflexivity|].
      split; [apply seq_nth'; exact Hr|exact E]. }
  rewrite !map_map. apply map_ext. intros o. unfold mask_at. cbn [fst snd]. rewrite HS. reflexivity.
Qed.
Lemma morigins_masked g M K J r : mesh_ok g M -> (r < length M)%nat ->
  morigins (map (masked_sends g K J) M) r = map (fun so => (fst so, (snd so, mask_at g M K J r so))) (origins (map snds M) r).
Proof.
  intros OK Hr. unfold morigins, origins. rewrite flat_map_concat_map, concat_map. f_equal. rewrite map_map, !map_length.
  apply nth_error_ext'. intros s. rewrite !nth_error_map. destruct (nth_error M s) as [S|] eqn:ES.
  - assert (Hs : (s < length M)%nat) by (apply nth_error_Some; congruence). rewrite seq_nth' by exact Hs.
    rewrite (proj2 (nth_error_combine (seq 0 (length M)) (map snds M) s s (snds S))).
    2:{ split; [apply seq_nth'; exact Hs|rewrite nth_error_map, ES; reflexivity]. }
    cbn [option_map fst snd]. f_equal. apply entries_masked; [exact ES|]. rewrite (ok_snds g M OK S (nth_error_In _ _ ES)). exact Hr.
  - assert (Hs : (length M <= s)%nat) by (apply nth_error_None; exact ES).
    replace (nth_error (seq 0 (length M)) s) with (@None nat) by (symmetry; apply nth_error_None; rewrite seq_length; exact Hs).
    replace (nth_error (combine (seq 0 (length M)) (map snds M)) s) with (@None (nat * list (list nat))); [reflexivity|].
    symmetry. apply nth_error_None. rewrite combine_length, seq_length, map_length. lia.
Qed.
Lemma masked_ok {X} g M n (Us : list (list (list X))) : wf_geom g -> mesh_ok g M -> data_ok n M Us ->
  masked_maps_ok n (map (masked_sends g (lmax g) (mesh_heads g M)) M) Us.
Proof.
  intros WF OK HD. apply Forall2_nth in HD. destruct HD as [HL HD]. split; [rewrite map_length; auto|].
  intros s L U HLs HU. rewrite nth_error_map in HLs. destruct (nth_error M s) as [S|] eqn:ES; [|discriminate]. injection HLs as <-.
  destruct (HD s S U ES HU) as [H1 H2].
  split; [unfold masked_sends; rewrite !map_length, combine_length, seq_length, Nat.min_id; apply (ok_snds g M OK), (nth_error_In _ _ ES)|]. split; [exact H2|].
  intros l o m Hl Ho. unfold masked_sends in Hl. apply in_map_iff in Hl. destruct Hl as ([x idx] & <- & Hx). cbn [fst snd] in Ho.
  apply in_map_iff in Ho. destruct Ho as (o' & E & Ho). injection E as -> <-.
  apply In_nth_error in Hx. destruct Hx as [k Hk]. apply nth_error_combine in Hk. destruct Hk as [Hk1 Hk2].
  pose proof (mesh_range g M OK s S k idx o ES Hk2 Ho) as RG. split; [lia|].
  destruct (nth_error (loc S) o) as [A|] eqn:EA; [|lia].
  assert (IA : In A (concat (map loc M))) by (apply in_concat; exists (loc S); split; [apply in_map, (nth_error_In _ _ ES)|apply (nth_error_In _ _ EA)]).
  apply (oct_mask_spec g WF (map loc M) (mesh_heads g M)); auto.
  - apply heads_ok; [exact WF|exact (ok_tiles g M OK)|exact (ok_sorted g M OK)|]. intros l0 Hl0. apply in_map_iff in Hl0. destruct Hl0 as (R' & <- & H). exact (ok_nonempty g M OK R' H).
  - exact (ok_tiles g M OK).
  - exact (ok_balanced g M OK).
Qed.

(** After an exchange, a neighbour query within [gc] cells reads, whatever the ranks that
    hold the two octants, the value that the owner of the cell found holds. *)
Theorem C56_read {X} (x0 : X) g M b gc nv (Us : list (list (list X))) schI sch r R (G : list (list X)) :
  wf_geom g -> mesh_ok g M -> block_ok g b -> small_block b -> 0 <= gc -> gc <= b AX -> gc <= b AY ->
  data_ok (values_per_octant b nv) M Us -> nth_error M r = Some R -> reorders schI -> reorders sch ->
  length G = length (gho R) -> (forall row, In row G -> length row = values_per_octant b nv) ->
  exists C G', mapM (pinit schI b gc (map gmap_of (map (masked_sends g (lmax g) (mesh_heads g M)) M))) (seq 0 (length M)) = Some C /\
    pexchange sch b nv C r Us G = Some G' /\
    forall i B c o n A v, nth_error (loc R) i = Some B -> in_block b c ->
      reach_offset g b o -> stays g b B c o -> (forall a, Z.abs (o a) <= gc) -> (v < nv)%nat ->
      getNeighbor_ghost g (loc R ++ gho R) (mkCell i c b LOCAL_TO_BLOCK) o = Some n ->
      nth_error (loc R ++ gho R) (c_oct n) = Some A ->
      (c_status n = SMALLER -> forall a, 2 * Z.abs (o a) - 1 <= gc) ->
      exists s S k x, nth_error M s = Some S /\ nth_error (loc S) k = Some A /\
        get_row (nth s Us []) k (value_index b (c_pos n) v) = Some x /\
        get_row (nth r Us [] ++ G') (c_oct n) (value_index b (c_pos n) v) = Some x.
Proof.
  intros WF OK OKb SB G0 GX GY HD HR RI RS LG RG.
  assert (Hr : (r < length M)%nat) by (apply nth_error_Some; congruence).
  pose proof (mesh_origins g M OK r R HR) as FO. pose proof (Forall2_len _ _ _ FO) as LO.
  destruct (C22_exchange x0 b gc nv (map (masked_sends g (lmax g) (mesh_heads g M)) M) SB G0 GX GY Us schI sch r G) as (C & G' & E1 & E2 & E3 & E4); auto.
  - apply masked_ok; assumption.
  - rewrite map_length. exact Hr.
  - rewrite (morigins_masked g M _ _ r OK Hr), map_length. congruence.
  - rewrite map_length in E1. exists C, G'. split; [exact E1|]. split; [exact E2|].
    intros i B c o n A v HB IC RO ST HG Hv HN HA HS.
    destruct (C25_neighbour g M R i B b c o WF OK (nth_error_In _ _ HR) HB OKb IC RO ST) as (n' & A' & F1 & F2 & F3 & F4 & F5 & F6).
    rewrite HN in F1. injection F1 as <-. rewrite HA in F3. injection F3 as <-.
    destruct (proj2 (proj1 (Forall2_nth _ _ _) HD) r R (nth r Us []) HR) as [LU RU].
    { apply nth_error_nth'. apply Forall2_len in HD. lia. }
    destruct (Nat.lt_ge_cases (c_oct n) (length (loc R))) as [LT|GE].
    + (* an octant of rank r itself *)
      rewrite nth_error_app1 in HA by exact LT. exists r, R, (c_oct n).
      assert (EX : nth_error (nth r Us []) (c_oct n) <> None) by (apply nth_error_Some; lia).
      destruct (nth_error (nth r Us []) (c_oct n)) as [row|] eqn:ER; [|congruence].
      assert (EV : nth_error row (value_index b (c_pos n) v) <> None) by (apply nth_error_Some; rewrite (RU row (nth_error_In _ _ ER)); apply value_index_lt; assumption).
      destruct (nth_error row (value_index b (c_pos n) v)) as [x|] eqn:EV'; [|congruence].
      exists x. split; [exact HR|]. split; [exact HA|]. unfold get_row. rewrite nth_error_app1 by lia. rewrite ER. auto.
    + (* a ghost *)
      rewrite nth_error_app2 in HA by exact GE. set (k := (c_oct n - length (loc R))%nat) in *.
      destruct (nth_error (origins (map snds M) r) k) as [[s o']|] eqn:EO.
      2:{ apply nth_error_None in EO. assert (nth_error (gho R) k <> None) by congruence. apply nth_error_Some in H. lia. }
      destruct (proj2 (proj1 (Forall2_nth _ _ _) FO) k (s, o') A EO HA) as (S & HS1 & HS2). cbn [fst snd] in HS1, HS2.
      destruct (E4 k s o' (mask_at g M (lmax g) (mesh_heads g M) r (s, o')) (c_pos n) v) as (x & X1 & X2 & _); [|exact F5|exact Hv|].
      { rewrite (morigins_masked g M _ _ r OK Hr), nth_error_map, EO. reflexivity. }
      assert (NE : A <> B).
      { intros ->. destruct (ok_ghosts g M OK R (nth_error_In _ _ HR)) as [_ Q]. apply nth_error_In in HA. apply Q in HA. destruct HA as (_ & N & _). apply N, (nth_error_In _ _ HB). }
      exists s, S, o', x. split; [exact HS1|]. split; [exact HS2|]. split.
      * apply X2. unfold mask_at. cbn [fst snd]. rewrite HS1, HS2.
        apply (C56_needed_cells g M r R i B b gc c o n A); auto. rewrite nth_error_app2 by exact GE. exact HA.
      * unfold get_row in *. rewrite nth_error_app2 by lia. rewrite LU. exact X1.
Qed.

(** * The release assertion is too weak *)

(** The communicator accepts blocks as soon as [gc] fits along x or along y. The property
    would be: every accepted configuration leads to tables that hold the cells near the
    faces of each mask. *)
Theorem C57_refuted : ~ (forall b gc, small_block b -> 0 <= gc -> gc <= b AX \/ gc <= b AY ->
  exists t, facemask_table b gc = Some t /\ forall m c, 0 <= m < 64 -> in_block b c ->
    (In (cell_number b c) (row_of_mask t m) <-> near_face b gc m c)).
Proof.
  intros H. destruct (H (mkoff 2 4 1) 3) as (t & E & _).
  - split; [intros []; cbn; lia|cbn; lia].
  - lia.
  - right. cbn. lia.
  - revert E. replace (facemask_table (mkoff 2 4 1) 3) with (@None (list (list Z))) by (vm_compute; reflexivity). discriminate.
Qed.
(** What holds: a ghost count larger than the block along x and along y is rejected. Missing:
    the same when it is larger along only one of them. *)
Theorem C57_rejected_partial schI b gc GM me : b AX < gc -> b AY < gc -> pinit schI b gc GM me = None.
Proof.
  intros X Y. unfold pinit, facemask_table. replace (gc <=? b AX) with false by lia. replace (gc <=? b AY) with false by lia. reflexivity.
Qed.
Example C57_rejected_example : pinit (fun l => l) (mkoff 2 2 2) 3 [] 0 = None.
Proof. apply C57_rejected_partial; cbn; lia. Qed.

(** * Examples *)
Example C22_table_example : small_block (mkoff 4 4 2) /\
  mask_cells (mkoff 4 4 2) 1 5 = Some [0; 4; 8; 12; 16; 20; 24; 28; 1; 2; 3; 17; 18; 19] /\
  near_face (mkoff 4 4 2) 1 5 (mkoff 0 3 1) /\ ~ near_face (mkoff 4 4 2) 1 5 (mkoff 1 1 1).
Proof.
  split; [split; [intros []; cbn; lia|cbn; lia]|]. split; [vm_compute; reflexivity|]. split.
  - exists AX. left. vm_compute. auto.
  - intros ([] & [[H K]|[H K]]); vm_compute in H, K; congruence.
Qed.

Definition ex_fb : axis -> Z := mkoff 4 4 4.
Definition ex_fval (A : oct) (c : axis -> Z) : Z := (((lev A * 100 + coord A AX) * 100 + coord A AY) * 100 + coord A AZ) * 64 + cell_number ex_fb c.
Definition ex_fcells : list (axis -> Z) := flat_map (fun z => flat_map (fun y => map (fun x => mkoff x y z) [0; 1; 2; 3]) [0; 1; 2; 3]) [0; 1; 2; 3].
Definition ex_frow (A : oct) : list Z := map (ex_fval A) ex_fcells.
Definition ex_fUs : list (list (list Z)) := map (fun R => map ex_frow (loc R)) ex_M2.
Definition ex_fJ : list Z := mesh_heads ex_g ex_M2.
Definition ex_fR : rank := hd (mkRank [] [] [] 0 0) ex_M2.
(** The hypotheses of C56_read hold for two ranks with 5 and 6 octants of two levels. *)
Example C56_example_setup : mesh_ok ex_g ex_M2 /\ block_ok ex_g ex_fb /\ small_block ex_fb /\ data_ok (values_per_octant ex_fb 1) ex_M2 ex_fUs /\
  nth_error ex_M2 0 = Some ex_fR.
Proof.
  split; [exact ex_ok2|]. split; [intros []; cbn; split; try lia; discriminate|]. split; [split; [intros []; cbn; lia|cbn; lia]|]. split; [|reflexivity].
  unfold data_ok, ex_fUs. apply Forall2_nth. split; [rewrite map_length; reflexivity|]. intros i R U HR HU. rewrite nth_error_map, HR in HU. injection HU as <-.
  split; [apply map_length|]. intros row Hrow. apply in_map_iff in Hrow. destruct Hrow as (A & <- & _). unfold ex_frow. rewrite map_length. reflexivity.
Qed.
(** Every query one cell away from octant 0 of rank 0 that stays in the domain reads the value of
    the cell it designates, and some of them read ghosts. *)
Definition ex_fghost : list (list Z) :=
  match mapM (pinit (fun l => l) ex_fb 1 (map gmap_of (map (masked_sends ex_g (lmax ex_g) ex_fJ) ex_M2))) (seq 0 2) with
  | Some C => match pexchange (fun l => l) ex_fb 1 C 0 ex_fUs (map (fun _ => repeat (-1) 64) (gho ex_fR)) with Some G => G | None => [] end
  | None => []
  end.
Example C56_example_read :
  let st := loc ex_fR ++ gho ex_fR in
  let data := nth 0 ex_fUs [] ++ ex_fghost in
  let query i c o := match getNeighbor_ghost ex_g st (mkCell i c ex_fb LOCAL_TO_BLOCK) o with
                     | Some n => match nth_error st (c_oct n), get_row data (c_oct n) (value_index ex_fb (c_pos n) 0) with
                                 | Some A, Some x => Some (x =? ex_fval A (c_pos n), (5 <=? c_oct n)%nat)
                                 | _, _ => None end
                     | None => None end in
  map (fun ic => query (fst ic) (snd ic) (mkoff 1 0 0)) [(0%nat, mkoff 3 0 0); (1%nat, mkoff 3 1 2); (4%nat, mkoff 3 3 3)] =
    [Some (true, false); Some (true, true); Some (true, true)] /\
  existsb (existsb (Z.eqb (-1))) ex_fghost = true.
Proof. vm_compute. auto. Qed.
Print Assumptions C22_cells.
Print Assumptions C22_exchange.
Print Assumptions C22_reduce.
Print Assumptions C57_refuted.
Print Assumptions C57_rejected_partial.
Print Assumptions C56_facing_cells.
Print Assumptions C56_needed_cells.
Print Assumptions C56_read.
