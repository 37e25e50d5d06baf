(** Geometric lemmas about the octree vocabulary. *)
From Verif Require Import Base MortonModel MortonProofs OctreeSpec.

Lemma pow2_pos k : 0 <= k -> 0 < 2^k.
Proof. intros; apply Z.pow_pos_nonneg; lia. Qed.

Lemma coord_oct_of l f a : coord (oct_of l f) a = f a.
Proof. destruct a; reflexivity. Qed.
Lemma pc_pt_of f a : pc (pt_of f) a = f a.
Proof. destruct a; reflexivity. Qed.
Lemma oct_ext o o' : lev o = lev o' -> (forall a, coord o a = coord o' a) -> o = o'.
Proof.
  intros Hl Hc. destruct o, o'. pose proof (Hc AX). pose proof (Hc AY). pose proof (Hc AZ).
  cbn in *. subst. reflexivity.
Qed.
Lemma oct_eqb_eq a b : oct_eqb a b = true <-> a = b.
Proof.
  unfold oct_eqb. split.
  - intros H. destruct a, b. cbn in *.
    apply andb_true_iff in H; destruct H as [H H4]. apply andb_true_iff in H; destruct H as [H H3].
    apply andb_true_iff in H; destruct H as [H1 H2]. f_equal; lia.
  - intros ->. rewrite !Z.eqb_refl. reflexivity.
Qed.
Lemma oct_eq_dec (a b : oct) : {a = b} + {a <> b}.
Proof.
  destruct (oct_eqb a b) eqn:E; [left|right].
  - apply oct_eqb_eq; exact E.
  - intros H. apply oct_eqb_eq in H. congruence.
Defined.

Section Geom.
Variable g : geom.
Hypothesis WF : wf_geom g.

Lemma wf_lmin0 : 0 <= lmin g. Proof. apply WF. Qed.
Lemma wf_minmax : lmin g <= lmax g. Proof. apply WF. Qed.
Lemma wf_max20 : lmax g <= 20. Proof. apply WF. Qed.
Lemma wf_gs a : 1 <= gsize g a <= 2^(lmin g). Proof. apply WF. Qed.

Lemma ncell_pos a l : lmin g <= l -> 0 < ncell g a l.
Proof.
  intros H. unfold ncell. destruct (flat g a); [lia|].
  pose proof (wf_gs a). pose proof (pow2_pos (l - lmin g) ltac:(lia)). nia.
Qed.

Lemma ncell_le a l : lmin g <= l -> ncell g a l <= 2^l.
Proof.
  intros H. unfold ncell. pose proof wf_lmin0. destruct (flat g a).
  - pose proof (pow2_pos l ltac:(lia)). lia.
  - pose proof (wf_gs a). pose proof (pow2_pos (l - lmin g) ltac:(lia)).
    replace l with (lmin g + (l - lmin g)) at 2 by lia. rewrite Z.pow_add_r by lia. nia.
Qed.

Lemma ncell_21 a l : lmin g <= l <= 21 -> ncell g a l <= 2^21.
Proof.
  intros H. pose proof wf_lmin0. transitivity (2^l); [apply ncell_le; lia|].
  apply Z.pow_le_mono_r; lia.
Qed.

Lemma ncell_split a l k : lmin g <= l -> 0 <= k ->
  ncell g a (l + k) = if flat g a then 1 else ncell g a l * 2^k.
Proof.
  intros H Hk. unfold ncell. destruct (flat g a); [reflexivity|].
  replace (l + k - lmin g) with ((l - lmin g) + k) by lia. rewrite Z.pow_add_r by lia. lia.
Qed.

(** Width of an octant of level [l] along axis [a], in unit cells. *)
Definition width (a : axis) (l : Z) : Z := if flat g a then 1 else 2^(lmax g - l).

Lemma width_pos a l : l <= lmax g -> 0 < width a l.
Proof. intros H. unfold width. destruct (flat g a); [lia|]. apply pow2_pos; lia. Qed.

Lemma ncell_max a l : lmin g <= l <= lmax g -> ncell g a (lmax g) = ncell g a l * width a l.
Proof.
  intros H. replace (lmax g) with (l + (lmax g - l)) at 1 by lia. rewrite ncell_split by lia.
  unfold width, ncell. destruct (flat g a); lia.
Qed.

(** On the domain, dividing by [2^(lmax - l)] or by the width is the same. *)
Lemma div_width a l x : lmin g <= l <= lmax g -> 0 <= x < ncell g a (lmax g) ->
  x / 2^(lmax g - l) = x / width a l.
Proof.
  intros Hl Hx. unfold width, ncell in *. destruct (flat g a); [|reflexivity].
  replace x with 0 by lia. rewrite !Z.div_0_l; [reflexivity|lia|].
  pose proof (pow2_pos (lmax g - l)). lia.
Qed.

Lemma div_range a l x : lmin g <= l <= lmax g -> 0 <= x < ncell g a (lmax g) ->
  0 <= x / 2^(lmax g - l) < ncell g a l.
Proof.
  intros Hl Hx. rewrite (div_width a) by assumption.
  pose proof (width_pos a l ltac:(lia)). rewrite (ncell_max a l) in Hx by assumption.
  split; [apply Z.div_pos; lia|]. apply Z.div_lt_upper_bound; lia.
Qed.

Lemma div_nest x l l' : l <= l' <= lmax g -> 
  (x / 2^(lmax g - l')) / 2^(l' - l) = x / 2^(lmax g - l).
Proof.
  intros H. rewrite Z.div_div by (try apply Z.neq_sym, Z.lt_neq; try apply pow2_pos; lia).
  rewrite <- Z.pow_add_r by lia. do 2 f_equal. lia.
Qed.

(** The octant of level [l] that contains point [p]. *)
Definition cell_at (l : Z) (p : pt) : oct := oct_of l (fun a => pc p a / 2^(lmax g - l)).

Lemma cell_at_covers l p : covers g (cell_at l p) p.
Proof. intros a. unfold cell_at. rewrite coord_oct_of. reflexivity. Qed.
Lemma cell_at_valid l p : lmin g <= l <= lmax g -> in_dom g p -> valid g (cell_at l p).
Proof.
  intros Hl Hp. split; [exact Hl|]. intros a. unfold cell_at. rewrite coord_oct_of.
  cbn [lev oct_of]. apply div_range; auto.
Qed.
Lemma covers_cell_at o p : covers g o p -> o = cell_at (lev o) p.
Proof.
  intros H. apply oct_ext; [reflexivity|]. intros a. unfold cell_at. rewrite coord_oct_of. symmetry. apply H.
Qed.
Lemma covers_same_level o o' p : covers g o p -> covers g o' p -> lev o = lev o' -> o = o'.
Proof.
  intros H H' E. rewrite (covers_cell_at o p H), (covers_cell_at o' p H'), E. reflexivity.
Qed.

(** Corner (first unit cell) of an octant. *)
Definition corner (o : oct) : pt := pt_of (fun a => coord o a * width a (lev o)).
Lemma corner_in_dom o : valid g o -> in_dom g (corner o).
Proof.
  intros [Hl Hc] a. unfold corner. rewrite pc_pt_of. specialize (Hc a).
  rewrite (ncell_max a (lev o)) by lia. pose proof (width_pos a (lev o) ltac:(lia)). nia.
Qed.
Lemma covers_iff o p : valid g o -> in_dom g p ->
  (covers g o p <-> forall a, coord o a * width a (lev o) <= pc p a < coord o a * width a (lev o) + width a (lev o)).
Proof.
  intros [Hl Hc] Hp. split; intros H a; specialize (H a); pose proof (width_pos a (lev o) ltac:(lia)) as Hw.
  - rewrite (div_width a) in H by auto. 
    pose proof (Z.div_mod (pc p a) (width a (lev o)) ltac:(lia)).
    pose proof (Z.mod_pos_bound (pc p a) (width a (lev o)) ltac:(lia)). nia.
  - rewrite (div_width a) by auto. symmetry.
    apply (Z.div_unique_pos _ _ _ (pc p a - coord o a * width a (lev o))); lia.
Qed.
Lemma corner_covers o : valid g o -> covers g o (corner o).
Proof.
  intros Hv. apply covers_iff; [exact Hv|apply corner_in_dom; exact Hv|].
  intros a. unfold corner. rewrite pc_pt_of. pose proof (width_pos a (lev o) ltac:(apply Hv)). lia.
Qed.

(** Nesting: if two octants share a point, the finer one lies in the coarser one. *)
Lemma covers_coarser o o' p : covers g o p -> covers g o' p -> lev o <= lev o' <= lmax g ->
  forall a, coord o a = coord o' a / 2^(lev o' - lev o).
Proof.
  intros H H' Hl a. rewrite <- (H a), <- (H' a). symmetry. apply div_nest. lia.
Qed.
Lemma covers_nest o o' p q : lev o <= lev o' <= lmax g ->
  covers g o p -> covers g o' p -> covers g o' q -> covers g o q.
Proof.
  intros Hl Hp Hp' Hq a. rewrite (covers_coarser o o' p Hp Hp' Hl a). rewrite <- (Hq a).
  symmetry. apply div_nest. lia.
Qed.

(** * Tilings *)
Lemma tiles_valid L o : tiles g L -> In o L -> valid g o.
Proof. intros [H _]; apply H. Qed.
Lemma tiles_leaf L p : tiles g L -> in_dom g p -> exists o, In o L /\ covers g o p.
Proof. intros [_ H] Hp. destruct (H p Hp) as (i & o & Hi & Hc & _). exists o. split; auto. eapply nth_error_In; eauto. Qed.
Lemma tiles_unique L p o o' : tiles g L -> in_dom g p -> In o L -> In o' L ->
  covers g o p -> covers g o' p -> o = o'.
Proof.
  intros [_ H] Hp Ho Ho' Hc Hc'. destruct (H p Hp) as (i & o'' & Hi & Hc'' & Hu).
  apply In_nth_error in Ho. destruct Ho as [j Hj]. apply In_nth_error in Ho'. destruct Ho' as [j' Hj'].
  pose proof (Hu _ _ Hj Hc). pose proof (Hu _ _ Hj' Hc'). subst. congruence.
Qed.
Lemma tiles_NoDup L : tiles g L -> NoDup L.
Proof.
  intros HT. apply NoDup_nth_error. intros i j Hi E.
  destruct (nth_error L i) as [o|] eqn:Ei; [|apply nth_error_None in Ei; lia].
  pose proof (tiles_valid L o HT (nth_error_In _ _ Ei)) as Hv.
  pose proof (corner_in_dom o Hv) as Hd. pose proof (corner_covers o Hv) as Hc.
  destruct HT as [_ H]. destruct (H _ Hd) as (k & o' & Hk & _ & Hu).
  rewrite (Hu i o Ei Hc), (Hu j o (eq_sym E) Hc). reflexivity.
Qed.
Lemma tiles_intro L : NoDup L -> (forall o, In o L -> valid g o) ->
  (forall p, in_dom g p -> exists o, In o L /\ covers g o p) ->
  (forall p o o', in_dom g p -> In o L -> In o' L -> covers g o p -> covers g o' p -> o = o') ->
  tiles g L.
Proof.
  intros HN HV HE HU. split; [exact HV|]. intros p Hp. destruct (HE p Hp) as (o & Ho & Hc).
  apply In_nth_error in Ho as Ho'. destruct Ho' as [i Hi]. exists i, o. split; [exact Hi|]. split; [exact Hc|].
  intros j o' Hj Hc'. assert (o' = o) by (apply (HU p); auto; eapply nth_error_In; eauto). subst o'.
  apply (proj1 (NoDup_nth_error L) HN); [apply nth_error_Some; congruence|congruence].
Qed.

(** * Keys *)
Lemma interleave_morton3 n : forall x y z, 0 <= x < 2^(Z.of_nat n) -> 0 <= y < 2^(Z.of_nat n) -> 0 <= z < 2^(Z.of_nat n) ->
  (n <= 21)%nat -> interleave n x y z = morton3 x y z.
Proof.
  induction n as [|n IH]; intros x y z Hx Hy Hz Hn.
  - cbn in Hx, Hy, Hz. replace x with 0 by lia. replace y with 0 by lia. replace z with 0 by lia. reflexivity.
  - cbn [interleave].
    assert (Hb : 2^(Z.of_nat (S n)) <= 2^21) by (apply Z.pow_le_mono_r; lia).
    replace (Z.of_nat (S n)) with (1 + Z.of_nat n) in Hx, Hy, Hz by lia. rewrite Z.pow_add_r in Hx, Hy, Hz by lia.
    replace (Z.of_nat (S n)) with (1 + Z.of_nat n) in Hb by lia. rewrite Z.pow_add_r in Hb by lia.
    rewrite IH; try lia; try (split; [apply Z.div_pos; lia|apply Z.div_lt_upper_bound; lia]).
    pose proof (morton3_div x y z 1 ltac:(lia) ltac:(lia) ltac:(lia) ltac:(lia)) as Hd.
    change (2^1) with 2 in Hd. change (2^(3*1)) with 8 in Hd. rewrite Hd.
    pose proof (Z.div_mod (morton3 x y z) 8 ltac:(lia)) as E.
    assert (M : morton3 x y z mod 8 = x mod 2 + 2 * (y mod 2) + 4 * (z mod 2)).
    { change 8 with (2^3). rewrite <- Z.land_ones by lia.
      assert (B : forall i, 0 <= i -> Z.testbit (Z.land (morton3 x y z) (Z.ones 3)) i =
                 if i <? 3 then Z.testbit (sel3 x y z i) 0 else false).
      { intros i Hi. rewrite Z.land_spec. destruct (Z.ltb_spec i 3).
        - rewrite Z.ones_spec_low by lia. rewrite andb_true_r, morton3_testbit by lia.
          rewrite Z.mod_small, Z.div_small by lia. reflexivity.
        - rewrite Z.ones_spec_high by lia. apply andb_false_r. }
      rewrite <- !Z.bit0_mod.
      replace (Z.b2z (Z.testbit x 0) + 2 * Z.b2z (Z.testbit y 0) + 4 * Z.b2z (Z.testbit z 0))
        with (Z.lor (Z.b2z (Z.testbit x 0)) (Z.lor (Z.shiftl (Z.b2z (Z.testbit y 0)) 1) (Z.shiftl (Z.b2z (Z.testbit z 0)) 2)))
        by (destruct (Z.testbit x 0), (Z.testbit y 0), (Z.testbit z 0); reflexivity).
      apply Z.bits_inj'. intros i Hi. rewrite B by exact Hi.
      rewrite !Z.lor_spec.
      assert (T : forall b j, Z.testbit (Z.b2z b) j = (j =? 0) && b).
      { intros b j. destruct (Z.eqb_spec j 0) as [->|Hj]; [destruct b; reflexivity|].
        destruct (Z.lt_ge_cases j 0); [rewrite Z.testbit_neg_r by lia; reflexivity|].
        apply testbit_small with 1; [destruct b; cbn; lia|lia]. }
      rewrite !Z.shiftl_spec by lia. rewrite !T.
      destruct (Z.ltb_spec i 3).
      - assert (i = 0 \/ i = 1 \/ i = 2) as [->|[->| ->]] by lia; cbn;
          rewrite ?orb_false_r; reflexivity.
      - destruct (Z.eqb_spec i 0); [lia|]. destruct (Z.eqb_spec (i-1) 0); [lia|].
        destruct (Z.eqb_spec (i-2) 0); [lia|]. reflexivity. }
    lia.
Qed.

Definition mk (o : oct) : Z := morton3 (cx o) (cy o) (cz o).
Definition pkey (p : pt) : Z := morton3 (ptx p) (pty p) (ptz p).

Lemma valid_21 o : valid g o -> forall a, 0 <= coord o a < 2^21.
Proof.
  intros [Hl Hc] a. specialize (Hc a). pose proof wf_max20.
  pose proof (ncell_21 a (lev o) ltac:(lia)). lia.
Qed.
Lemma in_dom_21 p : in_dom g p -> forall a, 0 <= pc p a < 2^21.
Proof.
  intros Hp a. specialize (Hp a). pose proof wf_max20. pose proof wf_minmax.
  pose proof (ncell_21 a (lmax g) ltac:(lia)). lia.
Qed.

Lemma pow8 k : 0 <= k -> 8^k = 2^(3*k).
Proof. intros Hk. change 8 with (2^3). rewrite <- Z.pow_mul_r by lia. reflexivity. Qed.

Lemma zkey_mk o : valid g o -> zkey g o = mk o * 2^(3*(lmax g - lev o)).
Proof.
  intros Hv. unfold zkey, mk. pose proof (valid_21 o Hv) as H. destruct Hv as [Hl _].
  rewrite interleave_morton3; [|apply (H AX)|apply (H AY)|apply (H AZ)|lia].
  rewrite pow8 by lia. reflexivity.
Qed.

(** An octant covers exactly the unit cells of its key interval. *)
Lemma covers_key o p : valid g o -> in_dom g p ->
  (covers g o p <-> zkey g o <= pkey p < zkey g o + 2^(3*(lmax g - lev o))).
Proof.
  intros Hv Hp. rewrite zkey_mk by exact Hv. unfold pkey.
  pose proof (valid_21 o Hv) as Ho. pose proof (in_dom_21 p Hp) as Hp'. destruct Hv as [Hl Hc].
  pose proof (morton3_descendants (cx o) (cy o) (cz o) (ptx p) (pty p) (ptz p) (lmax g - lev o)
    (Ho AX) (Ho AY) (Ho AZ) (Hp' AX) (Hp' AY) (Hp' AZ) ltac:(lia)) as D.
  fold (mk o) in D. split.
  - intros H. assert (D' := proj1 D (conj (H AX) (conj (H AY) (H AZ)))). lia.
  - intros H. assert (D' := proj2 D ltac:(lia)). destruct D' as (? & ? & ?). intros [| |]; assumption.
Qed.

Lemma pkey_inj p q : in_dom g p -> in_dom g q -> pkey p = pkey q -> p = q.
Proof.
  intros Hp Hq E. pose proof (in_dom_21 p Hp) as P. pose proof (in_dom_21 q Hq) as Q.
  apply morton3_inj in E; try apply (P AX); try apply (P AY); try apply (P AZ);
    try apply (Q AX); try apply (Q AY); try apply (Q AZ).
  destruct p, q; cbn in *. destruct E as (-> & -> & ->). reflexivity.
Qed.

Lemma zkey_corner o : valid g o -> zkey g o = pkey (corner o).
Proof.
  intros Hv. pose proof (corner_in_dom o Hv) as Hd. pose proof (corner_covers o Hv) as Hc.
  pose proof (in_dom_21 _ Hd) as R.
  (* the corner coordinates are coord * 2^(lmax - lev) in every axis *)
  assert (E : forall a, pc (corner o) a = coord o a * 2^(lmax g - lev o)).
  { intros a. unfold corner. rewrite pc_pt_of. unfold width. destruct (flat g a) eqn:F; [|reflexivity].
    destruct Hv as [Hl Hv]. specialize (Hv a). unfold ncell in Hv. rewrite F in Hv. nia. }
  rewrite zkey_mk by exact Hv. apply covers_key in Hc; [|exact Hv|exact Hd].
  rewrite zkey_mk in Hc by exact Hv.
  set (k := lmax g - lev o) in *. assert (Hk : 0 <= k) by (destruct Hv; subst k; lia).
  (* low 3k bits of the corner key vanish *)
  assert (Z0 : pkey (corner o) mod 2^(3*k) = 0).
  { apply Z.bits_inj'. intros n Hn. rewrite Z.bits_0.
    destruct (Z.lt_ge_cases n (3*k)) as [Hlt|Hge].
    - rewrite Z.mod_pow2_bits_low by lia. unfold pkey.
      rewrite morton3_testbit; [|apply (R AX)|apply (R AY)|apply (R AZ)|lia].
      pose proof (E AX) as EX. pose proof (E AY) as EY. pose proof (E AZ) as EZ. cbn [pc] in EX, EY, EZ.
      assert (n / 3 < k) by (apply Z.div_lt_upper_bound; lia).
      assert (0 <= n / 3) by (apply Z.div_pos; lia).
      unfold sel3. destruct (n mod 3 =? 0); [rewrite EX|destruct (n mod 3 =? 1); [rewrite EY|rewrite EZ]];
        rewrite Z.mul_pow2_bits_low by lia; reflexivity.
    - rewrite Z.mod_pow2_bits_high by lia. reflexivity. }
  pose proof (pow2_pos (3*k) ltac:(lia)).
  pose proof (Z.div_mod (pkey (corner o)) (2^(3*k)) ltac:(lia)) as DM. rewrite Z0 in DM.
  assert (Q : mk o = pkey (corner o) / 2^(3*k)).
  { apply (Z.div_unique_pos _ _ _ (pkey (corner o) - mk o * 2^(3*k))); lia. }
  rewrite Q. lia.
Qed.

Lemma okey_inj o o' : valid g o -> valid g o' -> lev o = lev o' -> zkey g o = zkey g o' -> o = o'.
Proof.
  intros Hv Hv' El E. rewrite !zkey_corner in E by assumption.
  apply pkey_inj in E; try (apply corner_in_dom; assumption).
  apply (covers_same_level o o' (corner o)); [apply corner_covers; assumption| |exact El].
  rewrite E. apply corner_covers; assumption.
Qed.

Lemma zkey_nonneg o : valid g o -> 0 <= zkey g o.
Proof. intros Hv. rewrite zkey_corner by exact Hv. apply morton3_nonneg. Qed.
Lemma zkey_lt o : valid g o -> zkey g o + 2^(3*(lmax g - lev o)) <= 2^(3 * lmax g).
Proof.
  intros Hv. rewrite zkey_mk by exact Hv. pose proof wf_max20. pose proof wf_lmin0.
  assert (B : mk o < 2^(3 * lev o)).
  { destruct Hv as [Hl Hc]. apply morton3_bound; try lia.
    - pose proof (Hc AX) as C. pose proof (ncell_le AX (lev o) ltac:(lia)). cbn [coord] in C. lia.
    - pose proof (Hc AY) as C. pose proof (ncell_le AY (lev o) ltac:(lia)). cbn [coord] in C. lia.
    - pose proof (Hc AZ) as C. pose proof (ncell_le AZ (lev o) ltac:(lia)). cbn [coord] in C. lia. }
  destruct Hv as [Hl _].
  replace (3 * lmax g) with (3 * lev o + 3 * (lmax g - lev o)) by lia. rewrite Z.pow_add_r by lia.
  pose proof (pow2_pos (3 * (lmax g - lev o)) ltac:(lia)). nia.
Qed.

(** Key intervals of two leaves of a tiling are disjoint. *)
Lemma tiles_key_order L o o' : tiles g L -> In o L -> In o' L -> zkey g o < zkey g o' ->
  zkey g o + 2^(3*(lmax g - lev o)) <= zkey g o'.
Proof.
  intros HT Ho Ho' Hlt. pose proof (tiles_valid L o HT Ho) as Hv. pose proof (tiles_valid L o' HT Ho') as Hv'.
  destruct (Z.le_gt_cases (zkey g o + 2^(3*(lmax g - lev o))) (zkey g o')) as [H|H]; [exact H|exfalso].
  assert (C : covers g o (corner o')).
  { apply covers_key; [exact Hv|apply corner_in_dom; exact Hv'|]. rewrite <- zkey_corner by exact Hv'. lia. }
  assert (o = o') by (apply (tiles_unique L (corner o')); auto using corner_in_dom, corner_covers). subst. lia.
Qed.

(** * Touching *)
Lemma near1_sym b n x y : near1 b n x y -> near1 b n y x.
Proof. unfold near1. intros [H|[H1 H2]]; [left|right; split; [exact H1|]]; lia. Qed.
Lemma near_sym p q : near g p q -> near g q p.
Proof. intros H a. apply near1_sym, H. Qed.
Lemma touch_sym A B : touch g A B -> touch g B A.
Proof. intros (p & q & ? & ? & ? & ? & H). exists q, p. do 4 (split; [assumption|]). apply near_sym, H. Qed.
Lemma near_refl p : near g p p.
Proof. intros a. left. lia. Qed.

End Geom.
