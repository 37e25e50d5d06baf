(** Proofs about neighbour search: findNeighbors returns exactly the leaves adjacent to an
    octant in a direction, and the directions together reach exactly the touching leaves. *)
From Verif Require Import Base MortonModel MortonProofs OctreeSpec OctreeGeom OctreeModel.

(** * Generic lemmas on the list helpers *)
Lemma mapM_Some {A B} (f : A -> option B) l r :
  mapM f l = Some r <-> Forall2 (fun x y => f x = Some y) l r.
Proof.
  split.
  - revert r. induction l as [|x l IH]; cbn; intros r H.
    + injection H as <-. constructor.
    + destruct (f x) eqn:E; [|discriminate]. destruct (mapM f l); [|discriminate].
      injection H as <-. constructor; auto.
  - induction 1 as [|x y l r E H IH]; [reflexivity|]. cbn. rewrite E, IH. reflexivity.
Qed.
Lemma mapM_total {A B} (f : A -> option B) l :
  (forall x, In x l -> exists y, f x = Some y) -> exists r, mapM f l = Some r.
Proof.
  induction l as [|x l IH]; intros H; [exists []; reflexivity|].
  destruct (H x (or_introl eq_refl)) as [y Ey]. destruct IH as [r Er]; [intros; apply H; right; auto|].
  exists (y :: r). cbn. rewrite Ey, Er. reflexivity.
Qed.
Lemma mapM_length {A B} (f : A -> option B) l r : mapM f l = Some r -> length r = length l.
Proof. intros H. apply mapM_Some in H. induction H; cbn; congruence. Qed.
Lemma Forall2_nth {A B} (R : A -> B -> Prop) l r :
  Forall2 R l r <-> length l = length r /\
    forall i x y, nth_error l i = Some x -> nth_error r i = Some y -> R x y.
Proof.
  split.
  - induction 1 as [|x y l r H HH IH]; [split; [reflexivity|intros [|] ? ? E; discriminate]|].
    destruct IH as [IH1 IH2]. split; [cbn; lia|].
    intros [|i] x' y'; cbn; [congruence|apply IH2].
  - revert r. induction l as [|x l IH]; intros [|y r] [HL H]; try discriminate; constructor.
    + apply (H O); reflexivity.
    + apply IH. split; [cbn in HL; lia|]. intros i. apply (H (S i)).
Qed.
Lemma mapM_nth {A B} (f : A -> option B) l r i x :
  mapM f l = Some r -> nth_error l i = Some x -> exists y, nth_error r i = Some y /\ f x = Some y.
Proof.
  intros H Hx. apply mapM_Some in H. apply Forall2_nth in H. destruct H as [HL H].
  assert (i < length r)%nat by (rewrite <- HL; apply nth_error_Some; congruence).
  destruct (nth_error r i) as [y|] eqn:E; [|apply nth_error_None in E; lia].
  exists y. split; [reflexivity|]. eapply H; eauto.
Qed.
Lemma mapM_In {A B} (f : A -> option B) l r y :
  mapM f l = Some r -> In y r -> exists x, In x l /\ f x = Some y.
Proof.
  intros H. apply mapM_Some in H. induction H as [|x y' l r E HH IH]; [intros []|].
  intros [->|Hy]; [exists x; split; [left|]; auto|]. destruct (IH Hy) as (x' & ? & ?). exists x'. split; [right|]; auto.
Qed.
Lemma mapM_In_fwd {A B} (f : A -> option B) l r x :
  mapM f l = Some r -> In x l -> exists y, In y r /\ f x = Some y.
Proof.
  intros H. apply mapM_Some in H. induction H as [|x' y' l r E HH IH]; [intros []|].
  intros [->|Hy]; [exists y'; split; [left|]; auto|]. destruct (IH Hy) as (y & ? & ?). exists y. split; [right|]; auto.
Qed.

Lemma in_zrange b e x : In x (zrange b e) <-> b <= x < e.
Proof.
  unfold zrange. rewrite in_map_iff. split.
  - intros (i & <- & Hi). apply in_seq in Hi. lia.
  - intros H. exists (Z.to_nat (x - b)). split; [lia|]. apply in_seq. lia.
Qed.

Lemma find_pos_some o st k : find_pos o st = Some k -> nth_error st k = Some o.
Proof.
  revert k. induction st as [|x st IH]; intros k; [discriminate|]. cbn [find_pos].
  destruct (oct_eqb x o) eqn:E.
  - intros H. injection H as <-. apply oct_eqb_eq in E. subst. reflexivity.
  - destruct (find_pos o st); [|discriminate]. intros H. injection H as <-. cbn. apply IH. reflexivity.
Qed.
Lemma find_pos_none o st : find_pos o st = None <-> ~ In o st.
Proof.
  induction st as [|x st IH]; [cbn; tauto|]. cbn [find_pos In].
  destruct (oct_eqb x o) eqn:E.
  - apply oct_eqb_eq in E. subst. split; [discriminate|]. intros H. exfalso. apply H. left. reflexivity.
  - assert (x <> o) by (intros H; apply oct_eqb_eq in H; congruence).
    destruct (find_pos o st); split; try discriminate.
    + intros H'. assert (Some n = None) by (apply IH; tauto). discriminate.
    + intros _ [?|?]; [tauto|]. apply IH; [reflexivity|assumption].
    + reflexivity.
Qed.
Lemma find_pos_in o st : In o st -> exists k, find_pos o st = Some k /\ nth_error st k = Some o.
Proof.
  intros H. destruct (find_pos o st) as [k|] eqn:E.
  - exists k. split; [reflexivity|]. apply find_pos_some, E.
  - apply find_pos_none in E. contradiction.
Qed.

(** * Directions *)
Definition all0 (d : axis -> Z) : bool := (d AX =? 0) && (d AY =? 0) && (d AZ =? 0).
Lemma all0_false d : all0 d = false <-> exists a, d a <> 0.
Proof.
  unfold all0. split.
  - intros H. destruct (d AX =? 0) eqn:X; [|exists AX; lia]. destruct (d AY =? 0) eqn:Y; [|exists AY; lia].
    destruct (d AZ =? 0) eqn:Z0; [cbn in H; discriminate|exists AZ; lia].
  - intros [[| |] Ha]; lia.
Qed.
Lemma all0_true d : all0 d = true -> forall a, d a = 0.
Proof. unfold all0. intros H [| |]; lia. Qed.
Lemma directions_spec g d : In d (directions g) -> direction g d.
Proof.
  unfold directions. rewrite filter_In. intros [H Hn].
  apply in_flat_map in H. destruct H as (dz & Hz & H). apply in_flat_map in H. destruct H as (dy & Hy & H).
  apply in_map_iff in H. destruct H as (dx & <- & Hx). rewrite in_zrange in Hx, Hy.
  assert (Hz' : -1 <= dz < 2 /\ (g3d g = false -> dz = 0)).
  { destruct (g3d g); [rewrite in_zrange in Hz; split; [lia|discriminate]|].
    destruct Hz as [<-|[]]. split; [lia|reflexivity]. }
  repeat split.
  - destruct a; cbn; lia.
  - destruct a; cbn; lia.
  - apply all0_false. apply negb_true_iff in Hn. exact Hn.
  - intros [| |] F; cbn in F |- *; try discriminate. apply Hz'. destruct (g3d g); [discriminate|reflexivity].
Qed.
Lemma directions_complete g d : direction g d -> exists d', In d' (directions g) /\ forall a, d' a = d a.
Proof.
  intros (Hr & Hn & Hf). exists (mkoff (d AX) (d AY) (d AZ)).
  assert (E : forall a, mkoff (d AX) (d AY) (d AZ) a = d a) by (intros [| |]; reflexivity).
  split; [|exact E]. unfold directions. rewrite filter_In. split.
  - apply in_flat_map. exists (d AZ). split.
    + destruct (g3d g) eqn:G; [apply in_zrange; pose proof (Hr AZ); lia|].
      left. symmetry. apply (Hf AZ). cbn. rewrite G. reflexivity.
    + apply in_flat_map. exists (d AY). split; [apply in_zrange; pose proof (Hr AY); lia|].
      apply in_map_iff. exists (d AX). split; [reflexivity|]. apply in_zrange; pose proof (Hr AX); lia.
  - apply negb_true_iff. apply all0_false. destruct Hn as [a Ha]. exists a. rewrite E. exact Ha.
Qed.

Section FN.
Variable g : geom.
Hypothesis WF : wf_geom g.

(** * Cell counts do not overflow *)
Lemma cell_count_eq a l : lmin g <= l <= lmax g + 1 -> flat g a = false -> cell_count g a l = ncell g a l.
Proof.
  intros Hl F. unfold cell_count, ncell. rewrite F. apply u32_small.
  pose proof (ncell_pos g WF a l ltac:(lia)) as P. pose proof (wf_max20 g WF).
  pose proof (ncell_21 g WF a l ltac:(lia)) as Q. unfold ncell in P, Q. rewrite F in P, Q. lia.
Qed.
Lemma cell_count_pos a l : lmin g <= l <= lmax g + 1 -> 1 <= cell_count g a l <= 2^21.
Proof.
  intros Hl. destruct (flat g a) eqn:F.
  - unfold cell_count. destruct a; try discriminate. cbn [gsize flat] in *.
    assert (gsz g = 1) as -> by (apply WF; destruct (g3d g); [discriminate|reflexivity]).
    assert (2^(l - lmin g) <= 2^21).
    { apply Z.pow_le_mono_r; [lia|]. pose proof (wf_max20 g WF). pose proof (wf_lmin0 g WF). lia. }
    pose proof (pow2_pos (l - lmin g) ltac:(lia)). rewrite u32_small by lia. lia.
  - rewrite cell_count_eq by assumption. pose proof (ncell_pos g WF a l ltac:(lia)).
    pose proof (wf_max20 g WF). pose proof (ncell_21 g WF a l ltac:(lia)). lia.
Qed.

Lemma valid_flat A a : valid g A -> flat g a = true -> coord A a = 0.
Proof. intros [_ H] F. specialize (H a). unfold ncell in H. rewrite F in H. lia. Qed.

(** * The position reached by a step of the size of [A] *)
(** The step stays in the domain or crosses a periodic boundary. *)
Definition inside (A : oct) (d : axis -> Z) : Prop :=
  forall a, per g a = true \/ 0 <= coord A a + d a < ncell g a (lev A).
Definition target (A : oct) (d : axis -> Z) : oct :=
  oct_of (lev A) (fun a => (coord A a + d a) mod ncell g a (lev A)).

Lemma isBoundary_spec A d : valid g A -> direction g d -> (isBoundary g A d = false <-> inside A d).
Proof.
  intros Hv (Hr & _ & Hf). unfold isBoundary, inside.
  assert (K : forall a, flat g a = false -> 
     ((0 <? 2 * coord A a + 1 + 2 * d a) && (2 * coord A a + 1 + 2 * d a <? 2 * cell_count g a (lev A)) = true
       <-> 0 <= coord A a + d a < ncell g a (lev A))).
  { intros a F. rewrite cell_count_eq by (try assumption; destruct Hv; lia). lia. }
  pose proof (K AX eq_refl) as KX. pose proof (K AY eq_refl) as KY. clear K. cbn [flat].
  assert (KZ : ((0 <=? 2 * coord A AZ + (if negb (g3d g) then 0 else 1) + 2 * d AZ)
      && (2 * coord A AZ + (if negb (g3d g) then 0 else 1) + 2 * d AZ <? 2 * cell_count g AZ (lev A)) = true
       <-> 0 <= coord A AZ + d AZ < ncell g AZ (lev A))).
  { destruct (flat g AZ) eqn:F; cbn [flat] in F; rewrite F.
    - rewrite (valid_flat A AZ Hv F). rewrite (Hf AZ F).
      pose proof (cell_count_pos AZ (lev A) ltac:(destruct Hv; lia)). unfold ncell. cbn [flat]. rewrite F. lia.
    - rewrite cell_count_eq by (try assumption; destruct Hv; lia). lia. }
  split.
  - intros H. apply orb_false_iff in H. destruct H as [H HZ]. apply orb_false_iff in H. destruct H as [HX HY].
    intros [| |].
    + destruct (per g AX); [left; reflexivity|right]. apply KX. cbn in HX. apply negb_false_iff in HX. exact HX.
    + destruct (per g AY); [left; reflexivity|right]. apply KY. cbn in HY. apply negb_false_iff in HY. exact HY.
    + destruct (per g AZ); [left; reflexivity|right]. apply KZ. cbn [negb andb] in HZ. apply negb_false_iff in HZ. exact HZ.
  - intros H. rewrite !orb_false_iff.
    repeat split.
    + destruct (H AX) as [->|HX]; [reflexivity|]. apply KX in HX. rewrite HX. destruct (per g AX); reflexivity.
    + destruct (H AY) as [->|HY]; [reflexivity|]. apply KY in HY. rewrite HY. destruct (per g AY); reflexivity.
    + destruct (H AZ) as [->|HZ]; [reflexivity|]. apply KZ in HZ. rewrite HZ. destruct (per g AZ); reflexivity.
Qed.

Lemma shifted_target A d : valid g A -> direction g d -> shifted g A d = target A d.
Proof.
  intros Hv (Hr & _ & Hf). apply oct_ext; [reflexivity|]. intros a. unfold shifted, target. rewrite !coord_oct_of.
  pose proof (cell_count_pos a (lev A) ltac:(destruct Hv; lia)) as Hp. pose proof (valid_21 g WF A Hv a) as H21.
  specialize (Hr a). rewrite (u32_small (coord A a + _)) by lia. rewrite u32_small by lia.
  destruct (flat g a) eqn:F.
  - rewrite (valid_flat A a Hv F), (Hf a F). unfold ncell. rewrite F. rewrite Z.mod_1_r, Z.add_0_r.
    cbn. apply Z.mod_same. lia.
  - rewrite cell_count_eq by (try assumption; destruct Hv; lia).
    rewrite cell_count_eq in Hp by (try assumption; destruct Hv; lia).
    replace (coord A a + ncell g a (lev A) + d a) with (coord A a + d a + 1 * ncell g a (lev A)) by lia.
    apply Z.mod_add. lia.
Qed.
Lemma wrapped_target A d : valid g A -> direction g d -> inside A d -> wrapped g A d = target A d.
Proof.
  intros Hv (Hr & _ & Hf) Hi. apply oct_ext; [reflexivity|]. intros a. unfold wrapped, target. rewrite !coord_oct_of.
  pose proof (cell_count_pos a (lev A) ltac:(destruct Hv; lia)) as Hp. pose proof (valid_21 g WF A Hv a) as H21.
  specialize (Hr a). 
  assert (EE : u32 (u32 (coord A a + d a) + cell_count g a (lev A)) = coord A a + d a + cell_count g a (lev A)).
  { unfold u32. rewrite Z.add_mod_idemp_l by lia. apply Z.mod_small. lia. }
  rewrite EE.
  destruct (flat g a) eqn:F.
  - rewrite (valid_flat A a Hv F), (Hf a F). unfold ncell. rewrite F. rewrite Z.mod_1_r, !Z.add_0_l.
    apply Z.mod_same. lia.
  - rewrite cell_count_eq by (try assumption; destruct Hv; lia).
    rewrite cell_count_eq in Hp by (try assumption; destruct Hv; lia).
    replace (coord A a + d a + ncell g a (lev A)) with (coord A a + d a + 1 * ncell g a (lev A)) by lia.
    apply Z.mod_add. lia.
Qed.
Lemma dir_inside_spec A d : valid g A -> direction g d -> (dir_inside g A d = true <-> inside A d).
Proof.
  intros Hv (Hr & _ & Hf). unfold dir_inside. rewrite forallb_forall. unfold inside.
  assert (K : forall a, per g a || (u32 (coord A a + d a) <? cell_count g a (lev A)) = true <->
     per g a = true \/ 0 <= coord A a + d a < ncell g a (lev A)).
  { intros a. rewrite orb_true_iff. apply or_iff_compat_l.
    pose proof (cell_count_pos a (lev A) ltac:(destruct Hv; lia)) as Hp. pose proof (valid_21 g WF A Hv a) as H21.
    specialize (Hr a). rewrite Z.ltb_lt. destruct (flat g a) eqn:F.
    - rewrite (valid_flat A a Hv F), (Hf a F). rewrite u32_small by lia. unfold ncell; rewrite F. lia.
    - rewrite cell_count_eq in * by (try assumption; destruct Hv; lia).
      destruct (Z.lt_ge_cases (coord A a + d a) 0) as [L|L].
      + assert (coord A a + d a = -1) as -> by lia. change (u32 (-1)) with (2^32-1). lia.
      + rewrite u32_small by lia. lia. }
  split.
  - intros H a. apply K. apply H. destruct a; cbn; tauto.
  - intros H a _. apply K. apply H.
Qed.

Lemma target_valid A d : valid g A -> valid g (target A d).
Proof.
  intros [Hl Hc]. split; [exact Hl|]. intros a. unfold target. rewrite coord_oct_of. cbn [lev oct_of].
  apply Z.mod_pos_bound. apply ncell_pos; [exact WF|lia].
Qed.

(** * Unit cells of the target that face [A] *)
Definition facing (A : oct) (d : axis -> Z) (q : pt) : Prop :=
  let V := target A d in
  inside A d /\ in_dom g q /\ covers g V q /\
  forall a, (d a = 1 -> pc q a = coord V a * width g a (lev A)) /\
            (d a = -1 -> pc q a = coord V a * width g a (lev A) + width g a (lev A) - 1).


(** One axis. [x] is the position of [A], [n] the count of cells of that level, [w] their width. *)
Lemma facing1 (pr : bool) n w x d q : 0 < w -> 0 < n -> 0 <= x < n -> -1 <= d <= 1 -> 0 <= q < n * w ->
  ((exists p, 0 <= p < n * w /\ p / w = x /\ (pr = true \/ 0 <= p + d < n * w) /\ q = (p + d) mod (n * w) /\
     (d <> 0 -> (p + d) / w <> x))
   <-> (pr = true \/ 0 <= x + d < n) /\ q / w = (x + d) mod n /\
       (d = 1 -> q = (x + d) mod n * w) /\ (d = -1 -> q = (x + d) mod n * w + w - 1)).
Proof.
  intros Hw Hn Hx Hd Hq. 
  assert (D : forall k r, 0 <= r < w -> (k * w + r) / w = k).
  { intros k r Hr. rewrite Z.div_add_l by lia. rewrite Z.div_small by lia. lia. }
  split.
  - intros (p & Hp & Ep & Hpr & Eq & Hlv).
    pose proof (Z.div_mod p w ltac:(lia)) as DM. pose proof (Z.mod_pos_bound p w ltac:(lia)) as MB.
    rewrite Ep in DM.
    assert (C : d = 0 \/ (d = 1 /\ p = x * w + w - 1) \/ (d = -1 /\ p = x * w)).
    { destruct (Z.eq_dec d 0) as [|N]; [left; assumption|right]. specialize (Hlv N).
      assert (d = 1 \/ d = -1) as [-> | ->] by lia; [left|right]; split; auto.
      - destruct (Z.eq_dec (p mod w) (w - 1)) as [E|E]; [nia|]. exfalso. apply Hlv.
        replace (p + 1) with (x * w + (p mod w + 1)) by nia. apply D. lia.
      - destruct (Z.eq_dec (p mod w) 0) as [E|E]; [nia|]. exfalso. apply Hlv.
        replace (p + -1) with (x * w + (p mod w - 1)) by nia. apply D. lia. }
    destruct C as [-> | [[-> Ep'] | [-> Ep']]].
    + rewrite Z.add_0_r in *. rewrite Z.mod_small in Eq by lia. subst q.
      rewrite Z.mod_small by lia. split; [right; lia|]. split; [exact Ep|]. split; intros; lia.
    + assert (Ex : (pr = true \/ 0 <= x + 1 < n) /\ q = (x + 1) mod n * w).
      { split.
        - destruct Hpr as [->|Hpr]; [left; reflexivity|right]. nia.
        - subst p q. replace (x * w + w - 1 + 1) with ((x + 1) * w) by lia. apply Z.mul_mod_distr_r; lia. }
      destruct Ex as [E1 E2]. split; [exact E1|]. split; [|split; intros; [exact E2|lia]].
      rewrite E2. apply Z.div_mul. lia.
    + assert (Ex : (pr = true \/ 0 <= x + -1 < n) /\ q = (x + -1) mod n * w + w - 1).
      { split.
        - destruct Hpr as [->|Hpr]; [left; reflexivity|right]. nia.
        - subst p q. destruct (Z.eq_dec x 0) as [->|N].
          + replace (0 * w + -1) with (n * w - 1 + (-1) * (n * w)) by lia. rewrite Z.mod_add by nia.
            rewrite Z.mod_small by nia. replace (0 + -1) with (n - 1 + (-1) * n) by lia.
            rewrite Z.mod_add by lia. rewrite Z.mod_small by lia. nia.
          + rewrite Z.mod_small by nia. rewrite Z.mod_small by lia. nia. }
      destruct Ex as [E1 E2]. split; [exact E1|]. split; [|split; intros; [lia|exact E2]].
      rewrite E2. replace ((x + -1) mod n * w + w - 1) with ((x + -1) mod n * w + (w - 1)) by lia.
      apply D. lia.
  - intros (Hpr & Eq & H1 & H2).
    assert (C : d = 0 \/ d = 1 \/ d = -1) by lia. destruct C as [-> | [-> | ->]].
    + rewrite Z.add_0_r, Z.mod_small in Eq by lia. exists q. rewrite Z.add_0_r.
      split; [lia|]. split; [exact Eq|]. split; [right; lia|]. split; [rewrite Z.mod_small; lia|tauto].
    + specialize (H1 eq_refl). exists (x * w + w - 1). split; [nia|]. split.
      { replace (x * w + w - 1) with (x * w + (w - 1)) by lia. apply D. lia. }
      split; [destruct Hpr as [|Hpr]; [left; assumption|right; nia]|].
      split.
      { rewrite H1. replace (x * w + w - 1 + 1) with ((x + 1) * w) by lia. symmetry. apply Z.mul_mod_distr_r; lia. }
      intros _. replace (x * w + w - 1 + 1) with ((x + 1) * w) by lia. rewrite Z.div_mul by lia. lia.
    + specialize (H2 eq_refl). exists (x * w). split; [nia|]. split; [apply Z.div_mul; lia|].
      split; [destruct Hpr as [|Hpr]; [left; assumption|right; nia]|].
      split.
      { rewrite H2. destruct (Z.eq_dec x 0) as [->|N].
        - replace (0 * w + -1) with (n * w - 1 + (-1) * (n * w)) by lia. rewrite (Z.mod_add _ _ (n * w)) by nia.
          rewrite (Z.mod_small (n * w - 1)) by nia. replace (0 + -1) with (n - 1 + (-1) * n) by lia.
          rewrite Z.mod_add by lia. rewrite Z.mod_small by lia. nia.
        - rewrite (Z.mod_small (x * w + -1)) by nia. rewrite Z.mod_small by lia. nia. }
      intros _. replace (x * w + -1) with ((x - 1) * w + (w - 1)) by lia. rewrite D by lia. lia.
Qed.

Lemma adjacent_facing A d B : valid g A -> direction g d ->
  (adjacent g A d B <-> exists q, facing A d q /\ covers g B q).
Proof.
  intros Hv (Hr & Hn & Hf).
  assert (K : forall a q, 0 <= q < ncell g a (lmax g) ->
    ((exists p, 0 <= p < ncell g a (lmax g) /\ p / 2^(lmax g - lev A) = coord A a /\
        (per g a = true \/ 0 <= p + d a < ncell g a (lmax g)) /\ q = (p + d a) mod ncell g a (lmax g) /\
        (d a <> 0 -> (p + d a) / 2^(lmax g - lev A) <> coord A a))
     <-> (per g a = true \/ 0 <= coord A a + d a < ncell g a (lev A)) /\
         q / 2^(lmax g - lev A) = (coord A a + d a) mod ncell g a (lev A) /\
         (d a = 1 -> q = (coord A a + d a) mod ncell g a (lev A) * width g a (lev A)) /\
         (d a = -1 -> q = (coord A a + d a) mod ncell g a (lev A) * width g a (lev A) + width g a (lev A) - 1))).
  { intros a q Hq. destruct Hv as [Hl Hc].
    pose proof (facing1 (per g a) (ncell g a (lev A)) (width g a (lev A)) (coord A a) (d a) q
      (width_pos g a (lev A) ltac:(lia)) (ncell_pos g WF a (lev A) ltac:(lia)) (Hc a) (Hr a)) as F.
    rewrite <- (ncell_max g a (lev A)) in F by lia. specialize (F Hq).
    rewrite (div_width g a (lev A) q) by assumption. rewrite <- F. clear F.
    split; intros (p & Hp & E1 & E2 & E3 & E4); exists p; (split; [exact Hp|]).
    - rewrite (div_width g a) in E1 by assumption. do 3 (split; [assumption|]). intros N. specialize (E4 N).
      unfold width. destruct (flat g a) eqn:F; [exfalso; apply N, Hf, F|exact E4].
    - rewrite (div_width g a) by assumption. do 3 (split; [assumption|]). intros N. specialize (E4 N).
      unfold width in E4. destruct (flat g a) eqn:F; [exfalso; apply N, Hf, F|exact E4]. }
  split.
  - intros (p & q & Hp & Hq & Ap & Bq & Hm & Hlv). exists q. split; [|exact Bq].
    assert (Ka : forall a, (per g a = true \/ 0 <= coord A a + d a < ncell g a (lev A)) /\
         pc q a / 2^(lmax g - lev A) = (coord A a + d a) mod ncell g a (lev A) /\
         (d a = 1 -> pc q a = (coord A a + d a) mod ncell g a (lev A) * width g a (lev A)) /\
         (d a = -1 -> pc q a = (coord A a + d a) mod ncell g a (lev A) * width g a (lev A) + width g a (lev A) - 1)).
    { intros a. apply K; [apply Hq|]. exists (pc p a). split; [apply Hp|]. split; [apply Ap|].
      split; [apply Hm|]. split; [apply Hm|]. apply Hlv. }
    split; [intros a; apply Ka|]. split; [exact Hq|]. split.
    + intros a. unfold target. rewrite coord_oct_of. cbn [lev oct_of]. apply Ka.
    + intros a. unfold target. rewrite coord_oct_of. apply Ka.
  - intros (q & (Hi & Hq & HV & Hfc) & Bq).
    assert (Ka : forall a, exists p, 0 <= p < ncell g a (lmax g) /\ p / 2^(lmax g - lev A) = coord A a /\
        (per g a = true \/ 0 <= p + d a < ncell g a (lmax g)) /\ pc q a = (p + d a) mod ncell g a (lmax g) /\
        (d a <> 0 -> (p + d a) / 2^(lmax g - lev A) <> coord A a)).
    { intros a. apply K; [apply Hq|]. split; [apply Hi|]. specialize (Hfc a). specialize (HV a).
      unfold target in Hfc, HV. rewrite coord_oct_of in *. split; [exact HV|]. exact Hfc. }
    destruct (Ka AX) as (px & X1 & X2 & X3 & X4 & X5). destruct (Ka AY) as (py & Y1 & Y2 & Y3 & Y4 & Y5).
    destruct (Ka AZ) as (pz & Z1 & Z2 & Z3 & Z4 & Z5). exists (mkPt px py pz), q.
    split; [intros [| |]; assumption|]. split; [exact Hq|]. split; [intros [| |]; assumption|].
    split; [exact Bq|]. split; [intros [| |]; (split; assumption)|]. intros [| |]; assumption.
Qed.

Lemma move_near d p q : direction g d -> in_dom g p -> in_dom g q -> move g d p q -> near g p q.
Proof.
  intros (Hr & _ & _) Hp Hq Hm a. specialize (Hm a). cbv zeta in Hm. destruct Hm as [H E].
  specialize (Hr a). specialize (Hp a). set (n := ncell g a (lmax g)) in *.
  destruct (Z_lt_ge_dec (pc p a + d a) 0) as [L|L].
  - assert (pc p a + d a = -1) as EE by lia. rewrite EE in E. destruct H as [H|H]; [|lia].
    right. split; [exact H|]. replace (-1) with (n - 1 + (-1) * n) in E by lia.
    rewrite Z.mod_add, Z.mod_small in E by lia. lia.
  - destruct (Z_lt_ge_dec (pc p a + d a) n) as [U|U].
    + rewrite Z.mod_small in E by lia. left. lia.
    + assert (pc p a + d a = n) as EE by lia. rewrite EE, Z.mod_same in E by lia.
      destruct H as [H|H]; [|lia]. right. split; [exact H|]. lia.
Qed.

Lemma adjacent_touch A d B : direction g d -> adjacent g A d B -> touch g A B.
Proof.
  intros Hd (p & q & Hp & Hq & Ap & Bq & Hm & _). exists p, q. do 4 (split; [assumption|]).
  eapply move_near; eauto.
Qed.

(** Every touching leaf is adjacent in some direction. *)
Lemma near1_move pr n x y : 0 <= x < n -> 0 <= y < n -> near1 pr n x y ->
  exists s, -1 <= s <= 1 /\ (pr = true \/ 0 <= x + s < n) /\ y = (x + s) mod n.
Proof.
  intros Hx Hy [H|[H1 H2]].
  - exists (y - x). split; [lia|]. split; [right; lia|]. rewrite Z.mod_small; lia.
  - destruct (Z_le_gt_dec x y) as [L|L].
    + exists (-1). split; [lia|]. split; [left; exact H1|]. assert (x = 0) as -> by lia.
      replace (0 + -1) with (n - 1 + (-1) * n) by lia. rewrite Z.mod_add, Z.mod_small by lia. lia.
    + exists 1. split; [lia|]. split; [left; exact H1|]. assert (x = n - 1) as -> by lia.
      replace (n - 1 + 1) with n by lia. rewrite Z.mod_same by lia. lia.
Qed.
Lemma touch_adjacent A B : valid g A -> valid g B -> touch g A B ->
  (forall p, in_dom g p -> covers g A p -> ~ covers g B p) ->
  exists d, In d (directions g) /\ adjacent g A d B.
Proof.
  intros HvA HvB (p & q & Hp & Hq & Ap & Bq & Hnr) Hdis.
  assert (K : forall a, exists s p', -1 <= s <= 1 /\ (flat g a = true -> s = 0) /\
     0 <= p' < ncell g a (lmax g) /\ p' / 2^(lmax g - lev A) = coord A a /\
     (per g a = true \/ 0 <= p' + s < ncell g a (lmax g)) /\ pc q a = (p' + s) mod ncell g a (lmax g) /\
     (s <> 0 -> (p' + s) / 2^(lmax g - lev A) <> coord A a)).
  { intros a. destruct (near1_move _ _ _ _ (Hp a) (Hq a) (Hnr a)) as (s & Hs & Hpr & Eq).
    destruct (flat g a) eqn:F.
    { exists 0, (pc p a). split; [lia|]. split; [reflexivity|]. split; [apply Hp|]. split; [apply Ap|].
      split; [right; rewrite Z.add_0_r; apply Hp|]. split; [|congruence].
      pose proof (Hq a) as Q. unfold ncell in *. rewrite F in *. rewrite Z.mod_1_r. lia. }
    destruct (Z.eq_dec ((pc p a + s) / 2^(lmax g - lev A)) (coord A a)) as [E|N].
    - exists 0, (pc p a + s).
      assert (R : 0 <= pc p a + s < ncell g a (lmax g)).
      { destruct HvA as [Hl Hc]. specialize (Hc a). pose proof (ncell_max g a (lev A) ltac:(lia)) as M.
        unfold width in M. rewrite F in M. pose proof (pow2_pos (lmax g - lev A) ltac:(lia)).
        pose proof (Z.div_mod (pc p a + s) (2^(lmax g - lev A)) ltac:(lia)).
        pose proof (Z.mod_pos_bound (pc p a + s) (2^(lmax g - lev A)) ltac:(lia)). nia. }
      split; [lia|]. split; [reflexivity|]. split; [exact R|]. split; [exact E|].
      rewrite Z.add_0_r. split; [right; exact R|]. split; [exact Eq|congruence].
    - exists s, (pc p a). split; [exact Hs|]. split; [discriminate|]. split; [apply Hp|]. split; [apply Ap|].
      split; [exact Hpr|]. split; [exact Eq|]. intros _. exact N. }
  destruct (K AX) as (sx & px & X0 & X1 & X2 & X3 & X4 & X5 & X6).
  destruct (K AY) as (sy & py & Y0 & Y1 & Y2 & Y3 & Y4 & Y5 & Y6).
  destruct (K AZ) as (sz & pz & Z0 & Z1 & Z2 & Z3 & Z4 & Z5 & Z6).
  assert (AD : adjacent g A (mkoff sx sy sz) B).
  { exists (mkPt px py pz), q. split; [intros [| |]; assumption|]. split; [exact Hq|].
    split; [intros [| |]; assumption|]. split; [exact Bq|].
    split; [intros [| |]; (split; assumption)|]. intros [| |]; assumption. }
  assert (DD : direction g (mkoff sx sy sz)).
  { split; [intros [| |]; assumption|]. split; [|intros [| |]; assumption].
    apply all0_false. destruct (all0 (mkoff sx sy sz)) eqn:E; [|reflexivity]. exfalso.
    pose proof (all0_true _ E AX) as EX. pose proof (all0_true _ E AY) as EY. pose proof (all0_true _ E AZ) as EZ.
    cbn in EX, EY, EZ. subst sx sy sz.
    apply (Hdis q Hq); [|exact Bq]. rewrite Z.add_0_r in *.
    intros [| |]; [rewrite X5|rewrite Y5|rewrite Z5]; rewrite Z.mod_small by assumption; assumption. }
  destruct (directions_complete g _ DD) as (d' & Hd' & E). exists d'. split; [exact Hd'|].
  destruct AD as (p0 & q0 & R1 & R2 & R3 & R4 & R5 & R6). exists p0, q0. do 4 (split; [assumption|]).
  split; [intros a; cbv zeta; rewrite E; apply R5|]. intros a. rewrite E. apply R6.
Qed.

(** * Suboctants: exactly the half-size cells that contain a facing unit cell *)
Lemma sub1 w x d v q : 0 < w -> 0 <= q -> -1 <= d <= 1 -> x = (if d =? -1 then 2 * v + 1 else 2 * v) ->
  q / (2 * w) = v -> (d = 1 -> q = v * (2 * w)) -> (d = -1 -> q = v * (2 * w) + 2 * w - 1) ->
  exists s, 0 <= s < (if d =? 0 then 1 else 0) + 1 /\ q / w = x + s.
Proof.
  intros Hw Hq Hd -> Eq H1 H2.
  assert (C : d = 0 \/ d = 1 \/ d = -1) by lia. destruct C as [-> | [-> | ->]]; cbn [Z.eqb].
  - exists (q / w - 2 * v). split; [|lia].
    assert (q / w / 2 = v) by (rewrite Z.div_div by lia; rewrite Z.mul_comm; exact Eq).
    pose proof (Z.div_mod (q/w) 2 ltac:(lia)). pose proof (Z.mod_pos_bound (q/w) 2 ltac:(lia)). lia.
  - exists 0. split; [cbn; lia|]. rewrite H1 by reflexivity. rewrite Z.mul_assoc, Z.div_mul by lia. lia.
  - exists 0. split; [lia|]. rewrite H2 by reflexivity. cbn [Pos.eqb].
    replace (v * (2 * w) + 2 * w - 1) with ((2 * v + 1) * w + (w - 1)) by lia.
    rewrite Z.div_add_l, Z.div_small by lia. lia.
Qed.

Lemma in_suboctants V d s : In s (suboctants g V d) <->
  lev s = lev V + 1 /\ forall a, exists k, coord s a = 2 * coord V a + (if d a =? -1 then 1 else 0) + k /\
     0 <= k < (if flat g a then 0 else if d a =? 0 then 1 else 0) + 1.
Proof.
  unfold suboctants. rewrite in_flat_map. split.
  - intros (sz & Hz & H). apply in_flat_map in H. destruct H as (sy & Hy & H).
    apply in_map_iff in H. destruct H as (sx & <- & Hx). rewrite in_zrange in Hx, Hy, Hz.
    split; [reflexivity|]. intros [| |]; [exists sx|exists sy|exists sz]; split; try reflexivity; assumption.
  - intros [Hl H]. destruct (H AX) as (kx & Ex & Hx). destruct (H AY) as (ky & Ey & Hy). destruct (H AZ) as (kz & Ez & Hz).
    exists kz. split; [apply in_zrange; assumption|]. apply in_flat_map. exists ky. split; [apply in_zrange; assumption|].
    apply in_map_iff. exists kx. split; [|apply in_zrange; assumption].
    apply oct_ext; [symmetry; exact Hl|]. intros [| |]; cbn [coord cx cy cz]; symmetry; assumption.
Qed.

Lemma width_succ a l : flat g a = false -> l < lmax g -> width g a l = 2 * width g a (l + 1).
Proof.
  intros F H. unfold width. rewrite F. replace (lmax g - l) with (1 + (lmax g - (l + 1))) by lia.
  rewrite Z.pow_add_r by lia. reflexivity.
Qed.

Lemma facing_suboctant A d q : valid g A -> direction g d -> lev A < lmax g -> facing A d q ->
  In (cell_at g (lev A + 1) q) (suboctants g (target A d) d).
Proof.
  intros Hv (Hr & _ & Hf) Hl (Hi & Hq & HV & Hfc). apply in_suboctants. split; [reflexivity|].
  intros a. unfold cell_at. rewrite coord_oct_of. specialize (HV a). specialize (Hfc a).
  pose proof (Hq a) as Qa. specialize (Hr a). destruct Hv as [Hlv Hc].
  destruct (flat g a) eqn:F.
  - rewrite (Hf a F) in *. unfold ncell in Qa. rewrite F in Qa. assert (pc q a = 0) as Z0 by lia.
    rewrite Z0 in *. change (lev (target A d)) with (lev A) in HV.
    rewrite Z.div_0_l in HV by (pose proof (pow2_pos (lmax g - lev A) ltac:(lia)); lia).
    exists 0. rewrite Z.div_0_l by (pose proof (pow2_pos (lmax g - (lev A + 1)) ltac:(lia)); lia).
    change (0 =? -1) with false. cbv iota. lia.
  - pose proof (width_succ a (lev A) F Hl) as W. unfold width in W, Hfc. rewrite F in W, Hfc.
    change (lev (target A d)) with (lev A) in HV. rewrite W in HV, Hfc.
    destruct (sub1 (2^(lmax g - (lev A + 1))) (if d a =? -1 then 2 * coord (target A d) a + 1 else 2 * coord (target A d) a)
      (d a) (coord (target A d) a) (pc q a)) as (s & Hs & Es); try tauto; try lia.
    exists s. split; [|exact Hs]. rewrite Es. destruct (d a =? -1); lia.
Qed.

(** A facing unit cell inside any given suboctant. *)
Lemma suboctant_facing A d s : valid g A -> direction g d -> lev A < lmax g -> inside A d ->
  In s (suboctants g (target A d) d) -> exists q, facing A d q /\ covers g s q.
Proof.
  intros Hv (Hr & _ & Hf) Hl Hi Hs. apply in_suboctants in Hs. destruct Hs as [El Hs].
  pose proof (target_valid A d Hv) as HvV.
  change (lev (target A d)) with (lev A) in El.
  assert (K : forall a, exists q, 0 <= q < ncell g a (lmax g) /\ q / 2^(lmax g - lev A) = coord (target A d) a /\
      q / 2^(lmax g - lev s) = coord s a /\
      (d a = 1 -> q = coord (target A d) a * width g a (lev A)) /\
      (d a = -1 -> q = coord (target A d) a * width g a (lev A) + width g a (lev A) - 1)).
  { intros a. destruct (Hs a) as (k & Ek & Hk). specialize (Hr a). destruct HvV as [HlV HcV]. specialize (HcV a).
    change (lev (target A d)) with (lev A) in HcV, HlV. rewrite El.
    pose proof (ncell_max g a (lev A) ltac:(lia)) as M.
    destruct (flat g a) eqn:F.
    - rewrite (Hf a F) in *. exists 0. unfold ncell in *. rewrite F in *.
      pose proof (pow2_pos (lmax g - lev A) ltac:(lia)). pose proof (pow2_pos (lmax g - (lev A + 1)) ltac:(lia)).
      rewrite !Z.div_0_l by lia. change (0 =? -1) with false in Ek. cbv iota in Ek. repeat split; lia.
    - pose proof (width_succ a (lev A) F Hl) as W. unfold width in *. rewrite F in *.
      set (w := 2^(lmax g - (lev A + 1))) in *. assert (Hw : 0 < w) by (apply pow2_pos; lia).
      rewrite W in *. set (v := coord (target A d) a) in *.
      assert (C : d a = 0 \/ d a = 1 \/ d a = -1) by lia. destruct C as [D | [D | D]]; rewrite D in *; cbn [Z.eqb Pos.eqb] in *.
      + exists (coord s a * w). split; [nia|]. split; [|split; [apply Z.div_mul; lia|lia]].
        rewrite Ek. replace ((2 * v + 0 + k) * w) with (v * (2 * w) + k * w) by lia.
        rewrite Z.div_add_l, Z.div_small by nia. lia.
      + exists (v * (2 * w)). split; [nia|]. split; [apply Z.div_mul; lia|]. split; [|lia].
        rewrite Ek. rewrite Z.mul_assoc, Z.div_mul by lia. lia.
      + exists (v * (2 * w) + 2 * w - 1). split; [nia|]. split; [|split; [|lia]].
        * replace (v * (2 * w) + 2 * w - 1) with (v * (2 * w) + (2 * w - 1)) by lia.
          rewrite Z.div_add_l, Z.div_small by lia. lia.
        * rewrite Ek. replace (v * (2 * w) + 2 * w - 1) with ((2 * v + 1) * w + (w - 1)) by lia.
          rewrite Z.div_add_l, Z.div_small by lia. lia. }
  destruct (K AX) as (x & X1 & X2 & X3 & X4). destruct (K AY) as (y & Y1 & Y2 & Y3 & Y4).
  destruct (K AZ) as (z & Z1 & Z2 & Z3 & Z4). exists (mkPt x y z). split.
  - split; [exact Hi|]. split; [intros [| |]; assumption|]. split; intros [| |]; assumption.
  - intros [| |]; assumption.
Qed.

(** Some unit cell faces [A] whenever the step stays inside. *)
Lemma facing_exists A d : valid g A -> direction g d -> inside A d -> exists q, facing A d q.
Proof.
  intros Hv (Hr & _ & Hf) Hi. pose proof (target_valid A d Hv) as HvV.
  assert (K : forall a, exists q, 0 <= q < ncell g a (lmax g) /\ q / 2^(lmax g - lev A) = coord (target A d) a /\
      (d a = 1 -> q = coord (target A d) a * width g a (lev A)) /\
      (d a = -1 -> q = coord (target A d) a * width g a (lev A) + width g a (lev A) - 1)).
  { intros a. destruct HvV as [HlV HcV]. specialize (HcV a). change (lev (target A d)) with (lev A) in HcV, HlV.
    pose proof (ncell_max g a (lev A) ltac:(lia)) as M. pose proof (width_pos g a (lev A) ltac:(lia)) as Hw.
    set (v := coord (target A d) a) in *. set (w := width g a (lev A)) in *.
    set (q := if d a =? -1 then v * w + (w - 1) else v * w). exists q.
    assert (R : 0 <= q < ncell g a (lmax g)) by (unfold q; destruct (d a =? -1); nia).
    split; [exact R|]. rewrite (div_width g a) by assumption. fold w.
    split; [unfold q; destruct (d a =? -1); [rewrite Z.div_add_l, Z.div_small by lia; lia|apply Z.div_mul; lia]|].
    unfold q. split; intros D; rewrite D; cbn [Z.eqb Pos.eqb]; lia. }
  destruct (K AX) as (x & X1 & X2 & X4). destruct (K AY) as (y & Y1 & Y2 & Y4).
  destruct (K AZ) as (z & Z1 & Z2 & Z4). exists (mkPt x y z).
  split; [exact Hi|]. split; [intros [| |]; assumption|]. split; intros [| |]; assumption.
Qed.

(** Parent of the target position. *)
Lemma parent_cover V p : valid g V -> in_dom g p -> covers g V p -> 
  covers g (oct_of (lev V - 1) (fun a => coord V a / 2)) p.
Proof.
  intros Hv Hp HV a. rewrite coord_oct_of. cbn [lev oct_of]. rewrite <- (HV a).
  change 2 with (2^1) at 3. replace 1 with (lev V - (lev V - 1)) at 2 by lia.
  symmetry. apply div_nest. destruct Hv; lia.
Qed.

(** * Main result *)
Section Search.
Variables (L st : list oct) (i : nat) (A : oct).
Hypothesis HT : tiles g L.
Hypothesis HB : balanced g L.
Hypothesis Hsub : incl st L.
Hypothesis HA : nth_error st i = Some A.
Hypothesis Hcomp : forall B, In B L -> touch g A B -> In B st.

Lemma A_in : In A L. Proof. apply Hsub. eapply nth_error_In, HA. Qed.
Lemma A_valid : valid g A. Proof. eapply tiles_valid; [exact HT|apply A_in]. Qed.

(** A leaf that covers a facing unit cell is in the storage and is at most one level away. *)
Lemma facing_leaf d q : direction g d -> facing A d q -> exists B, In B L /\ In B st /\ covers g B q /\
  lev A - 1 <= lev B <= lev A + 1.
Proof.
  intros Hd Hf. destruct (tiles_leaf g L q HT ltac:(apply Hf)) as (B & HBL & Bq). exists B.
  assert (T : touch g A B).
  { eapply adjacent_touch; [exact Hd|]. apply adjacent_facing; [apply A_valid|exact Hd|]. exists q. auto. }
  split; [exact HBL|]. split; [apply Hcomp; assumption|]. split; [exact Bq|].
  pose proof (HB A B A_in HBL T). lia.
Qed.

Definition octs_at (ns : list nat) (Bs : list oct) : Prop := Forall2 (fun k B => nth_error st k = Some B) ns Bs.

Theorem findNeighbors_correct d : direction g d ->
  exists ns Bs, findNeighbors g st i d = Some ns /\ octs_at ns Bs /\ NoDup Bs /\
    forall B, In B Bs <-> In B L /\ adjacent g A d B.
Proof.
  intros Hd. pose proof A_valid as HvA. unfold findNeighbors. rewrite HA.
  assert (E0 : (d AX =? 0) && (d AY =? 0) && (d AZ =? 0) = false) by (apply all0_false, Hd). rewrite E0.
  destruct (isBoundary g A d) eqn:EB.
  { exists [], []. split; [reflexivity|]. split; [constructor|]. split; [constructor|].
    intros B. split; [intros []|]. intros [_ H]. apply adjacent_facing in H; [|assumption..].
    destruct H as (q & (Hi & _) & _). apply isBoundary_spec in Hi; [congruence|assumption..]. }
  apply isBoundary_spec in EB; [|assumption..]. rewrite shifted_target by assumption.
  set (V := target A d). cbv zeta. assert (HvV : valid g V) by (apply target_valid; exact HvA).
  assert (ADJ : forall B, adjacent g A d B <-> exists q, facing A d q /\ covers g B q)
    by (intros B; apply adjacent_facing; assumption).
  destruct (facing_exists A d HvA Hd EB) as [q0 Hq0].
  (* single leaf covering all facing cells *)
  assert (ONE : forall C k, In C L -> nth_error st k = Some C -> (forall q, facing A d q -> covers g C q) ->
     exists ns Bs, Some [k] = Some ns /\ octs_at ns Bs /\ NoDup Bs /\ forall B, In B Bs <-> In B L /\ adjacent g A d B).
  { intros C k HC Hk Hcov. exists [k], [C]. split; [reflexivity|]. split; [constructor; [exact Hk|constructor]|].
    split; [constructor; [intros []|constructor]|]. intros B. rewrite ADJ. split.
    - intros [<-|[]]. split; [exact HC|]. exists q0. split; [exact Hq0|]. apply Hcov, Hq0.
    - intros [HBL (q & Hq & Bq)]. left. eapply (tiles_unique g L q); eauto. apply Hq. }
  destruct (find_pos V st) as [k|] eqn:EV.
  { apply find_pos_some in EV. apply (ONE V k).
    - apply Hsub. eapply nth_error_In, EV.
    - exact EV.
    - intros q Hq. apply Hq. }
  apply find_pos_none in EV.
  assert (NV : forall q B, facing A d q -> In B L -> In B st -> covers g B q -> lev B <> lev A).
  { intros q B Hq HBL HBs Bq El. apply EV. replace V with B; [exact HBs|].
    apply (covers_same_level g B V q); [exact Bq|apply Hq|exact El]. }
  set (Pv := oct_of (lev V - 1) (fun a => coord V a / 2)).
  destruct (find_pos Pv st) as [k|] eqn:EP.
  { apply find_pos_some in EP. apply (ONE Pv k).
    - apply Hsub. eapply nth_error_In, EP.
    - exact EP.
    - intros q Hq. apply parent_cover; [exact HvV|apply Hq|apply Hq]. }
  apply find_pos_none in EP.
  (* all facing leaves are one level finer *)
  assert (FIN : forall q, facing A d q -> exists B, In B L /\ In B st /\ covers g B q /\ lev B = lev A + 1).
  { intros q Hq. destruct (facing_leaf d q Hd Hq) as (B & HBL & HBs & Bq & Hlv). exists B.
    do 3 (split; [assumption|]). pose proof (NV q B Hq HBL HBs Bq) as N1.
    destruct (Z.eq_dec (lev B) (lev A - 1)) as [E|N2]; [|lia]. exfalso. apply EP.
    replace Pv with B; [exact HBs|]. apply (covers_same_level g B Pv q); [exact Bq| |exact E].
    apply parent_cover; [exact HvV|apply Hq|apply Hq]. }
  assert (Hl : lev A < lmax g).
  { destruct (FIN q0 Hq0) as (B & HBL & _ & _ & El). pose proof (tiles_valid g L B HT HBL) as [? _]. lia. }
  assert (SUB : forall s, In s (suboctants g V d) -> In s L /\ In s st).
  { intros s Hs. destruct (suboctant_facing A d s HvA Hd Hl EB Hs) as (q & Hq & sq).
    destruct (FIN q Hq) as (B & HBL & HBs & Bq & El).
    assert (s = B) as ->; [|split; assumption].
    apply (covers_same_level g s B q); [exact sq|exact Bq|]. apply in_suboctants in Hs. destruct Hs as [Es _].
    rewrite Es, El. reflexivity. }
  destruct (mapM_total (fun s => find_pos s st) (suboctants g V d)) as [ns Hns].
  { intros s Hs. destruct (find_pos_in s st (proj2 (SUB s Hs))) as (k & Hk & _). exists k. exact Hk. }
  exists ns, (suboctants g V d). split; [exact Hns|]. split; [|split].
  - apply mapM_Some in Hns. unfold octs_at. clear - Hns.
    induction Hns as [|s k l r E H IH]; constructor; [apply find_pos_some, E|exact IH].
  - clear. unfold suboctants.
    assert (NZ : forall b e, NoDup (zrange b e)).
    { intros b e. unfold zrange. apply FinFun.Injective_map_NoDup; [intros x y; lia|apply seq_NoDup]. }
    assert (ND : forall (X : list Z) (f : Z -> list oct) (h : oct -> Z), NoDup X -> (forall x, In x X -> NoDup (f x)) ->
      (forall x y, In x X -> In y (f x) -> h y = x) -> NoDup (flat_map f X)).
    { intros X f h. induction 1 as [|x X Hx HX IH]; intros H1 H2; [constructor|]. cbn.
      assert (NA : forall (l1 l2 : list oct), NoDup l1 -> NoDup l2 -> (forall z, In z l1 -> ~ In z l2) -> NoDup (l1 ++ l2)).
      { induction l1 as [|z l1 IH1]; intros l2 N1 N2 D; [exact N2|]. cbn. inversion N1; subst. constructor.
        - rewrite in_app_iff. intros [?|?]; [contradiction|]. apply (D z); [left; reflexivity|assumption].
        - apply IH1; [assumption..|]. intros z' Hz'. apply D. right. exact Hz'. }
      apply NA.
      - apply H1. left. reflexivity.
      - apply IH; [intros y Hy; apply H1; right; exact Hy|intros y z Hy Hz; apply H2; [right; exact Hy|exact Hz]].
      - intros z Hz Hz'. apply in_flat_map in Hz'. destruct Hz' as (y & Hy & Hz').
        assert (h z = x) by (apply H2; [left; reflexivity|exact Hz]).
        assert (h z = y) by (apply H2; [right; exact Hy|exact Hz']). congruence. }
    apply (ND _ _ (fun o => cz o - (2 * coord V AZ + (if d AZ =? -1 then 1 else 0)))); [apply NZ| |].
    + intros sz _. apply (ND _ _ (fun o => cy o - (2 * coord V AY + (if d AY =? -1 then 1 else 0)))); [apply NZ| |].
      * intros sy _. apply FinFun.Injective_map_NoDup; [|apply NZ]. intros x y E. injection E. lia.
      * intros sy o _ H. apply in_map_iff in H. destruct H as (sx & <- & _). cbn. lia.
    + intros sz o _ H. apply in_flat_map in H. destruct H as (sy & _ & H). apply in_map_iff in H.
      destruct H as (sx & <- & _). cbn. lia.
  - intros B. rewrite ADJ. split.
    + intros Hs. split; [apply SUB, Hs|]. apply suboctant_facing; assumption.
    + intros [HBL (q & Hq & Bq)]. destruct (FIN q Hq) as (B' & HBL' & _ & Bq' & El).
      assert (B = B') as -> by (eapply (tiles_unique g L q); eauto; apply Hq).
      rewrite (covers_cell_at g B' q Bq'), El. apply facing_suboctant; assumption.
Qed.
End Search.
End FN.
