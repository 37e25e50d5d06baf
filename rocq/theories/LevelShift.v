(** Changing the finest level: coverage, tilings and contacts of octants that exist on both
    grids do not depend on it. *)
From Verif Require Import Base MortonModel MortonProofs OctreeSpec OctreeGeom OctreeModel MeshSpec.

Definition with_lmax (g : geom) (K : Z) : geom :=
  mkGeom (g3d g) (lmin g) K (gsx g) (gsy g) (gsz g) (perx g) (pery g) (perz g).

Section Shift.
Variable g : geom.
Hypothesis WF : wf_geom g.
Variable K : Z.
Hypothesis HK : lmin g <= K <= lmax g.
Let g' := with_lmax g K.
Let k := lmax g - K.

Lemma wf_with : wf_geom g'.
Proof. destruct WF as (A & B & C & D & E). unfold wf_geom, g', with_lmax; cbn. repeat split; try lia; try apply D; try apply E. Qed.
Lemma ncell_with a l : ncell g' a l = ncell g a l.
Proof. reflexivity. Qed.
Lemma flat_with a : flat g' a = flat g a.
Proof. reflexivity. Qed.
Lemma per_with a : per g' a = per g a.
Proof. destruct a; reflexivity. Qed.
Lemma valid_with o : valid g' o -> valid g o.
Proof. intros [Hl Hc]. cbn in Hl. split; [lia|exact Hc]. Qed.

Let cell (p : pt) : pt := pt_of (fun a => pc p a / 2^k).
Lemma pow_k : 0 < 2^k. Proof. apply pow2_pos. unfold k. lia. Qed.
Lemma ncell_k a : ncell g a (lmax g) = if flat g a then 1 else ncell g a K * 2^k.
Proof. replace (lmax g) with (K + k) by (unfold k; lia). apply ncell_split; unfold k; lia. Qed.
Lemma ncell_flat a l : flat g a = true -> ncell g a l = 1.
Proof. intros F. unfold ncell. rewrite F. reflexivity. Qed.

Lemma cell_dom p : in_dom g p -> in_dom g' (cell p).
Proof.
  intros H a. unfold cell. rewrite pc_pt_of. cbn [lmax with_lmax g']. rewrite ncell_with. specialize (H a). rewrite ncell_k in H.
  pose proof pow_k. destruct (flat g a) eqn:F.
  - rewrite ncell_flat by exact F. assert (pc p a = 0) as -> by lia. rewrite Zdiv_0_l. lia.
  - split; [apply Z.div_pos; lia|]. apply Z.div_lt_upper_bound; [lia|]. cbn. lia.
Qed.
Lemma covers_with o p : valid g' o -> (covers g o p <-> covers g' o (cell p)).
Proof.
  intros [Hl _]. cbn [lmin lmax with_lmax g'] in Hl. unfold covers. cbn [lmax with_lmax g'].
  assert (E : forall a, pc (cell p) a / 2^(K - lev o) = pc p a / 2^(lmax g - lev o)).
  { intros a. unfold cell. rewrite pc_pt_of. rewrite Z.div_div; [|pose proof pow_k; lia|apply pow2_pos; lia].
    rewrite <- Z.pow_add_r by (unfold k; lia). do 2 f_equal. unfold k. lia. }
  split; intros H a; [rewrite E|rewrite <- E]; apply H.
Qed.
Lemma cell_onto q : in_dom g' q -> exists p, in_dom g p /\ cell p = q.
Proof.
  intros H. exists (pt_of (fun a => if flat g a then 0 else pc q a * 2^k)). pose proof pow_k.
  assert (Q : forall a, 0 <= pc q a < ncell g a K) by (intros a; apply (H a)). split.
  - intros a. rewrite pc_pt_of, ncell_k. specialize (Q a). destruct (flat g a); [lia|nia].
  - unfold cell. assert (E : forall a, (pc (pt_of (fun a => if flat g a then 0 else pc q a * 2^k)) a) / 2^k = pc q a).
    { intros a. rewrite pc_pt_of. specialize (Q a). destruct (flat g a) eqn:F.
      - rewrite ncell_flat in Q by exact F. rewrite Zdiv_0_l. lia.
      - apply Z.div_mul. lia. }
    destruct q as [x y z]. unfold pt_of. f_equal; [apply (E AX)|apply (E AY)|apply (E AZ)].
Qed.

Lemma tiles_with L : tiles g' L -> tiles g L.
Proof.
  intros HT. apply tiles_intro.
  - apply (tiles_NoDup g' L HT).
  - intros o Ho. apply valid_with, (tiles_valid g' L); assumption.
  - intros p Hp. destruct (tiles_leaf g' L (cell p) HT (cell_dom p Hp)) as (o & Ho & Hc). exists o. split; [exact Ho|].
    apply covers_with; [apply (tiles_valid g' L); assumption|exact Hc].
  - intros p o o' Hp Ho Ho' Hc Hc'. apply (tiles_unique g' L (cell p)); auto using cell_dom.
    + apply covers_with; [apply (tiles_valid g' L); assumption|exact Hc].
    + apply covers_with; [apply (tiles_valid g' L); assumption|exact Hc'].
Qed.

Lemma near1_down pr n w x y : 0 < w -> 0 < n -> 0 <= x < n * w -> 0 <= y < n * w ->
  near1 pr (n * w) x y -> near1 pr n (x / w) (y / w).
Proof.
  intros Hw Hn Hx Hy H.
  pose proof (Z.div_mod x w ltac:(lia)). pose proof (Z.mod_pos_bound x w Hw).
  pose proof (Z.div_mod y w ltac:(lia)). pose proof (Z.mod_pos_bound y w Hw).
  destruct H as [H|[Hp H]]; [left; nia|].
  right. split; [exact Hp|].
  destruct (Z.le_gt_cases x y).
  - assert (x = 0) by lia. assert (y = n * w - 1) by lia. subst x y. rewrite Zdiv_0_l.
    assert ((n*w - 1) / w = n - 1) as ->; [|lia]. symmetry. apply Z.div_unique_pos with (w - 1); lia.
  - assert (y = 0) by lia. assert (x = n * w - 1) by lia. subst x y. rewrite Zdiv_0_l.
    assert ((n*w - 1) / w = n - 1) as ->; [|lia]. symmetry. apply Z.div_unique_pos with (w - 1); lia.
Qed.
Lemma near1_up pr n w x y : 0 < w -> 0 < n -> 0 <= x < n -> 0 <= y < n -> near1 pr n x y ->
  exists u v, 0 <= u < n * w /\ 0 <= v < n * w /\ u / w = x /\ v / w = y /\ near1 pr (n * w) u v.
Proof.
  intros Hw Hn Hx Hy H.
  assert (D1 : forall z, (z * w) / w = z) by (intros; apply Z.div_mul; lia).
  assert (D2 : forall z, (z * w + w - 1) / w = z) by (intros z; symmetry; apply Z.div_unique_pos with (w - 1); lia).
  assert (R1 : forall z, 0 <= z < n -> 0 <= z * w < n * w) by (intros; nia).
  assert (R2 : forall z, 0 <= z < n -> 0 <= z * w + w - 1 < n * w) by (intros; nia).
  destruct (Z.eq_dec x y) as [<-|Hne].
  { exists (x * w), (x * w). repeat split; auto; try apply R1; try assumption. left. lia. }
  destruct H as [H|[Hp H]].
  - destruct (Z.eq_dec y (x + 1)) as [->|].
    + exists (x * w + w - 1), ((x + 1) * w). repeat split; auto; try apply R2; try apply R1; try lia. left. lia.
    + assert (x = y + 1) as -> by lia. exists ((y + 1) * w), (y * w + w - 1). repeat split; auto; try apply R2; try apply R1; try lia. left. lia.
  - destruct (Z.le_gt_cases x y).
    + assert (x = 0) by lia. assert (y = n - 1) by lia. subst x y. exists (0 * w), ((n-1) * w + w - 1).
      repeat split; auto; try apply R2; try apply R1; try lia. right. split; [exact Hp|]. lia.
    + assert (y = 0) by lia. assert (x = n - 1) by lia. subst x y. exists ((n-1) * w + w - 1), (0 * w).
      repeat split; auto; try apply R2; try apply R1; try lia. right. split; [exact Hp|]. lia.
Qed.

Lemma touch_with A B : valid g' A -> valid g' B -> (touch g A B <-> touch g' A B).
Proof.
  intros HA HB. pose proof pow_k as Hk. split.
  - intros (p & q & Hp & Hq & Cp & Cq & Hn). exists (cell p), (cell q).
    split; [apply cell_dom, Hp|]. split; [apply cell_dom, Hq|].
    split; [apply covers_with; assumption|]. split; [apply covers_with; assumption|].
    intros a. unfold cell. rewrite !pc_pt_of, per_with. cbn [lmax with_lmax g']. rewrite ncell_with.
    specialize (Hn a). specialize (Hp a). specialize (Hq a). rewrite ncell_k in *. destruct (flat g a) eqn:F.
    + assert (pc p a = 0) as -> by lia. assert (pc q a = 0) as -> by lia. rewrite Zdiv_0_l. left. lia.
    + apply near1_down; auto. apply (ncell_pos g WF). lia.
  - intros (p & q & Hp & Hq & Cp & Cq & Hn).
    assert (EX : forall a, exists uv, 0 <= fst uv < ncell g a (lmax g) /\ 0 <= snd uv < ncell g a (lmax g) /\
       fst uv / 2^k = pc p a /\ snd uv / 2^k = pc q a /\ near1 (per g a) (ncell g a (lmax g)) (fst uv) (snd uv)).
    { intros a. specialize (Hn a). specialize (Hp a). specialize (Hq a). cbn [lmax with_lmax g'] in Hn, Hp, Hq.
      rewrite ncell_with in *. rewrite per_with in Hn. rewrite ncell_k. destruct (flat g a) eqn:F.
      - rewrite ncell_flat in * by exact F. exists (0,0). cbn [fst snd]. rewrite Zdiv_0_l.
        split; [lia|]. split; [lia|]. split; [lia|]. split; [lia|]. left. lia.
      - destruct (near1_up (per g a) (ncell g a K) (2^k) (pc p a) (pc q a) Hk) as (u & v & H); auto.
        + apply (ncell_pos g WF). lia.
        + exists (u, v). exact H. }
    destruct (EX AX) as (ux & X1 & X2 & X3 & X4 & X5). destruct (EX AY) as (uy & Y1 & Y2 & Y3 & Y4 & Y5). destruct (EX AZ) as (uz & Z1 & Z2 & Z3 & Z4 & Z5).
    set (p' := mkPt (fst ux) (fst uy) (fst uz)). set (q' := mkPt (snd ux) (snd uy) (snd uz)).
    assert (Ep : cell p' = p) by (destruct p as [px py pz]; unfold cell, pt_of, p'; cbn [pc ptx pty ptz] in *; congruence).
    assert (Eq : cell q' = q) by (destruct q as [qx qy qz]; unfold cell, pt_of, q'; cbn [pc ptx pty ptz] in *; congruence).
    exists p', q'. split; [intros [| |]; assumption|]. split; [intros [| |]; assumption|].
    split; [apply covers_with; [assumption|rewrite Ep; exact Cp]|].
    split; [apply covers_with; [assumption|rewrite Eq; exact Cq]|].
    intros [| |]; assumption.
Qed.
End Shift.
