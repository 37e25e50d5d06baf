(** C01, C02: Morton keys. *)
From Verif Require Import Base MortonModel MortonProofs OctreeSpec OctreeGeom.

(** * C01 Morton encode/decode round trip *)

(** 2D: 32-bit coordinates are recovered exactly. *)
Theorem C01_roundtrip_2D x y :
  0 <= x < 2^32 -> 0 <= y < 2^32 ->
  extract2 0 (morton2 x y) = x /\ extract2 1 (morton2 x y) = y.
Proof.
  intros Hx Hy. split; rewrite extract2_key by lia; reflexivity.
Qed.

(** 3D: the low 21 bits of every 32-bit coordinate are recovered, whatever the other
    coordinates are: bits above the supported width are dropped, never mixed in. *)
Theorem C01_roundtrip_3D x y z :
  0 <= x < 2^32 -> 0 <= y < 2^32 -> 0 <= z < 2^32 ->
  extract3 0 (morton3 x y z) = x mod 2^21 /\
  extract3 1 (morton3 x y z) = y mod 2^21 /\
  extract3 2 (morton3 x y z) = z mod 2^21.
Proof.
  intros Hx Hy Hz. repeat split; rewrite extract3_key by lia; reflexivity.
Qed.

(** In the supported range the round trip is the identity. *)
Theorem C01_roundtrip_3D_exact x y z :
  0 <= x < 2^21 -> 0 <= y < 2^21 -> 0 <= z < 2^21 ->
  extract3 0 (morton3 x y z) = x /\ extract3 1 (morton3 x y z) = y /\ extract3 2 (morton3 x y z) = z.
Proof.
  intros Hx Hy Hz. destruct (C01_roundtrip_3D x y z) as (E1 & E2 & E3); [lia..|].
  rewrite E1, E2, E3, !Z.mod_small by lia. auto.
Qed.

(** Keys fit in 64 bits (in fact 63 in 3D). *)
Theorem C01_key_range_3D x y z :
  0 <= x < 2^32 -> 0 <= y < 2^32 -> 0 <= z < 2^32 -> 0 <= morton3 x y z < 2^63.
Proof. intros. split; [apply morton3_nonneg|apply morton3_lt63; assumption]. Qed.
Theorem C01_key_range_2D x y :
  0 <= x < 2^32 -> 0 <= y < 2^32 -> 0 <= morton2 x y < 2^64.
Proof. intros. split; [apply morton2_nonneg|apply morton2_lt64; assumption]. Qed.

(** The 3D key is the interleaving of the bits of its coordinates, x lowest. *)
Theorem C01_key_is_interleaving x y z :
  0 <= x < 2^21 -> 0 <= y < 2^21 -> 0 <= z < 2^21 ->
  morton3 x y z = interleave 21 x y z.
Proof.
  intros. symmetry. change (2^21) with (2^(Z.of_nat 21)) in *. apply interleave_morton3; auto.
Qed.

Example C01_example : extract3 1 (morton3 123456 1999999 777) = 1999999
  /\ morton3 3 5 1 = 143 /\ extract2 1 (morton2 4294967295 17) = 17.
Proof. vm_compute. auto. Qed.

Print Assumptions C01_roundtrip_2D.
Print Assumptions C01_roundtrip_3D.
Print Assumptions C01_roundtrip_3D_exact.
Print Assumptions C01_key_range_3D.
Print Assumptions C01_key_range_2D.
Print Assumptions C01_key_is_interleaving.

(** * C02 Morton order is the depth-first order of the octree *)

(** The key of the parent cell is the child key without its last three bits. *)
Theorem C02_parent_key x y z :
  0 <= x < 2^21 -> 0 <= y < 2^21 -> 0 <= z < 2^21 ->
  morton3 (x / 2) (y / 2) (z / 2) = morton3 x y z / 8.
Proof.
  intros Hx Hy Hz. pose proof (morton3_div x y z 1 Hx Hy Hz ltac:(lia)) as E.
  change (2^1) with 2 in E. change (2^(3*1)) with 8 in E. exact E.
Qed.

(** Distinct cells of one level have distinct keys. *)
Theorem C02_keys_distinct x y z x' y' z' :
  0 <= x < 2^21 -> 0 <= y < 2^21 -> 0 <= z < 2^21 ->
  0 <= x' < 2^21 -> 0 <= y' < 2^21 -> 0 <= z' < 2^21 ->
  (x, y, z) <> (x', y', z') -> morton3 x y z <> morton3 x' y' z'.
Proof.
  intros Hx Hy Hz Hx' Hy' Hz' Hne E. apply Hne.
  destruct (morton3_inj x y z x' y' z') as (-> & -> & ->); auto.
Qed.

(** The keys of the descendants [k] levels finer form exactly one interval, whose start
    is the key shifted by [k] levels (as computed by shift_level). *)
Theorem C02_descendants_contiguous x y z X Y Z' k :
  0 <= k -> 0 <= x < 2^21 -> 0 <= y < 2^21 -> 0 <= z < 2^21 ->
  0 <= X < 2^21 -> 0 <= Y < 2^21 -> 0 <= Z' < 2^21 ->
  ((X / 2^k = x /\ Y / 2^k = y /\ Z' / 2^k = z) <->
   morton3 x y z * 8^k <= morton3 X Y Z' < (morton3 x y z + 1) * 8^k).
Proof.
  intros Hk Hx Hy Hz HX HY HZ. rewrite pow8 by exact Hk. apply morton3_descendants; auto.
Qed.

(** Every key of the interval is the key of a descendant: no gaps. *)
Theorem C02_no_gaps x y z k m :
  0 <= k <= 21 -> 0 <= x < 2^(21-k) -> 0 <= y < 2^(21-k) -> 0 <= z < 2^(21-k) ->
  morton3 x y z * 8^k <= m < (morton3 x y z + 1) * 8^k ->
  exists X Y Z', X / 2^k = x /\ Y / 2^k = y /\ Z' / 2^k = z /\ morton3 X Y Z' = m.
Proof.
  intros Hk Hx Hy Hz Hm.
  pose proof (morton3_bound x y z (21-k) ltac:(lia) Hx Hy Hz) as Hb.
  assert (E8 : 8^k = 2^(3*k)) by (apply pow8; lia).
  assert (Hm63 : 0 <= m < 2^63).
  { assert (2^63 = 2^(3*(21-k)) * 8^k) as ->.
    { rewrite E8, <- Z.pow_add_r by lia. f_equal. lia. }
    assert (0 < 8^k) by (apply Z.pow_pos_nonneg; lia). nia. }
  pose (X := extract3 0 m). pose (Y := extract3 1 m). pose (W := extract3 2 m).
  assert (R : forall c, 0 <= c < 3 -> 0 <= extract3 c m < 2^21).
  { intros c Hc. split.
    - unfold extract3. apply Z.land_nonneg. right. lia.
    - apply bits_lt_pow2; [unfold extract3; apply Z.land_nonneg; right; lia|lia|].
      intros n Hn. rewrite extract3_testbit by lia. destruct (Z.ltb_spec n 21); [lia|reflexivity]. }
  pose proof (R 0 ltac:(lia)). pose proof (R 1 ltac:(lia)). pose proof (R 2 ltac:(lia)).
  assert (EM : morton3 X Y W = m).
  { apply Z.bits_inj'. intros n Hn. rewrite morton3_testbit by (unfold X, Y, W; lia).
    unfold sel3, X, Y, W.
    pose proof (Z.div_mod n 3 ltac:(lia)). pose proof (Z.mod_pos_bound n 3 ltac:(lia)).
    assert (0 <= n / 3) by (apply Z.div_pos; lia).
    destruct (Z.ltb_spec n 63) as [H63|H63].
    - destruct (Z.eqb_spec (n mod 3) 0); [|destruct (Z.eqb_spec (n mod 3) 1)];
        rewrite extract3_testbit by lia; (destruct (Z.ltb_spec (n/3) 21); [f_equal; lia|lia]).
    - rewrite (testbit_small m 63) by lia.
      destruct (Z.eqb_spec (n mod 3) 0); [|destruct (Z.eqb_spec (n mod 3) 1)];
        rewrite extract3_testbit by lia; (destruct (Z.ltb_spec (n/3) 21); [lia|reflexivity]). }
  pose proof (Z.pow_le_mono_r 2 (21-k) 21 ltac:(lia) ltac:(lia)) as HP.
  exists X, Y, W.
  assert (D : X / 2^k = x /\ Y / 2^k = y /\ W / 2^k = z).
  { apply C02_descendants_contiguous; unfold X, Y, W in *; try lia. }
  destruct D as (? & ? & ?). auto.
Qed.

(** Changing level with shift_level multiplies or divides by 8 per level (no bits lost
    while the result fits in 64 bits). *)
Theorem C02_shift_level m d :
  0 <= m -> (0 <= d -> m * 8^d < 2^64) ->
  shift_level m d = if 0 <=? d then m * 8^d else m / 8^(-d).
Proof.
  intros Hm Hb. destruct (Z.leb_spec 0 d).
  - rewrite pow8 in * by lia. apply shift_level_up; auto.
  - rewrite pow8 by lia. apply shift_level_down. lia.
Qed.

Example C02_example :
  morton3 5 2 7 = 373 /\ morton3 2 1 3 = 46 /\ 373 / 8 = 46 /\
  (* the 64 descendants of (5,2,7) two levels down are the keys 373*64 .. 373*64+63 *)
  morton3 20 8 28 = 373 * 64 /\ morton3 23 11 31 = 373 * 64 + 63.
Proof. vm_compute. auto. Qed.

Print Assumptions C02_parent_key.
Print Assumptions C02_keys_distinct.
Print Assumptions C02_descendants_contiguous.
Print Assumptions C02_no_gaps.
Print Assumptions C02_shift_level.
