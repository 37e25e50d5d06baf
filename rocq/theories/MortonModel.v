(** Model of core/src/morton_utils.h (Morton keys). 64-bit words are integers in
    [0, 2^64); a left shift drops the bits above 64 explicitly. *)
From Verif Require Import Base.

(** 64-bit left shift [x << k] on uint64_t. *)
Definition shl64 (x k : Z) : Z := Z.land (Z.shiftl x k) 0xffffffffffffffff.

(** morton_utils.h:64-81, splitBy3<2>. Argument: uint32_t. *)
Definition splitBy3_2 (a : Z) : Z :=
  let x := Z.land a 0xffffffff in
  let x := Z.land (Z.lor x (shl64 x 16)) 0xffff0000ffff in
  let x := Z.land (Z.lor x (shl64 x 8)) 0xff00ff00ff00ff in
  let x := Z.land (Z.lor x (shl64 x 4)) 0xf0f0f0f0f0f0f0f in
  let x := Z.land (Z.lor x (shl64 x 2)) 0x3333333333333333 in
  Z.land (Z.lor x (shl64 x 1)) 0x5555555555555555.

(** morton_utils.h:83-103, splitBy3<3>. Argument: uint32_t. *)
Definition splitBy3_3 (a : Z) : Z :=
  let x := Z.land a 0x1fffff in
  let x := Z.land (Z.lor x (shl64 x 32)) 0x1f00000000ffff in
  let x := Z.land (Z.lor x (shl64 x 16)) 0x1f0000ff0000ff in
  let x := Z.land (Z.lor x (shl64 x 8)) 0x100f00f00f00f00f in
  let x := Z.land (Z.lor x (shl64 x 4)) 0x10c30c30c30c30c3 in
  Z.land (Z.lor x (shl64 x 2)) 0x1249249249249249.

(** morton_utils.h:181-188, compute_morton_key (2D). *)
Definition morton2 (ix iy : Z) : Z :=
  Z.lor (splitBy3_2 ix) (shl64 (splitBy3_2 iy) 1).

(** morton_utils.h:191-198, compute_morton_key (3D). *)
Definition morton3 (ix iy iz : Z) : Z :=
  Z.lor (Z.lor (splitBy3_3 ix) (shl64 (splitBy3_3 iy) 1)) (shl64 (splitBy3_3 iz) 2).

(** morton_utils.h:213-245, morton_extract_coord with dim==2; [coord] is 0 (IX) or 1 (IY). *)
Definition extract2 (coord key : Z) : Z :=
  let k := Z.shiftr key coord in
  let k := Z.land k 0x5555555555555555 in
  let k := Z.land (Z.lxor k (Z.shiftr k 1)) 0x3333333333333333 in
  let k := Z.land (Z.lxor k (Z.shiftr k 2)) 0x0f0f0f0f0f0f0f0f in
  let k := Z.land (Z.lxor k (Z.shiftr k 4)) 0x00ff00ff00ff00ff in
  let k := Z.land (Z.lxor k (Z.shiftr k 8)) 0x0000ffff0000ffff in
  Z.land (Z.lxor k (Z.shiftr k 16)) 0x00000000ffffffff.

(** morton_utils.h:213-245, morton_extract_coord with dim==3; [coord] is 0, 1 or 2. *)
Definition extract3 (coord key : Z) : Z :=
  let k := Z.shiftr key coord in
  let k := Z.land k 0x1249249249249249 in
  let k := Z.land (Z.lxor k (Z.shiftr k 2)) 0x30c30c30c30c30c3 in
  let k := Z.land (Z.lxor k (Z.shiftr k 4)) 0xf00f00f00f00f00f in
  let k := Z.land (Z.lxor k (Z.shiftr k 8)) 0x00ff0000ff0000ff in
  let k := Z.land (Z.lxor k (Z.shiftr k 16)) 0x00ff00000000ffff in
  Z.land (Z.lxor k (Z.shiftr k 32)) 0x1fffff.

(** amr/AMRmesh_hashmap_new.cpp:227-234, shift_level: go [d] levels finer (d >= 0) or
    -d levels coarser. *)
Definition shift_level (m d : Z) : Z :=
  if 0 <=? d then shl64 m (3 * d) else Z.shiftr m (-3 * d).
