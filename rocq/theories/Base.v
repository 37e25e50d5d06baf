(** Shared imports and small arithmetic helpers (no model content). *)
From Coq Require Export List Bool ZArith Lia Permutation Sorted.
From Coq Require Export ZifyBool ZifyNat.
Export ListNotations.
#[export] Set Warnings "-notation-overridden".
Global Open Scope Z_scope.

(** Unsigned machine words: [uN z] is the value of [z] stored in an N-bit unsigned
    integer (C++ unsigned arithmetic is modulo 2^N). *)
Definition u16 (z : Z) : Z := z mod 2^16.
Definition u32 (z : Z) : Z := z mod 2^32.
Definition u64 (z : Z) : Z := z mod 2^64.

Lemma u32_small z : 0 <= z < 2^32 -> u32 z = z.
Proof. intros H; unfold u32; apply Z.mod_small; exact H. Qed.
Lemma u64_small z : 0 <= z < 2^64 -> u64 z = z.
Proof. intros H; unfold u64; apply Z.mod_small; exact H. Qed.
