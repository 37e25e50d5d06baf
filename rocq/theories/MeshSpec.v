(** Specification of a consistent distributed mesh: what users may rely on between mesh
    operations. Only the vocabulary of OctreeSpec and the stored per-rank data appear. *)
From Verif Require Import Base OctreeSpec OctreeModel.

(** All leaves, in rank order. *)
Definition leaves (M : mesh) : list oct := concat (map loc M).

(** The ghosts [gh] of a rank owning [lo] are exactly the leaves of other ranks that touch
    one of its own, each once. *)
Definition ghosts_exact (g : geom) (L lo gh : list oct) : Prop :=
  NoDup gh /\
  forall B, In B gh <-> In B L /\ ~ In B lo /\ exists A, In A lo /\ touch g A B.

(** Global numbering: the leaves are numbered consecutively in rank order and every rank
    knows the total. *)
Definition numbered (M : mesh) : Prop :=
  forall r R, nth_error M r = Some R ->
    gtotal R = Z.of_nat (length (leaves M)) /\
    forall i A, nth_error (loc R) i = Some A ->
      0 <= gfirst R /\ nth_error (leaves M) (Z.to_nat (gfirst R + Z.of_nat i)) = Some A.

(** The send lists of all ranks deliver exactly the ghosts, in storage order. *)
Definition ghost_map_ok (M : mesh) : Prop :=
  exchange (map snds M) (map loc M) = Some (map gho M).

Record mesh_ok (g : geom) (M : mesh) : Prop := {
  ok_tiles : tiles g (leaves M);
  ok_balanced : balanced g (leaves M);
  ok_sorted : zsorted g (leaves M);
  ok_nonempty : forall R, In R M -> loc R <> [];
  ok_ghosts : forall R, In R M -> ghosts_exact g (leaves M) (loc R) (gho R);
  ok_snds : forall R, In R M -> length (snds R) = length M;
  ok_map : ghost_map_ok M;
  ok_numbered : numbered M }.
