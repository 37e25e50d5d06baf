(** Specification vocabulary for point queries. *)
From Coq Require Import QArith.
From Verif Require Import Base OctreeSpec.
Open Scope Z_scope.

(** A position strictly inside the domain, which is the unit box along every axis; in 2D
    positions have z = 0. *)
Definition inside_domain (g : geom) (p : axis -> Q) : Prop :=
  (forall a, flat g a = false -> (0 < p a)%Q /\ (p a < 1)%Q) /\
  (forall a, flat g a = true -> (p a == 0)%Q).

(** Octant [o] contains position [p]: along each axis, the domain is cut into [ncell] equal
    slices and [p] is in slice number [coord o a]. *)
Definition contains (g : geom) (o : oct) (p : axis -> Q) : Prop :=
  forall a, let n := inject_Z (ncell g a (lev o)) in
    (inject_Z (coord o a) / n <= p a)%Q /\ (p a < inject_Z (coord o a + 1) / n)%Q.

(** All directions have 2^level_min coarse cells. *)
Definition cubic (g : geom) : Prop := forall a, flat g a = false -> gsize g a = 2^lmin g.

(** A face of octant [o] lies on the boundary of the domain box. *)
Definition on_box (g : geom) (o : oct) : Prop :=
  exists a, flat g a = false /\ (coord o a = 0 \/ coord o a = ncell g a (lev o) - 1).

(** Coarse grids that fit the minimum level: at least one cell along each axis, at most
    2^level_min cells (one along z in 2D), and level_min could not be smaller. *)
Definition fits (g : geom) : Prop :=
  lmin g <= lmax g /\ (forall a, 1 <= gsize g a <= (if flat g a then 1 else 2^lmin g)) /\
  (0 < lmin g -> exists a, flat g a = false /\ 2^(lmin g - 1) < gsize g a).
