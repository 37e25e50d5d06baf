(** Specification of mesh histories: the meshes a program can reach by constructing a mesh
    and then calling mesh operations any number of times, in any order. *)
From Verif Require Import Base OctreeSpec OctreeModel MeshSpec GhostExchange.

(** Markers [mk] (one list per rank) that request at most one level of change and stay
    within the level bounds. *)
Definition good_markers (g : geom) (M : mesh) (mk : list (list Z)) : Prop :=
  Forall2 (Forall2 (fun A m => -1 <= m <= 1 /\ lmin g <= lev A + m <= lmax g)) (map loc M) mk.

(** [reachable g P M]: a run on [P] ranks with mesh parameters [g] can be in state [M].
    Each operation may use any iteration order [ord] of the hash tables, and any amount of
    fuel that is enough for the marker loops to stop. *)
Inductive reachable (g : geom) (P : nat) : mesh -> Prop :=
| reach_init ord M : ord_ok ord -> private_init ord g P = Some M -> reachable g P M
| reach_adapt ord fuel M mk M' : reachable g P M -> ord_ok ord -> good_markers g M mk ->
    adapt fuel ord g M mk = Some M' -> reachable g P M'
| reach_refine ord fuel M M' : reachable g P M -> ord_ok ord ->
    (forall o, In o (leaves M) -> lev o < lmax g) ->
    adaptGlobalRefine fuel ord g M = Some M' -> reachable g P M'
| reach_balance ord level M M' : reachable g P M -> ord_ok ord ->
    loadBalance ord g level M = Some M' -> reachable g P M'.

(** Parameters for which a mesh can be built on [P] ranks: at least one coarse cell per
    rank, number of coarse cells representable in 32 bits, minimum level at least 1. *)
Definition good_setup (g : geom) (P : nat) : Prop :=
  wf_geom g /\ 1 <= lmin g /\ (1 <= P)%nat /\
  Z.of_nat P <= gsx g * gsy g * gsz g < 2^32.

(** A rank keeps at least one octant whatever the corrected markers: one of its octants is
    not asked to be coarsened, or is the first of its siblings. *)
Definition keeps_one (req : oct -> Z) (R : rank) : Prop :=
  exists A, In A (loc R) /\ (0 <= req A \/ forall a, coord A a mod 2 = 0).

(** Payload [x] is stored for octant [A] in the distributed array [D] of the mesh [M]. *)
Definition payload_at {X} (M : mesh) (D : list (list X)) (A : oct) (x : X) : Prop :=
  exists r R l i, nth_error M r = Some R /\ nth_error D r = Some l /\
    nth_error (loc R) i = Some A /\ nth_error l i = Some x.
