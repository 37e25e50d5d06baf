(** Model of the cached read-only tree of amr/AMRmesh.h and amr/AMRmesh.cpp.

    The tree built for a rank is a copy of its octants and ghosts (LightOctree_hashmap.h:39-69,
    the hash table and the queries on it are in LookupModel): here it is the [rank] it was built
    from. The constructor is collective (MPI_Allgather of l.64). *)
From Verif Require Import Base OctreeSpec OctreeModel.

(** AMRmesh.h:29-37: tree, epoch of the tree; AMRmesh_hashmap_new.h:169: epoch of the mesh. [builds]
    counts constructions (not in the code). *)
Record cache := mkCache { epoch : Z; light : option rank; light_epoch : Z; builds : nat }.
(** AMRmesh.h:33, AMRmesh_hashmap_new.h:169. *)
Definition cache0 : cache := mkCache 1 None 0 0.
(** pmesh_epoch++ on an int (AMRmesh_hashmap_new.cpp:632 and 966); [None]: overflow. *)
Definition bump (c : cache) : option cache :=
  if epoch c + 1 <? 2^31 then Some (mkCache (epoch c + 1) (light c) (light_epoch c) (builds c)) else None.
(** AMRmesh.h:34-37. *)
Definition uptodate (c : cache) : bool := epoch c =? light_epoch c.
(** AMRmesh.cpp:71-81, on rank [R]. *)
Definition updateLightOctree (R : rank) (c : cache) : cache :=
  if uptodate c then c else mkCache (epoch c) (Some R) (epoch c) (S (builds c)).
(** AMRmesh.cpp:83-91; [None]: no tree or a release assertion fails. *)
Definition getLightOctree (R : rank) (c : cache) : option (rank * cache) :=
  let c := updateLightOctree R c in
  match light c with
  | None => None
  | Some L => if (length (loc L) =? length (loc R))%nat && (length (gho L) =? length (gho R))%nat then Some (L, c) else None
  end.

(** Modifications of the mesh. *)
Inductive modification := Adapt (fuel : nat) (ord : order) (mk : list (list Z)) | Refine (fuel : nat) (ord : order) | Balance (ord : order) (level : nat).
Definition modify (g : geom) (m : modification) (M : mesh) : option mesh :=
  match m with
  | Adapt fuel ord mk => adapt fuel ord g M mk
  | Refine fuel ord => adaptGlobalRefine fuel ord g M
  | Balance ord level => loadBalance ord g level M
  end.

(** Cache of rank [n] replaced. *)
Fixpoint list_upd {X} (l : list X) (n : nat) (x : X) : list X :=
  match l, n with
  | [], _ => []
  | _ :: l, O => x :: l
  | y :: l, S n => y :: list_upd l n x
  end.
(** One call of getLightOctree by rank [r]. *)
Definition query (M : mesh) (cs : list cache) (r : nat) : option (rank * list cache) :=
  match nth_error M r, nth_error cs r with
  | Some R, Some c => match getLightOctree R c with Some (L, c') => Some (L, list_upd cs r c') | None => None end
  | _, _ => None
  end.
Fixpoint queries (M : mesh) (cs : list cache) (rs : list nat) : option (list rank * list cache) :=
  match rs with
  | [] => Some ([], cs)
  | r :: rs => match query M cs r with
    | None => None
    | Some (L, cs) => match queries M cs rs with Some (Ls, cs) => Some (L :: Ls, cs) | None => None end
    end
  end.
(** The calls of getLightOctree between two modifications, by the ranks [rs] in the order of their
    completion. Ranks whose tree is out of date meet in a collective operation: [None] when some
    of them never come (the others wait forever). *)
Definition phase (M : mesh) (cs : list cache) (rs : list nat) : option (list rank * list cache) :=
  let stale := filter (fun r => match nth_error cs r with Some c => negb (uptodate c) | None => false end) rs in
  match stale with
  | [] => queries M cs rs
  | _ => if forallb (fun r => existsb (Nat.eqb r) rs) (seq 0 (length M)) then queries M cs rs else None
  end.
(** A program after the construction of the mesh: queries, then any number of modifications each
    followed by queries. The result is the answers of each phase, the mesh and the caches. *)
Fixpoint run_phases (g : geom) (h : list (modification * list nat)) (M : mesh) (cs : list cache) : option (list (list rank) * mesh * list cache) :=
  match h with
  | [] => Some ([], M, cs)
  | (m, rs) :: h =>
    match modify g m M, mapM bump cs with
    | Some M, Some cs => match phase M cs rs with
      | None => None
      | Some (Ls, cs) => match run_phases g h M cs with Some (A, M, cs) => Some (Ls :: A, M, cs) | None => None end
      end
    | _, _ => None
    end
  end.
Definition run_program (g : geom) (rs0 : list nat) (h : list (modification * list nat)) (M : mesh) : option (list (list rank) * mesh * list cache) :=
  match phase M (map (fun _ => cache0) M) rs0 with
  | None => None
  | Some (Ls, cs) => match run_phases g h M cs with Some (A, M, cs) => Some (Ls :: A, M, cs) | None => None end
  end.
