(** Model of checkpoint and restart: io/IOManager_checkpoint.cpp, utils/io/HDF5ViewWriter.h and
    init/InitialConditions_restart.cpp.

    A dataset of the HDF5 file is a table of rows (the outermost dimension of the file); entries
    that nobody wrote are [None]. One row is what is stored for one octant (one element for
    particles): the transpositions that bring the octant index to the outermost position and
    back are those of IndexModel (C50), they are not repeated here. HDF5 itself is trusted to
    store what is written at the selected position. *)
From Coq Require Import QArith.
From Verif Require Import Base OctreeSpec OctreeModel MeshSpec LookupModel.
Open Scope Z_scope.

(** A dataset: number of rows and content. *)
Record dataset (X : Type) := mkDS { ds_rows : nat; ds_at : nat -> option X }.
Arguments mkDS {X}. Arguments ds_rows {X}. Arguments ds_at {X}.

(** HDF5ViewWriter.h:98-108: total (MPI_Allreduce) and first row (MPI_Scan minus own count) of a
    rank. The same in read_view, InitialConditions_restart.cpp:132-141. *)
Definition total (counts : list nat) : nat := list_sum counts.
Definition first_row (counts : list nat) (r : nat) : nat := list_sum (firstn (S r) counts) - nth r counts O.

(** HDF5ViewWriter.h:119-196: the hyperslab of [rows] starting at [first]. *)
Definition write_slab {X} (first : nat) (rows : list X) (f : nat -> option X) : nat -> option X :=
  fun k => if (first <=? k)%nat && (k <? first + length rows)%nat then nth_error rows (k - first) else f k.
(** collective_write of the local rows [D] of all ranks; the ranks reach the file in the order
    [sched]. *)
Definition collective_write {X} (sched : list nat) (D : list (list X)) : dataset X :=
  let counts := map (@length X) D in
  mkDS (total counts) (fold_left (fun f r => write_slab (first_row counts r) (nth r D []) f) sched (fun _ => None)).

(** read_view, InitialConditions_restart.cpp:117-172: each rank reads as many rows as its array
    has. [None]: rows outside of the dataset or never written. *)
Definition read_slab {X} (f : dataset X) (first n : nat) : option (list X) :=
  mapM (fun k => if (k <? ds_rows f)%nat then ds_at f k else None) (seq first n).
Definition read_view {X} (f : dataset X) (counts : list nat) : option (list (list X)) :=
  mapM (fun r => read_slab f (first_row counts r) (nth r counts O)) (seq 0 (length counts)).
(** read_view_init, l.79-114: every rank reads the whole dataset. *)
Definition read_all {X} (f : dataset X) : option (list X) := read_slab f O (ds_rows f).

(** IOManager_checkpoint.cpp:74-78: the local octants of all ranks. *)
Definition checkpoint_octree (sched : list nat) (M : mesh) : dataset oct := collective_write sched (map loc M).

(** InitialConditions_restart.cpp:241-246: center of an octant, moved by one hundredth of its
    size. *)
Definition mark_pos (g : geom) (o : oct) : position :=
  fun a => (getCorner g o a + (if flat g a then 0 else (1 / inject_Z (cell_count g a (lev o)) / 2 + (1 / inject_Z (cell_count g a (lev o))) * (1 # 100))))%Q.
(** l.248-251: marker of an octant of the new mesh, in the round for [level]. [None]: no octant
    of the file there (getiOctFromPos fails). *)
Definition mark_oct (g : geom) (input : list oct) (level : Z) (o : oct) : option Z :=
  match getiOctFromPos g input (mark_pos g o) with
  | None => None
  | Some i => match nth_error input i with Some A => Some (if lev A >? level then 1 else 0) | None => None end
  end.
(** l.229-269: one round; l.269 pmesh.adapt(). *)
Definition restart_round (fuel : nat) (ord : order) (g : geom) (input : list oct) (level : Z) (M : mesh) : option mesh :=
  match mapM (mapM (mark_oct g input level)) (map loc M) with
  | None => None
  | Some mk => adapt fuel ord g M mk
  end.
(** l.205-275 on a newly built mesh: rounds for all levels, then loadBalance(0). The number of
    octants of the file is stored in 32 bits (l.211); otherwise the copy of l.217 fails.
    [ords] gives the order of the hash table in each operation. *)
Definition restart_mesh (fuel : nat) (ords : Z -> order) (g : geom) (P : nat) (f : dataset oct) : option mesh :=
  match private_init (ords (-2)) g P, read_all f with
  | Some M, Some input =>
    if Z.of_nat (ds_rows f) <? 2^32 then
      match foldM (fun M level => restart_round fuel (ords level) g input level M) (zrange (lmin g) (lmax g)) M with
      | None => None
      | Some M => loadBalance (ords (-1)) g O M
      end
    else None
  | _, _ => None
  end.
(** l.278-298: a field is allocated for the new mesh and read. *)
Definition restart_field {X} (M : mesh) (f : dataset X) : option (list (list X)) := read_view f (map (fun R => length (loc R)) M).

(** * Particles *)

(** l.307-310: number of particles read by a rank, in 32-bit arithmetic. *)
Definition particle_count (n : Z) (P r : Z) : Z :=
  u32 (u32 (u32 n * (r + 1)) / P - u32 (u32 n * r) / P).
(** l.307-316: positions. [nb] is the number of rows of the dataset. *)
Definition restart_particles {X} (P : nat) (f : dataset X) : option (list (list X)) :=
  read_view f (map (fun r => Z.to_nat (particle_count (Z.of_nat (ds_rows f)) (Z.of_nat P) (Z.of_nat r))) (seq 0 P)).
(** IOManager_checkpoint.cpp:70-71: attributes are two-dimensional arrays (particle, 1) whose last
    dimension, 1, is taken for the distributed one (HDF5ViewWriter.h:101): rank r creates a
    dataset of [P] rows of as many elements as it has particles. HDF5 requires all ranks to
    create the same dataset; [None] when they do not. The elements are stored row after row,
    rank after rank. Reading (l.323) selects them with a one-dimensional dataspace although the
    dataset has two dimensions: that HDF5 then counts elements in storage order is assumed. *)
Definition collective_write_attribute {X} (sched : list nat) (D : list (list X)) : option (dataset X) :=
  match D with
  | [] => None
  | l :: _ => if forallb (fun l' => (length l' =? length l)%nat) D then Some (collective_write sched D) else None
  end.
