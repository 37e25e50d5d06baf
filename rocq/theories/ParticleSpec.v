(** Specification vocabulary for particles and cells. *)
From Coq Require Import QArith Qcanon.
(* CellModel for the record of a cell index *)
From Verif Require Import Base OctreeSpec OctreeModel CellModel CellSpec RemapSpec HydroSpec ConserveSpec.
Open Scope Z_scope.

(** A position strictly inside the box with corners [lo] and [hi]; in 2D, in the plane of its
    lower side. *)
Definition in_box (g : geom) (lo hi p : axis -> Qc) : Prop :=
  forall a, if flat g a then p a = lo a else (lo a < p a /\ p a < hi a)%Qc.

(** Coordinate along [a] of a point at [z] half cells of level [l] from the lower side. *)
Definition grid_line (g : geom) (b : axis -> Z) (lo hi : axis -> Qc) (l : Z) (a : axis) (z : Z) : Qc :=
  (lo a + Q2Qc (inject_Z z) / Q2Qc (inject_Z (2 * ncells g b l a)) * (hi a - lo a))%Qc.
(** Position [p] lies in cell [q] of octant [A], lower sides included. *)
Definition in_cell (g : geom) (b : axis -> Z) (lo hi : axis -> Qc) (A : oct) (q : axis -> Z) (p : axis -> Qc) : Prop :=
  forall a, (grid_line g b lo hi (lev A) a (2 * gpos b A q a) <= p a)%Qc /\
            (p a < grid_line g b lo hi (lev A) a (2 * gpos b A q a + 2))%Qc.
(** Centre of that cell. *)
Definition centre (g : geom) (b : axis -> Z) (lo hi : axis -> Qc) (A : oct) (q : axis -> Z) : axis -> Qc :=
  fun a => grid_line g b lo hi (lev A) a (2 * gpos b A q a + 1).

(** The cloud of a particle: a box of the size of its cell, centred on the particle. Part of
    it that lies in the box of the cell at displacement [d] from the cell [q] of [A]. *)
Definition meet (u v u' v' : Qc) : Qc :=
  ((if Qclt_le_dec v v' then v else v') - (if Qclt_le_dec u u' then u' else u))%Qc.
Definition cloud_share (g : geom) (b : axis -> Z) (lo hi : axis -> Qc) (A : oct) (q : axis -> Z) (p : axis -> Qc) (d : axis -> Z) : Qc :=
  let h a := ((hi a - lo a) / Q2Qc (inject_Z (ncells g b (lev A) a)))%Qc in
  let line a z := grid_line g b lo hi (lev A) a z in
  let part a := (meet (p a - h a / two) (p a + h a / two) (line a (2 * (gpos b A q a + d a))%Z) (line a (2 * (gpos b A q a + d a) + 2)%Z) / h a)%Qc in
  (part AX * part AY * part AZ)%Qc.
(** The eight boxes that the cloud meets: along each axis that of the cell and the next one on
    the side of the particle. *)
Definition side (ctr p : axis -> Qc) (a : axis) : Z := if Qclt_le_dec (p a) (ctr a) then -1 else 1.
Definition cloud_directions (ctr p : axis -> Qc) : list (axis -> Z) :=
  flat_map (fun z => flat_map (fun y => map (fun x => mkoff x y z) [0; side ctr p AX]) [0; side ctr p AY]) [0; side ctr p AZ].

(** Number of axes along which a direction moves; a diagonal direction moves along two or
    three. *)
Definition moves (d : axis -> Z) : Z :=
  let m a := if d a =? 0 then 0 else 1 in m AX + m AY + m AZ.
Definition diagonal (d : axis -> Z) : Prop := 2 <= moves d.
(** The box at displacement [d] from the cell [q] of [A] is divided into smaller cells. *)
Definition finer (g : geom) (b : axis -> Z) (L : list oct) (A : oct) (q d : axis -> Z) : Prop :=
  exists B q', In B L /\ in_block b q' /\ parent g (cell_of b B q') = displaced g b (cell_of b A q) d.
(** The cell [y] is the box [x], or the bigger cell that contains it, or one of the smaller
    cells it is divided into. *)
Definition at_box (g : geom) (x y : oct) : Prop := y = x \/ y = parent g x \/ parent g y = x.

(** The added densities designate cells of the blocks of [st], and the mass they hold. *)
Definition in_storage (b : axis -> Z) (st : list oct) (w : cidx * Qc) : Prop :=
  c_blk (fst w) = b /\ is_valid (fst w) = true /\ in_block b (c_pos (fst w)) /\ exists B, nth_error st (c_oct (fst w)) = Some B.
Definition mass_in (g : geom) (b : axis -> Z) (ext : axis -> Qc) (st : list oct) (ws : list (cidx * Qc)) : Qc :=
  csum (map (fun w : cidx * Qc => match nth_error st (c_oct (fst w)) with
                                   | Some B => (snd w * volume g b ext (cell_of b B (c_pos (fst w))))%Qc
                                   | None => 0%Qc
                                   end) ws).
