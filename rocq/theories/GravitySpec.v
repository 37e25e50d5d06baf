(** Specification vocabulary for the gravity solver: faces between cells, the finite volume
    Laplacian of a potential, the source of the Poisson equation, the acceleration. *)
From Coq Require Import QArith Qcanon.
From Verif Require Import Base OctreeSpec OctreeModel MeshSpec CellSpec RemapSpec HydroSpec ConserveSpec.
Open Scope Z_scope.

(** Edges of a cell along an axis, on the grid of the finest level. *)
Definition lower (g : geom) (x : oct) (a : axis) : Z := coord x a * 2^(lmax g - lev x).
Definition upper (g : geom) (x : oct) (a : axis) : Z := (coord x a + 1) * 2^(lmax g - lev x).
(** The same plane, periodic images included. *)
Definition same_plane (g : geom) (b : axis -> Z) (e : axis) (u v : Z) : bool :=
  (u =? v) || (per g e && ((u - v) mod ncells g b (lmax g) e =? 0)).
Definition overlaps (g : geom) (x y : oct) (a : axis) : bool := (lower g x a <? upper g y a) && (lower g y a <? upper g x a).
Definition others (e : axis) : list axis := match e with AX => [AY; AZ] | AY => [AX; AZ] | AZ => [AX; AY] end.
(** [y] touches the upper ([true]) or lower ([false]) face of [x] along [e]. *)
Definition touches (g : geom) (b : axis -> Z) (e : axis) (up : bool) (x y : oct) : bool :=
  (if up then same_plane g b e (upper g x e) (lower g y e) else same_plane g b e (upper g y e) (lower g x e))
  && forallb (overlaps g x y) (others e).
(** The face is on the boundary of the domain. *)
Definition at_boundary (g : geom) (b : axis -> Z) (e : axis) (up : bool) (x : oct) : bool :=
  negb (per g e) && (if up then upper g x e =? ncells g b (lmax g) e else lower g x e =? 0).

(** Side of a cell of level [l], area of its face normal to [e]. *)
Definition side (g : geom) (b : axis -> Z) (ext : axis -> Qc) (l : Z) (a : axis) : Qc :=
  (ext a / Q2Qc (inject_Z (ncells g b l a)))%Qc.
Definition face (g : geom) (b : axis -> Z) (ext : axis -> Qc) (e : axis) (l : Z) : Qc :=
  fold_right Qcmult 1%Qc (map (side g b ext l) (others e)).
(** Distance of the centres of two touching cells along [e], area of their common face (the
    face of the smaller one). *)
Definition centre_distance (g : geom) (b : axis -> Z) (ext : axis -> Qc) (e : axis) (x y : oct) : Qc :=
  ((side g b ext (lev x) e + side g b ext (lev y) e) / two)%Qc.
Definition common_face (g : geom) (b : axis -> Z) (ext : axis -> Qc) (e : axis) (x y : oct) : Qc :=
  face g b ext e (Z.max (lev x) (lev y)).

(** Flux of the gradient of [u] out of [x] through its face ([e],[up]). On the boundary of the
    domain: no flux if the boundary is absorbing, a zero potential one cell further otherwise. *)
Definition face_flux (g : geom) (b : axis -> Z) (ext : axis -> Qc) (absorbing : axis -> bool) (cells : list oct)
    (u : oct -> Qc) (x : oct) (e : axis) (up : bool) : Qc :=
  if at_boundary g b e up x then
    if absorbing e then 0%Qc else (face g b ext e (lev x) * (0 - u x) / side g b ext (lev x) e)%Qc
  else csum (map (fun y => common_face g b ext e x y * (u y - u x) / centre_distance g b ext e x y)%Qc
                 (filter (touches g b e up x) cells)).
Definition faces : list (axis * bool) := [(AX, false); (AX, true); (AY, false); (AY, true); (AZ, false); (AZ, true)].
(** Integral of the Laplacian of [u] over the cell [x]. *)
Definition laplacian (g : geom) (b : axis -> Z) (ext : axis -> Qc) (absorbing : axis -> bool) (cells : list oct)
    (u : oct -> Qc) (x : oct) : Qc :=
  csum (map (fun f : axis * bool => face_flux g b ext absorbing cells u x (fst f) (snd f)) faces).

(** Mean of a density over the domain, and integral over a cell of the right hand side of the
    Poisson equation: 4 pi G (rho - mean), or 6 a (rho / mean - 1) in a cosmological run. *)
Definition mean (g : geom) (b : axis -> Z) (ext : axis -> Qc) (cells : list oct) (rho : oct -> Qc) : Qc :=
  (csum (map (fun x => volume g b ext x * rho x) cells) / (ext AX * ext AY * ext AZ))%Qc.
Definition poisson_source (g : geom) (b : axis -> Z) (ext : axis -> Qc) (cells : list oct) (aexp : option Qc) (fourPiG : Qc)
    (rho : oct -> Qc) (x : oct) : Qc :=
  match aexp with
  | None => (fourPiG * (rho x - mean g b ext cells rho) * volume g b ext x)%Qc
  | Some a => (Q2Qc 6 * a * (rho x / mean g b ext cells rho - 1) * volume g b ext x)%Qc
  end.

(** Mean over the face of the difference quotient of [u] across it, along the axis. *)
Definition slope (g : geom) (b : axis -> Z) (ext : axis -> Qc) (absorbing : axis -> bool) (cells : list oct)
    (u : oct -> Qc) (x : oct) (e : axis) (up : bool) : Qc :=
  let flux := face_flux g b ext absorbing cells u x e up in
  ((if up then flux else 0 - flux) / face g b ext e (lev x))%Qc.
(** Acceleration: minus the gradient, as the mean of the slopes at the two faces. *)
Definition acceleration (g : geom) (b : axis -> Z) (ext : axis -> Qc) (absorbing : axis -> bool) (cells : list oct)
    (u : oct -> Qc) (x : oct) (e : axis) : Qc :=
  (0 - (slope g b ext absorbing cells u x e false + slope g b ext absorbing cells u x e true) / two)%Qc.

(** Arrays of the ranks: one value per cell, owned octants first, then ghosts. *)
Definition field_arrays {X} (b : axis -> Z) (M : mesh) (D : oct -> X) : list (list X) :=
  map (fun R => map D (all_cells b (loc R ++ gho R))) M.
(** One value per owned cell. *)
Definition owned_values {X} (b : axis -> Z) (M : mesh) (D : oct -> X) : list (list X) :=
  map (fun R => map D (all_cells b (loc R))) M.
(** Inner product of two fields. *)
Definition inner (cells : list oct) (u v : oct -> Qc) : Qc := csum (map (fun x => u x * v x)%Qc cells).
