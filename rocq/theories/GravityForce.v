(** On a periodic mesh with a single level of refinement the discrete force of a potential on its
    own source adds up to zero. *)
From Coq Require Import QArith Qcanon Permutation.
From Verif Require Import Base OctreeSpec OctreeGeom OctreeModel FindNeighbors MeshSpec GhostExchange
  LookupModel CellModel CellSpec CellProofs CellProps RemapModel RemapSpec RemapProofs RemapProps HydroModel HydroSpec HydroProps ConserveSpec BlockGhost ConserveFaces ConserveProofs ParticleProofs
  CGTheory GravitySpec GravityModel GravityFaces GravityProofs GravityOp.
Open Scope Z_scope.

Section Uniform.
Context (g : geom) (D3 : g3d g = true) (WF : wf_geom g) (M : mesh) (OK : mesh_ok g M) (b : axis -> Z) (BO : block_ok g b)
        (ext : axis -> Qc) (EXT : forall a, (0 < ext a)%Qc) (ab : axis -> bool)
        (PER : forall a, per g a = true) (L : Z) (UNI : forall A, In A (leaves M) -> lev A = L).
Local Notation cells := (all_cells b (leaves M)).
Local Notation disp := (disp g b).
Lemma cell_level x : In x cells -> lev x = L.
Proof. intros HX. apply cells_in in HX. destruct HX as (A & p & HA & _ & ->). cbn [cell_of oct_of lev]. apply UNI, HA. Qed.
Lemma disp_in x e s : In x cells -> In (disp x e s) cells.
Proof.
  intros HX. pose proof (disp_inside g WF b BO x e s (cells_inside g M OK b BO x HX)) as IT. pose proof (cell_lev g M OK b x HX) as LX.
  pose proof (fun a => fine_range g D3 b _ a IT) as F.
  destruct (cell_at_point g D3 M OK b BO ext EXT ab (fun a => lower g (disp x e s) a)) as (y & HY & BY); [intros a; specialize (F a); lia|].
  replace (disp x e s) with y; [exact HY|]. pose proof (cell_level y HY) as LY. pose proof (cell_level x HX) as LX'.
  apply oct_ext; [rewrite disp_lev; lia|]. intros a. specialize (BY a). unfold lower, upper in BY. rewrite disp_lev, LX', LY in BY.
  pose proof (w_pos g D3 L ltac:(lia)). nia.
Qed.
Lemma flux_uniform u x e up : In x cells -> face_flux g b ext ab cells u x e up = (face g b ext e L * (u (disp x e (sg up)) - u x) / GravitySpec.side g b ext L e)%Qc.
Proof.
  intros HX. pose proof (cells_inside g M OK b BO x HX) as IX. pose proof (disp_in x e (sg up) HX) as HT.
  unfold face_flux. unfold at_boundary. rewrite PER. cbn [negb andb].
  assert (TS : forall z, In z cells /\ touches g b e up x z = true <-> z = disp x e (sg up)).
  { intros z. split.
    - intros (HZ & T). destruct (touches_beyond g D3 b x z e up IX (cells_inside g M OK b BO z HZ) T) as (P & BZ & PE & PO).
      apply (box_unique g D3 M OK b BO z _ P HZ HT BZ). apply (disp_box g D3 b x e up P IX PE PO).
    - intros ->. split; [exact HT|]. apply (touch_disp g D3 b x e up IX). left. apply PER. }
  rewrite (csum_perm _ _ (Permutation_map _ (Permutation_sym (filter_single (touches g b e up x) cells _ (cells_NoDup g M OK b BO) TS)))).
  cbn [map csum fold_right]. unfold common_face, centre_distance. rewrite disp_lev, Z.max_id, (cell_level x HX).
  pose proof (cell_lev g M OK b x HX) as LX. rewrite (cell_level x HX) in LX. pose proof (side_nz g WF b BO ext EXT L e ltac:(lia)) as NZ. set (h := GravitySpec.side g b ext L e) in *.
  replace ((h + h) / two)%Qc with h by (unfold two; field; exact two_nz). field. exact NZ.
Qed.
Lemma shift f e s : csum (map (fun x => f (disp x e s)) cells) = csum (map f cells).
Proof.
  rewrite <- (map_map (fun x => disp x e s) f). apply csum_perm, Permutation_map. pose proof (cells_NoDup g M OK b BO) as ND.
  apply NoDup_Permutation; [|exact ND|].
  - clear f. assert (INJ : forall l, incl l cells -> NoDup l -> NoDup (map (fun x => disp x e s) l)).
    { induction l as [|x l IH]; intros I N; [constructor|]. apply NoDup_cons_iff in N. destruct N as (N1 & N2). cbn [map]. constructor.
      - intros K. apply in_map_iff in K. destruct K as (y & E & HY). apply N1. replace x with y; [exact HY|].
        rewrite <- (disp_back g WF b BO y e s) by (apply (cells_inside g M OK b BO), I; right; exact HY). rewrite E.
        apply (disp_back g WF b BO), (cells_inside g M OK b BO), I. left. reflexivity.
      - apply IH; [intros z Hz; apply I; right; exact Hz|exact N2]. }
    apply INJ; [apply incl_refl|exact ND].
  - intros y. rewrite in_map_iff. split; [intros (x & <- & HX); apply disp_in, HX|]. intros HY. exists (disp y e (- s)). split; [|apply disp_in, HY].
    rewrite <- (Z.opp_involutive s) at 2. apply (disp_back g WF b BO), (cells_inside g M OK b BO), HY.
Qed.
Lemma disp_comm x e s e' s' : In x cells -> disp (disp x e s) e' s' = disp (disp x e' s') e s.
Proof.
  intros HX. pose proof (cells_inside g M OK b BO x HX) as IX. apply oct_ext; [reflexivity|]. intros a.
  destruct (axis_case e e') as [->|NE].
  - destruct (axis_case a e') as [->|Ha].
    + rewrite !disp_on, !disp_lev, !Zplus_mod_idemp_l. f_equal. ring.
    + rewrite !disp_off by (try exact Ha; try apply (disp_inside g WF b BO); exact IX). reflexivity.
  - destruct (axis_case a e') as [->|Ha].
    + rewrite (disp_off g b (disp x e' s') e s e') by (try apply (disp_inside g WF b BO); congruence || exact IX). rewrite !disp_on, !disp_lev. rewrite (disp_off g b x e s e') by (congruence || exact IX). reflexivity.
    + rewrite (disp_off g b (disp x e s) e' s' a) by (try exact Ha; apply (disp_inside g WF b BO), IX).
      destruct (axis_case a e) as [->|Hb].
      * rewrite !disp_on, disp_lev, (disp_off g b x e' s' e) by (congruence || exact IX). reflexivity.
      * rewrite !disp_off by (try assumption; apply (disp_inside g WF b BO), IX). reflexivity.
Qed.
Lemma there_back x e s : In x cells -> disp (disp x e s) e (- s) = x. Proof. intros HX. apply (disp_back g WF b BO), (cells_inside g M OK b BO), HX. Qed.
Lemma back_there x e s : In x cells -> disp (disp x e (- s)) e s = x. Proof. intros HX. rewrite <- (Z.opp_involutive s) at 2. apply there_back, HX. Qed.
Lemma one : forall x e, In x cells -> disp (disp x e (-1)) e 1 = x. Proof. intros x e HX. apply (back_there x e 1 HX). Qed.
Lemma eno : forall x e, In x cells -> disp (disp x e 1) e (-1) = x. Proof. intros x e HX. apply (there_back x e 1 HX). Qed.

Lemma corr1 (u : oct -> Qc) d e : csum (map (fun x => u (disp x d 1) * u (disp x e 1))%Qc cells) = csum (map (fun x => u (disp x d (-1)) * u (disp x e (-1)))%Qc cells).
Proof.
  rewrite <- (shift (fun x => u (disp x d 1) * u (disp x e 1))%Qc d (-1)).
  rewrite <- (shift (fun x => u (disp (disp x d (-1)) d 1) * u (disp (disp x d (-1)) e 1))%Qc e (-1)).
  apply csum_ext. intros x HX. rewrite (one (disp x e (-1)) d (disp_in x e (-1) HX)).
  rewrite (disp_comm (disp x e (-1)) d (-1) e 1 (disp_in x e (-1) HX)), (one x e HX). ring.
Qed.
Lemma corr2 (u : oct -> Qc) d e : csum (map (fun x => u (disp x d (-1)) * u (disp x e 1))%Qc cells) = csum (map (fun x => u (disp x d 1) * u (disp x e (-1)))%Qc cells).
Proof.
  rewrite <- (shift (fun x => u (disp x d (-1)) * u (disp x e 1))%Qc d 1).
  rewrite <- (shift (fun x => u (disp (disp x d 1) d (-1)) * u (disp (disp x d 1) e 1))%Qc e (-1)).
  apply csum_ext. intros x HX. rewrite (eno (disp x e (-1)) d (disp_in x e (-1) HX)).
  rewrite (disp_comm (disp x e (-1)) d 1 e 1 (disp_in x e (-1) HX)), (one x e HX). ring.
Qed.
Lemma corr0 (u : oct -> Qc) e : csum (map (fun x => u x * u (disp x e 1))%Qc cells) = csum (map (fun x => u x * u (disp x e (-1)))%Qc cells).
Proof.
  rewrite <- (shift (fun x => u x * u (disp x e 1))%Qc e (-1)). apply csum_ext. intros x HX. rewrite (one x e HX). ring.
Qed.
Definition stencil (u : oct -> Qc) (x : oct) (d : axis) : Qc := (u (disp x d 1) + u (disp x d (-1)) - two * u x)%Qc.
Lemma stencil_force u d e : csum (map (fun x => stencil u x d * (u (disp x e 1) - u (disp x e (-1))))%Qc cells) = 0%Qc.
Proof.
  rewrite (csum_ext _ (fun x => (u (disp x d 1) * u (disp x e 1) + ((0 - 1) * (u (disp x d (-1)) * u (disp x e (-1))) + (u (disp x d (-1)) * u (disp x e 1) + ((0 - 1) * (u (disp x d 1) * u (disp x e (-1)))
      + ((0 - two) * (u x * u (disp x e 1)) + two * (u x * u (disp x e (-1)))))))))%Qc) by (intros; unfold stencil; ring).
  rewrite !csum_plus, !csum_scale, corr1, corr2, corr0. ring.
Qed.
Lemma lap_uniform u x : In x cells -> laplacian g b ext ab cells u x =
  (face g b ext AX L / GravitySpec.side g b ext L AX * stencil u x AX + (face g b ext AY L / GravitySpec.side g b ext L AY * stencil u x AY + face g b ext AZ L / GravitySpec.side g b ext L AZ * stencil u x AZ))%Qc.
Proof.
  intros HX. unfold laplacian, faces. cbn [map fst snd csum fold_right]. rewrite !flux_uniform by exact HX. cbn [sg]. unfold stencil, Qcdiv, two. ring.
Qed.
Lemma acc_uniform u x e : In x cells -> acceleration g b ext ab cells u x e = ((0 - 1) / (two * GravitySpec.side g b ext L e) * (u (disp x e 1) - u (disp x e (-1))))%Qc.
Proof.
  intros HX. unfold acceleration, slope. rewrite !flux_uniform by exact HX. cbn [sg]. rewrite (cell_level x HX).
  pose proof (cell_lev g M OK b x HX) as LX. rewrite (cell_level x HX) in LX. pose proof (side_nz g WF b BO ext EXT L e ltac:(lia)). pose proof (face_nz g WF b BO ext EXT e L ltac:(lia)). pose proof two_nz.
  field. repeat split; assumption.
Qed.
Theorem self_force u e : csum (map (fun x => laplacian g b ext ab cells u x * acceleration g b ext ab cells u x e)%Qc cells) = 0%Qc.
Proof.
  set (k := ((0 - 1) / (two * GravitySpec.side g b ext L e))%Qc). set (kx := (face g b ext AX L / GravitySpec.side g b ext L AX)%Qc). set (ky := (face g b ext AY L / GravitySpec.side g b ext L AY)%Qc). set (kz := (face g b ext AZ L / GravitySpec.side g b ext L AZ)%Qc).
  rewrite (csum_ext _ (fun x => k * kx * (stencil u x AX * (u (disp x e 1) - u (disp x e (-1)))) + (k * ky * (stencil u x AY * (u (disp x e 1) - u (disp x e (-1)))) + k * kz * (stencil u x AZ * (u (disp x e 1) - u (disp x e (-1))))))%Qc).
  - rewrite !csum_plus, !csum_scale, !stencil_force. ring.
  - intros x HX. rewrite (lap_uniform u x HX), (acc_uniform u x e HX). fold k kx ky kz. ring.
Qed.
Theorem total_acceleration u e : csum (map (fun x => acceleration g b ext ab cells u x e) cells) = 0%Qc.
Proof.
  rewrite (csum_ext _ (fun x => ((0 - 1) / (two * GravitySpec.side g b ext L e) * (u (disp x e 1) + (0 - 1) * u (disp x e (-1))))%Qc)).
  - rewrite csum_scale, csum_plus, csum_scale, (shift u e 1), (shift u e (-1)). ring.
  - intros x HX. rewrite (acc_uniform u x e HX). ring.
Qed.
Lemma volume_uniform x : In x cells -> volume g b ext x = (GravitySpec.side g b ext L AX * GravitySpec.side g b ext L AY * GravitySpec.side g b ext L AZ)%Qc.
Proof. intros HX. rewrite (volume_side g b ext), (cell_level x HX). reflexivity. Qed.
End Uniform.
