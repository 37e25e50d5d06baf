(** Particles given by lists (C99). *)
From Coq Require Import QArith Qcanon Permutation.
From Verif Require Import Base OctreeSpec OctreeGeom OctreeModel FindNeighbors MeshSpec HistorySpec HistoryProofs OctreeProps
  LookupSpec LookupModel LookupProps CommModel CommSpec CommProps FieldModel CellModel CellSpec HydroModel HydroSpec HydroProps ConserveProps ParticleModel CloudProps
  ParticleGridModel ParticleGridSpec ParticleGridProofs ParticleGridRun ParticleGridProps SimpleParticlesModel.
Open Scope Z_scope.

(** The particle number [i]: the i-th value of each list, 0 where a list is shorter. *)
Definition given (L : lists) (i : nat) : particle :=
  let value l := nth i l 0%Qc in ([value (l_px L); value (l_py L); value (l_pz L)], [value (l_vx L); value (l_vy L); value (l_vz L); value (l_mass L)]).
Definition all_lists (L : lists) : list (list Qc) := [l_px L; l_py L; l_pz L; l_vx L; l_vy L; l_vz L; l_mass L].
(** A run of this initial condition; the positions are inside of the box. *)
Definition starts (sch : list (nat * Qc) -> list (nat * Qc)) (g : geom) (P : nat) (M : mesh) (lo hi : axis -> Qc) (npart : nat) (L : lists) : Prop :=
  good_setup g P /\ reachable g P M /\ cubic g /\ (forall a, (lo a < hi a)%Qc) /\ (forall ws, Permutation (sch ws) ws) /\
  forall i, (i < npart)%nat -> strictly_in g lo hi (fst (given L i)).
(** All particles are there, once, each at the process that owns its position. *)
Definition placed (g : geom) (M : mesh) (lo hi : axis -> Qc) (npart : nat) (L : lists) (parts : list (list (list Qc) * list (list Qc))) : Prop :=
  length parts = length M /\ Permutation (all_particles parts) (map (given L) (seq 0 npart)) /\
  forall r R x p, nth_error M r = Some R -> nth_error parts r = Some x -> In p (fst x) -> exists A, In A (loc R) /\ lies_in g lo hi A p.
Definition lists_work (ok : nat -> lists -> Prop) : Prop := forall checked contiguous sch g P M lo hi npart L, starts sch g P M lo hi npart L -> ok npart L ->
  exists parts, simple_particles checked contiguous sch g M lo hi npart L = Some parts /\ placed g M lo hi npart L parts.

Lemma parse_exact values : parse_array (length values) values = Some values.
Proof. unfold parse_array. rewrite Nat.max_id, Nat.ltb_irrefl, Nat.sub_diag, firstn_all, app_nil_r. reflexivity. Qed.
Lemma parse_other npart values : length values <> npart -> parse_array npart values = None.
Proof.
  intros N. unfold parse_array. destruct (length values <? Nat.max (length values) npart)%nat eqn:E1; [reflexivity|]. apply Nat.ltb_ge in E1.
  destruct (npart <? Nat.max (length values) npart)%nat eqn:E2; [reflexivity|]. apply Nat.ltb_ge in E2. lia.
Qed.
Lemma seq_first {X} n (f : nat -> X) : map f (seq 0 (S n)) = f 0%nat :: map (fun i => f (S i)) (seq 0 n).
Proof. cbn [seq map]. rewrite <- seq_shift, map_map. reflexivity. Qed.

(** Lists of exactly [npart] values. *)
Theorem C99_exact_partial : lists_work (fun npart L => forall l, In l (all_lists L) -> length l = npart).
Proof.
  intros checked contiguous sch g P M lo hi npart L (GS & RC & CU & LH & SCH & SI) EX.
  pose proof (reachable_ranks g P M GS RC) as LM. assert (NE : exists n, length M = S n) by (exists (pred (length M)); destruct GS as (_ & _ & P1 & _); lia). destruct NE as (n & NM).
  set (row := fun i => given L i). set (first := (map (fun i => fst (row i)) (seq 0 npart), map (fun i => snd (row i)) (seq 0 npart))).
  set (arrays := first :: repeat ([], []) n : list (list (list Qc) * list (list Qc))).
  assert (RD : ready checked g M lo hi 4 arrays).
  { split; [cbn [arrays length]; rewrite repeat_length; auto|]. split.
    - intros x [<- | H]; [|apply repeat_spec in H; subst x; split; [reflexivity|split; intros y []]]. split; [cbn [first fst snd]; rewrite !map_length; reflexivity|].
      split; intros y HY; apply in_map_iff in HY; destruct HY as (i & <- & _); reflexivity.
    - intros x y [<- | H] HY; [|apply repeat_spec in H; subst x; destruct HY]. cbn [first fst] in HY. apply in_map_iff in HY. destruct HY as (i & <- & HI). apply in_seq in HI.
      assert (S : strictly_in g lo hi (fst (row i))) by (apply SI; lia). split; [|intros _; exact S].
      intros a. specialize (S a). destruct (flat g a); [rewrite S; split; [apply Qcle_refl|apply LH]|]. destruct S as (S1 & S2). split; [apply Qclt_le_weak, S1|exact S2]. }
  destruct (C88_distribute_partial checked contiguous sch g P M lo hi 4 arrays GS RC CU LH SCH RD) as (parts & E & D). exists parts. split.
  - unfold simple_particles.
    assert (PA : forall l, In l (all_lists L) -> parse_array npart l = Some l) by (intros l Hl; rewrite <- (EX l Hl); apply parse_exact).
    rewrite (PA (l_px L)), (PA (l_py L)), (PA (l_pz L)), (PA (l_vx L)), (PA (l_vy L)), (PA (l_vz L)), (PA (l_mass L)) by (cbn; auto 10).
    cbv zeta. rewrite NM, !seq_first. cbn [Nat.eqb].
    assert (Z1 : forall k, map (fun _ : nat => @nil prow) (seq 0 k) = repeat [] k) by (intros k; generalize 0%nat; induction k as [|k IH]; intros s; [reflexivity|]; cbn [seq map repeat]; rewrite IH; reflexivity).
    rewrite !Z1. rewrite <- E. f_equal; unfold arrays; cbn [map]; f_equal; [clear; induction n as [|n IH]; [reflexivity|cbn; rewrite <- IH; reflexivity]..].
  - destruct D as (D1 & D2 & D3 & D4). split; [exact D1|]. split; [|exact D4].
    eapply Permutation_trans; [exact D3|]. unfold all_particles, arrays. cbn [map concat].
    assert (Z2 : concat (map held (repeat ([], []) n)) = []) by (clear; induction n as [|n IH]; [reflexivity|exact IH]). rewrite Z2, app_nil_r.
    unfold held, first. cbn [fst snd]. clear. induction (seq 0 npart) as [|i l IH]; [apply Permutation_refl|]. cbn [map combine]. rewrite <- surjective_pairing. apply perm_skip, IH.
Qed.
(** Any other length, in one list or more: the copy leaves the vector or the view. *)
Theorem C99_other_lengths_fail checked contiguous sch g M lo hi npart L l :
  In l (all_lists L) -> length l <> npart -> simple_particles checked contiguous sch g M lo hi npart L = None.
Proof.
  intros HL N. apply parse_other in N. unfold simple_particles. cbn [all_lists In] in HL.
  destruct HL as [<- | [<- | [<- | [<- | [<- | [<- | [<- | []]]]]]]]; rewrite N;
    repeat match goal with |- context [parse_array ?n ?x] => destruct (parse_array n x); [|reflexivity] end; reflexivity.
Qed.

(** * Cases *)
(** Two particles in the cube of C48_example; the velocities and masses given. *)
Definition two_lists : lists :=
  mkLists [frac 9 10; frac 1 5] [frac 9 10; frac 1 5] [frac 9 10; frac 1 5] [1%Qc; 0%Qc] [0%Qc; 1%Qc] [0%Qc; 0%Qc] [1%Qc; frac 2 1].
Lemma two_starts vx : starts in_order pt_g 2 pt_M box_lo box_hi 2 (mkLists (l_px two_lists) (l_py two_lists) (l_pz two_lists) vx [0%Qc; 1%Qc] [0%Qc; 0%Qc] [1%Qc; frac 2 1]).
Proof.
  split; [exact pt_setup|]. split; [exact pt_reach|]. split; [exact pt_cubic|]. split; [exact pt_unit|]. split; [exact in_order_ok|].
  intros i I. destruct i as [|[|i]]; [below|below|lia].
Qed.
Example C99_example : exists parts, simple_particles true true in_order pt_g pt_M box_lo box_hi 2 two_lists = Some parts /\
  Permutation (all_particles parts) [([frac 9 10; frac 9 10; frac 9 10], [1%Qc; 0%Qc; 0%Qc; 1%Qc]); ([frac 1 5; frac 1 5; frac 1 5], [0%Qc; 1%Qc; 0%Qc; frac 2 1])].
Proof.
  destruct (C99_exact_partial true true in_order pt_g 2%nat pt_M box_lo box_hi 2%nat two_lists (two_starts _)) as (parts & E & _ & PM & _).
  - intros l H. cbn in H. repeat (destruct H as [<- | H]; [reflexivity|]). destruct H.
  - exists parts. split; [exact E|exact PM].
Qed.
(** Without the list vx, or with more values than particles (l.33: "Select at most npart values"), the
    run is undefined. *)
Theorem C99_refuted_missing : ~ lists_work (fun npart L => forall l, In l (all_lists L) -> (length l <= npart)%nat).
Proof.
  intros H. destruct (H true true in_order pt_g 2%nat pt_M box_lo box_hi 2%nat _ (two_starts [])) as (parts & E & _).
  - intros l K. cbn in K. repeat (destruct K as [<- | K]; [cbn; lia|]). destruct K.
  - rewrite (C99_other_lengths_fail _ _ _ _ _ _ _ _ _ []) in E; [discriminate E|cbn; auto|discriminate].
Qed.
Theorem C99_refuted_more : ~ lists_work (fun npart L => forall l, In l (all_lists L) -> (npart <= length l)%nat).
Proof.
  intros H. destruct (H true true in_order pt_g 2%nat pt_M box_lo box_hi 2%nat _ (two_starts [1%Qc; 1%Qc; 1%Qc])) as (parts & E & _).
  - intros l K. cbn in K. repeat (destruct K as [<- | K]; [cbn; lia|]). destruct K.
  - rewrite (C99_other_lengths_fail _ _ _ _ _ _ _ _ _ [1%Qc; 1%Qc; 1%Qc]) in E; [discriminate E|cbn; auto|discriminate].
Qed.

Print Assumptions C99_exact_partial.
Print Assumptions C99_other_lengths_fail.
Print Assumptions C99_refuted_missing.
Print Assumptions C99_refuted_more.
