(** * Concrete source inference for the examples. *)
From Coq Require Import String FunctionalExtensionality ClassicalEpsilon Lra Lia.
From Verif Require Import Prelude PreludeFacts FemModel FemFacts FemSpec FemGeoProofs FemMatProofs BasisModel BasisSpec BasisQuadProofs BasisExamples MatModel MatSpec MatProofs SolverModel SolverSpec SolverProofs SolverAdProofs SolverFemProofs SolverExamples RveModel RveSpec RveExamples CrysSpec BoxSpec BoxProofs BoxPatchProofs BoxRveProofs BoxExamples WellSpec WellProofs WellBoxProofs WellMainProofs WellExamples InfModel InfSpec InfProofs InfMainProofs.
From Verif Require MeshModel.
Open Scope R_scope.
Open Scope list_scope.

(** a function that transposes derivatives exists *)
Definition derivative_at (n : nat) (f : vector -> vector) (x : vector) (D : vector -> vector) : Prop :=
  linear_map n n D /\ forall d i, (i < n)%nat -> derivable_pt_lim (fun t => f (step x t d) i) 0 (D d i).
Definition exact_vjp (n : nat) (f : vector -> vector) (x w : vector) : vector :=
  fun j => dotN n w (epsilon (inhabits (fun _ => vzero)) (derivative_at n f x) (unit_vec j)).
Lemma exact_vjp_ok n : vjp_contract n (exact_vjp n).
Proof.
  intros f x D HD Hder w d. pose proof (epsilon_spec (inhabits (fun _ : vector => vzero)) (derivative_at n f x) (ex_intro _ D (Logic.conj HD Hder))) as [_ He].
  set (D' := epsilon (inhabits (fun _ => vzero)) (derivative_at n f x)) in *.
  assert (E : forall e i, (i < n)%nat -> D' e i = D e i) by (intros e i Hi; exact (dl_unique _ _ _ _ (He e i Hi) (Hder e i Hi))).
  unfold dotN, exact_vjp. fold D'. unfold dotN. rewrite (sumN_ext n _ (fun j => sumN n (fun i => w i * D (unit_vec j) i * d j))) by (intros j _; rewrite <- sumN_scal_r; apply sumN_ext; intros i Hi; now rewrite E).
  rewrite sumN_swap. apply sumN_ext. intros i Hi. rewrite (linear_map_matrix n n D HD d i Hi), <- sumN_scal. apply sumN_ext. intros; ring.
Qed.
(** the script's problem on eight unit cubes: node 13 is the only one inside *)
Definition cubes : fem R := brick 2 2 2 2 2 2 (fun _ => poisson_map) None.
Definition cubes_fem : fem R := infer_fem cubes None.
Definition cubes_problem (p : vector) : problem :=
  match fem_problem cubes_fem [] (set_params p) (unit_jac cubes_fem) cjac0 (Some (zero_sides 2 2 2)) None None with Ok q => q | Err _ => per 4 end.
Definition cubes_residual (p : vector) (u : nodal) : nodal := match compute_residual_vars cubes_fem [] u (set_params p) with Ok r => r | Err _ => fun _ _ => 0 end.
Lemma cubes_setup : infer_setup cubes ex_basix 2 2 2 2 2 2 exact_env (exact_vjp 27) cubes_problem cubes_residual.
Proof.
  split; [exact (brick_hex 2 2 2 2 2 2 (fun _ => poisson_map) None ltac:(lia) ltac:(lia) ltac:(lia) ltac:(lra) ltac:(lra) ltac:(lra))|].
  split; [exact (proj1 exact_env_ok)|]. split; [exact (proj2 exact_env_ok)|]. split; [exact (exact_vjp_ok 27)|]. split; [|intros p u; reflexivity].
  exists (unit_jac cubes_fem), cjac0, None. split; [|intros p; reflexivity].
  intros p. apply (unit_jac_exact cubes_fem (fun _ => poisson_map) eq_refl (poisson_linear cubes_fem) eq_refl). intros vars G H k d HG Hk Hd. now apply HG.
Qed.
Lemma cubes_obs : observations cubes [13]%nat [2].
Proof. split; [reflexivity|]. constructor; [|constructor]. vm_compute. lia. Qed.
(** node 13 is in the middle, node 0 in a corner *)
Lemma middle : forall d, (d < 3)%nat -> points cubes 13 d = 1.
Proof.
  intros d Hd. pose proof (node_point cubes 2 2 2 2 2 2 ltac:(lia) ltac:(lia) ltac:(lia) (brick_mesh _ _ _ _ _ _ _ _) eq_refl 1 1 1 d ltac:(lia) ltac:(lia) ltac:(lia) Hd) as H.
  change (node 2 2 1 1 1) with 13%nat in H. rewrite H. destruct d as [|[|[|d]]]; [cbn; lra..|lia].
Qed.
Lemma not_near d v p : p d = 1 -> v = 0 \/ v = 2 -> on_plane d v p = false.
Proof.
  intros H Hv. unfold on_plane, isclose. rewrite H. destruct Hv as [-> | ->]; apply Rleb_false; unfold Rabs; repeat destruct Rcase_abs; lra.
Qed.
Lemma middle_free : ~ fixed cubes_fem (fst (fst (zero_sides 2 2 2))) (snd (fst (zero_sides 2 2 2))) 13 0.
Proof.
  intros (i & Hi & _ & H). cbn [zero_sides fst snd] in *. change (points cubes_fem 13) with (points cubes 13) in H.
  do 6 (destruct i as [|i]; [cbn [nth] in H; rewrite not_near in H; [discriminate|apply middle; lia|tauto]|]). cbn in Hi. lia.
Qed.
Lemma cubes_hex : box_hex cubes_fem ex_basix 2 2 2 2 2 2.
Proof. exact (proj1 cubes_setup). Qed.
Lemma middle_load : 0 < load_work cubes_fem [] (set_params (unit_vec 13)) (one_dof 13 0).
Proof.
  destruct (L2_definite cubes_fem ex_basix 2 2 2 2 2 2 cubes_hex (one_dof 13 0)) as [H0 H1].
  assert (E : load_work cubes_fem [] (set_params (unit_vec 13)) (one_dof 13 0) = compute_L2 cubes_fem (one_dof 13 0)).
  { rewrite (L2_is_integral cubes_fem ex_basix 2 2 2 2 2 2 cubes_hex). unfold cubes_fem. rewrite (load_body cubes). unfold square_integral. apply sumN_ext. intros c _. apply sumN_ext. intros q _. f_equal.
    change (vec (infer_fem cubes None)) with 1%nat. rewrite sum_one. cbn [pow]. rewrite Rmult_1_r. apply (f_equal2 Rmult); [|reflexivity]. unfold at_quad, convert_from_dof_to_quad. apply sumN_ext. intros a _. unfold unit_vec, one_dof. cbn [Nat.eqb]. now rewrite Bool.andb_true_r. }
  rewrite E. destruct (Rle_lt_or_eq_dec _ _ H0) as [H|H]; [exact H|exfalso]. symmetry in H. apply H1 in H. specialize (H 13%nat 0%nat ltac:(vm_compute; lia) ltac:(cbn; lia)). unfold one_dof in H. cbn in H. lra.
Qed.
Close Scope R_scope.
