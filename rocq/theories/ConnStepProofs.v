(** * Problems with a reaction on meshes of any Lagrange element. *)
From Coq Require Import String FunctionalExtensionality Classical Lra Lia QArith.
From Verif Require Import Prelude PreludeFacts FemModel FemFacts FemSpec FemAsmProofs FemMatProofs FemGeoProofs BasisModel BasisSpec BasisProofs BasisQuadProofs BasisProps MatModel MatSpec MatProofs SolverModel SolverSpec SolverProofs SolverLmProofs SolverAdProofs SolverFemProofs MmaNewtonProofs WellSpec WellProofs MaxSpec HeatModel HeatSpec HeatWellProofs HeatStepProofs HeatMainProofs ConnSpec ConnRankProofs ConnMainProofs.
Open Scope R_scope.
Open Scope list_scope.

Section Step.
Context {V : Type}.
Variable F : fem V.
Local Notation E := (f_ele F).
Variables (kappa : R) (alpha : list V -> R).
Hypothesis HR : reactive F kappa alpha.
Variables (inds : list (list (nat * nat))) (iv : internal_vars V).
Variables (B : basix) (t : string).
Hypothesis HM : lagrange_mesh F B t.
Hypothesis Hk : 0 < kappa.
Hypothesis Hs : forall c q, (c < num_cells F)%nat -> (q < num_quads E)%nat -> 0 < slope alpha iv c q.
Lemma rl_zero d : step_form F iv d d = 0 -> forall c a, (c < num_cells F)%nat -> (a < num_nodes E)%nat -> d (cell_node F c a) 0%nat = 0.
Proof.
  rewrite (reactive_form F kappa alpha HR). intros H c a Hc Ha. pose proof HM as (_ & _ & _ & _ & _ & _ & _ & Hd).
  assert (T : forall c q, 0 <= sumN (dim F) (fun e => sol_to_grad F d c q 0 e * sol_to_grad F d c q 0 e)) by (intros; apply sumN_nonneg; intros; apply Rle_0_sqr).
  assert (T1 : forall c q, (c < num_cells F)%nat -> (q < num_quads E)%nat -> 0 <= kappa * sumN (dim F) (fun e => sol_to_grad F d c q 0 e * sol_to_grad F d c q 0 e)) by (intros; apply Rmult_le_pos; [lra|apply T]).
  assert (T2 : forall c q, (c < num_cells F)%nat -> (q < num_quads E)%nat -> 0 <= slope alpha iv c q * (at_quad F d c q 0%nat * at_quad F d c q 0%nat)) by (intros; apply Rmult_le_pos; [apply Rlt_le; auto|apply Rle_0_sqr]).
  assert (P0 : forall c q, (c < num_cells F)%nat -> (q < num_quads E)%nat -> 0 <= JxW F c q * (kappa * sumN (dim F) (fun e => sol_to_grad F d c q 0 e * sol_to_grad F d c q 0 e) + slope alpha iv c q * (at_quad F d c q 0%nat * at_quad F d c q 0%nat))).
  { intros c' q' H1 H2. apply Rmult_le_pos; [now apply (lm_jxw F B t HM)|]. apply Rplus_le_le_0_compat; auto. }
  pose proof (sumN_pos_zero _ _ (fun c Hc => sumN_nonneg _ _ (fun q Hq => P0 c q Hc Hq)) H c Hc) as H1. cbv beta in H1.
  assert (H2 : forall q, (q < num_quads E)%nat -> 0 < quad_weights E q -> sumN (dim F) (fun e => sol_to_grad F d c q 0 e * sol_to_grad F d c q 0 e) = 0 /\ at_quad F d c q 0%nat = 0).
  { intros q Hq Hw. pose proof (sumN_pos_zero _ _ (fun q Hq => P0 c q Hc Hq) H1 q Hq) as H2. cbv beta in H2. unfold JxW in H2.
    assert (HJ : 0 < jacobian_det F c q * quad_weights E q) by (apply Rmult_lt_0_compat; auto).
    apply Rmult_integral in H2 as [H2|H2]; [lra|]. pose proof (T1 c q Hc Hq). pose proof (T2 c q Hc Hq). specialize (Hs c q Hc Hq). split.
    - assert (H5 : kappa * sumN (dim F) (fun e => sol_to_grad F d c q 0 e * sol_to_grad F d c q 0 e) = 0) by lra. apply Rmult_integral in H5 as [H5|H5]; [lra|exact H5].
    - assert (H5 : slope alpha iv c q * (at_quad F d c q 0%nat * at_quad F d c q 0%nat) = 0) by lra. apply Rmult_integral in H5 as [H5|H5]; [lra|]. now apply Rsqr_0_uniq. }
  assert (Hflat : forall b, (b < num_nodes E)%nat -> d (cell_node F c b) 0%nat = d (cell_node F c a) 0%nat).
  { intros b Hb. apply (flat_cell F B t HM d c 0%nat Hc); [|exact Hb|exact Ha]. intros q e Hq He Hw.
    pose proof (sumN_pos_zero _ _ (fun e _ => Rle_0_sqr (sol_to_grad F d c q 0 e)) (proj1 (H2 q Hq Hw)) e He) as H4. cbv beta in H4. now apply Rsqr_0_uniq. }
  destruct (lm_heavy F B t HM) as (q & Hq & Hw). destruct (H2 q Hq Hw) as [_ Hz]. unfold at_quad, convert_from_dof_to_quad in Hz.
  rewrite (sumN_ext _ _ (fun b => d (cell_node F c a) 0%nat * shape_vals E q b)) in Hz by (intros b Hb; now rewrite Hflat).
  rewrite sumN_scal, (lm_vals F B t HM q Hq : sumN (num_nodes E) (shape_vals E q) = 1) in Hz. lra.
Qed.
Lemma rl_definite locs vecs d : covered F locs vecs -> admissible F locs vecs d -> step_form F iv d d = 0 -> same_field F d (fun _ _ => 0).
Proof.
  intros Hcov Hadm H n k Hn Hkk. pose proof HR as (Hv & _). assert (k = 0%nat) by lia. subst k.
  destruct (Hcov n Hn) as [(c & a & Hc & Ha & <-)|Hf]; [|now apply Hadm]. now apply rl_zero.
Qed.
Hypothesis Hcau : cauchy_bc_info F = None.
Hypothesis Hloads : loads_ok F inds iv.
Variable jac : nodal -> (nat -> nat -> nat -> R) -> (nat -> R) -> (nat -> nat -> nat -> R) -> list (nat -> V) -> list (nat -> V) -> jac4.
Variable cjac : ((nat -> R) -> nat -> R) -> nodal -> (nat -> nat -> R) -> (nat -> R) -> jac4.
Hypothesis Hjac : exact_jacobians F iv jac.
Variables (locs : list (point -> bool)) (vecs : list nat) (fns : list (point -> R)).
Variable eps : option R.
Variable P : problem.
Hypothesis HP : fem_problem F inds iv jac cjac (Some (locs, vecs, fns)) None eps = Ok P.
Hypothesis Hvecs : Forall (fun k => (k < vec F)%nat) vecs.
Lemma rl_solved : covered F locs vecs -> forall ev grad fuel precond guess use_petsc, exact_solvers ev -> exact_floats ev ->
  exists u, solver ev P grad fuel true precond guess use_petsc = Some (Ok u) /\ discrete_solution F locs vecs fns inds iv u /\
  forall w, discrete_solution F locs vecs fns inds iv w -> same_field F w u.
Proof.
  intros Hcov ev grad fuel precond guess use_petsc. destruct Hloads as (Hiv & Hneu & Hfc). pose proof HM as (_ & _ & _ & _ & _ & Hwf & Hnc & _).
  exact (aff_solved F Hcau inds iv (reactive_affine F kappa alpha HR iv) jac cjac Hjac locs vecs fns eps P HP Hvecs Hwf Hiv Hnc Hneu Hfc
    (fun d => rl_definite locs vecs d Hcov) ev grad fuel precond guess use_petsc).
Qed.
Lemma rl_newton : covered F locs vecs -> forall ev grad precond guess use_petsc, exact_solvers ev -> exact_floats ev ->
  exists u, solver ev P grad 1 false precond guess use_petsc = Some (Ok u) /\
  exists r, compute_residual_vars F inds u iv = Ok r /\
  forall n k, (n < num_total_nodes F)%nat -> (k < vec F)%nat ->
    (~ fixed F locs vecs n k -> Rabs (r n k) <= tol) /\
    forall i, last_applying F locs vecs i n k -> Rabs (u n k - nth i fns (fun _ => 0) (points F n)) <= tol.
Proof.
  intros Hcov ev grad precond guess use_petsc. destruct Hloads as (Hiv & Hneu & Hfc). pose proof HM as (_ & _ & _ & _ & _ & Hwf & Hnc & _).
  exact (aff_newton F Hcau inds iv (reactive_affine F kappa alpha HR iv) jac cjac Hjac locs vecs fns eps P HP Hvecs Hwf Hiv Hnc Hneu Hfc
    (fun d => rl_definite locs vecs d Hcov) ev grad precond guess use_petsc).
Qed.
Lemma rl_solvable_iff use_petsc : solvable_problem P use_petsc <-> covered F locs vecs.
Proof.
  destruct Hloads as (Hiv & Hneu & Hfc). pose proof HM as (_ & _ & _ & _ & _ & Hwf & Hnc & _). split.
  - intros Hsol n Hn. apply NNPP. intros Hno.
    apply (orphan_unsolvable F kappa alpha HR inds iv Hs Hcau Hloads jac cjac Hjac locs vecs fns eps P HP Hvecs n use_petsc Hwf Hnc Hn); [intros c a Hc Ha He; apply Hno; left; eauto|intros Hf; apply Hno; now right|exact Hsol].
  - intros Hcov. exact (aff_solvable F Hcau inds iv (reactive_affine F kappa alpha HR iv) jac cjac Hjac locs vecs fns eps P HP Hvecs Hwf Hiv Hnc Hneu Hfc
      (fun d => rl_definite locs vecs d Hcov) use_petsc).
Qed.
End Step.
Close Scope R_scope.
