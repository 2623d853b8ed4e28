(** * Solvability of the thermal and the damage problem on hexahedra; stability of time steps. *)
From Coq Require Import String FunctionalExtensionality Classical Lra Lia.
From Verif Require Import Prelude PreludeFacts FemModel FemFacts FemSpec FemAsmProofs FemMatProofs FemGeoProofs BasisModel BasisSpec BasisProofs BoxProofs BoxPatchProofs MatModel MatSpec SolverModel SolverSpec SolverProofs SolverFemProofs WellSpec WellProofs WellBoxProofs InfMainProofs MaxSpec HeatModel HeatSpec HeatWellProofs HeatStepProofs.
Open Scope R_scope.
Open Scope list_scope.

Section Main.
Context {V : Type}.
Variable F : fem V.
Local Notation E := (f_ele F).
Variables (kappa : R) (alpha : list V -> R).
Hypothesis HR : reactive F kappa alpha.
Variables (inds : list (list (nat * nat))) (iv : internal_vars V).
Variable B : basix.
Hypothesis HM : hex_mesh F B.
Hypothesis Hk : 0 <= kappa.
Hypothesis Hs : forall c q, (c < num_cells F)%nat -> (q < num_quads E)%nat -> 0 < slope alpha iv c q.
Hypothesis Hcau : cauchy_bc_info F = None.
Hypothesis Hloads : loads_ok F inds iv.
Variable jac : nodal -> (nat -> nat -> nat -> R) -> (nat -> R) -> (nat -> nat -> nat -> R) -> list (nat -> V) -> list (nat -> V) -> jac4.
Variable cjac : ((nat -> R) -> nat -> R) -> nodal -> (nat -> nat -> R) -> (nat -> R) -> jac4.
Hypothesis Hjac : exact_jacobians F iv jac.
Variables (locs : list (point -> bool)) (vecs : list nat) (fns : list (point -> R)).
Variable eps : option R.
Variable P : problem.
Hypothesis HP : fem_problem F inds iv jac cjac (Some (locs, vecs, fns)) None eps = Ok P.
Hypothesis Hvecs : Forall (fun k => (k < vec F)%nat) vecs.
Local Notation N := (num_total_dofs P).
Lemma reactive_solved : covered F locs vecs -> forall ev grad fuel precond guess use_petsc, exact_solvers ev -> exact_floats ev ->
  exists u, solver ev P grad fuel true precond guess use_petsc = Some (Ok u) /\ discrete_solution F locs vecs fns inds iv u /\
  forall w, discrete_solution F locs vecs fns inds iv w -> same_field F w u.
Proof.
  intros Hcov ev grad fuel precond guess use_petsc. destruct Hloads as (Hiv & Hneu & Hfc). pose proof HM as (_ & _ & _ & _ & Hwf & Hnc & _).
  exact (aff_solved F Hcau inds iv (reactive_affine F kappa alpha HR iv) jac cjac Hjac locs vecs fns eps P HP Hvecs Hwf Hiv Hnc Hneu Hfc
    (fun d => reactive_definite F kappa alpha HR iv B HM Hk Hs locs vecs d Hcov) ev grad fuel precond guess use_petsc).
Qed.
Lemma reactive_newton : covered F locs vecs -> forall ev grad precond guess use_petsc, exact_solvers ev -> exact_floats ev ->
  exists u, solver ev P grad 1 false precond guess use_petsc = Some (Ok u) /\
  exists r, compute_residual_vars F inds u iv = Ok r /\
  forall n k, (n < num_total_nodes F)%nat -> (k < vec F)%nat ->
    (~ fixed F locs vecs n k -> Rabs (r n k) <= tol) /\
    forall i, last_applying F locs vecs i n k -> Rabs (u n k - nth i fns (fun _ => 0) (points F n)) <= tol.
Proof.
  intros Hcov ev grad precond guess use_petsc. destruct Hloads as (Hiv & Hneu & Hfc). pose proof HM as (_ & _ & _ & _ & Hwf & Hnc & _).
  exact (aff_newton F Hcau inds iv (reactive_affine F kappa alpha HR iv) jac cjac Hjac locs vecs fns eps P HP Hvecs Hwf Hiv Hnc Hneu Hfc
    (fun d => reactive_definite F kappa alpha HR iv B HM Hk Hs locs vecs d Hcov) ev grad precond guess use_petsc).
Qed.
(** a node outside all cells gives an empty row *)
Lemma orphan_unsolvable n use_petsc : wf_mesh F -> (0 < num_cells F)%nat -> (n < num_total_nodes F)%nat -> (forall c a, (c < num_cells F)%nat -> (a < num_nodes E)%nat -> cell_node F c a <> n) -> ~ fixed F locs vecs n 0%nat ->
  ~ solvable_problem P use_petsc.
Proof.
  intros Hwf Hnc Hn Ho Hf Hsol. pose proof HR as (Hv & _). destruct Hloads as (Hiv & Hneu & Hfc).
  destruct (aff_problem F Hcau inds iv (reactive_affine F kappa alpha HR iv) jac cjac Hjac locs vecs fns eps P HP Hwf Hiv Hnc Hneu Hfc (fun _ _ => 0) (fun _ _ => 0)) as (r & _ & ijv & _ & Hr & _ & _).
  pose proof (well_bc F inds iv jac cjac locs vecs fns eps P HP Hvecs) as Hbc.
  assert (Hun : unknown P n 0%nat) by (apply (unknown_iff F inds iv jac cjac locs vecs fns eps P HP); lia).
  destruct (Hsol _ _ _ Hr (fun _ => 1)) as (x & Hx). pose proof (Hx _ (dof_lt P n 0%nat Hun)) as H1. rewrite (get_A_fn_spec P Hbc ijv use_petsc x n 0%nat Hun) in H1.
  destruct (SolverSpec.prescribed P n 0%nat) eqn:Ep; [apply Hf; apply (prescribed_fixed F inds iv jac cjac locs vecs fns eps P HP n 0%nat Hun); congruence|].
  pose proof (aff_matrix F Hcau inds iv (reactive_affine F kappa alpha HR iv) jac cjac Hjac locs vecs fns eps P HP Hwf Hiv Hnc Hneu Hfc _ r ijv (reshape P x) (one_dof n 0) Hr) as H2.
  assert (Z : step_form F iv (reshape P x) (one_dof n 0) = 0).
  { rewrite (reactive_form F kappa alpha HR). apply sumN_zero. intros c Hc. apply sumN_zero. intros q _.
    assert (Zc : forall a, (a < num_nodes E)%nat -> one_dof n 0 (cell_node F c a) 0%nat = 0).
    { intros a Ha. unfold one_dof. rewrite (proj2 (Nat.eqb_neq _ _) (Ho c a Hc Ha)). reflexivity. }
    assert (Zq : at_quad F (one_dof n 0) c q 0%nat = 0) by (unfold at_quad, convert_from_dof_to_quad; apply sumN_zero; intros a Ha; rewrite Zc by exact Ha; ring).
    assert (Zg : forall e, sol_to_grad F (one_dof n 0) c q 0 e = 0) by (intros e; unfold sol_to_grad; apply sumN_zero; intros a Ha; rewrite Zc by exact Ha; ring).
    rewrite Zq, (sumN_zero (dim F)) by (intros; rewrite Zg; ring). ring. }
  rewrite Z in H2. rewrite Hv in H2.
  rewrite (sumN_ext (num_total_nodes F) _ (fun i => (if Nat.eqb i n then 1 else 0) * coo_mul N ijv (ravel P (reshape P x)) (dof P i 0))) in H2.
  - rewrite (sumN_ind _ _ (fun i => coo_mul N ijv (ravel P (reshape P x)) (dof P i 0)) Hn) in H2.
    replace (coo_mul N ijv (ravel P (reshape P x)) (dof P n 0)) with (coo_mul N ijv x (dof P n 0)) in H2; [lra|].
    unfold coo_mul. apply sumN_ext. intros j Hj. f_equal. destruct (dof_ex P j Hj) as (n' & k' & Hu' & ->). rewrite ravel_dof by exact (proj2 Hu'). reflexivity.
  - intros i _. unfold sumN. cbn [seq sumR]. unfold one_dof. cbn [Nat.eqb]. rewrite Bool.andb_true_r, Rplus_0_r. reflexivity.
Qed.
Lemma reactive_solvable_iff use_petsc : solvable_problem P use_petsc <-> covered F locs vecs.
Proof.
  destruct Hloads as (Hiv & Hneu & Hfc). pose proof HM as (_ & _ & _ & _ & Hwf & Hnc & _). split.
  - intros Hsol n Hn. apply NNPP. intros Hno. apply (orphan_unsolvable n use_petsc Hwf Hnc Hn); [intros c a Hc Ha He; apply Hno; left; eauto|intros Hf; apply Hno; now right|exact Hsol].
  - intros Hcov. exact (aff_solvable F Hcau inds iv (reactive_affine F kappa alpha HR iv) jac cjac Hjac locs vecs fns eps P HP Hvecs Hwf Hiv Hnc Hneu Hfc
      (fun d => reactive_definite F kappa alpha HR iv B HM Hk Hs locs vecs d Hcov) use_petsc).
Qed.
End Main.
(** ** the two programs *)
Lemma thermal_reactive F dt fluxes : thermal_class F dt fluxes -> reactive F 15 (thermal_slope dt).
Proof.
  intros (Hv & Ht & Hm & _). split; [exact Hv|]. split; [exists thermal_tensor_map; split; [exact Ht|reflexivity]|]. exists (thermal_mass_map dt). split; [exact Hm|].
  intros vars u w k. unfold thermal_mass_map, thermal_slope. destruct vars as [|x [|y r]]; unfold Rdiv; ring.
Qed.
Lemma vars_one {X V} (F : fem V) (f : nat -> X) c : (c < num_cells F)%nat -> vars_at [map f (seq 0 (num_cells F))] c = [f c].
Proof.
  intros Hc. unfold vars_at. cbn [flat_map]. rewrite nth_error_map. rewrite (nth_error_nth' (seq 0 (num_cells F)) 0%nat) by (rewrite seq_length; exact Hc). rewrite seq_nth by exact Hc. reflexivity.
Qed.
Lemma thermal_slope_at F inds T dt c q : (c < num_cells F)%nat -> slope (thermal_slope dt) (thermal_vars F inds T) c q = 8440 * 588 / dt.
Proof. intros Hc. unfold slope, thermal_vars. cbn [iv_mass]. rewrite vars_one by exact Hc. reflexivity. Qed.
Lemma thermal_sized F inds T : iv_sized F (thermal_vars F inds T).
Proof. split; [constructor; [cbn; now rewrite map_length, seq_length|constructor]|constructor]. Qed.
Lemma damage_reactive F inds : damage_problem F inds -> reactive F (G_c * fr_l) damage_slope.
Proof.
  intros (_ & _ & Hv & Ht & Hm & _). split; [exact Hv|]. split; [exists (fun _ => phase_tensor_map); split; [exact Ht|reflexivity]|]. exists phase_mass_of. split; [exact Hm|].
  intros vars u w k. unfold phase_mass_of, damage_slope, phase_mass_map. destruct vars as [|x [|y r]]; try ring.
Qed.

(** ** stability *)
Section Stability.
Variable F : fem (nat -> R).
Local Notation E := (f_ele F).
Variables (dt : R) (fluxes : option (list (point -> list (nat -> R) -> nat -> R))).
Hypothesis HT : thermal_class F dt fluxes.
Hypothesis Hdt : 0 < dt.
Hypothesis Hwf : wf_mesh F.
Hypothesis Hnc : (0 < num_cells F)%nat.
Hypothesis Hvals : vals_sum_one F.
Hypothesis Hgrads : grads_sum_zero F.
Hypothesis Hdim : e_dim E = dim F.
Hypothesis HJ : forall c q, (c < num_cells F)%nat -> (q < num_quads E)%nat -> 0 <= JxW F c q.
Definition above300 (T : nodal) : nodal := fun n k => T n k - 300.
Lemma above_value T c q : (q < num_quads E)%nat -> at_quad F (above300 T) c q 0%nat = at_quad F T c q 0%nat - 300.
Proof.
  intros Hq. unfold at_quad, convert_from_dof_to_quad, above300. rewrite (sumN_ext _ _ (fun a => T (cell_node F c a) 0%nat * shape_vals E q a - 300 * shape_vals E q a)) by (intros; ring).
  rewrite sumN_sub, sumN_scal, (Hvals q Hq : sumN (num_nodes E) (shape_vals E q) = 1). ring.
Qed.
Lemma above_grad T c q e : (q < num_quads E)%nat -> sol_to_grad F (above300 T) c q 0 e = sol_to_grad F T c q 0 e.
Proof.
  intros Hq. unfold sol_to_grad, above300. rewrite (sumN_ext _ _ (fun a => T (cell_node F c a) 0%nat * shape_grads F c q a e - 300 * shape_grads F c q a e)) by (intros; ring).
  rewrite sumN_sub, sumN_scal. unfold shape_grads at 2. rewrite sumN_swap.
  rewrite (sumN_zero (dim F)); [ring|]. intros i Hi. rewrite sumN_scal_r. rewrite (Hgrads q i Hq) by (rewrite Hdim; exact Hi). ring.
Qed.
Lemma step_stable locs vecs T T' : discrete_solution F locs vecs (map (fun _ _ => 300) locs) [] (thermal_vars F [] T) T' -> heat_norm F T' <= heat_norm F T.
Proof.
  intros HS. pose proof HT as (Hv & Ht & Hm & Hsrc & Hcau & _).
  set (iv := thermal_vars F [] T) in *.
  assert (Hadm : admissible F locs vecs (above300 T')).
  { intros n k Hn Hk Hf. destruct (last_exists F locs vecs n k Hf) as (i & Hi). destruct HS as [HS _]. unfold above300. rewrite (HS i n k Hn Hi).
    destruct Hi as [(Hl & _) _]. rewrite (nth_map_in (fun (_ : point -> bool) (_ : point) => 300) locs i (fun _ => true) (fun _ => 0) Hl). ring. }
  assert (Hno : neumann_ok F []) by (unfold neumann_ok; destruct (neumann_bc_info F); [cbn; lia|exact I]).
  assert (Hfc : forall s, In s [] -> faces_ok F s) by (intros s []).
  pose proof (aff_weak F Hcau [] iv locs vecs (map (fun _ _ => 300) locs) Hwf (thermal_sized F [] T) Hnc Hno Hfc T' (above300 T') HS Hadm) as H.
  assert (L0 : load_work F [] iv (above300 T') = 0).
  { unfold load_work. replace (neumann_power F [] iv (above300 T')) with 0 by reflexivity. rewrite Rplus_0_r. unfold body_power. apply sumN_zero. intros c _. apply sumN_zero. intros q _.
    unfold dot_vec, body_load. cbn [iv thermal_vars iv_body]. rewrite Hsrc, sumN_zero; [ring|]. intros; ring. }
  rewrite L0 in H.
  set (D := fun c q => sumN (dim F) (fun e => sol_to_grad F T' c q 0 e ^ 2)).
  set (x := fun c q => at_quad F T' c q 0%nat - 300). set (y := fun c q => at_quad F T c q 0%nat - 300).
  assert (Hi : internal_power F iv T' (above300 T') = sumN (num_cells F) (fun c => sumN (num_quads E) (fun q => JxW F c q * (15 * D c q + 8440 * 588 / dt * ((x c q - y c q) * x c q))))).
  { unfold internal_power. apply sumN_ext. intros c Hc. apply sumN_ext. intros q Hq. unfold dot_vec, stress, reaction. rewrite Ht, Hm, Hv.
    assert (one : forall f, sumN 1 f = f 0%nat) by (intros f; unfold sumN; cbn [seq sumR]; ring). rewrite !one. f_equal. f_equal.
    - unfold D. rewrite <- sumN_scal. apply sumN_ext. intros e _. rewrite above_grad by exact Hq. unfold thermal_tensor_map. ring.
    - rewrite above_value by exact Hq. unfold iv, thermal_vars. cbn [iv_mass]. rewrite vars_one by exact Hc. cbn [map]. unfold thermal_mass_map, x, y, at_quad. unfold Rdiv. ring. }
  rewrite Hi in H. clear Hi L0 HS Hadm.
  assert (Hge : sumN (num_cells F) (fun c => sumN (num_quads E) (fun q => JxW F c q * (8440 * 588 / dt * (x c q ^ 2 / 2 - y c q ^ 2 / 2)))) <= 0).
  { rewrite <- H. apply sumN_le. intros c Hc. apply sumN_le. intros q Hq. apply Rmult_le_compat_l; [auto|].
    assert (0 <= D c q) by (apply sumN_nonneg; intros; apply pow2_ge_0). assert (Hp : 0 < 8440 * 588 / dt) by (apply Rmult_lt_0_compat; [lra|now apply Rinv_0_lt_compat]).
    assert (8440 * 588 / dt * (x c q ^ 2 / 2 - y c q ^ 2 / 2) <= 8440 * 588 / dt * ((x c q - y c q) * x c q)) by (apply Rmult_le_compat_l; [lra|]; pose proof (pow2_ge_0 (x c q - y c q)); nra). lra. }
  assert (Eq : sumN (num_cells F) (fun c => sumN (num_quads E) (fun q => JxW F c q * (8440 * 588 / dt * (x c q ^ 2 / 2 - y c q ^ 2 / 2)))) = 8440 * 588 / dt / 2 * (heat_norm F T' - heat_norm F T)).
  { unfold heat_norm. rewrite <- sumN_sub, <- sumN_scal. apply sumN_ext. intros c _. rewrite <- sumN_sub, <- sumN_scal. apply sumN_ext. intros q _. unfold x, y. field. lra. }
  rewrite Eq in Hge. assert (Hp : 0 < 8440 * 588 / dt / 2) by (apply Rmult_lt_0_compat; [apply Rmult_lt_0_compat; [lra|now apply Rinv_0_lt_compat]|lra]).
  apply Rnot_lt_le. intros Hc. assert (0 < 8440 * 588 / dt / 2 * (heat_norm F T' - heat_norm F T)) by (apply Rmult_lt_0_compat; lra). lra.
Qed.
Lemma run_stable locs vecs later : forall T, insulated_run F locs vecs T later -> Forall (fun T' => heat_norm F T' <= heat_norm F T) later.
Proof.
  induction later as [|T' r IH]; intros T H; [constructor|]. destruct H as [H1 H2]. pose proof (step_stable locs vecs T T' H1) as Hs. constructor; [exact Hs|].
  specialize (IH T' H2). rewrite Forall_forall in *. intros x Hx. specialize (IH x Hx). cbv beta in *. lra.
Qed.
End Stability.
Close Scope R_scope.
