(** * Problems with affine element forces and a definite form have exactly one discrete solution. *)
From Coq Require Import FunctionalExtensionality Classical Lra Lia.
From Verif Require Import Prelude PreludeFacts FemModel FemFacts FemSpec FemProofs FemAsmProofs FemMatProofs FemGeoProofs SolverModel SolverSpec SolverProofs SolverLmProofs SolverAdProofs SolverFemProofs LinFacts WellSpec WellProofs.
Open Scope R_scope.

Section Affine.
Context {V : Type}.
Variable F : fem V.
Local Notation E := (f_ele F).
Hypothesis Hcau : cauchy_bc_info F = None.
Variables (inds : list (list (nat * nat))) (iv : internal_vars V).
Definition zero_field : nodal := fun _ _ => 0.
(** the linear part of the internal forces *)
Definition step_form (d v : nodal) : R := internal_power F iv d v - internal_power F iv zero_field v.
Hypothesis Haff : forall u t d c a k, (c < num_cells F)%nat -> (k < vec F)%nat ->
  cell_force F iv (add_step u t d) c a k = cell_force F iv u c a k + t * (cell_force F iv d c a k - cell_force F iv zero_field c a k).
Lemma power_affine u t d v : internal_power F iv (add_step u t d) v = internal_power F iv u v + t * step_form d v.
Proof.
  assert (Hp : forall u, internal_power F iv u v = sumN (num_cells F) (fun c => sumN (num_nodes E) (fun a => sumN (vec F) (fun k => v (cell_node F c a) k * cell_force F iv u c a k)))).
  { intros w. unfold internal_power. apply sumN_ext. intros c _. symmetry. apply cell_force_test. }
  unfold step_form. rewrite !Hp. rewrite <- sumN_sub, <- sumN_scal, <- sumN_add. apply sumN_ext. intros c Hc. rewrite <- sumN_sub, <- sumN_scal, <- sumN_add. apply sumN_ext. intros a _.
  rewrite <- sumN_sub, <- sumN_scal, <- sumN_add. apply sumN_ext. intros k Hk. rewrite Haff by assumption. ring.
Qed.
Variable jac : nodal -> (nat -> nat -> nat -> R) -> (nat -> R) -> (nat -> nat -> nat -> R) -> list (nat -> V) -> list (nat -> V) -> jac4.
Variable cjac : ((nat -> R) -> nat -> R) -> nodal -> (nat -> nat -> R) -> (nat -> R) -> jac4.
Hypothesis Hjac : exact_jacobians F iv jac.
Lemma aff_step sol d c a k : (c < num_cells F)%nat -> (a < num_nodes E)%nat -> (k < vec F)%nat ->
  cell_force F iv (add_step sol 1 d) c a k = cell_force F iv sol c a k + jac_mul F (cell_jac F jac iv sol c) (cells_sol F d c) a k.
Proof.
  intros Hc Ha Hk. pose proof (Hjac sol c Hc (cells_sol F d c) a k Ha Hk) as H. rewrite Haff by assumption. f_equal. rewrite Rmult_1_l.
  eapply dl_unique; [|exact H]. eapply dl_ext; [|apply (dl_line (cell_force F iv sol c a k) (cell_force F iv d c a k - cell_force F iv zero_field c a k))].
  intros t. cbv beta. pose proof (Haff sol t d c a k Hc Hk) as H2. unfold cell_force in H2 |- *. symmetry. exact H2.
Qed.
Lemma aff_faces sol d x a k : In x (cauchy_faces F) -> (a < num_nodes E)%nat -> (k < vec F)%nat ->
  cauchy_force F (add_step sol 1 d) x a k = cauchy_force F sol x a k + jac_mul F (cauchy_jac F cjac sol x) (cells_sol F d (fst (fst x))) a k.
Proof. unfold cauchy_faces. rewrite Hcau. intros []. Qed.
Variables (locs : list (point -> bool)) (vecs : list nat) (fns : list (point -> R)).
Variable eps : option R.
Variable P : problem.
Hypothesis HP : fem_problem F inds iv jac cjac (Some (locs, vecs, fns)) None eps = Ok P.
Hypothesis Hvecs : Forall (fun k => (k < vec F)%nat) vecs.
Hypothesis Hwf : wf_mesh F.
Hypothesis Hiv : iv_sized F iv.
Hypothesis Hc : (0 < num_cells F)%nat.
Hypothesis Hneu : neumann_ok F inds.
Hypothesis Hfaces : forall s, In s inds -> faces_ok F s.
Local Notation N := (num_total_dofs P).
Lemma aff_residual u r : compute_residual_vars F inds u iv = Ok r -> forall v,
  sumN (num_total_nodes F) (fun n => sumN (vec F) (fun k => v n k * r n k)) = internal_power F iv u v - load_work F inds iv v.
Proof.
  intros Hr v. destruct (virtual_work F Hwf inds u iv Hiv Hc Hneu Hfaces) as (rb & Hrb & Hw). rewrite Hr in Hrb. injection Hrb as <-. rewrite Hw, (no_cauchy F Hcau). unfold load_work. ring.
Qed.
Lemma aff_weak u d : discrete_solution F locs vecs fns inds iv u -> admissible F locs vecs d -> internal_power F iv u d = load_work F inds iv d.
Proof.
  intros [_ (r & Hr & Hz)] Hadm. pose proof (aff_residual u r Hr d) as H.
  rewrite (sumN_zero (num_total_nodes F)) in H; [lra|]. intros n Hn. apply sumN_zero. intros k Hk.
  destruct (classic (fixed F locs vecs n k)) as [Hf|Hf]; [rewrite (Hadm n k Hn Hk Hf)|rewrite (Hz n k Hn Hk Hf)]; ring.
Qed.
Lemma aff_problem : affine_problem P.
Proof. exact (fem_affine F inds iv jac cjac locs vecs fns None eps P HP Hwf Hiv Hc Hneu Hfaces aff_step aff_faces). Qed.
Lemma aff_matrix u r ijv d v : newton_update P u = Ok (r, ijv) ->
  sumN (num_total_nodes F) (fun n => sumN (vec F) (fun k => v n k * coo_mul N ijv (ravel P d) (dof P n k))) = step_form d v.
Proof.
  intros Hr. destruct (aff_problem u d) as (r0 & r1 & ijv0 & ijv1 & H0 & H1 & Hd). rewrite Hr in H0. injection H0 as <- <-.
  pose proof (fem_problem_fields F inds iv jac cjac locs vecs fns None eps P HP) as (_ & _ & _ & _ & Hnu & _).
  assert (Hres : forall s rr jj, newton_update P s = Ok (rr, jj) -> forall v, sumN (num_total_nodes F) (fun n => sumN (vec F) (fun k => v n k * rr n k))
     = internal_power F iv s v - load_work F inds iv v).
  { intros s rr jj Hs w. rewrite Hnu in Hs. destruct (newton_spec F Hwf jac cjac inds s iv Hiv Hc Hneu Hfaces) as (ra & ja & Ha & Hb & _). rewrite Ha in Hs. injection Hs as <- <-. now apply aff_residual. }
  pose proof (Hres _ _ _ Hr v) as E0. pose proof (Hres _ _ _ H1 v) as E1.
  replace (fun n k => u n k + d n k) with (add_step u 1 d) in E1 by (apply functional_extensionality; intros; apply functional_extensionality; intros; unfold add_step; ring).
  rewrite power_affine in E1.
  assert (Es : sumN (num_total_nodes F) (fun n => sumN (vec F) (fun k => v n k * r1 n k))
    = sumN (num_total_nodes F) (fun n => sumN (vec F) (fun k => v n k * r n k)) + sumN (num_total_nodes F) (fun n => sumN (vec F) (fun k => v n k * coo_mul N ijv (ravel P d) (dof P n k)))).
  { rewrite <- sumN_add. apply sumN_ext. intros n Hn. rewrite <- sumN_add. apply sumN_ext. intros k Hk. rewrite (Hd n k) by (apply (unknown_iff F inds iv jac cjac locs vecs fns eps P HP); auto). ring. }
  lra.
Qed.
Hypothesis Hdef : forall d, admissible F locs vecs d -> step_form d d = 0 -> same_field F d (fun _ _ => 0).
Lemma aff_solvable use_petsc : solvable_problem P use_petsc.
Proof.
  intros u r ijv Hr b. pose proof (well_bc F inds iv jac cjac locs vecs fns eps P HP Hvecs) as Hbc.
  assert (Hinv : invertible N (lop_apply N (get_A_fn P ijv use_petsc))).
  { apply injective_invertible; [exact (get_A_linear (fun _ => P) vzero Hbc ijv use_petsc)|]. intros x Hx. set (d := reshape P x).
    assert (Hun : forall n k, unknown P n k <-> (n < num_total_nodes F)%nat /\ (k < vec F)%nat) by (intros; apply (unknown_iff F inds iv jac cjac locs vecs fns eps P HP)).
    assert (Hrow : forall n k, unknown P n k -> match prescribed P n k with Some _ => d n k | None => coo_mul N ijv x (dof P n k) end = 0).
    { intros n k Hu. pose proof (Hx _ (dof_lt P n k Hu)) as H. rewrite (get_A_fn_spec P Hbc ijv use_petsc x n k Hu) in H. unfold vzero in H. destruct (prescribed P n k); exact H. }
    assert (Hrav : forall i, (i < N)%nat -> ravel P d i = x i).
    { intros i Hi. destruct (dof_ex P i Hi) as (n & k & Hu & ->). rewrite ravel_dof by exact (proj2 Hu). reflexivity. }
    assert (Hz : same_field F d (fun _ _ => 0)).
    { apply Hdef.
      - intros n k Hn Hk Hf. assert (Hu : unknown P n k) by now apply Hun. pose proof (Hrow n k Hu) as H. apply (prescribed_fixed F inds iv jac cjac locs vecs fns eps P HP n k Hu) in Hf. destruct (prescribed P n k); [exact H|congruence].
      - rewrite <- (aff_matrix u r ijv d d Hr). apply sumN_zero. intros n Hn. apply sumN_zero. intros k Hk. assert (Hu : unknown P n k) by now apply Hun.
        pose proof (Hrow n k Hu) as H. destruct (prescribed P n k); [rewrite H; ring|].
        replace (coo_mul N ijv (ravel P d) (dof P n k)) with (coo_mul N ijv x (dof P n k)); [rewrite H; ring|]. unfold coo_mul. apply sumN_ext. intros j Hj. now rewrite Hrav. }
    intros i Hi. destruct (dof_ex P i Hi) as (n & k & Hu & ->). apply Hun in Hu as [Hn Hk]. exact (Hz n k Hn Hk). }
  destruct Hinv as (M & HM & _). exists (mat_vec N M b). apply HM.
Qed.
Lemma aff_unique u w : discrete_solution F locs vecs fns inds iv u -> discrete_solution F locs vecs fns inds iv w -> same_field F u w.
Proof.
  intros Hu Hw. set (d := fun n k => u n k - w n k).
  assert (Hadm : admissible F locs vecs d).
  { intros n k Hn Hk Hf. destruct (last_exists F locs vecs n k Hf) as (i & Hi). unfold d. destruct Hu as [Hu _]. destruct Hw as [Hw _]. rewrite (Hu i n k Hn Hi), (Hw i n k Hn Hi). ring. }
  pose proof (aff_weak u d Hu Hadm) as E1. pose proof (aff_weak w d Hw Hadm) as E2.
  replace u with (add_step w 1 d) in E1 by (apply functional_extensionality; intros; apply functional_extensionality; intros; unfold add_step, d; ring).
  rewrite power_affine in E1. assert (Hz : same_field F d (fun _ _ => 0)) by (apply Hdef; [exact Hadm|lra]).
  intros n k Hn Hk. specialize (Hz n k Hn Hk). unfold d in Hz. lra.
Qed.
Lemma aff_solved ev grad fuel precond guess use_petsc : exact_solvers ev -> exact_floats ev ->
  exists u, solver ev P grad fuel true precond guess use_petsc = Some (Ok u) /\ discrete_solution F locs vecs fns inds iv u /\
  forall w, discrete_solution F locs vecs fns inds iv w -> same_field F w u.
Proof.
  intros Hex Hfl. destruct (fem_linear_solve F inds iv jac cjac locs vecs fns None eps P HP Hvecs Hwf Hiv Hc Hneu Hfaces aff_step aff_faces ev grad fuel precond guess use_petsc eq_refl Hex Hfl (aff_solvable use_petsc))
    as (u & r & Hu & Hd & Hr & Hq).
  assert (HS : discrete_solution F locs vecs fns inds iv u).
  { split; [exact Hd|]. exists r. split; [exact Hr|]. intros n k Hn Hk Hf. apply Hq; [exact Hn|exact Hk|]. intros i Hi. apply Hf. now exists i. }
  exists u. split; [exact Hu|]. split; [exact HS|]. intros w Hw. exact (aff_unique w u Hw HS).
Qed.
(** ** Newton's method with no step, or one *)
Lemma aff_newton ev grad precond guess use_petsc : exact_solvers ev -> exact_floats ev ->
  exists u, solver ev P grad 1 false precond guess use_petsc = Some (Ok u) /\
  exists r, compute_residual_vars F inds u iv = Ok r /\
  forall n k, (n < num_total_nodes F)%nat -> (k < vec F)%nat ->
    (~ fixed F locs vecs n k -> Rabs (r n k) <= tol) /\
    forall i, last_applying F locs vecs i n k -> Rabs (u n k - nth i fns (fun _ => 0) (points F n)) <= tol.
Proof.
  intros Hex Hfl. pose proof (well_bc F inds iv jac cjac locs vecs fns eps P HP Hvecs) as Hbc.
  pose proof (fem_problem_fields F inds iv jac cjac locs vecs fns None eps P HP) as (_ & _ & _ & _ & Hnu & _ & _ & _ & Hper & _).
  destruct (nonlinear_affine_terminates P Hbc ev Hex Hfl aff_problem use_petsc precond guess (aff_solvable use_petsc)) as (u & Hu).
  destruct (nonlinear_returned_pointwise P Hbc ev Hfl _ _ _ _ _ Hu) as (r & ijv & Hr & Hle).
  exists u. split; [unfold solver; rewrite Hper; exact Hu|]. exists r.
  rewrite Hnu in Hr. destruct (newton_spec F Hwf jac cjac inds u iv Hiv Hc Hneu Hfaces) as (ra & ja & Ha & Hb & _). rewrite Ha in Hr. injection Hr as <- <-.
  split; [exact Hb|]. intros n k Hn Hk. assert (Hun : unknown P n k) by (apply (unknown_iff F inds iv jac cjac locs vecs fns eps P HP); auto).
  specialize (Hle n k Hun). unfold constrained in Hle. split.
  - intros Hf. destruct (prescribed P n k) eqn:Ep; [|exact Hle]. exfalso. apply Hf. apply (prescribed_fixed F inds iv jac cjac locs vecs fns eps P HP n k Hun). congruence.
  - intros i [Hi Hl]. rewrite (fem_prescribed_last F inds iv jac cjac locs vecs fns None eps P HP i n k Hun Hi Hl) in Hle. exact Hle.
Qed.
End Affine.
Close Scope R_scope.
