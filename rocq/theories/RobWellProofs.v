(** * Problems whose element forces and boundary fluxes are affine: matrix, solvability, Newton's method. *)
From Coq Require Import FunctionalExtensionality Classical Lra Lia.
From Verif Require Import Prelude PreludeFacts FemModel FemFacts FemSpec FemProofs FemAsmProofs FemMatProofs FemGeoProofs SolverModel SolverSpec SolverProofs SolverLmProofs SolverAdProofs SolverFemProofs LinFacts WellSpec WellProofs HeatWellProofs MmaNewtonProofs ConnRankProofs RobSpec.
Open Scope R_scope.

Section Weak.
Context {V : Type}.
Variable F : fem V.
Local Notation E := (f_ele F).
Variables (inds : list (list (nat * nat))) (iv : internal_vars V).
(** work of the internal forces and of the boundary fluxes *)
Definition full_power (u v : nodal) : R := internal_power F iv u v + cauchy_power F u v.
Definition full_form (d v : nodal) : R := full_power d v - full_power zero_field v.
Variables (locs : list (point -> bool)) (vecs : list nat) (fns : list (point -> R)).
Hypothesis Hwf : wf_mesh F.
Hypothesis Hiv : iv_sized F iv.
Hypothesis Hc : (0 < num_cells F)%nat.
Hypothesis Hneu : neumann_ok F inds.
Hypothesis Hfaces : forall s, In s inds -> faces_ok F s.
Lemma full_residual u r : compute_residual_vars F inds u iv = Ok r -> forall v,
  sumN (num_total_nodes F) (fun n => sumN (vec F) (fun k => v n k * r n k)) = full_power u v - load_work F inds iv v.
Proof.
  intros Hr v. destruct (virtual_work F Hwf inds u iv Hiv Hc Hneu Hfaces) as (rb & Hrb & Hw). rewrite Hr in Hrb. injection Hrb as <-. rewrite Hw. unfold load_work, full_power. ring.
Qed.
Lemma full_weak u d : discrete_solution F locs vecs fns inds iv u -> admissible F locs vecs d -> full_power u d = load_work F inds iv d.
Proof.
  intros [_ (r & Hr & Hz)] Hadm. pose proof (full_residual u r Hr d) as H.
  rewrite (sumN_zero (num_total_nodes F)) in H; [lra|]. intros n Hn. apply sumN_zero. intros k Hk.
  destruct (classic (fixed F locs vecs n k)) as [Hf|Hf]; [rewrite (Hadm n k Hn Hk Hf)|rewrite (Hz n k Hn Hk Hf)]; ring.
Qed.
Lemma difference_admissible u w : discrete_solution F locs vecs fns inds iv u -> discrete_solution F locs vecs fns inds iv w -> admissible F locs vecs (fun n k => u n k - w n k).
Proof.
  intros [Hu _] [Hw _] n k Hn Hk Hf. destruct (last_exists F locs vecs n k Hf) as (i & Hi). rewrite (Hu i n k Hn Hi), (Hw i n k Hn Hi). ring.
Qed.
End Weak.

Section Full.
Context {V : Type}.
Variable F : fem V.
Local Notation E := (f_ele F).
Variables (inds : list (list (nat * nat))) (iv : internal_vars V).
Hypothesis Haff : forall u t d c a k, (c < num_cells F)%nat -> (k < vec F)%nat ->
  cell_force F iv (add_step u t d) c a k = cell_force F iv u c a k + t * (cell_force F iv d c a k - cell_force F iv zero_field c a k).
Hypothesis Hcaff : forall u t d x a k, In x (cauchy_faces F) -> (k < vec F)%nat ->
  cauchy_force F (add_step u t d) x a k = cauchy_force F u x a k + t * (cauchy_force F d x a k - cauchy_force F zero_field x a k).
Lemma cauchy_affine u t d v : cauchy_power F (add_step u t d) v = cauchy_power F u v + t * (cauchy_power F d v - cauchy_power F zero_field v).
Proof.
  assert (Hp : forall u, cauchy_power F u v = sumR (cauchy_faces F) (fun x => sumN (num_nodes E) (fun a => sumN (vec F) (fun k => v (cell_node F (fst (fst x)) a) k * cauchy_force F u x a k)))).
  { intros w. unfold cauchy_power. apply sumR_ext. intros x _. symmetry. apply cauchy_force_test. }
  rewrite !Hp. rewrite <- sumR_sub, <- sumR_scal, <- sumR_add. apply sumR_ext. intros x Hx. rewrite <- sumN_sub, <- sumN_scal, <- sumN_add. apply sumN_ext. intros a _.
  rewrite <- sumN_sub, <- sumN_scal, <- sumN_add. apply sumN_ext. intros k Hk. rewrite Hcaff by assumption. ring.
Qed.
Lemma full_affine u t d v : full_power F iv (add_step u t d) v = full_power F iv u v + t * full_form F iv d v.
Proof. unfold full_form, full_power. rewrite cauchy_affine, (power_affine F iv Haff). unfold step_form. ring. Qed.
Variable jac : nodal -> (nat -> nat -> nat -> R) -> (nat -> R) -> (nat -> nat -> nat -> R) -> list (nat -> V) -> list (nat -> V) -> jac4.
Variable cjac : ((nat -> R) -> nat -> R) -> nodal -> (nat -> nat -> R) -> (nat -> R) -> jac4.
Hypothesis Hjac : exact_jacobians F iv jac.
Hypothesis Hcjac : exact_face_jacobians F cjac.
Lemma full_faces sol d x a k : In x (cauchy_faces F) -> (a < num_nodes E)%nat -> (k < vec F)%nat ->
  cauchy_force F (add_step sol 1 d) x a k = cauchy_force F sol x a k + jac_mul F (cauchy_jac F cjac sol x) (cells_sol F d (fst (fst x))) a k.
Proof.
  intros Hx Ha Hk. pose proof (Hcjac sol x Hx (cells_sol F d (fst (fst x))) a k Ha Hk) as H. rewrite Hcaff by assumption. f_equal. rewrite Rmult_1_l.
  eapply dl_unique; [|exact H]. eapply dl_ext; [|apply (dl_line (cauchy_force F sol x a k) (cauchy_force F d x a k - cauchy_force F zero_field x a k))].
  intros t. cbv beta. pose proof (Hcaff sol t d x a k Hx Hk) as H2. unfold cauchy_force, cauchy_values in H2 |- *. symmetry. exact H2.
Qed.
Variables (locs : list (point -> bool)) (vecs : list nat) (fns : list (point -> R)).
Variable eps : option R.
Variable P : problem.
Hypothesis HP : fem_problem F inds iv jac cjac (Some (locs, vecs, fns)) None eps = Ok P.
Hypothesis Hvecs : Forall (fun k => (k < vec F)%nat) vecs.
Hypothesis Hwf : wf_mesh F.
Hypothesis Hiv : iv_sized F iv.
Hypothesis Hc : (0 < num_cells F)%nat.
Hypothesis Hneu : neumann_ok F inds.
Hypothesis Hfaces : forall s, In s inds -> faces_ok F s.
Local Notation N := (num_total_dofs P).
Lemma full_problem : affine_problem P.
Proof. exact (fem_affine F inds iv jac cjac locs vecs fns None eps P HP Hwf Hiv Hc Hneu Hfaces (aff_step F iv Haff jac Hjac) full_faces). Qed.
Lemma full_matrix u r ijv d v : newton_update P u = Ok (r, ijv) ->
  sumN (num_total_nodes F) (fun n => sumN (vec F) (fun k => v n k * coo_mul N ijv (ravel P d) (dof P n k))) = full_form F iv d v.
Proof.
  intros Hr. destruct (full_problem u d) as (r0 & r1 & ijv0 & ijv1 & H0 & H1 & Hd). rewrite Hr in H0. injection H0 as <- <-.
  pose proof (fem_problem_fields F inds iv jac cjac locs vecs fns None eps P HP) as (_ & _ & _ & _ & Hnu & _).
  assert (Hres : forall s rr jj, newton_update P s = Ok (rr, jj) -> forall v, sumN (num_total_nodes F) (fun n => sumN (vec F) (fun k => v n k * rr n k))
     = full_power F iv s v - load_work F inds iv v).
  { intros s rr jj Hs w. rewrite Hnu in Hs. destruct (newton_spec F Hwf jac cjac inds s iv Hiv Hc Hneu Hfaces) as (ra & ja & Ha & Hb & _). rewrite Ha in Hs. injection Hs as <- <-. now apply (full_residual F inds iv Hwf Hiv Hc Hneu Hfaces). }
  pose proof (Hres _ _ _ Hr v) as E0. pose proof (Hres _ _ _ H1 v) as E1.
  replace (fun n k => u n k + d n k) with (add_step u 1 d) in E1 by (apply functional_extensionality; intros; apply functional_extensionality; intros; unfold add_step; ring).
  rewrite full_affine in E1.
  assert (Es : sumN (num_total_nodes F) (fun n => sumN (vec F) (fun k => v n k * r1 n k))
    = sumN (num_total_nodes F) (fun n => sumN (vec F) (fun k => v n k * r n k)) + sumN (num_total_nodes F) (fun n => sumN (vec F) (fun k => v n k * coo_mul N ijv (ravel P d) (dof P n k)))).
  { rewrite <- sumN_add. apply sumN_ext. intros n Hn. rewrite <- sumN_add. apply sumN_ext. intros k Hk. rewrite (Hd n k) by (apply (unknown_iff F inds iv jac cjac locs vecs fns eps P HP); auto). ring. }
  lra.
Qed.
(** a displacement that meets no resistance makes the matrix singular *)
Lemma full_kernel w n0 k0 use_petsc : admissible F locs vecs w -> (forall u, full_form F iv u w = 0) -> (n0 < num_total_nodes F)%nat -> (k0 < vec F)%nat -> w n0 k0 <> 0 ->
  ~ solvable_problem P use_petsc.
Proof.
  intros Hadm Hw Hn0 Hk0 Hnz Hsol. destruct (full_problem (fun _ _ => 0) (fun _ _ => 0)) as (r & _ & ijv & _ & Hr & _ & _).
  destruct (Hsol _ _ _ Hr (ravel P w)) as (x & Hx).
  pose proof (full_matrix _ _ _ (reshape P x) w Hr) as Hm. rewrite Hw in Hm.
  assert (Hrav : forall i, (i < num_total_dofs P)%nat -> ravel P (reshape P x) i = x i).
  { intros i Hi. destruct (dof_ex P i Hi) as (n & l & Hu & ->). rewrite ravel_dof by exact (proj2 Hu). reflexivity. }
  assert (Hs : sumN (num_total_nodes F) (fun n => sumN (vec F) (fun k => w n k * w n k)) = 0).
  { rewrite <- Hm. apply sumN_ext. intros n Hn. apply sumN_ext. intros k Hk.
    assert (Hu : unknown P n k) by (apply (unknown_iff F inds iv jac cjac locs vecs fns eps P HP); auto).
    destruct (classic (fixed F locs vecs n k)) as [Hf|Hf]; [rewrite (Hadm n k Hn Hk Hf); ring|]. f_equal.
    pose proof (Hx _ (dof_lt P n k Hu)) as H. rewrite (get_A_fn_spec P (well_bc F inds iv jac cjac locs vecs fns eps P HP Hvecs) ijv use_petsc x n k Hu) in H.
    destruct (SolverSpec.prescribed P n k) eqn:Ep; [exfalso; apply Hf; apply (prescribed_fixed F inds iv jac cjac locs vecs fns eps P HP n k Hu); congruence|].
    rewrite (ravel_dof P _ n k (proj2 Hu)) in H. rewrite <- H. unfold coo_mul. apply sumN_ext. intros j Hj. now rewrite Hrav. }
  apply Hnz. pose proof (sumN_pos_zero (num_total_nodes F) (fun n => sumN (vec F) (fun k => w n k * w n k)) (fun n _ => sumN_nonneg _ _ (fun k _ => Rle_0_sqr (w n k))) Hs n0 Hn0) as H1. cbv beta in H1.
  pose proof (sumN_pos_zero _ _ (fun k _ => Rle_0_sqr (w n0 k)) H1 k0 Hk0) as H2. cbv beta in H2. now apply Rsqr_0_uniq.
Qed.
Hypothesis Hdef : forall d, admissible F locs vecs d -> full_form F iv d d = 0 -> same_field F d (fun _ _ => 0).
Lemma full_solvable use_petsc : solvable_problem P use_petsc.
Proof.
  intros u r ijv Hr b. pose proof (well_bc F inds iv jac cjac locs vecs fns eps P HP Hvecs) as Hbc.
  assert (Hinv : invertible N (lop_apply N (get_A_fn P ijv use_petsc))).
  { apply injective_invertible; [exact (get_A_linear (fun _ => P) vzero Hbc ijv use_petsc)|]. intros x Hx. set (d := reshape P x).
    assert (Hun : forall n k, unknown P n k <-> (n < num_total_nodes F)%nat /\ (k < vec F)%nat) by (intros; apply (unknown_iff F inds iv jac cjac locs vecs fns eps P HP)).
    assert (Hrow : forall n k, unknown P n k -> match prescribed P n k with Some _ => d n k | None => coo_mul N ijv x (dof P n k) end = 0).
    { intros n k Hu. pose proof (Hx _ (dof_lt P n k Hu)) as H. rewrite (get_A_fn_spec P Hbc ijv use_petsc x n k Hu) in H. unfold vzero in H. destruct (prescribed P n k); exact H. }
    assert (Hrav : forall i, (i < N)%nat -> ravel P d i = x i).
    { intros i Hi. destruct (dof_ex P i Hi) as (n & k & Hu & ->). rewrite ravel_dof by exact (proj2 Hu). reflexivity. }
    assert (Hz : same_field F d (fun _ _ => 0)).
    { apply Hdef.
      - intros n k Hn Hk Hf. assert (Hu : unknown P n k) by now apply Hun. pose proof (Hrow n k Hu) as H. apply (prescribed_fixed F inds iv jac cjac locs vecs fns eps P HP n k Hu) in Hf. destruct (prescribed P n k); [exact H|congruence].
      - rewrite <- (full_matrix u r ijv d d Hr). apply sumN_zero. intros n Hn. apply sumN_zero. intros k Hk. assert (Hu : unknown P n k) by now apply Hun.
        pose proof (Hrow n k Hu) as H. destruct (prescribed P n k); [rewrite H; ring|].
        replace (coo_mul N ijv (ravel P d) (dof P n k)) with (coo_mul N ijv x (dof P n k)); [rewrite H; ring|]. unfold coo_mul. apply sumN_ext. intros j Hj. now rewrite Hrav. }
    intros i Hi. destruct (dof_ex P i Hi) as (n & k & Hu & ->). apply Hun in Hu as [Hn Hk]. exact (Hz n k Hn Hk). }
  destruct Hinv as (M & HM & _). exists (mat_vec N M b). apply HM.
Qed.
Lemma full_unique u w : discrete_solution F locs vecs fns inds iv u -> discrete_solution F locs vecs fns inds iv w -> same_field F u w.
Proof.
  intros Hu Hw. set (d := fun n k => u n k - w n k).
  pose proof (difference_admissible F inds iv locs vecs fns u w Hu Hw : admissible F locs vecs d) as Hadm.
  pose proof (full_weak F inds iv locs vecs fns Hwf Hiv Hc Hneu Hfaces u d Hu Hadm) as E1. pose proof (full_weak F inds iv locs vecs fns Hwf Hiv Hc Hneu Hfaces w d Hw Hadm) as E2.
  replace u with (add_step w 1 d) in E1 by (apply functional_extensionality; intros; apply functional_extensionality; intros; unfold add_step, d; ring).
  rewrite full_affine in E1. assert (Hz : same_field F d (fun _ _ => 0)) by (apply Hdef; [exact Hadm|lra]).
  intros n k Hn Hk. specialize (Hz n k Hn Hk). unfold d in Hz. lra.
Qed.
Lemma full_solved ev grad fuel precond guess use_petsc : exact_solvers ev -> exact_floats ev ->
  exists u, solver ev P grad fuel true precond guess use_petsc = Some (Ok u) /\ discrete_solution F locs vecs fns inds iv u /\
  forall w, discrete_solution F locs vecs fns inds iv w -> same_field F w u.
Proof.
  intros Hex Hfl. destruct (fem_linear_solve F inds iv jac cjac locs vecs fns None eps P HP Hvecs Hwf Hiv Hc Hneu Hfaces (aff_step F iv Haff jac Hjac) full_faces ev grad fuel precond guess use_petsc eq_refl Hex Hfl (full_solvable use_petsc))
    as (u & r & Hu & Hd & Hr & Hq).
  assert (HS : discrete_solution F locs vecs fns inds iv u).
  { split; [exact Hd|]. exists r. split; [exact Hr|]. intros n k Hn Hk Hf. apply Hq; [exact Hn|exact Hk|]. intros i Hi. apply Hf. now exists i. }
  exists u. split; [exact Hu|]. split; [exact HS|]. intros w Hw. exact (full_unique w u Hw HS).
Qed.
End Full.
Close Scope R_scope.
