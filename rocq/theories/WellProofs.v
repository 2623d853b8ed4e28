(** * Linear problems whose energy form is definite have exactly one discrete solution. *)
From Coq Require Import FunctionalExtensionality Classical Lra Lia.
From Verif Require Import Prelude PreludeFacts FemModel FemFacts FemSpec FemProofs FemAsmProofs FemMatProofs FemGeoProofs SolverModel SolverSpec SolverProofs SolverLmProofs SolverAdProofs SolverFemProofs LinFacts WellSpec.
Open Scope R_scope.

Lemma last_exists {V} (F : fem V) (locs : list (point -> bool)) (vecs : list nat) n k : fixed F locs vecs n k -> exists i, last_applying F locs vecs i n k.
Proof.
  intros (i & Hi). assert (H : forall m, (length locs - i <= m)%nat -> exists i', last_applying F locs vecs i' n k); [|exact (H _ (le_n _))].
  intros m. revert i Hi. induction m as [|m IH]; intros i Hi Hm; [destruct Hi as (Hl & _); lia|].
  destruct (classic (exists i', (i < i')%nat /\ applies F locs vecs i' n k)) as [(i' & Hlt & Hi')|Hno].
  - apply (IH i' Hi'). destruct Hi' as (Hl & _). lia.
  - exists i. split; [exact Hi|]. intros i' Hlt Ha. apply Hno. eauto.
Qed.
Section Linear.
Context {V : Type}.
Variable F : fem V.
Local Notation E := (f_ele F).
Variable tm : list V -> mat -> mat.
Hypothesis Htm : tensor_map F = Some tm.
Hypothesis Hlin : linear_tensor F tm.
Hypothesis Hmass : mass_map F = None.
Hypothesis Hcau : cauchy_bc_info F = None.
Variables (inds : list (list (nat * nat))) (iv : internal_vars V).

Lemma grad_comb a u w c q : sol_to_grad F (fun n k => a * u n k + w n k) c q = fun i d => a * sol_to_grad F u c q i d + sol_to_grad F w c q i d.
Proof. apply functional_extensionality. intros i. apply functional_extensionality. intros d. unfold sol_to_grad. rewrite <- sumN_scal, <- sumN_add. apply sumN_ext. intros; ring. Qed.
Lemma stress_comb a u w c q k d : (k < vec F)%nat -> (d < dim F)%nat ->
  stress F iv (fun n k => a * u n k + w n k) c q k d = a * stress F iv u c q k d + stress F iv w c q k d.
Proof. intros Hk Hd. unfold stress. rewrite Htm, grad_comb. now apply Hlin. Qed.
Lemma form_l a u w v : energy_form F iv (fun n k => a * u n k + w n k) v = a * energy_form F iv u v + energy_form F iv w v.
Proof.
  unfold energy_form. rewrite <- sumN_scal, <- sumN_add. apply sumN_ext. intros c _. rewrite <- sumN_scal, <- sumN_add. apply sumN_ext. intros q _.
  rewrite (sumN_ext (vec F) _ (fun k => a * sumN (dim F) (fun d => stress F iv u c q k d * sol_to_grad F v c q k d) + sumN (dim F) (fun d => stress F iv w c q k d * sol_to_grad F v c q k d))).
  - rewrite sumN_add, sumN_scal. ring.
  - intros k Hk. rewrite <- sumN_scal, <- sumN_add. apply sumN_ext. intros d Hd. rewrite stress_comb by assumption. ring.
Qed.
Lemma form_r a u v w : energy_form F iv u (fun n k => a * v n k + w n k) = a * energy_form F iv u v + energy_form F iv u w.
Proof.
  unfold energy_form. rewrite <- sumN_scal, <- sumN_add. apply sumN_ext. intros c _. rewrite <- sumN_scal, <- sumN_add. apply sumN_ext. intros q _.
  rewrite (sumN_ext (vec F) _ (fun k => a * sumN (dim F) (fun d => stress F iv u c q k d * sol_to_grad F v c q k d) + sumN (dim F) (fun d => stress F iv u c q k d * sol_to_grad F w c q k d))).
  - rewrite sumN_add, sumN_scal. ring.
  - intros k Hk. rewrite <- sumN_scal, <- sumN_add. apply sumN_ext. intros d Hd. rewrite grad_comb. ring.
Qed.
Lemma power_form u v : internal_power F iv u v = energy_form F iv u v.
Proof.
  unfold internal_power, energy_form. apply sumN_ext. intros c _. apply sumN_ext. intros q _. f_equal. unfold reaction, dot_vec. rewrite Hmass.
  rewrite (sumN_zero (vec F) (fun k => 0 * _)); [ring|]. intros; ring.
Qed.
Lemma no_cauchy u v : cauchy_power F u v = 0.
Proof. unfold cauchy_power, cauchy_faces. now rewrite Hcau. Qed.
Lemma force_comb a u w c b k : (k < vec F)%nat -> cell_force F iv (fun n k => a * u n k + w n k) c b k = a * cell_force F iv u c b k + cell_force F iv w c b k.
Proof.
  intros Hk. unfold cell_force, kernel. rewrite Htm, Hmass. unfold laplace_kernel. rewrite !Rplus_0_r, <- sumN_scal, <- sumN_add. apply sumN_ext. intros q _.
  rewrite <- sumN_scal, <- sumN_add. apply sumN_ext. intros d Hd.
  match goal with |- tm ?vs ?G k d * _ = a * (tm _ ?G1 k d * _) + tm _ ?G2 k d * _ => assert (EG : G = fun i j => a * G1 i j + G2 i j) end.
  { apply functional_extensionality. intros i. apply functional_extensionality. intros j. unfold cells_sol. rewrite <- sumN_scal, <- sumN_add. apply sumN_ext. intros; ring. }
  rewrite EG, Hlin by assumption. ring.
Qed.
(** ** the exact element matrices reproduce the element forces *)
Variable jac : nodal -> (nat -> nat -> nat -> R) -> (nat -> R) -> (nat -> nat -> nat -> R) -> list (nat -> V) -> list (nat -> V) -> jac4.
Variable cjac : ((nat -> R) -> nat -> R) -> nodal -> (nat -> nat -> R) -> (nat -> R) -> jac4.
Hypothesis Hjac : exact_jacobians F iv jac.
Lemma force_step sol d c a k : (c < num_cells F)%nat -> (a < num_nodes E)%nat -> (k < vec F)%nat ->
  cell_force F iv (add_step sol 1 d) c a k = cell_force F iv sol c a k + jac_mul F (cell_jac F jac iv sol c) (cells_sol F d c) a k.
Proof.
  intros Hc Ha Hk. pose proof (Hjac sol c Hc (cells_sol F d c) a k Ha Hk) as H.
  assert (Hs : forall t, cell_force F iv (add_step sol t d) c a k = cell_force F iv sol c a k + t * cell_force F iv d c a k).
  { intros t. replace (add_step sol t d) with (fun n k => t * d n k + sol n k) by (apply functional_extensionality; intros n; apply functional_extensionality; intros l; unfold add_step; ring).
    rewrite force_comb by exact Hk. ring. }
  rewrite Hs. f_equal. rewrite Rmult_1_l. eapply dl_unique; [|exact H]. eapply dl_ext; [|apply (dl_line (cell_force F iv sol c a k) (cell_force F iv d c a k))].
  intros t. cbv beta. rewrite <- Hs. unfold cell_force. reflexivity.
Qed.
Lemma no_faces sol d x a k : In x (cauchy_faces F) -> (a < num_nodes E)%nat -> (k < vec F)%nat ->
  cauchy_force F (add_step sol 1 d) x a k = cauchy_force F sol x a k + jac_mul F (cauchy_jac F cjac sol x) (cells_sol F d (fst (fst x))) a k.
Proof. unfold cauchy_faces. rewrite Hcau. intros []. Qed.

Variables (locs : list (point -> bool)) (vecs : list nat) (fns : list (point -> R)).
Variable eps : option R.
Variable P : problem.
Hypothesis HP : fem_problem F inds iv jac cjac (Some (locs, vecs, fns)) None eps = Ok P.
Hypothesis Hvecs : Forall (fun k => (k < vec F)%nat) vecs.
Hypothesis Hwf : wf_mesh F.
Hypothesis Hiv : iv_sized F iv.
Hypothesis Hc : (0 < num_cells F)%nat.
Hypothesis Hneu : neumann_ok F inds.
Hypothesis Hfaces : forall s, In s inds -> faces_ok F s.
Local Notation N := (num_total_dofs P).
Lemma well_affine : affine_problem P.
Proof. exact (fem_affine F inds iv jac cjac locs vecs fns None eps P HP Hwf Hiv Hc Hneu Hfaces force_step no_faces). Qed.
Lemma well_bc : bc_ok P.
Proof. exact (fem_bc_ok F inds iv jac cjac locs vecs fns None eps P HP Hvecs). Qed.
Lemma unknown_iff n k : unknown P n k <-> (n < num_total_nodes F)%nat /\ (k < vec F)%nat.
Proof. destruct (fem_problem_fields F inds iv jac cjac locs vecs fns None eps P HP) as (_ & _ & H1 & H2 & _). unfold unknown. now rewrite H1, H2. Qed.
Lemma prescribed_fixed n k : unknown P n k -> (prescribed P n k <> None <-> fixed F locs vecs n k).
Proof.
  intros Hu. split.
  - intros Hp. apply NNPP. intros Hno. apply Hp. apply (fem_prescribed_none F inds iv jac cjac locs vecs fns None eps P HP). intros i Hi. apply Hno. now exists i.
  - intros Hf. destruct (last_exists F locs vecs n k Hf) as (i & Ha & Hl). rewrite (fem_prescribed_last F inds iv jac cjac locs vecs fns None eps P HP i n k Hu Ha Hl). discriminate.
Qed.
(** the assembled matrix is the matrix of the energy form *)
Lemma matrix_form u r ijv d v : newton_update P u = Ok (r, ijv) ->
  sumN (num_total_nodes F) (fun n => sumN (vec F) (fun k => v n k * coo_mul N ijv (ravel P d) (dof P n k))) = energy_form F iv d v.
Proof.
  intros Hr. destruct (well_affine u d) as (r0 & r1 & ijv0 & ijv1 & H0 & H1 & Hd). rewrite Hr in H0. injection H0 as <- <-.
  pose proof (fem_problem_fields F inds iv jac cjac locs vecs fns None eps P HP) as (_ & _ & _ & _ & Hnu & _).
  assert (Hres : forall s rr jj, newton_update P s = Ok (rr, jj) -> forall v, sumN (num_total_nodes F) (fun n => sumN (vec F) (fun k => v n k * rr n k))
     = energy_form F iv s v - load_work F inds iv v).
  { intros s rr jj Hs w. rewrite Hnu in Hs. destruct (newton_spec F Hwf jac cjac inds s iv Hiv Hc Hneu Hfaces) as (ra & ja & Ha & Hb & _). rewrite Ha in Hs. injection Hs as <- <-.
    destruct (virtual_work F Hwf inds s iv Hiv Hc Hneu Hfaces) as (rb & Hrb & Hw). rewrite Hb in Hrb. injection Hrb as <-. rewrite Hw, power_form, no_cauchy. unfold load_work. ring. }
  pose proof (Hres _ _ _ Hr v) as E0. pose proof (Hres _ _ _ H1 v) as E1.
  replace (fun n k => u n k + d n k) with (fun n k => 1 * d n k + u n k) in E1 by (apply functional_extensionality; intros; apply functional_extensionality; intros; ring).
  rewrite form_l in E1.
  assert (Es : sumN (num_total_nodes F) (fun n => sumN (vec F) (fun k => v n k * r1 n k))
    = sumN (num_total_nodes F) (fun n => sumN (vec F) (fun k => v n k * r n k)) + sumN (num_total_nodes F) (fun n => sumN (vec F) (fun k => v n k * coo_mul N ijv (ravel P d) (dof P n k)))).
  { rewrite <- sumN_add. apply sumN_ext. intros n Hn. rewrite <- sumN_add. apply sumN_ext. intros k Hk. rewrite (Hd n k) by now apply unknown_iff. ring. }
  lra.
Qed.
Lemma residual_work u r : compute_residual_vars F inds u iv = Ok r -> forall v,
  sumN (num_total_nodes F) (fun n => sumN (vec F) (fun k => v n k * r n k)) = energy_form F iv u v - load_work F inds iv v.
Proof.
  intros Hr v. destruct (virtual_work F Hwf inds u iv Hiv Hc Hneu Hfaces) as (rb & Hrb & Hw). rewrite Hr in Hrb. injection Hrb as <-. rewrite Hw, power_form, no_cauchy. unfold load_work. ring.
Qed.
Lemma residual_exists u : exists r, compute_residual_vars F inds u iv = Ok r.
Proof. destruct (virtual_work F Hwf inds u iv Hiv Hc Hneu Hfaces) as (r & Hr & _). eauto. Qed.

(** ** definiteness makes the constrained matrix invertible *)
Hypothesis Hdef : forall d, admissible F locs vecs d -> energy_form F iv d d = 0 -> same_field F d (fun _ _ => 0).
Lemma well_injective u r ijv use_petsc x : newton_update P u = Ok (r, ijv) -> same N (lop_apply N (get_A_fn P ijv use_petsc) x) vzero -> same N x vzero.
Proof.
  intros Hr Hx. set (d := reshape P x).
  assert (Hrow : forall n k, unknown P n k -> match prescribed P n k with Some _ => d n k | None => coo_mul N ijv x (dof P n k) end = 0).
  { intros n k Hu. pose proof (Hx _ (dof_lt P n k Hu)) as H. rewrite (get_A_fn_spec P well_bc ijv use_petsc x n k Hu) in H. unfold vzero in H. destruct (prescribed P n k); exact H. }
  assert (Hrav : forall i, (i < N)%nat -> ravel P d i = x i).
  { intros i Hi. destruct (dof_ex P i Hi) as (n & k & Hu & ->). rewrite ravel_dof by exact (proj2 Hu). reflexivity. }
  assert (Hz : same_field F d (fun _ _ => 0)).
  { apply Hdef.
    - intros n k Hn Hk Hf. assert (Hu : unknown P n k) by now apply unknown_iff. pose proof (Hrow n k Hu) as H. apply (prescribed_fixed n k Hu) in Hf. destruct (prescribed P n k); [exact H|congruence].
    - rewrite <- (matrix_form u r ijv d d Hr). apply sumN_zero. intros n Hn. apply sumN_zero. intros k Hk. assert (Hu : unknown P n k) by now apply unknown_iff.
      pose proof (Hrow n k Hu) as H. destruct (prescribed P n k); [rewrite H; ring|].
      replace (coo_mul N ijv (ravel P d) (dof P n k)) with (coo_mul N ijv x (dof P n k)); [rewrite H; ring|]. unfold coo_mul. apply sumN_ext. intros j Hj. now rewrite Hrav. }
  intros i Hi. destruct (dof_ex P i Hi) as (n & k & Hu & ->). apply unknown_iff in Hu as [Hn Hk]. exact (Hz n k Hn Hk).
Qed.
Lemma well_invertible u r ijv use_petsc : newton_update P u = Ok (r, ijv) -> invertible N (lop_apply N (get_A_fn P ijv use_petsc)).
Proof. intros Hr. apply injective_invertible; [exact (get_A_linear (fun _ => P) vzero well_bc ijv use_petsc)|]. intros x. exact (well_injective u r ijv use_petsc x Hr). Qed.
Lemma well_solvable use_petsc : solvable_problem P use_petsc.
Proof. intros u r ijv Hr b. destruct (well_invertible u r ijv use_petsc Hr) as (M & HM & _). exists (mat_vec N M b). apply HM. Qed.
(** ** uniqueness *)
Lemma well_unique u w : discrete_solution F locs vecs fns inds iv u -> discrete_solution F locs vecs fns inds iv w -> same_field F u w.
Proof.
  intros [Hu1 (ru & Hru & Hu2)] [Hw1 (rw & Hrw & Hw2)]. set (d := fun n k => -1 * w n k + u n k).
  assert (Hz : same_field F d (fun _ _ => 0)).
  { assert (Hadm : admissible F locs vecs d).
    { intros n k Hn Hk Hf. destruct (last_exists F locs vecs n k Hf) as (i & Hi). unfold d. rewrite (Hu1 i n k Hn Hi), (Hw1 i n k Hn Hi). ring. }
    apply Hdef; [exact Hadm|]. unfold d at 1. rewrite form_l.
    assert (E0 : sumN (num_total_nodes F) (fun n => sumN (vec F) (fun k => d n k * ru n k)) = 0).
    { apply sumN_zero. intros n Hn. apply sumN_zero. intros k Hk. destruct (classic (fixed F locs vecs n k)) as [Hf|Hf]; [rewrite (Hadm n k Hn Hk Hf); ring|rewrite (Hu2 n k Hn Hk Hf); ring]. }
    assert (E1 : sumN (num_total_nodes F) (fun n => sumN (vec F) (fun k => d n k * rw n k)) = 0).
    { apply sumN_zero. intros n Hn. apply sumN_zero. intros k Hk. destruct (classic (fixed F locs vecs n k)) as [Hf|Hf]; [rewrite (Hadm n k Hn Hk Hf); ring|rewrite (Hw2 n k Hn Hk Hf); ring]. }
    rewrite (residual_work u ru Hru d) in E0. rewrite (residual_work w rw Hrw d) in E1. lra. }
  intros n k Hn Hk. specialize (Hz n k Hn Hk). unfold d in Hz. lra.
Qed.
Lemma well_solved ev grad fuel precond guess use_petsc : exact_solvers ev -> exact_floats ev ->
  exists u, solver ev P grad fuel true precond guess use_petsc = Some (Ok u) /\ discrete_solution F locs vecs fns inds iv u /\
  forall w, discrete_solution F locs vecs fns inds iv w -> same_field F w u.
Proof.
  intros Hex Hfl. destruct (fem_linear_solve F inds iv jac cjac locs vecs fns None eps P HP Hvecs Hwf Hiv Hc Hneu Hfaces force_step no_faces ev grad fuel precond guess use_petsc eq_refl Hex Hfl (well_solvable use_petsc))
    as (u & r & Hu & Hd & Hr & Hq).
  assert (HS : discrete_solution F locs vecs fns inds iv u).
  { split; [exact Hd|]. exists r. split; [exact Hr|]. intros n k Hn Hk Hf. apply Hq; [exact Hn|exact Hk|]. intros i Hi. apply Hf. now exists i. }
  exists u. split; [exact Hu|]. split; [exact HS|]. intros w Hw. exact (well_unique w u Hw HS).
Qed.
End Linear.

(** ** a component that is fixed nowhere: no solution of the linear system in general *)
Lemma sumN_ind n j (f : nat -> R) : (j < n)%nat -> sumN n (fun i => (if Nat.eqb i j then 1 else 0) * f i) = f j.
Proof. intros H. rewrite <- (sumN_delta n f j H). apply sumN_ext. intros i _. unfold delta. ring. Qed.
Section Floating.
Context {V : Type}.
Variable F : fem V.
Variable tm : list V -> mat -> mat.
Hypothesis Htm : tensor_map F = Some tm.
Hypothesis Hlin : linear_tensor F tm.
Hypothesis Hmass : mass_map F = None.
Hypothesis Hcau : cauchy_bc_info F = None.
Variables (inds : list (list (nat * nat))) (iv : internal_vars V).
Variable jac : nodal -> (nat -> nat -> nat -> R) -> (nat -> R) -> (nat -> nat -> nat -> R) -> list (nat -> V) -> list (nat -> V) -> jac4.
Variable cjac : ((nat -> R) -> nat -> R) -> nodal -> (nat -> nat -> R) -> (nat -> R) -> jac4.
Hypothesis Hjac : exact_jacobians F iv jac.
Variables (locs : list (point -> bool)) (vecs : list nat) (fns : list (point -> R)).
Variable eps : option R.
Variable P : problem.
Hypothesis HP : fem_problem F inds iv jac cjac (Some (locs, vecs, fns)) None eps = Ok P.
Hypothesis Hvecs : Forall (fun k => (k < vec F)%nat) vecs.
Hypothesis Hwf : wf_mesh F.
Hypothesis Hiv : iv_sized F iv.
Hypothesis Hc : (0 < num_cells F)%nat.
Hypothesis Hneu : neumann_ok F inds.
Hypothesis Hfaces : forall s, In s inds -> faces_ok F s.
Lemma floating_unsolvable k use_petsc : grads_sum_zero F -> (0 < num_total_nodes F)%nat -> (k < vec F)%nat ->
  (forall n, (n < num_total_nodes F)%nat -> ~ fixed F locs vecs n k) -> ~ solvable_problem P use_petsc.
Proof.
  intros Hg Hn Hk Hno Hsol. pose proof (well_affine F tm Htm Hlin Hmass Hcau inds iv jac cjac Hjac locs vecs fns eps P HP Hwf Hiv Hc Hneu Hfaces (fun _ _ => 0) (fun _ _ => 0)) as (r & _ & ijv & _ & Hr & _ & _).
  destruct (Hsol _ _ _ Hr (ravel P (unit_field k))) as (x & Hx).
  pose proof (matrix_form F tm Htm Hlin Hmass Hcau inds iv jac cjac Hjac locs vecs fns eps P HP Hwf Hiv Hc Hneu Hfaces _ _ _ (reshape P x) (unit_field k) Hr) as Hm.
  assert (E0 : energy_form F iv (reshape P x) (unit_field k) = 0).
  { unfold energy_form. apply sumN_zero. intros c _. apply sumN_zero. intros q Hq. rewrite (sumN_zero (vec F)); [ring|]. intros i _. apply sumN_zero. intros d Hd. rewrite unit_grad by assumption. ring. }
  rewrite E0 in Hm.
  assert (Hrav : forall i, (i < num_total_dofs P)%nat -> ravel P (reshape P x) i = x i).
  { intros i Hi. destruct (dof_ex P i Hi) as (n & l & Hu & ->). rewrite ravel_dof by exact (proj2 Hu). reflexivity. }
  assert (E1 : sumN (num_total_nodes F) (fun n => sumN (vec F) (fun l => unit_field k n l * coo_mul (num_total_dofs P) ijv (ravel P (reshape P x)) (dof P n l))) = INR (num_total_nodes F)).
  { rewrite <- (Rmult_1_r (INR (num_total_nodes F))), <- sumN_const. apply sumN_ext. intros n Hnn.
    rewrite (sumN_ext (vec F) _ (fun l => (if Nat.eqb l k then 1 else 0) * coo_mul (num_total_dofs P) ijv x (dof P n k))).
    - assert (Hu : unknown P n k) by (apply (unknown_iff F inds iv jac cjac locs vecs fns eps P HP); auto).
      pose proof (Hx _ (dof_lt P n k Hu)) as H. rewrite (get_A_fn_spec P (well_bc F inds iv jac cjac locs vecs fns eps P HP Hvecs) ijv use_petsc x n k Hu) in H.
      assert (Hp : prescribed P n k = None).
      { destruct (prescribed P n k) eqn:Ep; [|reflexivity]. exfalso. apply (Hno n Hnn). apply (prescribed_fixed F inds iv jac cjac locs vecs fns eps P HP n k Hu). congruence. }
      rewrite Hp in H. rewrite H, (ravel_dof P _ n k (proj2 Hu)). unfold unit_field. rewrite Nat.eqb_refl. rewrite sumN_scal_r.
      rewrite (sumN_ext _ _ (fun l => (if Nat.eqb l k then 1 else 0) * 1)) by (intros; ring). rewrite (sumN_ind _ _ (fun _ => 1) Hk). ring.
    - intros l Hl. unfold unit_field. destruct (Nat.eqb l k) eqn:El; [|ring]. apply Nat.eqb_eq in El. subst l. f_equal. unfold coo_mul. apply sumN_ext. intros j Hj. now rewrite Hrav. }
  rewrite E1 in Hm. assert (0 < INR (num_total_nodes F)) by now apply lt_0_INR. lra.
Qed.
End Floating.

(** ** exact element matrices exist: the forces of the unit displacements *)
Section Exact.
Context {V : Type}.
Variable F : fem V.
Variable tm : list V -> mat -> mat.
Hypothesis Htm : tensor_map F = Some tm.
Hypothesis Hlin : linear_tensor F tm.
Hypothesis Hmass : mass_map F = None.
Hypothesis Hloc : forall vars G H k d, (forall i j, (i < vec F)%nat -> (j < dim F)%nat -> G i j = H i j) -> (k < vec F)%nat -> (d < dim F)%nat -> tm vars G k d = tm vars H k d.
Definition one_dof (b l : nat) : nodal := fun n k => if (Nat.eqb n b && Nat.eqb k l)%bool then 1 else 0.
Definition unit_jac (s : nodal) (g : nat -> nat -> nat -> R) (w : nat -> R) (vg : nat -> nat -> nat -> R) (mv lv : list (nat -> V)) : jac4 :=
  fun a i b l => kernel F (one_dof b l) g w vg mv lv a i.
Lemma tm_zero vars k d : (k < vec F)%nat -> (d < dim F)%nat -> tm vars (fun _ _ => 0) k d = 0.
Proof.
  intros Hk Hd. pose proof (Hlin vars 1 (fun _ _ => 0) (fun _ _ => 0) k d Hk Hd) as H. cbv beta in H. replace (fun i j : nat => 1 * 0 + 0) with (fun _ _ : nat => 0) in H; [lra|].
  apply functional_extensionality. intros. apply functional_extensionality. intros. ring.
Qed.
Lemma tm_sum vars n (c : nat -> R) (G : nat -> mat) k d : (k < vec F)%nat -> (d < dim F)%nat ->
  tm vars (fun i j => sumN n (fun b => c b * G b i j)) k d = sumN n (fun b => c b * tm vars (G b) k d).
Proof.
  intros Hk Hd. induction n as [|n IH]; [unfold sumN; cbn [seq sumR]; now apply tm_zero|]. rewrite sumN_S, <- IH.
  transitivity (tm vars (fun i j => c n * G n i j + sumN n (fun b => c b * G b i j)) k d).
  - apply Hloc; [|exact Hk|exact Hd]. intros i j _ _. rewrite sumN_S. ring.
  - rewrite Hlin by assumption. ring.
Qed.
Lemma unit_jac_exact iv : exact_jacobians F iv unit_jac.
Proof.
  intros sol c _ s a k Ha Hk.
  set (g := shape_grads F c). set (vg := v_grads_JxW F c). set (lv := vars_at (iv_laplace iv) c). set (mv := vars_at (iv_mass iv) c). set (w := JxW F c). set (cs := cells_sol F sol c).
  assert (Hadd : forall u t d, kernel F (add_step u t d) g w vg mv lv a k = kernel F u g w vg mv lv a k + t * kernel F d g w vg mv lv a k).
  { intros u t d. unfold kernel. rewrite Htm, Hmass. unfold laplace_kernel. rewrite !Rplus_0_r, <- sumN_scal, <- sumN_add. apply sumN_ext. intros q _. rewrite <- sumN_scal, <- sumN_add. apply sumN_ext. intros e He.
    match goal with |- tm ?vs ?G k e * _ = tm _ ?G1 k e * _ + t * (tm _ ?G2 k e * _) => assert (EG : tm vs G k e = tm vs (fun i j => t * G2 i j + G1 i j) k e) end.
    { apply Hloc; [|exact Hk|exact He]. intros i j _ _. rewrite <- sumN_scal, <- sumN_add. apply sumN_ext. intros b _. unfold add_step. ring. }
    rewrite EG, Hlin by assumption. ring. }
  assert (Hsum : kernel F s g w vg mv lv a k = jac_mul F (cell_jac F unit_jac iv sol c) s a k).
  { unfold jac_mul, cell_jac, unit_jac. fold g vg lv mv w. unfold kernel. rewrite Htm, Hmass. unfold laplace_kernel. rewrite Rplus_0_r.
    transitivity (sumN (num_quads (f_ele F)) (fun q => sumN (dim F) (fun d => sumN (num_nodes (f_ele F)) (fun b => sumN (vec F) (fun l =>
      (s b l * tm (map (fun v => v q) lv) (fun i j => sumN (num_nodes (f_ele F)) (fun b' => one_dof b l b' i * g q b' j)) k d) * vg q a d))))).
    - apply sumN_ext. intros q _. apply sumN_ext. intros d Hd.
      match goal with |- tm ?vs ?G k d * _ = _ => transitivity (tm vs (fun i j => sumN (num_nodes (f_ele F)) (fun b => 1 * sumN (vec F) (fun l => s b l * sumN (num_nodes (f_ele F)) (fun b' => one_dof b l b' i * g q b' j)))) k d * vg q a d) end.
      + f_equal. apply Hloc; [|exact Hk|exact Hd]. intros i j Hi Hj. apply sumN_ext. intros b Hb. rewrite Rmult_1_l.
        rewrite (sumN_ext (vec F) _ (fun l => (if Nat.eqb l i then 1 else 0) * (s b l * g q b j))).
        * now rewrite (sumN_ind _ _ (fun l => s b l * g q b j) Hi).
        * intros l _. rewrite (sumN_ext _ _ (fun b' => (if Nat.eqb b' b then 1 else 0) * ((if Nat.eqb l i then 1 else 0) * g q b' j))).
          -- rewrite (sumN_ind _ _ (fun b' => (if Nat.eqb l i then 1 else 0) * g q b' j) Hb). ring.
          -- intros b' _. unfold one_dof. rewrite (Nat.eqb_sym i l). destruct (Nat.eqb b' b), (Nat.eqb l i); cbn [andb]; ring.
      + rewrite (tm_sum _ _ (fun _ => 1)), <- sumN_scal_r by assumption. apply sumN_ext. intros b _. rewrite Rmult_1_l, tm_sum, <- sumN_scal_r by assumption. reflexivity.
    - rewrite (sumN_ext (num_nodes (f_ele F)) _ (fun b => sumN (vec F) (fun l => sumN (num_quads (f_ele F)) (fun q => sumN (dim F) (fun d =>
        (s b l * tm (map (fun v => v q) lv) (fun i j => sumN (num_nodes (f_ele F)) (fun b' => one_dof b l b' i * g q b' j)) k d) * vg q a d))))).
      + rewrite (sumN_ext (num_quads (f_ele F)) _ (fun q => sumN (num_nodes (f_ele F)) (fun b => sumN (dim F) (fun d => sumN (vec F) (fun l =>
          (s b l * tm (map (fun v => v q) lv) (fun i j => sumN (num_nodes (f_ele F)) (fun b' => one_dof b l b' i * g q b' j)) k d) * vg q a d))))) by (intros; apply sumN_swap).
        rewrite sumN_swap. apply sumN_ext. intros b _.
        rewrite (sumN_ext (num_quads (f_ele F)) _ (fun q => sumN (vec F) (fun l => sumN (dim F) (fun d =>
          (s b l * tm (map (fun v => v q) lv) (fun i j => sumN (num_nodes (f_ele F)) (fun b' => one_dof b l b' i * g q b' j)) k d) * vg q a d)))) by (intros; apply sumN_swap).
        apply sumN_swap.
      + intros b _. apply sumN_ext. intros l _. rewrite Rplus_0_r, Rmult_comm, <- sumN_scal. apply sumN_ext. intros q _. rewrite <- sumN_scal. apply sumN_ext. intros d _. ring. }
  rewrite <- Hsum.
  eapply dl_eq; [apply (dl_line (kernel F cs g w vg mv lv a k) (kernel F s g w vg mv lv a k))|intros t; cbv beta; rewrite Hadd; ring|reflexivity].
Qed.
End Exact.

(** ** what any discrete solution minimises *)
Section Ritz.
Context {V : Type}.
Variable F : fem V.
Variable tm : list V -> mat -> mat.
Hypothesis Htm : tensor_map F = Some tm.
Hypothesis Hlin : linear_tensor F tm.
Hypothesis Hmass : mass_map F = None.
Hypothesis Hcau : cauchy_bc_info F = None.
Variables (inds : list (list (nat * nat))) (iv : internal_vars V).
Hypothesis Hwf : wf_mesh F.
Hypothesis Hiv : iv_sized F iv.
Hypothesis Hc : (0 < num_cells F)%nat.
Hypothesis Hneu : neumann_ok F inds.
Hypothesis Hfaces : forall s, In s inds -> faces_ok F s.
Variables (locs : list (point -> bool)) (vecs : list nat) (fns : list (point -> R)).
Hypothesis Hsym : forall u v, energy_form F iv u v = energy_form F iv v u.
Lemma load_comb a v w : load_work F inds iv (fun n k => a * v n k + w n k) = a * load_work F inds iv v + load_work F inds iv w.
Proof.
  assert (Hq : forall c q k, at_quad F (fun n k => a * v n k + w n k) c q k = a * at_quad F v c q k + at_quad F w c q k).
  { intros. unfold at_quad, convert_from_dof_to_quad. rewrite <- sumN_scal, <- sumN_add. apply sumN_ext. intros; ring. }
  assert (Hp : forall s p k, at_face F (fun n k => a * v n k + w n k) s p k = a * at_face F v s p k + at_face F w s p k).
  { intros. unfold at_face, convert_neumann_from_dof. rewrite <- sumN_scal, <- sumN_add. apply sumN_ext. intros; ring. }
  assert (Hdot : forall b x y z, (forall k, z k = a * x k + y k) -> dot_vec F b z = a * dot_vec F b x + dot_vec F b y).
  { intros b x y z H. unfold dot_vec. rewrite <- sumN_scal, <- sumN_add. apply sumN_ext. intros k _. rewrite H. ring. }
  unfold load_work. rewrite Rmult_plus_distr_l. transitivity ((a * body_power F iv v + body_power F iv w) + (a * neumann_power F inds iv v + neumann_power F inds iv w)); [|ring]. f_equal.
  - unfold body_power. rewrite <- sumN_scal, <- sumN_add. apply sumN_ext. intros c _. rewrite <- sumN_scal, <- sumN_add. apply sumN_ext. intros q _.
    rewrite (Hdot _ (at_quad F v c q) (at_quad F w c q)) by (intros; apply Hq). ring.
  - unfold neumann_power. rewrite <- sumR_scal, <- sumR_add. apply sumR_ext. intros [i sel] _. rewrite <- sumR_scal, <- sumR_add. apply sumR_ext. intros [j s] _.
    rewrite <- sumN_scal, <- sumN_add. apply sumN_ext. intros p _. cbn [fst snd]. rewrite (Hdot _ (at_face F v s p) (at_face F w s p)) by (intros; apply Hp). ring.
Qed.
(** the work of the residual of a discrete solution on an admissible displacement is zero *)
Lemma solution_weak u d : discrete_solution F locs vecs fns inds iv u -> admissible F locs vecs d -> energy_form F iv u d = load_work F inds iv d.
Proof.
  intros [_ (r & Hr & Hz)] Hadm. pose proof (residual_work F Hmass Hcau inds iv Hwf Hiv Hc Hneu Hfaces u r Hr d) as H.
  rewrite (sumN_zero (num_total_nodes F)) in H; [lra|]. intros n Hn. apply sumN_zero. intros k Hk.
  destruct (classic (fixed F locs vecs n k)) as [Hf|Hf]; [rewrite (Hadm n k Hn Hk Hf)|rewrite (Hz n k Hn Hk Hf)]; ring.
Qed.
(** the excess of the potential energy over that of the solution is the energy of the difference *)
Lemma potential_excess u w : discrete_solution F locs vecs fns inds iv u -> takes_values F locs vecs fns w ->
  potential F inds iv w = potential F inds iv u + / 2 * energy_form F iv (fun n k => -1 * u n k + w n k) (fun n k => -1 * u n k + w n k).
Proof.
  intros Hu Hw. set (d := fun n k => -1 * u n k + w n k).
  assert (Hadm : admissible F locs vecs d).
  { intros n k Hn Hk Hf. destruct (last_exists F locs vecs n k Hf) as (i & Hi). unfold d. destruct Hu as [Hu _]. rewrite (Hu i n k Hn Hi), (Hw i n k Hn Hi). ring. }
  pose proof (solution_weak u d Hu Hadm) as HW.
  assert (Ew : w = fun n k => 1 * d n k + u n k) by (apply functional_extensionality; intros; apply functional_extensionality; intros; unfold d; ring).
  clearbody d. clear Hw. subst w.
  unfold potential. rewrite (form_l F tm Htm Hlin iv), !(form_r F iv), load_comb. rewrite (Hsym d u), HW. lra.
Qed.
End Ritz.
Close Scope R_scope.
