(** * Theorems about problems with periodic conditions: Lagrange multipliers. *)
From Coq Require Import String Lra Lia.
From Verif Require Import Prelude PreludeFacts FemModel FemFacts FemSpec FemAsmProofs FemMatProofs BasisModel BasisSpec BasisProofs BasisExamples MatModel SolverModel SolverSpec SolverLmProofs SolverFemProofs SolverExamples SolverProps RveModel RveSpec RveMeanProofs RveSolveProofs RveExamples RveProofs WellSpec WellProofs WellBoxProofs MaxSpec ConnSpec ConnRankProofs ConnMainProofs ConnExamples SaddleSpec SaddleModel SaddleProofs SaddleFemProofs SaddleDemoProofs SaddleExamples.
From Verif Require MeshModel.
Open Scope R_scope.
Open Scope list_scope.

(** ** C181: when the matrix with multipliers is regular *)
Theorem periodic_poisson_regular : forall V (F : fem V) B t inds iv jac cjac locs vecs fns info eps P x,
  lagrange_mesh F B t -> tensor_map F = Some (fun _ => poisson_map) -> mass_map F = None -> cauchy_bc_info F = None -> loads_ok F inds iv -> exact_jacobians F iv jac ->
  fem_problem F inds iv jac cjac (Some (locs, vecs, fns)) (Some info) eps = Ok P -> Forall (fun k => (k < vec F)%nat) vecs -> Forall (fun t => (snd t < vec F)%nat) info -> x <> 0 ->
  (solvable_augmented P x <-> independent_constraints P /\ anchored F P).
Proof.
  intros V F B t inds iv jac cjac locs vecs fns info eps P x HM Htm Hm Hc Hl Hj HP Hv Hi Hx.
  exact (sp_regular_iff F B t HM Htm Hm Hc inds iv Hl jac cjac Hj locs vecs fns info eps P HP Hv Hi x Hx).
Qed.
Print Assumptions periodic_poisson_regular.
(** constraints on different components are independent; pairs of held nodes, components held twice and rings of pairs are not *)
Theorem independent_constraints_cases : forall P, bc_ok P -> periodic_ok P ->
  (separate_constraints P -> independent_constraints P) /\
  (independent_constraints P -> NoDup (map fst (conditions P)) /\
     (forall a b k, In (a, b, k) (pairs P) -> ~ (conditioned P a k /\ conditioned P b k)) /\
     forall a b c e k, In (a, b, k) (pairs P) -> In (b, c, k) (pairs P) -> In (e, c, k) (pairs P) -> In (a, e, k) (pairs P) -> a = b \/ b = e \/ a = e).
Proof.
  intros P Hok Hper. split; [exact (separate_independent P Hok Hper)|]. intros Hi. split; [|split].
  - apply Classical_Prop.NNPP. intros H. exact (held_twice_dependent P Hok Hper H Hi).
  - intros a b k Hin [Ha Hb]. exact (held_pair_dependent P Hok Hper a b k Hin Ha Hb Hi).
  - intros a b c e k H1 H2 H3 H4. destruct (Nat.eq_dec a b); [now left|]. destruct (Nat.eq_dec b e); [right; now left|]. destruct (Nat.eq_dec a e); [right; now right|].
    exfalso. exact (ring_dependent P Hok Hper a b c e k H1 H2 H3 H4 ltac:(assumption) ltac:(assumption) ltac:(assumption) Hi).
Qed.
Print Assumptions independent_constraints_cases.
(** independent constraints can take every value *)
Theorem independent_constraints_reach : forall P, bc_ok P -> periodic_ok P -> independent_constraints P ->
  forall t : nat -> R, exists u, forall j, (j < length (conditions P) + length (pairs P))%nat -> nth j (constraint_values P u) 0 = t j.
Proof.
  intros P Hok Hper Hi t.
  destruct (independent_reaches P Hok Hper (fun j => t j - nth j (constraint_values P (fun _ _ => 0)) 0) Hi) as (u & Hu). exists u. intros j Hj.
  specialize (Hu j Hj). unfold cd, cdelta in Hu. unfold constraint_values in *. destruct (Nat.lt_ge_cases j (length (conditions P))) as [H|H].
  - rewrite app_nth1 in Hu by (rewrite map_length; exact H). rewrite app_nth1 in Hu by (rewrite map_length; exact H). rewrite app_nth1 by (rewrite map_length; exact H).
    rewrite (nth_map_in _ _ j ((0, 0)%nat, 0)) in Hu by exact H. rewrite (nth_map_in _ _ j ((0, 0)%nat, 0)) in Hu by exact H. rewrite (nth_map_in _ _ j ((0, 0)%nat, 0)) by exact H. lra.
  - rewrite app_nth2 in Hu by (rewrite map_length; exact H). rewrite app_nth2 in Hu by (rewrite map_length; exact H). rewrite app_nth2 by (rewrite map_length; exact H). rewrite !map_length in Hu. rewrite map_length.
    assert (Hj' : (j - length (conditions P) < length (pairs P))%nat) by lia.
    rewrite (nth_map_in _ _ _ (0, 0, 0)%nat) in Hu by exact Hj'. rewrite (nth_map_in _ _ _ (0, 0, 0)%nat) in Hu by exact Hj'. rewrite (nth_map_in _ _ _ (0, 0, 0)%nat) by exact Hj'. lra.
Qed.
Print Assumptions independent_constraints_reach.
(** two separate tetrahedra: the second is held, the first hangs on it by one pair of nodes *)
Example periodic_regular_case : exists P, fem_problem apart_heat [] (mkIv [] [] None (fun _ => [])) (unit_jac apart_heat) cjac0 (Some ([far_end], [0%nat], [fun _ => 7])) (Some tie) None = Ok P /\
  pairs P = [(0, 4, 0)%nat] /\ solvable_augmented P 1 /\ independent_constraints P /\ anchored apart_heat P.
Proof.
  destruct (tied_problem (fun _ => 7)) as (P & HP & EC & EP). exists P. split; [exact HP|]. split; [exact EP|].
  assert (Hp : Forall (fun t => (snd t < vec apart_heat)%nat) tie) by (repeat constructor).
  assert (Hi : independent_constraints P).
  { apply independent_constraints_cases; [exact (fem_bc_ok _ _ _ _ _ _ _ _ _ _ _ HP ltac:(repeat constructor))|exact (fem_periodic_ok _ _ _ _ _ _ _ _ _ _ _ HP Hp)|]. exact (tied_separate P 7 EC EP). }
  pose proof (tied_anchored P 7 EC EP) as Ha. split; [|split; [exact Hi|exact Ha]].
  apply (periodic_poisson_regular R apart_heat ex_basix "TET4" _ _ _ _ _ _ _ _ _ P 1 (apart_mesh _ _ _) eq_refl eq_refl eq_refl (pair_loads _ _ _ _ _) (pair_poisson_jac _ _ _ _) HP ltac:(repeat constructor) Hp ltac:(lra)). split; assumption.
Qed.

(** ** C182: what the solver returns, also when the matrix is singular *)
(** fields in equilibrium under multipliers are those whose residual does no work on admissible changes *)
Theorem multipliers_exist : forall P u, bc_ok P -> periodic_ok P -> (in_constrained_equilibrium P u <-> balanced P u).
Proof. intros P u Hok Hper. split; [exact (RveSolveProofs.virtual_work P Hok Hper u)|exact (balanced_multipliers P Hok Hper u)]. Qed.
Print Assumptions multipliers_exist.
Theorem periodic_linear_solved : forall V (F : fem V) tm inds iv jac cjac locs vecs fns info eps P,
  tensor_map F = Some tm -> linear_tensor F tm -> mass_map F = None -> cauchy_bc_info F = None -> exact_jacobians F iv jac ->
  fem_problem F inds iv jac cjac (Some (locs, vecs, fns)) (Some info) eps = Ok P -> Forall (fun k => (k < vec F)%nat) vecs -> Forall (fun t => (snd t < vec F)%nat) info ->
  wf_mesh F -> loads_ok F inds iv -> (0 < num_cells F)%nat -> (match eps with Some e => e | None => 1 end) <> 0 ->
  (forall d, RveSpec.admissible P d -> energy_form F iv d d = 0 -> same_field F d (fun _ _ => 0)) ->
  forall grad, (forall e, is_grad (num_aug P) (Lagrangian_fn P e) (grad (Lagrangian_fn P e))) ->
  (forall x, step_solvable P grad (match eps with Some e => e | None => 1 end) x <-> consistent_constraints P) /\
  (consistent_constraints P -> forall ev fuel precond guess, exact_solvers ev ->
   (exact_floats ev -> exists u, solver ev P grad 1 false precond guess false = Some (Ok u)) /\
   exists u, solver ev P grad fuel true precond guess false = Some (Ok u) /\ constraints_hold P u /\ in_constrained_equilibrium P u /\
   (forall w, constraints_hold P w -> in_constrained_equilibrium P w -> same_field F w u) /\
   ((forall v w, energy_form F iv v w = energy_form F iv w v) -> (forall v, 0 <= energy_form F iv v v) ->
    forall w, constraints_hold P w -> potential F inds iv u <= potential F inds iv w /\ (potential F inds iv w = potential F inds iv u -> same_field F w u))).
Proof.
  intros V F tm inds iv jac cjac locs vecs fns info eps P Htm Hlin Hm Hc Hj HP Hv Hi Hwf Hl Hn He Hdef grad Hg. split.
  - intros x. exact (sf_step_iff F tm Htm Hlin Hm Hc inds iv jac cjac Hj locs vecs fns info eps P HP Hv Hi Hwf Hl Hn Hdef grad x Hg He).
  - intros Hcs ev fuel precond guess Hex. split; [intros Hfl; exact (sf_newton F tm Htm Hlin Hm Hc inds iv jac cjac Hj locs vecs fns info eps P HP Hv Hi Hwf Hl Hn Hdef grad ev precond guess Hg Hex Hfl He Hcs)|].
    destruct (sf_solved F tm Htm Hlin Hm Hc inds iv jac cjac Hj locs vecs fns info eps P HP Hv Hi Hwf Hl Hn Hdef grad ev fuel precond guess Hg Hex He Hcs) as (u & H1 & H2 & H3 & H4).
    exists u. repeat (split; [assumption|]). intros Hsym Hpos w Hw.
    pose proof (sf_minimal F tm Htm Hlin Hm Hc inds iv jac cjac locs vecs fns info eps P HP Hv Hi Hwf Hl Hn Hsym u w H2 H3 Hw) as E.
    pose proof (Hpos (fun n k => -1 * u n k + w n k)) as H0. split; [lra|]. intros Heq.
    assert (Hz : same_field F (fun n k => -1 * u n k + w n k) (fun _ _ => 0)).
    { apply Hdef; [|lra]. destruct H2 as [U1 U2]. destruct Hw as [W1 W2].
      split; [intros n k x Hx; rewrite (U1 _ _ _ Hx), (W1 _ _ _ Hx); ring|intros a b k Hx; rewrite (U2 _ _ _ Hx), (W2 _ _ _ Hx); ring]. }
    intros n k Hn' Hk. specialize (Hz n k Hn' Hk). cbv beta in Hz. lra.
Qed.
Print Assumptions periodic_linear_solved.
Theorem periodic_poisson_solved : forall V (F : fem V) B t inds iv jac cjac locs vecs fns info eps P ev grad fuel precond guess,
  lagrange_mesh F B t -> tensor_map F = Some (fun _ => poisson_map) -> mass_map F = None -> cauchy_bc_info F = None -> loads_ok F inds iv -> exact_jacobians F iv jac ->
  fem_problem F inds iv jac cjac (Some (locs, vecs, fns)) (Some info) eps = Ok P -> Forall (fun k => (k < vec F)%nat) vecs -> Forall (fun t => (snd t < vec F)%nat) info ->
  (match eps with Some e => e | None => 1 end) <> 0 -> (forall e, is_grad (num_aug P) (Lagrangian_fn P e) (grad (Lagrangian_fn P e))) -> exact_solvers ev ->
  anchored F P -> consistent_constraints P ->
  exists u, solver ev P grad fuel true precond guess false = Some (Ok u) /\ constraints_hold P u /\ in_constrained_equilibrium P u /\
  (forall w, constraints_hold P w -> in_constrained_equilibrium P w -> same_field F w u) /\
  forall w, constraints_hold P w -> potential F inds iv u <= potential F inds iv w /\ (potential F inds iv w = potential F inds iv u -> same_field F w u).
Proof.
  intros V F B t inds iv jac cjac locs vecs fns info eps P ev grad fuel precond guess HM Htm Hm Hc Hl Hj HP Hv Hi He Hg Hex Ha Hcs. pose proof HM as (_ & _ & _ & _ & _ & Hwf & Hn & _).
  destruct (periodic_linear_solved V F _ inds iv jac cjac locs vecs fns info eps P Htm (lp_linear F) Hm Hc Hj HP Hv Hi Hwf Hl Hn He (sp_definite F B t HM Htm iv P Ha) grad Hg) as (_ & S).
  destruct (S Hcs ev fuel precond guess Hex) as (_ & u & H1 & H2 & H3 & H4 & H5). exists u. repeat (split; [assumption|]). exact (H5 (lp_sym F Htm iv) (lp_nonneg F B t HM Htm iv)).
Qed.
Print Assumptions periodic_poisson_solved.
(** the tied tetrahedra take the value of the one held node, and nothing else does *)
Example periodic_solved_case : exists P u, fem_problem apart_heat [] (mkIv [] [] None (fun _ => [])) (unit_jac apart_heat) cjac0 (Some ([far_end], [0%nat], [fun _ => 7])) (Some tie) None = Ok P /\
  solver exact_env P dgrad 1 true true None false = Some (Ok u) /\ (forall n, (n < 8)%nat -> u n 0%nat = 7) /\ balanced P u.
Proof.
  destruct (tied_problem (fun _ => 7)) as (P & HP & EC & EP). exists P.
  assert (Hp : Forall (fun t => (snd t < vec apart_heat)%nat) tie) by (repeat constructor).
  assert (Hok : bc_ok P) by exact (fem_bc_ok _ _ _ _ _ _ _ _ _ _ _ HP ltac:(repeat constructor)). assert (Hper : periodic_ok P) by exact (fem_periodic_ok _ _ _ _ _ _ _ _ _ _ _ HP Hp).
  assert (H7 : constraints_hold P (fun _ _ => 7)).
  { split; [intros n k x Hx; rewrite EC in Hx; destruct Hx as [Hx|[]]; now injection Hx|reflexivity]. }
  destruct (periodic_poisson_solved R apart_heat ex_basix "TET4" _ _ _ _ _ _ _ _ _ P exact_env dgrad 1 true None (apart_mesh _ _ _) eq_refl eq_refl eq_refl (pair_loads _ _ _ _ _) (pair_poisson_jac _ _ _ _) HP ltac:(repeat constructor) Hp ltac:(lra)
    (difference_is_gradient P Hok Hper) (proj1 exact_env_ok) (tied_anchored P 7 EC EP) (ex_intro _ _ H7)) as (u & H1 & H2 & H3 & _ & H5).
  exists u. split; [exact HP|]. split; [exact H1|]. split; [|now apply multipliers_exist].
  destruct (H5 _ H7) as [Hle Heq].
  assert (E7 : potential apart_heat [] (mkIv [] [] None (fun _ => [])) (fun _ _ => 7) = 0).
  { unfold potential. assert (E0 : energy_form apart_heat (mkIv [] [] None (fun _ => [])) (fun _ _ => 7) (fun _ _ => 7) = 0).
    { rewrite (lp_form apart_heat eq_refl). apply sumN_zero. intros c Hcc. apply sumN_zero. intros q Hq. rewrite (sumN_zero (vec apart_heat)); [ring|]. intros l _. apply sumN_zero. intros i _.
      rewrite (constant_grad apart_heat ex_basix "TET4" (apart_mesh _ _ _) _ c q l i 7 Hcc Hq (fun _ _ => eq_refl)). ring. }
    rewrite E0, tied_load. ring. }
  assert (Eu : potential apart_heat [] (mkIv [] [] None (fun _ => [])) u = potential apart_heat [] (mkIv [] [] None (fun _ => [])) (fun _ _ => 7)).
  { apply Rle_antisym; [exact Hle|]. rewrite E7. unfold potential. pose proof (lp_nonneg apart_heat ex_basix "TET4" (apart_mesh _ _ _) eq_refl (mkIv [] [] None (fun _ => [])) u).
    rewrite tied_load. lra. }
  intros n Hn. symmetry. exact (Heq (eq_sym Eu) n 0%nat Hn ltac:(cbn; lia)).
Qed.

(** ** C183: the systems of the shipped periodic problems are regular *)
Theorem periodic_demo_regular_refuted : forall V (F : fem V) inds iv jac cjac eps P force n x,
  fem_problem F inds iv jac cjac (Some demo_dirichlet) (Some demo_periodic) eps = Ok P -> demo_class F force -> wf_mesh F -> loads_ok F inds iv -> (0 < num_cells F)%nat ->
  (n < num_total_nodes F)%nat -> points F n 0%nat = 0 -> points F n 1%nat = 0 -> ~ solvable_augmented P x.
Proof. intros V F inds iv jac cjac eps P force n x HP HC Hwf Hl Hc. exact (demo_singular F inds iv jac cjac eps P force HP HC Hwf Hl Hc n x). Qed.
Print Assumptions periodic_demo_regular_refuted.
Theorem periodic_cell_regular_refuted : forall V (F : fem V) inds iv jac cjac eps P N len x, let m := MeshModel.box_mesh N N N len len len in
  fem_problem F inds iv jac cjac (Some rve_dirichlet) (Some (rve_periodic len)) eps = Ok P ->
  (0 < N)%nat -> 0 < len -> has_mesh3 F (MeshModel.points m) (MeshModel.cells m) -> num_total_nodes F = length (MeshModel.points m) -> dim F = 3%nat -> vec F = 3%nat ->
  / 100000 * (1 + len) < len / INR N -> wf_mesh F -> loads_ok F inds iv -> (0 < num_cells F)%nat -> ~ solvable_augmented P x.
Proof.
  intros V F inds iv jac cjac eps P N len x m HP HN Hlen Hm Hn Hd Hv Hf Hwf Hl Hc. exact (cell_singular F inds iv jac cjac eps P N len HP HN Hlen Hm Hn Hd Hv Hf x Hwf Hl Hc).
Qed.
Print Assumptions periodic_cell_regular_refuted.
(** the unit square of two six-node triangles, and the cube of eight elements *)
Example periodic_singular_case :
  (exists P, fem_problem square [] (mkIv [] [] None (fun _ => [])) (unit_jac square) cjac0 (Some demo_dirichlet) (Some demo_periodic) None = Ok P /\ ~ solvable_augmented P 1) /\
  (exists P, fem_problem (cell_fem (stretch (/ 10))) [] (moduli_vars (cell_fem (stretch (/ 10))) (default_args 1 1 1) NoInfo) jac0 cjac0 (Some rve_dirichlet) (Some (rve_periodic 1)) None = Ok P /\ ~ solvable_augmented P 1).
Proof.
  split.
  - destruct (sq_problem (unit_jac square)) as (P & HP). exists P. split; [exact HP|].
    apply (periodic_demo_regular_refuted R square _ _ _ _ _ P demo_force 0%nat 1 HP sq_class); [now destruct square_mesh as (_ & _ & _ & _ & _ & H & _)|exact sq_loads|cbn; lia|cbn; lia|reflexivity|reflexivity].
  - destruct (cell_problem (default_args 1 1 1) NoInfo (stretch (/ 10))) as (P & HP). exists P. split; [exact HP|].
    apply (periodic_cell_regular_refuted R (cell_fem (stretch (/ 10))) _ _ _ _ _ P 2 1 1 HP ltac:(lia) ltac:(lra) (cube_mesh 2 1 _) eq_refl (proj1 (cube_shape 2 1 _)) eq_refl cube_fine (cube_wf _ _)); [|cbn; lia].
    split; [apply moduli_sized|]. split; [exact I|]. intros s [].
Qed.

(** ** C184: the run of the demo *)
(** as shipped the run ends with an exception *)
Theorem periodic_demo_run_refuted : forall V (F : fem V) inds iv jac cjac eps P force ev grad fuel precond guess,
  fem_problem F inds iv jac cjac (Some demo_dirichlet) (Some demo_periodic) eps = Ok P -> demo_class F force -> wf_mesh F -> loads_ok F inds iv -> (0 < num_cells F)%nat ->
  solver ev P grad fuel true precond guess true = Some (Err UnboundLocalError).
Proof.
  intros V F inds iv jac cjac eps P force ev grad fuel precond guess HP HC Hwf Hl Hc. apply periodic_with_petsc_raises_refuted.
  - now destruct (fem_problem_fields _ _ _ _ _ _ _ _ _ _ _ HP) as (_ & _ & _ & _ & _ & _ & _ & _ & H & _).
  - exact (sd_newton F inds iv jac cjac _ _ _ demo_periodic eps P HP Hwf Hl Hc).
Qed.
Print Assumptions periodic_demo_run_refuted.
(** without PETSc it returns the periodic field of least energy that vanishes at the bottom and at the top *)
Theorem periodic_demo_solution : forall V (F : fem V) B inds iv jac cjac eps P ev grad fuel precond guess,
  lagrange_mesh F B "TRI6" -> demo_class F demo_force -> tensor_map F = Some (fun _ => poisson_map) -> loads_ok F inds iv -> exact_jacobians F iv jac ->
  fem_problem F inds iv jac cjac (Some demo_dirichlet) (Some demo_periodic) eps = Ok P -> (match eps with Some e => e | None => 1 end) <> 0 ->
  (forall e, is_grad (num_aug P) (Lagrangian_fn P e) (grad (Lagrangian_fn P e))) -> exact_solvers ev ->
  (forall n, (n < num_total_nodes F)%nat -> exists m, linked F n m /\ (m < num_total_nodes F)%nat /\ (demo_bottom (points F m) = true \/ demo_top (points F m) = true)) ->
  exists u, solver ev P grad fuel true precond guess false = Some (Ok u) /\
  (forall n, (n < num_total_nodes F)%nat -> demo_bottom (points F n) = true \/ demo_top (points F n) = true -> u n 0%nat = 0) /\
  (forall a, (a < num_total_nodes F)%nat -> demo_left (points F a) = true ->
     exists b, (b < num_total_nodes F)%nat /\ demo_right (points F b) = true /\ dist 2 (demo_mapping (points F a)) (points F b) < EPS /\ u a 0%nat = u b 0%nat) /\
  forall w, constraints_hold P w -> potential F inds iv u <= potential F inds iv w /\ (potential F inds iv w = potential F inds iv u -> same_field F w u).
Proof.
  intros V F B inds iv jac cjac eps P ev grad fuel precond guess HM HC Htm Hl Hj HP He Hg Hex Hlk. pose proof HC as (Hv & Hd & _ & Hm & Hcau). pose proof HM as (_ & _ & _ & _ & _ & Hwf & Hn & _).
  destruct (periodic_poisson_solved V F B "TRI6" inds iv jac cjac _ _ _ demo_periodic eps P ev grad fuel precond guess HM Htm Hm Hcau Hl Hj HP (demo_vecs F demo_force HC) (demo_pv F demo_force HC) He Hg Hex
    (demo_anchored F inds iv jac cjac eps P demo_force HP HC Hn Hlk) (demo_consistent F inds iv jac cjac eps P HP)) as (u & H1 & [H2 H2'] & _ & _ & H5).
  exists u. split; [exact H1|]. split; [|split; [|exact H5]].
  - intros n Hnn Hx. destruct Hx as [Hx|Hx]; apply (H2 n 0%nat 0).
    + refine (fem_condition_in F inds iv jac cjac _ _ _ (Some demo_periodic) eps P HP Hn 0%nat n 0%nat Hnn _). split; [cbn; lia|]. split; [reflexivity|exact Hx].
    + refine (fem_condition_in F inds iv jac cjac _ _ _ (Some demo_periodic) eps P HP Hn 1%nat n 0%nat Hnn _). split; [cbn; lia|]. split; [reflexivity|exact Hx].
  - intros a Ha Hx. destruct (fem_pair_in F inds iv jac cjac _ _ _ (Some demo_periodic) eps P HP Hn demo_periodic 0 demo_left demo_right demo_mapping 0 a eq_refl eq_refl Ha Hx) as (b & Hin & Hb & HB & Hdist).
    exists b. rewrite Hd in Hdist. split; [exact Hb|]. split; [exact HB|]. split; [exact Hdist|]. exact (H2' _ _ _ Hin).
Qed.
Print Assumptions periodic_demo_solution.
Example periodic_demo_case : exists P u, fem_problem square [] (mkIv [] [] None (fun _ => [])) (unit_jac square) cjac0 (Some demo_dirichlet) (Some demo_periodic) None = Ok P /\
  solver exact_env P dgrad 1 true true None true = Some (Err UnboundLocalError) /\ solver exact_env P dgrad 1 true true None false = Some (Ok u) /\
  u 0%nat 0%nat = 0 /\ u 4%nat 0%nat = 0 /\ u 7%nat 0%nat = u 5%nat 0%nat.
Proof.
  destruct (sq_problem (unit_jac square)) as (P & HP). pose proof square_mesh as (_ & _ & _ & _ & _ & Hwf & Hn & _).
  assert (Hok : bc_ok P) by exact (fem_bc_ok _ _ _ _ _ _ _ _ _ _ _ HP (demo_vecs square demo_force sq_class)). assert (Hper : periodic_ok P) by exact (fem_periodic_ok _ _ _ _ _ _ _ _ _ _ _ HP (demo_pv square demo_force sq_class)).
  destruct (periodic_demo_solution R square ex_basix _ _ _ _ _ P exact_env dgrad 1 true None square_mesh sq_class eq_refl sq_loads (sq_jac _) HP ltac:(lra) (difference_is_gradient P Hok Hper) (proj1 exact_env_ok) sq_linked) as (u & H1 & H2 & H3 & _).
  exists P, u. split; [exact HP|]. split; [exact (periodic_demo_run_refuted R square _ _ _ _ _ P demo_force exact_env dgrad 1 true None HP sq_class Hwf sq_loads Hn)|]. split; [exact H1|].
  split; [apply H2; [cbn; lia|left; rewrite sq_bottom by lia; reflexivity]|]. split; [apply H2; [cbn; lia|left; rewrite sq_bottom by lia; reflexivity]|].
  destruct (H3 7%nat ltac:(cbn; lia) ltac:(rewrite sq_left by lia; reflexivity)) as (b & Hb & HB & Hdist & ->). change (b < 9)%nat in Hb. rewrite sq_right in HB by exact Hb.
  assert (b = 5%nat) as ->; [|reflexivity]. cbn [existsb] in HB. destruct (Nat.eqb_spec b 1) as [->|]; [|destruct (Nat.eqb_spec b 3) as [->|]; [|destruct (Nat.eqb_spec b 5) as [->|]; [reflexivity|discriminate]]]; exfalso; apply (Rlt_not_le _ _ Hdist); apply Rltb_false; apply far2; unfold demo_mapping; cbn; unfold pt; cbn; unfold Rabs; destruct Rcase_abs; lra.
Qed.
Close Scope R_scope.
