(** * Properties of Poisson problems with a flux law on the boundary (cauchy_bc_info) and of the Cauchy example. *)
From Coq Require Import String Lra Lia.
From Verif Require Import Prelude PreludeFacts FemModel FemFacts FemSpec BasisModel BasisSpec BasisExamples MatModel MatProofs SolverModel SolverSpec SolverExamples RveModel RveExamples WellSpec WellProofs MaxSpec ConnSpec ConnExamples SaddleModel RobModel RobSpec RobProofs RobDemoProofs RobExamples.
Open Scope R_scope.
Open Scope list_scope.

(** ** C190: flux laws that grow with the value *)
Theorem growing_flux_unique : forall V (F : fem V) B t inds iv locs vecs fns,
  lagrange_mesh F B t -> tensor_map F = Some (fun _ => poisson_map) -> mass_map F = None -> loads_ok F inds iv -> upright F ->
  (forall x, In x (cauchy_faces F) -> monotone_flux F (snd x)) ->
  (forall k, (k < vec F)%nat -> anchored F (fun cm => strict_flux F cm k) locs vecs k) ->
  forall u w, discrete_solution F locs vecs fns inds iv u -> discrete_solution F locs vecs fns inds iv w -> same_field F u w.
Proof. intros V F B t inds iv locs vecs fns HM Htm Hm Hl Hup. exact (monotone_unique F B t HM Htm Hm inds iv Hl locs vecs fns Hup). Qed.
Print Assumptions growing_flux_unique.
Theorem growing_flux_level : forall V (F : fem V) B t inds iv locs vecs fns,
  lagrange_mesh F B t -> tensor_map F = Some (fun _ => poisson_map) -> mass_map F = None -> loads_ok F inds iv -> upright F ->
  (forall x, In x (cauchy_faces F) -> monotone_flux F (snd x)) ->
  forall u w, discrete_solution F locs vecs fns inds iv u -> discrete_solution F locs vecs fns inds iv w ->
  forall n m k, (k < vec F)%nat -> linked F n m -> u m k - w m k = u n k - w n k.
Proof. intros V F B t inds iv locs vecs fns HM Htm Hm Hl Hup. exact (monotone_shift F B t HM Htm Hm inds iv Hl locs vecs fns Hup). Qed.
Print Assumptions growing_flux_level.
(** a flux 2 (u - 3) on the left side: every solution is the constant 3. Without exchange every constant is one *)
Example growing_flux_case :
  discrete_solution (warm_fan 2) [] [] [] [] fan_iv (fun _ _ => 3) /\
  (forall u, discrete_solution (warm_fan 2) [] [] [] [] fan_iv u -> forall n, (n < 5)%nat -> u n 0%nat = 3) /\
  (forall u, discrete_solution (warm_fan 0) [] [] [] [] fan_iv u -> forall n m, (n < 5)%nat -> (m < 5)%nat -> u m 0%nat = u n 0%nat).
Proof.
  assert (Hm : forall h x, 0 <= h -> In x (cauchy_faces (warm_fan h)) -> monotone_flux (warm_fan h) (snd x)).
  { intros h x Hh Hx a b. rewrite (warm_snd h x Hx). unfold dot_vec, warm. change (vec (warm_fan h)) with 1%nat. unfold sumN. cbn [seq sumR]. pose proof (pow2_ge_0 (a 0%nat - b 0%nat)). nra. }
  split; [apply warm_three|]. split.
  - intros u Hu n Hn. refine (growing_flux_unique R (warm_fan 2) ex_basix "TRI3" [] fan_iv [] [] [] (fan_mesh _ _) eq_refl eq_refl (fan_loads _ _) (fan_upright _ _) (fun x => Hm 2 x ltac:(lra)) _ u _ Hu (warm_three 2) n 0%nat Hn ltac:(cbn; lia)).
    intros k Hk. change (k < 1)%nat in Hk. replace k with 0%nat by lia. intros m Hm'. destruct (warm_anchored 2 ltac:(lra) m Hm') as (m' & H1 & H2 & [H3|(x & a & p & Hx & _ & Hr)]); exists m'; (split; [exact H1|]); (split; [exact H2|]); [now left|].
    right. exists x, a, p. split; [exact Hx|]. split; [|exact Hr]. rewrite (warm_snd 2 x Hx). intros c d. unfold dot_vec, warm. change (vec (warm_fan 2)) with 1%nat. unfold sumN. cbn [seq sumR]. intros H.
    assert (E : (c 0%nat - d 0%nat) * (c 0%nat - d 0%nat) = 0) by nra. apply Rmult_integral in E as [E|E]; lra.
  - intros u Hu n m Hn Hm'. pose proof (growing_flux_level R (warm_fan 0) ex_basix "TRI3" [] fan_iv [] [] [] (fan_mesh _ _) eq_refl eq_refl (fan_loads _ _) (fan_upright _ _) (fun x => Hm 0 x ltac:(lra)) u _ Hu (warm_three 0) n m 0%nat ltac:(cbn; lia) (fan_linked _ _ n m Hn Hm')) as H. lra.
Qed.
(** the third power satisfies both conditions *)
Example growing_flux_cubic : forall F : fem R, vec F = 1%nat -> monotone_flux F (fun u k => u k ^ 3) /\ strict_flux F (fun u k => u k ^ 3) 0.
Proof. exact cubic_monotone. Qed.

(** ** C191: heat exchange with the surroundings *)
Theorem exchange_solvable : forall V (F : fem V) B t inds iv jac cjac locs vecs fns eps P use_petsc,
  lagrange_mesh F B t -> tensor_map F = Some (fun _ => poisson_map) -> mass_map F = None -> loads_ok F inds iv -> upright F -> robin_faces F ->
  exact_jacobians F iv jac -> exact_face_jacobians F cjac -> fem_problem F inds iv jac cjac (Some (locs, vecs, fns)) None eps = Ok P -> Forall (fun k => (k < vec F)%nat) vecs ->
  solvable_problem P use_petsc <-> forall k, (k < vec F)%nat -> anchored F (exchanging F) locs vecs k.
Proof. intros V F B t inds iv jac cjac locs vecs fns eps P up HM Htm Hm Hl Hup Hr Hj Hcj HP Hv. exact (rb_solvable_iff F B t HM Htm Hm inds iv Hl locs vecs fns Hup Hr jac cjac Hj Hcj eps P HP Hv up). Qed.
Print Assumptions exchange_solvable.
Theorem exchange_solved : forall V (F : fem V) B t inds iv jac cjac locs vecs fns eps P ev grad fuel precond guess use_petsc,
  lagrange_mesh F B t -> tensor_map F = Some (fun _ => poisson_map) -> mass_map F = None -> loads_ok F inds iv -> upright F -> robin_faces F ->
  exact_jacobians F iv jac -> exact_face_jacobians F cjac -> fem_problem F inds iv jac cjac (Some (locs, vecs, fns)) None eps = Ok P -> Forall (fun k => (k < vec F)%nat) vecs ->
  (forall k, (k < vec F)%nat -> anchored F (exchanging F) locs vecs k) -> exact_solvers ev -> exact_floats ev ->
  exists u, solver ev P grad fuel true precond guess use_petsc = Some (Ok u) /\ discrete_solution F locs vecs fns inds iv u /\
  forall w, discrete_solution F locs vecs fns inds iv w -> same_field F w u.
Proof.
  intros V F B t inds iv jac cjac locs vecs fns eps P ev grad fuel precond guess up HM Htm Hm Hl Hup Hr Hj Hcj HP Hv Ha.
  exact (rb_solved F B t HM Htm Hm inds iv Hl locs vecs fns Hup Hr jac cjac Hj Hcj eps P HP Hv Ha ev grad fuel precond guess up).
Qed.
Print Assumptions exchange_solved.
(** with exchange on the left side and nothing fixed the solver returns 3 everywhere; with coefficient 0 the matrix is singular *)
Example exchange_case : forall use_petsc,
  (exists P u, fem_problem (warm_fan 2) [] fan_iv (unit_jac (warm_fan 2)) (warm_cjac 2) (Some ([], [], [])) None None = Ok P /\
     solver exact_env P (fun _ _ => vzero) 1 true true None use_petsc = Some (Ok u) /\ forall n, (n < 5)%nat -> u n 0%nat = 3) /\
  (exists P, fem_problem (warm_fan 0) [] fan_iv (unit_jac (warm_fan 0)) (warm_cjac 0) (Some ([], [], [])) None None = Ok P /\ ~ solvable_problem P use_petsc).
Proof.
  intros use_petsc. split.
  - destruct (fem_problem (warm_fan 2) [] fan_iv (unit_jac (warm_fan 2)) (warm_cjac 2) (Some ([], [], [])) None None) as [P|] eqn:EP; [|discriminate EP].
    destruct (exchange_solved R (warm_fan 2) ex_basix "TRI3" [] fan_iv _ _ [] [] [] None P exact_env (fun _ _ => vzero) 1 true None use_petsc (fan_mesh _ _) eq_refl eq_refl (fan_loads _ _) (fan_upright _ _) (warm_robin_faces 2 ltac:(lra))
      (warm_cells 2 _) (warm_jacobians 2) EP ltac:(constructor) ltac:(intros k Hk; replace k with 0%nat by (change (k < 1)%nat in Hk; lia); apply warm_anchored; lra) (proj1 exact_env_ok) (proj2 exact_env_ok)) as (u & Hu & _ & Hq).
    exists P, u. split; [reflexivity|]. split; [exact Hu|]. intros n Hn. symmetry. exact (Hq _ (warm_three 2) n 0%nat Hn ltac:(cbn; lia)).
  - destruct (fem_problem (warm_fan 0) [] fan_iv (unit_jac (warm_fan 0)) (warm_cjac 0) (Some ([], [], [])) None None) as [P|] eqn:EP; [|discriminate EP].
    exists P. split; [reflexivity|]. intros H. apply (warm_loose 0%nat).
    exact (proj1 (exchange_solvable R (warm_fan 0) ex_basix "TRI3" [] fan_iv _ _ [] [] [] None P use_petsc (fan_mesh _ _) eq_refl eq_refl (fan_loads _ _) (fan_upright _ _) (warm_robin_faces 0 ltac:(lra)) (warm_cells 0 _) (warm_jacobians 0) EP ltac:(constructor)) H 0%nat ltac:(cbn; lia)).
Qed.

(** ** C192: the Cauchy example has one solution. It does not: on the square of three triangles it has two *)
Theorem cauchy_example_unique_refuted : exists (F : fem R) B iv u w, lagrange_mesh F B "TRI3" /\ nonneg_rule B interval 0 /\ cb_class F /\ loads_ok F [] iv /\
  (let '(locs, vecs, fns) := cb_dirichlet in held F locs vecs 0 /\ discrete_solution F locs vecs fns [] iv u /\ discrete_solution F locs vecs fns [] iv w) /\
  ~ same_field F u w.
Proof.
  destruct two_solutions as (u & w & [Hu Hw] & H). exists cb_fan, ex_basix, fan_iv, u, w.
  split; [apply fan_mesh|]. split; [exact ex_nonneg_line|]. split; [exact cb_fan_class|]. split; [apply fan_loads|]. split; [|].
  - split; [|split; assumption]. intros n Hn. exists 0%nat. split; [apply (fan_linked (Some cb_force) (Some cb_cauchy) n 0 Hn); lia|]. split; [cbn; lia|]. apply fan_fixed; lia.
  - intros E. assert (X : at_face cb_fan u (0, 1)%nat 0%nat 0%nat = at_face cb_fan w (0, 1)%nat 0%nat 0%nat); [|lra].
    unfold at_face, convert_neumann_from_dof. apply sumN_ext. intros a Ha. f_equal. apply E; [|cbn; lia]. change (a < 3)%nat in Ha. destruct a as [|[|[|a]]]; [| | |lia]; cbn; lia.
Qed.
Print Assumptions cauchy_example_unique_refuted.
(** two solutions whose values on the sides have a non-negative sum are equal, on any mesh *)
Theorem cauchy_example_nonnegative : forall V (F : fem V) B inds iv u w,
  lagrange_mesh F B "TRI3" -> nonneg_rule B interval 0 -> cb_class F -> loads_ok F inds iv ->
  let '(locs, vecs, fns) := cb_dirichlet in held F locs vecs 0 ->
  discrete_solution F locs vecs fns inds iv u -> discrete_solution F locs vecs fns inds iv w ->
  (forall x p, In x (cauchy_faces F) -> (p < num_face_quads (f_ele F))%nat -> 0 <= at_face F u (fst x) p 0 + at_face F w (fst x) p 0) -> same_field F u w.
Proof. intros V F B inds iv u w HM Hw HC Hl. exact (cb_unique F B HM inds iv Hl HC Hw u w). Qed.
Print Assumptions cauchy_example_nonnegative.
(** one of the two solutions is positive on the left side, the other negative *)
Example cauchy_example_case : exists u w, (let '(locs, vecs, fns) := cb_dirichlet in discrete_solution cb_fan locs vecs fns [] fan_iv u /\ discrete_solution cb_fan locs vecs fns [] fan_iv w) /\
  at_face cb_fan u (0, 1)%nat 0%nat 0%nat < 0 < at_face cb_fan w (0, 1)%nat 0%nat 0%nat.
Proof. exact two_solutions. Qed.
Close Scope R_scope.
