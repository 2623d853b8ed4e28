(** * Theorems about solvability on meshes of any Lagrange element. *)
From Coq Require Import String Lra Lia.
From Verif Require Import Prelude PreludeFacts FemModel FemFacts FemSpec FemAsmProofs FemMatProofs BasisModel BasisSpec BasisProofs BasisProps BasisExamples MatModel MatSpec SolverModel SolverSpec SolverFemProofs SolverExamples RveSpec RveExamples WellSpec WellProofs MaxSpec HeatModel HeatSpec HeatWellProofs HeatStepProofs HeatMainProofs ConnSpec ConnRankProofs ConnMainProofs ConnStepProofs ConnElastProofs ConnExamples.
Open Scope R_scope.
Open Scope list_scope.

(** ** C178: LinearPoisson on any Lagrange mesh can be solved if and only if every node is linked to a fixed one *)
Theorem poisson_mesh_solvable : forall V (F : fem V) B t inds iv jac cjac locs vecs fns eps P use_petsc,
  lagrange_mesh F B t -> tensor_map F = Some (fun _ => poisson_map) -> mass_map F = None -> cauchy_bc_info F = None -> loads_ok F inds iv -> exact_jacobians F iv jac ->
  fem_problem F inds iv jac cjac (Some (locs, vecs, fns)) None eps = Ok P -> Forall (fun k => (k < vec F)%nat) vecs ->
  (solvable_problem P use_petsc <-> forall k, (k < vec F)%nat -> held F locs vecs k).
Proof.
  intros V F B t inds iv jac cjac locs vecs fns eps P use_petsc HM Htm Hm Hc Hl Hj HP Hv.
  exact (lp_solvable_iff F B t HM Htm Hm Hc inds iv Hl jac cjac Hj locs vecs fns eps P HP Hv use_petsc).
Qed.
Print Assumptions poisson_mesh_solvable.
(** the solver then returns the only discrete solution, and it has the least potential energy *)
Theorem poisson_mesh_solved : forall V (F : fem V) B t inds iv jac cjac locs vecs fns eps P ev grad fuel precond guess use_petsc,
  lagrange_mesh F B t -> tensor_map F = Some (fun _ => poisson_map) -> mass_map F = None -> cauchy_bc_info F = None -> loads_ok F inds iv -> exact_jacobians F iv jac ->
  fem_problem F inds iv jac cjac (Some (locs, vecs, fns)) None eps = Ok P -> Forall (fun k => (k < vec F)%nat) vecs -> (forall k, (k < vec F)%nat -> held F locs vecs k) ->
  exact_solvers ev -> exact_floats ev ->
  exists u, solver ev P grad fuel true precond guess use_petsc = Some (Ok u) /\ discrete_solution F locs vecs fns inds iv u /\
  (forall w, discrete_solution F locs vecs fns inds iv w -> same_field F w u) /\
  forall w, takes_values F locs vecs fns w -> potential F inds iv u <= potential F inds iv w /\ (potential F inds iv w = potential F inds iv u -> same_field F w u).
Proof.
  intros V F B t inds iv jac cjac locs vecs fns eps P ev grad fuel precond guess use_petsc HM Htm Hm Hc Hl Hj HP Hv Hh Hs Hf.
  destruct (lp_solved F B t HM Htm Hm Hc inds iv Hl jac cjac Hj locs vecs fns eps P HP Hv Hh ev grad fuel precond guess use_petsc Hs Hf) as (u & H1 & H2 & H3).
  exists u. split; [exact H1|]. split; [exact H2|]. split; [exact H3|]. intros w Hw. exact (lp_minimises F B t HM Htm Hm Hc inds iv Hl locs vecs fns u w Hh H2 Hw).
Qed.
Print Assumptions poisson_mesh_solved.
(** two tetrahedra with a common edge, fixed at two nodes of the first, have a solution; without a common node the second is loose *)
Example poisson_mesh_case : forall use_petsc,
  (exists P u, fem_problem hinged_heat [] (mkIv [] [] None (fun _ => [])) (unit_jac hinged_heat) cjac0 (Some ([high 1], [0%nat], [fun p => p 2%nat])) None None = Ok P /\
     solver exact_env P (fun _ _ => vzero) 1 true true None use_petsc = Some (Ok u) /\ u 2%nat 0%nat = 0 /\ u 3%nat 0%nat = 1) /\
  (exists P, fem_problem apart_heat [] (mkIv [] [] None (fun _ => [])) (unit_jac apart_heat) cjac0 (Some ([fun p => Rleb (p 0%nat) 1], [0%nat], [fun _ => 0])) None None = Ok P /\ ~ solvable_problem P use_petsc).
Proof.
  intros use_petsc. split.
  - destruct (fem_problem hinged_heat [] (mkIv [] [] None (fun _ => [])) (unit_jac hinged_heat) cjac0 (Some ([high 1], [0%nat], [fun p => p 2%nat])) None None) as [P|] eqn:EP; [|discriminate EP].
    destruct (poisson_mesh_solved R hinged_heat ex_basix "TET4" [] _ _ _ _ _ _ _ P exact_env (fun _ _ => vzero) 1 true None use_petsc (hinged_mesh _ _ _) eq_refl eq_refl eq_refl (pair_loads _ _ _ _ _) (pair_poisson_jac _ _ _ _) EP ltac:(repeat constructor)
      ltac:(intros k Hk; replace k with 0%nat by (change (vec hinged_heat) with 1%nat in Hk; lia); exact hinged_held) (proj1 exact_env_ok) (proj2 exact_env_ok)) as (u & Hu & [Hv _] & _).
    exists P, u. split; [reflexivity|]. split; [exact Hu|].
    assert (La : forall n, (n = 2 \/ n = 3)%nat -> last_applying hinged_heat [high 1] [0%nat] 0 n 0%nat).
    { intros n Hn. split; [|intros j Hj [Hlt _]; cbn in Hlt; lia]. split; [cbn; lia|]. split; [reflexivity|]. cbn [nth]. unfold high. apply Rleb_true. destruct Hn as [->| ->]; cbn; unfold pt; cbn; lra. }
    split; [rewrite (Hv 0%nat 2%nat 0%nat ltac:(cbn; lia) (La 2%nat ltac:(auto)))|rewrite (Hv 0%nat 3%nat 0%nat ltac:(cbn; lia) (La 3%nat ltac:(auto)))]; reflexivity.
  - destruct (fem_problem apart_heat [] (mkIv [] [] None (fun _ => [])) (unit_jac apart_heat) cjac0 (Some ([fun p => Rleb (p 0%nat) 1], [0%nat], [fun _ => 0])) None None) as [P|] eqn:EP; [|discriminate EP].
    exists P. split; [reflexivity|]. intros H. apply apart_loose.
    exact (proj1 (poisson_mesh_solvable R apart_heat ex_basix "TET4" [] _ _ _ _ _ _ _ P use_petsc (apart_mesh _ _ _) eq_refl eq_refl eq_refl (pair_loads _ _ _ _ _) (pair_poisson_jac _ _ _ _) EP ltac:(repeat constructor)) H 0%nat ltac:(cbn; lia)).
Qed.

(** ** C179: steps of the Thermal class and of the damage problem on any Lagrange mesh *)
Theorem thermal_mesh_step : forall F B t dt fluxes inds T_old jac cjac locs vecs fns eps P,
  lagrange_mesh F B t -> thermal_class F dt fluxes -> 0 < dt -> neumann_ok F inds -> (forall s, In s inds -> faces_ok F s) ->
  exact_jacobians F (thermal_vars F inds T_old) jac -> fem_problem F inds (thermal_vars F inds T_old) jac cjac (Some (locs, vecs, fns)) None eps = Ok P -> Forall (fun k => (k < vec F)%nat) vecs ->
  (forall use_petsc, solvable_problem P use_petsc <-> covered F locs vecs) /\
  (covered F locs vecs -> forall ev grad fuel precond guess use_petsc, exact_solvers ev -> exact_floats ev ->
   (exists u, solver ev P grad fuel true precond guess use_petsc = Some (Ok u) /\ discrete_solution F locs vecs fns inds (thermal_vars F inds T_old) u /\
      forall w, discrete_solution F locs vecs fns inds (thermal_vars F inds T_old) w -> same_field F w u) /\
   (exists u r, solver ev P grad 1 false precond guess use_petsc = Some (Ok u) /\ compute_residual_vars F inds u (thermal_vars F inds T_old) = Ok r /\
      forall n k, (n < num_total_nodes F)%nat -> (k < vec F)%nat -> (~ fixed F locs vecs n k -> Rabs (r n k) <= / 1000000) /\
        forall i, last_applying F locs vecs i n k -> Rabs (u n k - nth i fns (fun _ => 0) (points F n)) <= / 1000000)).
Proof.
  intros F B t dt fluxes inds T_old jac cjac locs vecs fns eps P HM HT Hdt Hneu Hfc Hjac HP Hvecs. pose proof (thermal_reactive F dt fluxes HT) as HR. pose proof HT as (_ & _ & _ & _ & Hcau & _).
  assert (Hk : 0 < 15) by lra. assert (Hs : forall c q, (c < num_cells F)%nat -> (q < num_quads (f_ele F))%nat -> 0 < slope (thermal_slope dt) (thermal_vars F inds T_old) c q).
  { intros c q Hc _. rewrite thermal_slope_at by exact Hc. apply Rdiv_lt_0_compat; lra. }
  assert (Hl : loads_ok F inds (thermal_vars F inds T_old)) by (split; [apply thermal_sized|auto]).
  split; [exact (rl_solvable_iff F 15 _ HR inds _ B t HM Hk Hs Hcau Hl jac cjac Hjac locs vecs fns eps P HP Hvecs)|]. intros Hcov ev grad fuel precond guess use_petsc He Hf. split.
  - exact (rl_solved F 15 _ HR inds _ B t HM Hk Hs Hcau Hl jac cjac Hjac locs vecs fns eps P HP Hvecs Hcov ev grad fuel precond guess use_petsc He Hf).
  - destruct (rl_newton F 15 _ HR inds _ B t HM Hk Hs Hcau Hl jac cjac Hjac locs vecs fns eps P HP Hvecs Hcov ev grad precond guess use_petsc He Hf) as (u & H1 & r & H2 & H3). exists u, r. auto.
Qed.
Print Assumptions thermal_mesh_step.
Theorem damage_mesh_step : forall F B t inds history body nv jac cjac locs vecs fns eps P,
  let iv := mkIv [map history (seq 0 (num_cells F))] [] body nv in
  lagrange_mesh F B t -> damage_problem F inds -> (forall c q, 0 <= history c q) ->
  exact_jacobians F iv jac -> fem_problem F inds iv jac cjac (Some (locs, vecs, fns)) None eps = Ok P -> Forall (fun k => (k < vec F)%nat) vecs ->
  (forall use_petsc, solvable_problem P use_petsc <-> covered F locs vecs) /\
  (covered F locs vecs -> forall ev grad fuel precond guess use_petsc, exact_solvers ev -> exact_floats ev ->
   (exists u, solver ev P grad fuel true precond guess use_petsc = Some (Ok u) /\ discrete_solution F locs vecs fns inds iv u /\
      forall w, discrete_solution F locs vecs fns inds iv w -> same_field F w u) /\
   (exists u r, solver ev P grad 1 false precond guess use_petsc = Some (Ok u) /\ compute_residual_vars F inds u iv = Ok r /\
      forall n k, (n < num_total_nodes F)%nat -> (k < vec F)%nat -> (~ fixed F locs vecs n k -> Rabs (r n k) <= / 1000000) /\
        forall i, last_applying F locs vecs i n k -> Rabs (u n k - nth i fns (fun _ => 0) (points F n)) <= / 1000000)).
Proof.
  intros F B t inds history body nv jac cjac locs vecs fns eps P iv HM HD Hh Hjac HP Hvecs. pose proof (damage_reactive F inds HD) as HR. pose proof HD as (_ & _ & _ & _ & _ & Hcau & Hneu & Hfc). rewrite Forall_forall in Hfc.
  assert (Hk : 0 < G_c * fr_l) by (unfold G_c, fr_l; lra). assert (Hs : forall c q, (c < num_cells F)%nat -> (q < num_quads (f_ele F))%nat -> 0 < slope damage_slope iv c q).
  { intros c q Hc _. unfold slope, iv. cbn [iv_mass]. rewrite vars_one by exact Hc. cbn [map damage_slope]. specialize (Hh c q). unfold G_c, fr_l. lra. }
  assert (Hl : loads_ok F inds iv) by (split; [split; [constructor; [cbn; now rewrite map_length, seq_length|constructor]|constructor]|auto]).
  split; [exact (rl_solvable_iff F _ _ HR inds iv B t HM Hk Hs Hcau Hl jac cjac Hjac locs vecs fns eps P HP Hvecs)|]. intros Hcov ev grad fuel precond guess use_petsc He Hf. split.
  - exact (rl_solved F _ _ HR inds iv B t HM Hk Hs Hcau Hl jac cjac Hjac locs vecs fns eps P HP Hvecs Hcov ev grad fuel precond guess use_petsc He Hf).
  - destruct (rl_newton F _ _ HR inds iv B t HM Hk Hs Hcau Hl jac cjac Hjac locs vecs fns eps P HP Hvecs Hcov ev grad precond guess use_petsc He Hf) as (u & H1 & r & H2 & H3). exists u, r. auto.
Qed.
Print Assumptions damage_mesh_step.
(** without fluxes no run of such steps moves away from 300 *)
Theorem insulated_mesh_contract : forall F B t dt fluxes locs vecs T later, lagrange_mesh F B t -> thermal_class F dt fluxes -> 0 < dt ->
  insulated_run F locs vecs T later -> Forall (fun T' => heat_norm F T' <= heat_norm F T) later.
Proof.
  intros F B t dt fluxes locs vecs T later HM HT Hdt Hrun. pose proof HM as (_ & _ & _ & _ & _ & Hwf & Hnc & _).
  refine (run_stable F dt fluxes HT Hdt Hwf Hnc (lm_vals F B t HM) (lm_grads F B t HM) eq_refl _ locs vecs later T Hrun). intros c q Hc Hq. exact (lm_jxw F B t HM c q Hc Hq).
Qed.
Print Assumptions insulated_mesh_contract.
(** two tetrahedra without a common node and without a fixed node: LinearPoisson cannot be solved, the thermal step can *)
Example thermal_mesh_case : exists P u, let F := apart_thermal 1 in let iv := thermal_vars F [] (fun n _ => 300 + INR n) in
  fem_problem F [] iv (diff_jac F) cjac0 (Some ([], [], [])) None None = Ok P /\ solver exact_env P (fun _ _ => vzero) 1 true true None false = Some (Ok u) /\
  discrete_solution F [] [] [] [] iv u.
Proof.
  set (F := apart_thermal 1). set (iv := thermal_vars F [] (fun n _ => 300 + INR n)).
  assert (HT : thermal_class F 1 (Some [])) by (repeat split).
  destruct (fem_problem F [] iv (diff_jac F) cjac0 (Some ([], [], [])) None None) as [P|] eqn:EP; [|discriminate EP].
  destruct (thermal_mesh_step F ex_basix "TET4" 1 (Some []) [] (fun n _ => 300 + INR n) (diff_jac F) cjac0 [] [] [] None P (apart_mesh _ _ _) HT ltac:(lra) ltac:(cbn; lia) ltac:(intros s [])
    (diff_jac_exact F 15 (thermal_slope 1) (thermal_reactive _ _ _ HT) iv) EP ltac:(constructor)) as (_ & S).
  destruct (proj1 (S (apart_covered 1 [] []) exact_env (fun _ _ => vzero) 1%nat true None false (proj1 exact_env_ok) (proj2 exact_env_ok))) as (u & Hu & Hd & _).
  exists P, u. cbv zeta. repeat split; [exact EP|exact Hu|exact (proj1 Hd)|exact (proj2 Hd)].
Qed.

(** ** C180: LinearElasticity *)
(** on any Lagrange mesh the problem can only be solved if the fixed components leave no motion that is rigid on every cell *)
Theorem elastic_mesh_braced : forall V (F : fem V) B t inds iv jac cjac locs vecs fns eps P use_petsc,
  lagrange_mesh F B t -> tensor_map F = Some (fun _ => linear_elastic_stress (dim F)) -> vec F = dim F -> mass_map F = None -> cauchy_bc_info F = None -> loads_ok F inds iv -> exact_jacobians F iv jac ->
  fem_problem F inds iv jac cjac (Some (locs, vecs, fns)) None eps = Ok P -> Forall (fun k => (k < vec F)%nat) vecs ->
  solvable_problem P use_petsc -> braced F locs vecs.
Proof.
  intros V F B t inds iv jac cjac locs vecs fns eps P use_petsc HM Htm Hd Hm Hc Hl Hj HP Hv.
  exact (el_loose F B t HM Htm Hd Hm Hc inds iv Hl jac cjac Hj locs vecs fns eps P HP Hv use_petsc).
Qed.
Print Assumptions elastic_mesh_braced.
(** on linear triangles and tetrahedra this is enough, and the solver returns the only discrete solution *)
Theorem elastic_simplex_solved : forall V (F : fem V) B t inds iv jac cjac locs vecs fns eps P,
  lagrange_mesh F B t -> t = "TET4"%string \/ t = "TRI3"%string -> tensor_map F = Some (fun _ => linear_elastic_stress (dim F)) -> vec F = dim F -> mass_map F = None -> cauchy_bc_info F = None ->
  loads_ok F inds iv -> exact_jacobians F iv jac ->
  fem_problem F inds iv jac cjac (Some (locs, vecs, fns)) None eps = Ok P -> Forall (fun k => (k < vec F)%nat) vecs ->
  (forall use_petsc, solvable_problem P use_petsc <-> braced F locs vecs) /\
  (braced F locs vecs -> forall ev grad fuel precond guess use_petsc, exact_solvers ev -> exact_floats ev ->
   exists u, solver ev P grad fuel true precond guess use_petsc = Some (Ok u) /\ discrete_solution F locs vecs fns inds iv u /\
   forall w, discrete_solution F locs vecs fns inds iv w -> same_field F w u).
Proof.
  intros V F B t inds iv jac cjac locs vecs fns eps P HM Ht Htm Hd Hm Hc Hl Hj HP Hv.
  assert (Ht' : In t linear_simplices) by (destruct Ht as [->| ->]; cbn; tauto). split.
  - intros use_petsc. exact (el_solvable_iff F B t HM Htm Hd Hm Hc inds iv Hl jac cjac Hj locs vecs fns eps P HP Hv Ht' use_petsc).
  - exact (el_solved F B t HM Htm Hd Hm Hc inds iv Hl jac cjac Hj locs vecs fns eps P HP Hv Ht').
Qed.
Print Assumptions elastic_simplex_solved.
(** tetrahedra are braced if from the clamped nodes one reaches every node through tetrahedra with three nodes reached before *)
Theorem secured_tetrahedra : forall V (F : fem V) B locs vecs, lagrange_mesh F B "TET4" -> vec F = dim F ->
  (forall n, (n < num_total_nodes F)%nat -> secured F locs vecs n) -> braced F locs vecs.
Proof. intros V F B locs vecs HM Hv. exact (secured_braced F B HM Hv locs vecs). Qed.
Print Assumptions secured_tetrahedra.
(** two tetrahedra with a common face, clamped at z = 0, have a solution; with a common edge the second turns about it though the first is clamped and LinearPoisson could be solved *)
Example elastic_mesh_case : forall use_petsc f,
  (let '(l, v, g) := all3 low_z f in exists P u, fem_problem glued_solid [] (mkIv [] [] None (fun _ => [])) (unit_jac glued_solid) cjac0 (Some (l, v, g)) None None = Ok P /\
     solver exact_env P (fun _ _ => vzero) 1 true true None use_petsc = Some (Ok u) /\ discrete_solution glued_solid l v g [] (mkIv [] [] None (fun _ => [])) u) /\
  (let '(l, v, g) := all3 (high 0) f in exists P, fem_problem hinged_solid [] (mkIv [] [] None (fun _ => [])) (unit_jac hinged_solid) cjac0 (Some (l, v, g)) None None = Ok P /\ ~ solvable_problem P use_petsc).
Proof.
  intros use_petsc f. assert (D1 := proj2 (tet_dim glued_solid eq_refl)). assert (D2 := proj2 (tet_dim hinged_solid eq_refl)). cbn [all3]. split.
  - destruct (fem_problem glued_solid [] (mkIv [] [] None (fun _ => [])) (unit_jac glued_solid) cjac0 (Some ([low_z; low_z; low_z], [0; 1; 2]%nat, [f 0%nat; f 1%nat; f 2%nat])) None None) as [P|] eqn:EP; [|discriminate EP].
    destruct (elastic_simplex_solved R glued_solid ex_basix "TET4" [] _ _ _ _ _ _ _ P (glued_mesh _ _ _) (or_introl eq_refl) ltac:(rewrite D1; reflexivity) ltac:(rewrite D1; reflexivity) eq_refl eq_refl (pair_loads _ _ _ _ _) (pair_elastic_jac _ _ _) EP ltac:(repeat constructor)) as (_ & S).
    destruct (S (secured_tetrahedra R glued_solid ex_basix _ _ (glued_mesh _ _ _) ltac:(rewrite D1; reflexivity) glued_secured) exact_env (fun _ _ => vzero) 1%nat true None use_petsc (proj1 exact_env_ok) (proj2 exact_env_ok)) as (u & Hu & Hd & _).
    exists P, u. split; [reflexivity|]. split; [exact Hu|exact Hd].
  - destruct (fem_problem hinged_solid [] (mkIv [] [] None (fun _ => [])) (unit_jac hinged_solid) cjac0 (Some ([high 0; high 0; high 0], [0; 1; 2]%nat, [f 0%nat; f 1%nat; f 2%nat])) None None) as [P|] eqn:EP; [|discriminate EP].
    exists P. split; [reflexivity|]. intros H. apply hinged_loose.
    exact (elastic_mesh_braced R hinged_solid ex_basix "TET4" [] _ _ _ _ _ _ _ P use_petsc (hinged_mesh _ _ _) ltac:(rewrite D2; reflexivity) ltac:(rewrite D2; reflexivity) eq_refl eq_refl (pair_loads _ _ _ _ _) (pair_elastic_jac _ _ _) EP ltac:(repeat constructor) H).
Qed.
Close Scope R_scope.
