(** * Theorems about the solvability of linear problems on box meshes. *)
From Coq Require Import String FunctionalExtensionality Classical Lra Lia.
From Verif Require Import Prelude PreludeFacts FemModel FemFacts FemSpec FemGeoProofs FemMatProofs BasisModel BasisSpec BasisExamples MatModel MatSpec MatProofs SolverModel SolverSpec SolverFemProofs SolverAdProofs SolverExamples RveSpec RveExamples BoxSpec BoxProofs BoxPatchProofs BoxRveProofs BoxExamples WellSpec WellProofs WellBoxProofs WellMainProofs WellExamples.
From Verif Require MeshModel.
Open Scope R_scope.
Open Scope list_scope.

(** ** C149 LinearPoisson *)
(** the linear systems that solver forms have solutions exactly when every component is fixed at some node *)
Theorem poisson_solvable_iff : forall V (F : fem V) B Nx Ny Nz Lx Ly Lz inds iv jac cjac locs vecs fns eps P use_petsc,
  box_hex F B Nx Ny Nz Lx Ly Lz -> tensor_map F = Some (fun _ => poisson_map) -> mass_map F = None -> cauchy_bc_info F = None ->
  loads_ok F inds iv -> exact_jacobians F iv jac -> fem_problem F inds iv jac cjac (Some (locs, vecs, fns)) None eps = Ok P -> Forall (fun k => (k < vec F)%nat) vecs ->
  (solvable_problem P use_petsc <-> forall k, (k < vec F)%nat -> exists n, (n < num_total_nodes F)%nat /\ fixed F locs vecs n k).
Proof.
  intros V F B Nx Ny Nz Lx Ly Lz inds iv jac cjac locs vecs fns eps P use_petsc HF Htm Hm Hc (Hiv & Hneu & Hfc) Hj HP Hv. split.
  - intros Hs k Hk. apply NNPP. intros Hno.
    apply (floating_unsolvable F _ Htm (poisson_linear F) Hm Hc inds iv jac cjac Hj locs vecs fns eps P HP Hv (hex_wf F B Nx Ny Nz Lx Ly Lz HF) Hiv (hex_cells F B Nx Ny Nz Lx Ly Lz HF) Hneu Hfc
      k use_petsc (hex_grads F B Nx Ny Nz Lx Ly Lz HF) (hex_nodes F B Nx Ny Nz Lx Ly Lz HF) Hk); [|exact Hs].
    intros n Hn Hf. apply Hno. eauto.
  - intros Hfix. exact (well_solvable F _ Htm (poisson_linear F) Hm Hc inds iv jac cjac Hj locs vecs fns eps P HP Hv (hex_wf F B Nx Ny Nz Lx Ly Lz HF) Hiv (hex_cells F B Nx Ny Nz Lx Ly Lz HF) Hneu Hfc
      (poisson_definite F B Nx Ny Nz Lx Ly Lz HF iv locs vecs Htm Hfix) use_petsc).
Qed.
Print Assumptions poisson_solvable_iff.
(** then solver returns the one discrete solution, whatever the loads, the initial guess and the preconditioner *)
Theorem poisson_solved : forall V (F : fem V) B Nx Ny Nz Lx Ly Lz inds iv jac cjac locs vecs fns eps P,
  box_hex F B Nx Ny Nz Lx Ly Lz -> tensor_map F = Some (fun _ => poisson_map) -> mass_map F = None -> cauchy_bc_info F = None ->
  loads_ok F inds iv -> exact_jacobians F iv jac -> fem_problem F inds iv jac cjac (Some (locs, vecs, fns)) None eps = Ok P -> Forall (fun k => (k < vec F)%nat) vecs ->
  (forall k, (k < vec F)%nat -> exists n, (n < num_total_nodes F)%nat /\ fixed F locs vecs n k) ->
  forall ev grad fuel precond guess use_petsc, exact_solvers ev -> exact_floats ev ->
  exists u, solver ev P grad fuel true precond guess use_petsc = Some (Ok u) /\ discrete_solution F locs vecs fns inds iv u /\
  forall w, discrete_solution F locs vecs fns inds iv w -> same_field F w u.
Proof.
  intros V F B Nx Ny Nz Lx Ly Lz inds iv jac cjac locs vecs fns eps P HF Htm Hm Hc (Hiv & Hneu & Hfc) Hj HP Hv Hfix ev grad fuel precond guess use_petsc.
  exact (well_solved F _ Htm (poisson_linear F) Hm Hc inds iv jac cjac Hj locs vecs fns eps P HP Hv (hex_wf F B Nx Ny Nz Lx Ly Lz HF) Hiv (hex_cells F B Nx Ny Nz Lx Ly Lz HF) Hneu Hfc
    (poisson_definite F B Nx Ny Nz Lx Ly Lz HF iv locs vecs Htm Hfix) ev grad fuel precond guess use_petsc).
Qed.
Print Assumptions poisson_solved.
(** the bar: the first field is x, the other two are 0 *)
Example heat_bar_case : exists u, solver exact_env heat_problem (fun _ _ => vzero) 5 true true None false = Some (Ok u) /\
  discrete_solution heat_bar [near_end; near_end; near_end] [0; 1; 2]%nat [fun _ => 0; fun _ => 0; fun _ => 0] heat_inds no_vars u /\
  forall n k, (n < 24)%nat -> (k < 3)%nat -> u n k = match k with 0%nat => points heat_bar n 0%nat | _ => 0 end.
Proof.
  destruct (poisson_solved R heat_bar ex_basix 1 2 3 2 3 1 heat_inds no_vars (unit_jac heat_bar) cjac0 _ _ _ None heat_problem heat_box eq_refl eq_refl eq_refl heat_loads heat_jac heat_ok
    ltac:(repeat constructor) ltac:(intros k Hk; exists 0%nat; split; [exact (proj1 first_node)|exact (near_fixed heat_bar (fun _ => 0) (fun _ => 0) (fun _ => 0) 0 k (proj2 first_node) Hk)])
    exact_env (fun _ _ => vzero) 5%nat true None false (proj1 exact_env_ok) (proj2 exact_env_ok)) as (u & Hu & Hds & Huniq).
  exists u. split; [exact Hu|]. split; [exact Hds|]. intros n k Hn Hk.
  destruct (traction_patch ex_basix ex_documented ex_exact_quad ex_exact_hex heat_bar 1 2 3 2 3 1 ltac:(lia) ltac:(lia) ltac:(lia) ltac:(lra) ltac:(lra) ltac:(lra) (brick_mesh _ _ _ _ _ _ _ _) eq_refl hex_E_ok
    e00 (affine_field heat_bar (fun _ => 0) e00) no_vars) with (loads := [(0%nat, true)]) (locs := [far_end]) (fns := [push1]) as (r & Hr & H0).
  - split; constructor.
  - reflexivity.
  - reflexivity.
  - reflexivity.
  - reflexivity.
  - intros c q i d Hc Hq _ Hd. unfold stress. cbn [tensor_map heat_bar brick].
    exact (box_affine_grad ex_basix ex_documented heat_bar 1 2 3 2 3 1 ltac:(lia) ltac:(lia) ltac:(lia) ltac:(lra) ltac:(lra) ltac:(lra) (brick_mesh _ _ _ _ _ _ _ _) eq_refl hex_E_ok (fun _ => 0) e00 c q i d Hc Hq Hd).
  - constructor; [intros []|constructor].
  - intros s [<- | []]. cbn; lia.
  - constructor; [exact far_end_ok|constructor].
  - constructor; [|constructor]. intros p vars i Hi. unfold tract, sumN, outward, e00, push1. cbn [seq sumR fst snd Nat.eqb]. destruct i; ring.
  - reflexivity.
  - assert (Hval : forall n k, (k < 3)%nat -> affine_field heat_bar (fun _ => 0) e00 n k = match k with 0%nat => points heat_bar n 0%nat | _ => 0 end).
    { intros n' k' Hk'. unfold affine_field, e00. rewrite (proj1 (box_dim ex_basix ex_documented heat_bar hex_E_ok)). unfold sumN. cbn [seq sumR]. destruct k' as [|k']; ring. }
    assert (HS : discrete_solution heat_bar [near_end; near_end; near_end] [0; 1; 2]%nat [fun _ => 0; fun _ => 0; fun _ => 0] heat_inds no_vars (affine_field heat_bar (fun _ => 0) e00)).
    { apply (held_solution heat_bar (fun _ => 0) (fun _ => 0) (fun _ => 0) _ _ _ r eq_refl); [| exact Hr |].
      - intros n' Hn' Hp. clear - Hval Hp. rewrite (Hval n' 0%nat ltac:(lia)), (Hval n' 1%nat ltac:(lia)), (Hval n' 2%nat ltac:(lia)). split; [exact Hp|split; reflexivity].
      - intros n' k' Hn' Hk' Hp. apply H0; [exact Hn'|exact Hk'|]. intros s Hs. cbn [six_sides In] in Hs.
        destruct Hs as [<- | [<- | Hs]]; [right; left; exact Hp|left; now left|]. right. right. unfold tract, sumN, e00. cbn [seq sumR].
        destruct Hs as [<- | [<- | [<- | [<- | []]]]]; cbn [outward fst snd Nat.eqb]; destruct k'; ring. }
    rewrite <- (Huniq _ HS n k Hn Hk). now apply Hval.
Qed.

(** ** C150 LinearElasticity *)
(** one clamped side is enough *)
Theorem elasticity_solved : forall V (F : fem V) B Nx Ny Nz Lx Ly Lz inds iv jac cjac locs vecs fns eps P side hi,
  box_hex F B Nx Ny Nz Lx Ly Lz -> tensor_map F = Some (fun _ => linear_elastic_stress 3) -> vec F = 3%nat -> mass_map F = None -> cauchy_bc_info F = None ->
  loads_ok F inds iv -> exact_jacobians F iv jac -> fem_problem F inds iv jac cjac (Some (locs, vecs, fns)) None eps = Ok P -> Forall (fun k => (k < vec F)%nat) vecs ->
  (side < 3)%nat -> (forall n k, (n < num_total_nodes F)%nat -> points F n side = side_coord Lx Ly Lz (side, hi) -> (k < 3)%nat -> fixed F locs vecs n k) ->
  forall use_petsc, solvable_problem P use_petsc /\
  forall ev grad fuel precond guess, exact_solvers ev -> exact_floats ev ->
  exists u, solver ev P grad fuel true precond guess use_petsc = Some (Ok u) /\ discrete_solution F locs vecs fns inds iv u /\
  forall w, discrete_solution F locs vecs fns inds iv w -> same_field F w u.
Proof.
  intros V F B Nx Ny Nz Lx Ly Lz inds iv jac cjac locs vecs fns eps P side hi HF Htm Hv3 Hm Hc (Hiv & Hneu & Hfc) Hj HP Hv Hs Hfix use_petsc.
  pose proof HF as (HB & _ & _ & _ & _ & _ & _ & _ & _ & _ & HE).
  pose proof (elastic_linear B HB F HE Hv3) as Hlin. pose proof (elastic_definite F B Nx Ny Nz Lx Ly Lz HF iv locs vecs side hi Htm Hv3 Hs Hfix) as Hdef. split.
  - exact (well_solvable F _ Htm Hlin Hm Hc inds iv jac cjac Hj locs vecs fns eps P HP Hv (hex_wf F B Nx Ny Nz Lx Ly Lz HF) Hiv (hex_cells F B Nx Ny Nz Lx Ly Lz HF) Hneu Hfc Hdef use_petsc).
  - intros ev grad fuel precond guess.
    exact (well_solved F _ Htm Hlin Hm Hc inds iv jac cjac Hj locs vecs fns eps P HP Hv (hex_wf F B Nx Ny Nz Lx Ly Lz HF) Hiv (hex_cells F B Nx Ny Nz Lx Ly Lz HF) Hneu Hfc Hdef ev grad fuel precond guess use_petsc).
Qed.
Print Assumptions elasticity_solved.
(** without any condition on some component of the displacement the systems are singular *)
Theorem elasticity_floating : forall V (F : fem V) B Nx Ny Nz Lx Ly Lz inds iv jac cjac locs vecs fns eps P k use_petsc,
  box_hex F B Nx Ny Nz Lx Ly Lz -> tensor_map F = Some (fun _ => linear_elastic_stress 3) -> vec F = 3%nat -> mass_map F = None -> cauchy_bc_info F = None ->
  loads_ok F inds iv -> exact_jacobians F iv jac -> fem_problem F inds iv jac cjac (Some (locs, vecs, fns)) None eps = Ok P -> Forall (fun k => (k < vec F)%nat) vecs ->
  (k < 3)%nat -> (forall n, (n < num_total_nodes F)%nat -> ~ fixed F locs vecs n k) -> ~ solvable_problem P use_petsc.
Proof.
  intros V F B Nx Ny Nz Lx Ly Lz inds iv jac cjac locs vecs fns eps P k use_petsc HF Htm Hv3 Hm Hc (Hiv & Hneu & Hfc) Hj HP Hv Hk Hno.
  pose proof HF as (HB & _ & _ & _ & _ & _ & _ & _ & _ & _ & HE). pose proof (elastic_linear B HB F HE Hv3) as Hlin. rewrite <- Hv3 in Hk.
  exact (floating_unsolvable F _ Htm Hlin Hm Hc inds iv jac cjac Hj locs vecs fns eps P HP Hv (hex_wf F B Nx Ny Nz Lx Ly Lz HF) Hiv (hex_cells F B Nx Ny Nz Lx Ly Lz HF) Hneu Hfc
      k use_petsc (hex_grads F B Nx Ny Nz Lx Ly Lz HF) (hex_nodes F B Nx Ny Nz Lx Ly Lz HF) Hk Hno).
Qed.
Print Assumptions elasticity_floating.
(** turning the clamped side turns the whole bar *)
Example turned_bar_case : exists u, solver exact_env turned_problem (fun _ _ => vzero) 5 true true None true = Some (Ok u) /\
  forall n k, (n < 24)%nat -> (k < 3)%nat -> u n k = turn n k.
Proof.
  destruct (elasticity_solved R turned_bar ex_basix 1 2 3 2 3 1 [] no_vars (unit_jac turned_bar) cjac0 _ _ _ None turned_problem 0 false turned_box eq_refl eq_refl eq_refl eq_refl turned_loads turned_jac turned_ok
    ltac:(repeat constructor) ltac:(lia) ltac:(intros n k Hn Hp Hk; exact (near_fixed turned_bar (fun p => - p 1%nat) (fun p => p 0%nat) (fun _ => 0) n k Hp Hk)) true) as (_ & Hsol).
  destruct (Hsol exact_env (fun _ _ => vzero) 5%nat true None (proj1 exact_env_ok) (proj2 exact_env_ok)) as (u & Hu & _ & Huniq).
  exists u. split; [exact Hu|]. intros n k Hn Hk.
  pose (W := fun i j : nat => match i, j with 0%nat, 1%nat => -1 | 1%nat, 0%nat => 1 | _, _ => 0 end : R).
  assert (Hval : forall n k, (k < 3)%nat -> affine_field turned_bar (fun _ => 0) W n k = turn n k).
  { intros n' k' Hk'. unfold affine_field, W, turn. rewrite (proj1 (box_dim ex_basix ex_documented turned_bar hex_E_ok)). unfold sumN. cbn [seq sumR]. destruct k' as [|[|k']]; ring. }
  destruct (traction_patch ex_basix ex_documented ex_exact_quad ex_exact_hex turned_bar 1 2 3 2 3 1 ltac:(lia) ltac:(lia) ltac:(lia) ltac:(lra) ltac:(lra) ltac:(lra) (brick_mesh _ _ _ _ _ _ _ _) eq_refl hex_E_ok
    (fun _ _ => 0) (affine_field turned_bar (fun _ => 0) W) no_vars) with (loads := @nil (nat * bool)) (locs := @nil (point -> bool)) (fns := @nil (point -> list R -> nat -> R)) as (r & Hr & H0).
  - split; constructor.
  - reflexivity.
  - reflexivity.
  - reflexivity.
  - reflexivity.
  - intros c q i d Hc Hq Hi Hd. unfold stress. cbn [tensor_map turned_bar brick].
    assert (HG : forall a b, (b < 3)%nat -> sol_to_grad turned_bar (affine_field turned_bar (fun _ => 0) W) c q a b = W a b).
    { intros a b Hb. exact (box_affine_grad ex_basix ex_documented turned_bar 1 2 3 2 3 1 ltac:(lia) ltac:(lia) ltac:(lia) ltac:(lra) ltac:(lra) ltac:(lra) (brick_mesh _ _ _ _ _ _ _ _) eq_refl hex_E_ok (fun _ => 0) W c q a b Hc Hq Hb). }
    change (vec turned_bar) with 3%nat in Hi. unfold linear_elastic_stress, trace, sumN. cbn [seq sumR]. unfold turned_bar in *. rewrite !HG by lia. unfold W.
    destruct i as [|[|[|i]]]; try lia; destruct d as [|[|[|d]]]; try lia; cbn [eye Nat.eqb]; ring.
  - constructor.
  - intros s [].
  - constructor.
  - constructor.
  - reflexivity.
  - assert (HS : discrete_solution turned_bar [near_end; near_end; near_end] [0; 1; 2]%nat [fun p => - p 1%nat; fun p => p 0%nat; fun _ => 0] [] no_vars (affine_field turned_bar (fun _ => 0) W)).
    { apply (held_solution turned_bar (fun p => - p 1%nat) (fun p => p 0%nat) (fun _ => 0) _ _ _ r eq_refl); [| exact Hr |].
      - intros n' Hn' Hp. rewrite !Hval by lia. auto.
      - intros n' k' Hn' Hk' Hp. apply H0; [exact Hn'|exact Hk'|]. intros s Hs. right. right. unfold tract, sumN. cbn [seq sumR]. ring. }
    rewrite <- (Huniq _ HS n k Hn Hk). now apply Hval.
Qed.

(** ** C151 the solution minimises the potential energy *)
Theorem poisson_minimum : forall V (F : fem V) B Nx Ny Nz Lx Ly Lz inds iv locs vecs fns u w,
  box_hex F B Nx Ny Nz Lx Ly Lz -> tensor_map F = Some (fun _ => poisson_map) -> mass_map F = None -> cauchy_bc_info F = None -> loads_ok F inds iv ->
  (forall k, (k < vec F)%nat -> exists n, (n < num_total_nodes F)%nat /\ fixed F locs vecs n k) ->
  discrete_solution F locs vecs fns inds iv u -> takes_values F locs vecs fns w ->
  potential F inds iv u <= potential F inds iv w /\ (potential F inds iv w = potential F inds iv u -> same_field F w u).
Proof.
  intros V F B Nx Ny Nz Lx Ly Lz inds iv locs vecs fns u w HF Htm Hm Hc Hl Hfix. pose proof HF as (HB & Hq & Hx & Hy & Hz & H1 & H2 & H3 & Hme & Hnn & HE).
  exact (form_minimises F B Nx Ny Nz Lx Ly Lz HF Hm Hc inds iv Hl locs vecs fns _ Htm (poisson_linear F) (poisson_sym B HB F HE Htm iv)
    (poisson_nonneg B HB Hq F Nx Ny Nz Lx Ly Lz Hx Hy Hz H1 H2 H3 Hme Hnn HE Htm iv) (poisson_definite F B Nx Ny Nz Lx Ly Lz HF iv locs vecs Htm Hfix) u w).
Qed.
Print Assumptions poisson_minimum.
(** the solution on the bar has less energy than the zero field *)
Example heat_minimum_case : exists u, discrete_solution heat_bar [near_end; near_end; near_end] [0; 1; 2]%nat [fun _ => 0; fun _ => 0; fun _ => 0] heat_inds no_vars u /\
  potential heat_bar heat_inds no_vars u < potential heat_bar heat_inds no_vars (fun _ _ => 0).
Proof.
  destruct heat_bar_case as (u & _ & Hu & Hval). exists u. split; [exact Hu|].
  destruct (poisson_minimum R heat_bar ex_basix 1 2 3 2 3 1 heat_inds no_vars _ _ _ u (fun _ _ => 0) heat_box eq_refl eq_refl eq_refl heat_loads
    ltac:(intros k Hk; exists 0%nat; split; [exact (proj1 first_node)|exact (near_fixed heat_bar (fun _ => 0) (fun _ => 0) (fun _ => 0) 0 k (proj2 first_node) Hk)]) Hu) as [Hle Heq].
  { intros i n k Hn _. destruct i as [|[|[|[|i]]]]; reflexivity. }
  destruct Hle as [Hlt|He]; [exact Hlt|exfalso]. specialize (Heq (eq_sym He)).
  pose proof last_node as [Hn Hp]. pose proof (Heq _ 0%nat Hn ltac:(cbn; lia)) as H0. rewrite (Hval _ 0%nat Hn ltac:(lia)), Hp in H0. lra.
Qed.
Theorem elasticity_minimum : forall V (F : fem V) B Nx Ny Nz Lx Ly Lz inds iv locs vecs fns side hi u w,
  box_hex F B Nx Ny Nz Lx Ly Lz -> tensor_map F = Some (fun _ => linear_elastic_stress 3) -> vec F = 3%nat -> mass_map F = None -> cauchy_bc_info F = None -> loads_ok F inds iv ->
  (side < 3)%nat -> (forall n k, (n < num_total_nodes F)%nat -> points F n side = side_coord Lx Ly Lz (side, hi) -> (k < 3)%nat -> fixed F locs vecs n k) ->
  discrete_solution F locs vecs fns inds iv u -> takes_values F locs vecs fns w ->
  potential F inds iv u <= potential F inds iv w /\ (potential F inds iv w = potential F inds iv u -> same_field F w u).
Proof.
  intros V F B Nx Ny Nz Lx Ly Lz inds iv locs vecs fns side hi u w HF Htm Hv3 Hm Hc Hl Hs Hfix. pose proof HF as (HB & Hq & Hx & Hy & Hz & H1 & H2 & H3 & Hme & Hnn & HE).
  exact (form_minimises F B Nx Ny Nz Lx Ly Lz HF Hm Hc inds iv Hl locs vecs fns _ Htm (elastic_linear B HB F HE Hv3) (elastic_sym B HB F HE Htm Hv3 iv)
    (elastic_nonneg B HB Hq F Nx Ny Nz Lx Ly Lz Hx Hy Hz H1 H2 H3 Hme Hnn HE Htm Hv3 iv) (elastic_definite F B Nx Ny Nz Lx Ly Lz HF iv locs vecs side hi Htm Hv3 Hs Hfix) u w).
Qed.
Print Assumptions elasticity_minimum.

(** ** C152 the matrix of the reverse pass is invertible *)
(** the matrix that implicit_vjp solves with, at any point, for both problems *)
Theorem reverse_matrix_invertible : forall V (F : fem V) B Nx Ny Nz Lx Ly Lz inds iv jac cjac locs vecs fns eps P u r ijv use_petsc,
  box_hex F B Nx Ny Nz Lx Ly Lz -> mass_map F = None -> cauchy_bc_info F = None ->
  loads_ok F inds iv -> exact_jacobians F iv jac -> fem_problem F inds iv jac cjac (Some (locs, vecs, fns)) None eps = Ok P -> Forall (fun k => (k < vec F)%nat) vecs ->
  (tensor_map F = Some (fun _ => poisson_map) /\ (forall k, (k < vec F)%nat -> exists n, (n < num_total_nodes F)%nat /\ fixed F locs vecs n k)) \/
  (tensor_map F = Some (fun _ => linear_elastic_stress 3) /\ vec F = 3%nat /\
   exists side hi, (side < 3)%nat /\ forall n k, (n < num_total_nodes F)%nat -> points F n side = side_coord Lx Ly Lz (side, hi) -> (k < 3)%nat -> fixed F locs vecs n k) ->
  newton_update P u = Ok (r, ijv) -> invertible (num_total_dofs P) (lop_apply (num_total_dofs P) (get_A_fn P ijv use_petsc)).
Proof.
  intros V F B Nx Ny Nz Lx Ly Lz inds iv jac cjac locs vecs fns eps P u r ijv use_petsc HF Hm Hc (Hiv & Hneu & Hfc) Hj HP Hv [(Htm & Hfix)|(Htm & Hv3 & side & hi & Hs & Hfix)] Hr.
  - exact (well_invertible F _ Htm (poisson_linear F) Hm Hc inds iv jac cjac Hj locs vecs fns eps P HP Hv (hex_wf F B Nx Ny Nz Lx Ly Lz HF) Hiv (hex_cells F B Nx Ny Nz Lx Ly Lz HF) Hneu Hfc
      (poisson_definite F B Nx Ny Nz Lx Ly Lz HF iv locs vecs Htm Hfix) u r ijv use_petsc Hr).
  - pose proof HF as (HB & _ & _ & _ & _ & _ & _ & _ & _ & _ & HE).
    exact (well_invertible F _ Htm (elastic_linear B HB F HE Hv3) Hm Hc inds iv jac cjac Hj locs vecs fns eps P HP Hv (hex_wf F B Nx Ny Nz Lx Ly Lz HF) Hiv (hex_cells F B Nx Ny Nz Lx Ly Lz HF) Hneu Hfc
      (elastic_definite F B Nx Ny Nz Lx Ly Lz HF iv locs vecs side hi Htm Hv3 Hs Hfix) u r ijv use_petsc Hr).
Qed.
Print Assumptions reverse_matrix_invertible.
(** ... at the turned bar, wherever the matrix is assembled *)
Example turned_invertible_case : forall u r ijv, newton_update turned_problem u = Ok (r, ijv) -> invertible 72 (lop_apply 72 (get_A_fn turned_problem ijv false)).
Proof.
  intros u r ijv. apply (reverse_matrix_invertible R turned_bar ex_basix 1 2 3 2 3 1 [] no_vars (unit_jac turned_bar) cjac0 _ _ _ None turned_problem u r ijv false turned_box eq_refl eq_refl turned_loads turned_jac turned_ok
    ltac:(repeat constructor)).
  right. split; [reflexivity|]. split; [reflexivity|]. exists 0%nat, false. split; [lia|]. intros n k Hn Hp Hk. exact (near_fixed turned_bar (fun p => - p 1%nat) (fun p => p 0%nat) (fun _ => 0) n k Hp Hk).
Qed.
Close Scope R_scope.
