(** * Theorems about maximum principles for LinearPoisson on box meshes. *)
From Coq Require Import String Lra Lia.
From Verif Require Import Prelude PreludeFacts FemModel FemFacts FemSpec FemGeoProofs FemMatProofs BasisModel BasisSpec BasisExamples MatModel MatSpec MatProofs SolverModel SolverSpec SolverFemProofs SolverAdProofs SolverExamples RveSpec RveExamples BoxSpec BoxProofs BoxPatchProofs BoxExamples WellSpec WellProofs WellBoxProofs WellMainProofs WellExamples WellProps MaxSpec MaxProofs MaxRefProofs MaxExamples.
From Verif Require MeshModel.
Open Scope R_scope.
Open Scope list_scope.

(** ** C171: with cubic cells the solution stays between the bounds of the prescribed values *)
Theorem poisson_maximum : forall V (F : fem V) B Nx Ny Nz Lx Ly Lz inds iv jac cjac locs vecs fns eps P,
  box_hex F B Nx Ny Nz Lx Ly Lz -> nonneg_rule B hexahedron 2 -> nonneg_rule B quadrilateral 2 -> cubes Nx Ny Nz Lx Ly Lz ->
  tensor_map F = Some (fun _ => poisson_map) -> mass_map F = None -> cauchy_bc_info F = None ->
  loads_ok F inds iv -> exact_jacobians F iv jac -> fem_problem F inds iv jac cjac (Some (locs, vecs, fns)) None eps = Ok P -> Forall (fun k => (k < vec F)%nat) vecs ->
  (forall k, (k < vec F)%nat -> exists n, (n < num_total_nodes F)%nat /\ fixed F locs vecs n k) ->
  forall ev grad fuel precond guess use_petsc, exact_solvers ev -> exact_floats ev ->
  exists u, solver ev P grad fuel true precond guess use_petsc = Some (Ok u) /\
  forall k M, (k < vec F)%nat ->
  (loads_sign F iv (-1) k -> (forall x, prescribed F locs vecs fns k x -> x <= M) -> forall n, (n < num_total_nodes F)%nat -> u n k <= M) /\
  (loads_sign F iv 1 k -> (forall x, prescribed F locs vecs fns k x -> M <= x) -> forall n, (n < num_total_nodes F)%nat -> M <= u n k).
Proof.
  intros V F B Nx Ny Nz Lx Ly Lz inds iv jac cjac locs vecs fns eps P HF Hw8 Hw4 Hcube Htm Hm Hc Hl Hj HP Hv Hfix ev grad fuel precond guess use_petsc Hex Hfl.
  destruct (poisson_solved V F B Nx Ny Nz Lx Ly Lz inds iv jac cjac locs vecs fns eps P HF Htm Hm Hc Hl Hj HP Hv Hfix ev grad fuel precond guess use_petsc Hex Hfl) as (u & Hu & Hds & _).
  exists u. split; [exact Hu|]. intros k M Hk. split; intros Hs Hp n Hn.
  - assert (H : 1 * u n k <= M); [|lra]. apply (maximum F B Nx Ny Nz Lx Ly Lz HF Htm iv Hw8 Hw4 1 M k inds locs vecs fns u Hcube Hm Hc Hl Hk Hfix Hds); [|intros x Hx; specialize (Hp x Hx); lra|exact Hn].
    replace (- (1)) with (-1) by lra. exact Hs.
  - assert (H : -1 * u n k <= - M); [|lra]. apply (maximum F B Nx Ny Nz Lx Ly Lz HF Htm iv Hw8 Hw4 (-1) (- M) k inds locs vecs fns u Hcube Hm Hc Hl Hk Hfix Hds); [|intros x Hx; specialize (Hp x Hx); lra|exact Hn].
    replace (- (-1)) with 1 by lra. exact Hs.
Qed.
Print Assumptions poisson_maximum.
Lemma surface_fixed V (F : fem V) B Lx Ly Lz : box_hex F B 2 2 2 Lx Ly Lz -> vec F = 1%nat -> forall k, (k < vec F)%nat -> exists n, (n < num_total_nodes F)%nat /\ fixed F [outer Lx Ly Lz] [0%nat] n k.
Proof.
  intros HF Hv k Hk. rewrite Hv in Hk. replace k with 0%nat by lia. exists (node 2 2 0 0 0). pose proof HF as (_ & _ & Hx & Hy & Hz & _ & _ & _ & _ & Hn & _).
  split; [exact (node_lt F 2 2 2 Lx Ly Lz Hx Hy Hz Hn 0 0 0 ltac:(lia) ltac:(lia) ltac:(lia))|]. exists 0%nat. split; [cbn; lia|]. split; [reflexivity|]. cbn [nth]. rewrite (outer_node F B Lx Ly Lz HF) by lia. reflexivity.
Qed.
Lemma spot_range Lx Ly Lz d p : 0 <= spot Lx Ly Lz d p <= 1.
Proof. unfold spot. destruct (forallb _ _); lra. Qed.
(** a cube of eight cells, 1 in the middle of one side and 0 on the rest of the surface: all values lie between 0 and 1 *)
Example cube_maximum_case : exists u, solver exact_env (plain_problem 1 1 1) (fun _ _ => vzero) 5 true true None false = Some (Ok u) /\ forall n, (n < 27)%nat -> 0 <= u n 0%nat <= 1.
Proof.
  destruct (poisson_maximum R (plain 1 1 1) ex_basix 2 2 2 1 1 1 [] no_vars (unit_jac (plain 1 1 1)) cjac0 _ _ _ None (plain_problem 1 1 1) (plain_hex 1 1 1 ltac:(lra) ltac:(lra) ltac:(lra)) ex_nonneg8 ex_nonneg4 ltac:(split; reflexivity) eq_refl eq_refl eq_refl
    (plain_loads 1 1 1) (plain_jac 1 1 1) (plain_ok 1 1 1) ltac:(repeat constructor) (surface_fixed R (plain 1 1 1) ex_basix 1 1 1 (plain_hex 1 1 1 ltac:(lra) ltac:(lra) ltac:(lra)) eq_refl)
    exact_env (fun _ _ => vzero) 5%nat true None false (proj1 exact_env_ok) (proj2 exact_env_ok)) as (u & Hu & Hb).
  exists u. split; [exact Hu|]. intros n Hn.
  assert (Hp : forall x, prescribed (plain 1 1 1) [outer 1 1 1] [0%nat] [spot 1 1 1 0] 0 x -> 0 <= x <= 1).
  { intros x (i & m & _ & [[Hi _] _] & ->). destruct i; [apply spot_range|cbn in Hi; lia]. }
  split; [apply (proj2 (Hb 0%nat 0 ltac:(cbn; lia)))|apply (proj1 (Hb 0%nat 1 ltac:(cbn; lia)))]; try apply plain_sign; try exact Hn; intros x Hx; apply (Hp x Hx).
Qed.

(** ** C172: on boxes of eight cells that are not cubes the bounds fail *)
Theorem stretched_cells_refuted : forall V (F : fem V) B Lx Ly Lz inds iv jac,
  box_hex F B 2 2 2 Lx Ly Lz -> ~ cubes 2 2 2 Lx Ly Lz -> vec F = 1%nat ->
  tensor_map F = Some (fun _ => poisson_map) -> mass_map F = None -> cauchy_bc_info F = None ->
  loads_ok F inds iv -> loads_sign F iv 1 0 -> loads_sign F iv (-1) 0 -> exact_jacobians F iv jac ->
  exists loc fn, (forall p, 0 <= fn p <= 1) /\
  forall cjac eps P, fem_problem F inds iv jac cjac (Some ([loc], [0%nat], [fn])) None eps = Ok P ->
  forall ev grad fuel precond guess use_petsc, exact_solvers ev -> exact_floats ev ->
  exists u n, solver ev P grad fuel true precond guess use_petsc = Some (Ok u) /\ (n < num_total_nodes F)%nat /\ u n 0%nat < 0.
Proof.
  intros V F B Lx Ly Lz inds iv jac HF Hnc Hv Htm Hm Hc Hl S1 S2 Hj. destruct (longest F B Lx Ly Lz HF Hv Hnc) as (d0 & Hd & Hlong).
  exists (outer Lx Ly Lz), (spot Lx Ly Lz d0). split; [intros p; apply spot_range|]. intros cjac eps P HP ev grad fuel precond guess use_petsc Hex Hfl.
  destruct (poisson_solved V F B 2 2 2 Lx Ly Lz inds iv jac cjac _ _ _ eps P HF Htm Hm Hc Hl Hj HP ltac:(constructor; [lia|constructor]) (surface_fixed V F B Lx Ly Lz HF Hv) ev grad fuel precond guess use_petsc Hex Hfl) as (u & Hu & Hds & _).
  exists u, 13%nat. split; [exact Hu|]. split.
  - pose proof HF as (_ & _ & Hx & Hy & Hz & _ & _ & _ & _ & Hn & _). exact (node_lt F 2 2 2 Lx Ly Lz Hx Hy Hz Hn 1 1 1 ltac:(lia) ltac:(lia) ltac:(lia)).
  - exact (centre_below F B Lx Ly Lz HF Hv Htm iv Hm Hc inds Hl (Logic.conj S1 S2) d0 u Hd Hlong Hds).
Qed.
Print Assumptions stretched_cells_refuted.
(** cells of 1 x 1/2 x 1/2: the value in the middle is -1/6 *)
Example stretched_case : exists u, solver exact_env (plain_problem 2 1 1) (fun _ _ => vzero) 5 true true None false = Some (Ok u) /\ u 13%nat 0%nat = - 1 / 6.
Proof.
  pose proof (plain_hex 2 1 1 ltac:(lra) ltac:(lra) ltac:(lra)) as HF.
  destruct (poisson_solved R (plain 2 1 1) ex_basix 2 2 2 2 1 1 [] no_vars (unit_jac (plain 2 1 1)) cjac0 _ _ _ None (plain_problem 2 1 1) HF eq_refl eq_refl eq_refl
    (plain_loads 2 1 1) (plain_jac 2 1 1) (plain_ok 2 1 1) ltac:(repeat constructor) (surface_fixed R (plain 2 1 1) ex_basix 2 1 1 HF eq_refl)
    exact_env (fun _ _ => vzero) 5%nat true None false (proj1 exact_env_ok) (proj2 exact_env_ok)) as (u & Hu & Hds & _).
  exists u. split; [exact Hu|].
  pose proof (centre_value (plain 2 1 1) ex_basix 2 1 1 HF eq_refl eq_refl no_vars eq_refl eq_refl [] (plain_loads 2 1 1) (Logic.conj (plain_sign 2 1 1 1) (plain_sign 2 1 1 (-1))) 0 u ltac:(lia) Hds) as H.
  unfold sumN, hh in H. cbn [seq sumR along Nat.eqb INR] in H. replace (/ (2 / (1 + 1)) ^ 2) with 1 in H by field. replace (/ (1 / (1 + 1)) ^ 2) with 4 in H by field. lra.
Qed.
Close Scope R_scope.
