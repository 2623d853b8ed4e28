(** * Theorems about manufactured solutions of LinearPoisson on box meshes. *)
From Coq Require Import String Lra Lia.
From Verif Require Import Prelude PreludeFacts FemModel FemFacts FemSpec FemGeoProofs FemMatProofs BasisModel BasisSpec BasisExamples MatModel MatSpec MatProofs SolverModel SolverSpec SolverFemProofs SolverAdProofs SolverExamples RveSpec RveExamples BoxSpec BoxProofs BoxPatchProofs BoxExamples WellSpec WellProofs WellBoxProofs WellMainProofs WellExamples WellProps ManSpec ManProofs ManMainProofs ManExamples.
From Verif Require MeshModel.
Open Scope R_scope.
Open Scope list_scope.

(** ** C169: the source -Laplace(u) of a sum of cubics in one coordinate each gives back u at the nodes *)
Theorem manufactured_residual : forall V (F : fem V) B Nx Ny Nz Lx Ly Lz g g1 g2 iv src loads nlocs nfns,
  box_hex F B Nx Ny Nz Lx Ly Lz -> exact_rule B quadrilateral 2 -> tensor_map F = Some (fun _ => poisson_map) -> mass_map F = None -> cauchy_bc_info F = None ->
  iv_sized F iv -> iv_body iv = None ->
  (forall k d, cubic (g k d)) -> (forall k d, derivative_of (g k d) (g1 k d)) -> (forall k d, derivative_of (g1 k d) (g2 k d)) ->
  source_info F = Some src -> (forall p k, (k < vec F)%nat -> src p k = - sumN 3 (fun d => g2 k d (p d))) ->
  natural_sides F Lx Ly Lz g1 loads nlocs nfns ->
  exists r, compute_residual_vars F (get_boundary_conditions_inds F nlocs) (fun n => separable g (points F n)) iv = Ok r /\
  forall n k, (n < num_total_nodes F)%nat -> (k < vec F)%nat -> side_free F Lx Ly Lz g1 loads n k -> r n k = 0.
Proof.
  intros V F B Nx Ny Nz Lx Ly Lz g g1 g2 iv src loads nlocs nfns HF Hq4 Htm Hm Hc Hiv Hb Hg H1 H2 Hs Hsv Hnat.
  exact (man_residual F B Nx Ny Nz Lx Ly Lz HF Hq4 g g1 g2 Hg H1 H2 Htm Hm Hc iv Hiv Hb src Hs Hsv loads nlocs nfns Hnat).
Qed.
Print Assumptions manufactured_residual.
(** hence solver returns the nodal values of u on every box mesh, whatever its numbers of cells, when the Dirichlet conditions hold u and the free sides carry du/dn *)
Theorem manufactured_solved : forall V (F : fem V) B Nx Ny Nz Lx Ly Lz g g1 g2 iv src loads nlocs nfns jac cjac locs vecs fns eps P,
  box_hex F B Nx Ny Nz Lx Ly Lz -> exact_rule B quadrilateral 2 -> tensor_map F = Some (fun _ => poisson_map) -> mass_map F = None -> cauchy_bc_info F = None ->
  iv_sized F iv -> iv_body iv = None ->
  (forall k d, cubic (g k d)) -> (forall k d, derivative_of (g k d) (g1 k d)) -> (forall k d, derivative_of (g1 k d) (g2 k d)) ->
  source_info F = Some src -> (forall p k, (k < vec F)%nat -> src p k = - sumN 3 (fun d => g2 k d (p d))) ->
  natural_sides F Lx Ly Lz g1 loads nlocs nfns ->
  exact_jacobians F iv jac -> fem_problem F (get_boundary_conditions_inds F nlocs) iv jac cjac (Some (locs, vecs, fns)) None eps = Ok P -> Forall (fun k => (k < vec F)%nat) vecs ->
  (forall i n k, (n < num_total_nodes F)%nat -> applies F locs vecs i n k -> nth i fns (fun _ => 0) (points F n) = separable g (points F n) k) ->
  (forall n k, (n < num_total_nodes F)%nat -> (k < vec F)%nat -> ~ fixed F locs vecs n k -> side_free F Lx Ly Lz g1 loads n k) ->
  (forall k, (k < vec F)%nat -> exists n, (n < num_total_nodes F)%nat /\ fixed F locs vecs n k) ->
  forall ev grad fuel precond guess use_petsc, exact_solvers ev -> exact_floats ev ->
  exists u, solver ev P grad fuel true precond guess use_petsc = Some (Ok u) /\
  forall n k, (n < num_total_nodes F)%nat -> (k < vec F)%nat -> u n k = separable g (points F n) k.
Proof.
  intros V F B Nx Ny Nz Lx Ly Lz g g1 g2 iv src loads nlocs nfns jac cjac locs vecs fns eps P HF Hq4 Htm Hm Hc Hiv Hb Hg H1 H2 Hs Hsv Hnat Hj HP Hv Hval Hfree Hfix ev grad fuel precond guess use_petsc Hex Hfl.
  destruct (poisson_solved V F B Nx Ny Nz Lx Ly Lz _ iv jac cjac locs vecs fns eps P HF Htm Hm Hc (natural_loads F B Nx Ny Nz Lx Ly Lz HF g1 iv Hiv loads nlocs nfns Hnat) Hj HP Hv Hfix ev grad fuel precond guess use_petsc Hex Hfl) as (u & Hu & _ & Huniq).
  exists u. split; [exact Hu|]. intros n k Hn Hk. symmetry. apply (Huniq (fun n => separable g (points F n))); [|exact Hn|exact Hk]. split.
  - intros i m l Hm' [Ha _]. symmetry. now apply Hval.
  - destruct (manufactured_residual V F B Nx Ny Nz Lx Ly Lz g g1 g2 iv src loads nlocs nfns HF Hq4 Htm Hm Hc Hiv Hb Hg H1 H2 Hs Hsv Hnat) as (r & Hr & H0). exists r. split; [exact Hr|].
    intros m l Hm' Hl Hnf. apply H0; [exact Hm'|exact Hl|]. now apply Hfree.
Qed.
Print Assumptions manufactured_solved.
(** eight cells, five sides held, du/dz given on the sixth: the value at the node in the middle of the cube is 1/4 *)
Example manufactured_case : exists u, solver exact_env (man_problem 2) (fun _ _ => vzero) 5 true true None false = Some (Ok u) /\ u 13%nat 0%nat = 1 / 4 /\ u 26%nat 0%nat = 1 + 75 / 2.
Proof.
  destruct (manufactured_solved R (man_fem 2) ex_basix 2 2 2 1 1 1 man_g man_g1 man_g2 no_vars man_src _ _ _ (unit_jac (man_fem 2)) cjac0 _ _ _ None (man_problem 2) (man_hex 2 ltac:(lia)) ex_exact_quad eq_refl eq_refl eq_refl
    ltac:(split; constructor) eq_refl man_cubic man_der1 man_der2 eq_refl ltac:(reflexivity) (man_natural 2) (man_jac 2) (man_ok 2) ltac:(repeat constructor) ltac:(intros i n k _; apply man_prescribed)
    ltac:(intros n k _ Hk; now apply man_free) ltac:(intros k Hk; now apply (man_somewhere 2 k ltac:(lia))) exact_env (fun _ _ => vzero) 5%nat true None false (proj1 exact_env_ok) (proj2 exact_env_ok)) as (u & Hu & Hval).
  exists u. split; [exact Hu|].
  assert (HP : forall i j k d, (i <= 2)%nat -> (j <= 2)%nat -> (k <= 2)%nat -> (d < 3)%nat -> points (man_fem 2) (node 2 2 i j k) d = INR (along i j k d) * along 1 1 1 d / INR (along 2%nat 2%nat 2%nat d)).
  { exact (node_point (man_fem 2) 2 2 2 1 1 1 ltac:(lia) ltac:(lia) ltac:(lia) (man_mesh 2) eq_refl). }
  split.
  - rewrite (Hval 13%nat 0%nat ltac:(vm_compute; lia) ltac:(cbn; lia)). change 13%nat with (node 2 2 1 1 1). unfold separable, sumN. cbn [seq sumR]. rewrite !HP by lia. cbn [along INR man_g]. field.
  - rewrite (Hval 26%nat 0%nat ltac:(vm_compute; lia) ltac:(cbn; lia)). change 26%nat with (node 2 2 2 2 2). unfold separable, sumN. cbn [seq sumR]. rewrite !HP by lia. cbn [along INR man_g]. field.
Qed.

(** ** C170: the errors the code measures for a quadratic solution, and their order in the mesh size *)
Theorem manufactured_errors : forall V (F : fem V) B Nx Ny Nz Lx Ly Lz g g1 w sol,
  box_hex F B Nx Ny Nz Lx Ly Lz -> gauss_points B ->
  (forall k d, cubic (g k d)) -> (forall k d, derivative_of (g k d) (g1 k d)) -> (forall k d, derivative_of (g1 k d) (fun _ => w k d)) ->
  (forall n k, (n < num_total_nodes F)%nat -> (k < vec F)%nat -> sol n k = separable g (points F n) k) ->
  let size d := along Lx Ly Lz d / INR (along Nx Ny Nz d) in
  let l2 := sqrt (Lx * Ly * Lz * sumN (vec F) (fun k => sumN 3 (fun d => w k d * size d ^ 2 / 12) ^ 2)) in
  compute_l2_norm_error F sol (separable g) = l2 /\
  compute_h1_norm_error F sol (separable g) (fun p k d => g1 k d (p d)) = l2 + sqrt (Lx * Ly * Lz * sumN (vec F) (fun k => sumN 3 (fun d => w k d ^ 2 * size d ^ 2 / 12))).
Proof.
  intros V F B Nx Ny Nz Lx Ly Lz g g1 w sol HF HG Hg H1 H2 Hs size l2. split.
  - exact (l2_error F B Nx Ny Nz Lx Ly Lz HF HG g g1 w Hg H1 H2 sol Hs).
  - exact (h1_error F B Nx Ny Nz Lx Ly Lz HF HG g g1 w Hg H1 H2 sol Hs).
Qed.
Print Assumptions manufactured_errors.
(** m times as many cells in every direction: the L2 error is m^2 times smaller, the H1 error at least m times *)
Theorem convergence_order : forall V (F F' : fem V) B B' Nx Ny Nz Lx Ly Lz m g g1 w sol sol',
  box_hex F B Nx Ny Nz Lx Ly Lz -> box_hex F' B' (m * Nx) (m * Ny) (m * Nz) Lx Ly Lz -> gauss_points B -> gauss_points B' -> vec F = vec F' ->
  (forall k d, cubic (g k d)) -> (forall k d, derivative_of (g k d) (g1 k d)) -> (forall k d, derivative_of (g1 k d) (fun _ => w k d)) ->
  (forall n k, (n < num_total_nodes F)%nat -> (k < vec F)%nat -> sol n k = separable g (points F n) k) ->
  (forall n k, (n < num_total_nodes F')%nat -> (k < vec F')%nat -> sol' n k = separable g (points F' n) k) ->
  let grad (p : point) k d := g1 k d (p d) in
  compute_l2_norm_error F sol (separable g) = INR m ^ 2 * compute_l2_norm_error F' sol' (separable g) /\
  INR m * compute_h1_norm_error F' sol' (separable g) grad <= compute_h1_norm_error F sol (separable g) grad <= INR m ^ 2 * compute_h1_norm_error F' sol' (separable g) grad.
Proof.
  intros V F F' B B' Nx Ny Nz Lx Ly Lz m g g1 w sol sol' HF HF' HG HG' Hvec Hg H1 H2 Hs Hs' grad. pose proof HF as (_ & _ & Hx & Hy & Hz & Hlx & Hly & Hlz & _). pose proof HF' as (_ & _ & Hx' & _).
  assert (Hm : (1 <= m)%nat) by (destruct m; cbn in Hx'; lia). assert (Hm1 : 1 <= INR m) by (apply (le_INR 1); exact Hm).
  destruct (manufactured_errors V F B Nx Ny Nz Lx Ly Lz g g1 w sol HF HG Hg H1 H2 Hs) as [EL EH]. destruct (manufactured_errors V F' B' _ _ _ Lx Ly Lz g g1 w sol' HF' HG' Hg H1 H2 Hs') as [EL' EH']. cbv zeta in *.
  subst grad. rewrite EL, EL', EH, EH'. rewrite <- Hvec. clear EL EL' EH EH'.
  assert (Hsz : forall d, along Lx Ly Lz d / INR (along Nx Ny Nz d) = INR m * (along Lx Ly Lz d / INR (along (m * Nx)%nat (m * Ny)%nat (m * Nz)%nat d))).
  { intros d. assert (INR Nx <> 0 /\ INR Ny <> 0 /\ INR Nz <> 0) as (? & ? & ?) by (repeat split; apply not_0_INR; lia). destruct d as [|[|d]]; cbn [along]; rewrite mult_INR; field; split; lra. }
  set (s' := fun d => along Lx Ly Lz d / INR (along (m * Nx)%nat (m * Ny)%nat (m * Nz)%nat d)) in *.
  set (A := Lx * Ly * Lz * sumN (vec F) (fun k => sumN 3 (fun d => w k d * s' d ^ 2 / 12) ^ 2)). set (D := Lx * Ly * Lz * sumN (vec F) (fun k => sumN 3 (fun d => w k d ^ 2 * s' d ^ 2 / 12))).
  assert (Hpull : forall a c s t, s = c * t -> a * s = c * (a * t)) by (intros a c s t ->; ring).
  assert (EA : Lx * Ly * Lz * sumN (vec F) (fun k => sumN 3 (fun d => w k d * (along Lx Ly Lz d / INR (along Nx Ny Nz d)) ^ 2 / 12) ^ 2) = (INR m ^ 2) ^ 2 * A).
  { unfold A. apply Hpull. rewrite <- sumN_scal. apply sumN_ext. intros k _. unfold sumN. cbn [seq sumR]. rewrite !Hsz. fold (s' 0%nat) (s' 1%nat) (s' 2%nat). field. }
  assert (ED : Lx * Ly * Lz * sumN (vec F) (fun k => sumN 3 (fun d => w k d ^ 2 * (along Lx Ly Lz d / INR (along Nx Ny Nz d)) ^ 2 / 12)) = INR m ^ 2 * D).
  { unfold D. apply Hpull. rewrite <- sumN_scal. apply sumN_ext. intros k _. unfold sumN. cbn [seq sumR]. rewrite !Hsz. fold (s' 0%nat) (s' 1%nat) (s' 2%nat). field. }
  rewrite EA, ED. change (sqrt ((INR m ^ 2) ^ 2 * A) = INR m ^ 2 * sqrt A /\ INR m * (sqrt A + sqrt D) <= sqrt ((INR m ^ 2) ^ 2 * A) + sqrt (INR m ^ 2 * D) <= INR m ^ 2 * (sqrt A + sqrt D)).
  rewrite (sqrt_mult_alt _ A), (sqrt_mult_alt _ D) by apply pow2_ge_0. rewrite !sqrt_pow2 by (try apply pow2_ge_0; lra). split; [reflexivity|].
  assert (Hmm : 0 <= INR m ^ 2 - INR m) by nra. pose proof (Rmult_le_pos _ _ Hmm (sqrt_pos A)). pose proof (Rmult_le_pos _ _ Hmm (sqrt_pos D)). split; lra.
Qed.
Print Assumptions convergence_order.
(** x^2 on the unit cube: the L2 errors on 2 x 2 x 2 and 4 x 4 x 4 cells *)
Example convergence_case : compute_l2_norm_error (man_fem 2) (fun n => separable sq (points (man_fem 2) n)) (separable sq) = 1 / 24 /\
  compute_l2_norm_error (man_fem 4) (fun n => separable sq (points (man_fem 4) n)) (separable sq) = 1 / 96 /\
  compute_h1_norm_error (man_fem 2) (fun n => separable sq (points (man_fem 2) n)) (separable sq) (fun p k d => sq1 k d (p d)) = 1 / 24 + sqrt (1 / 12).
Proof.
  destruct sq_facts as (S0 & S1 & S2).
  destruct (manufactured_errors R (man_fem 2) ex_basix 2 2 2 1 1 1 sq sq1 sq2 (fun n => separable sq (points (man_fem 2) n)) (man_hex 2 ltac:(lia)) ex_gauss S0 S1 S2 ltac:(reflexivity)) as [E2 H2].
  destruct (manufactured_errors R (man_fem 4) ex_basix 4 4 4 1 1 1 sq sq1 sq2 (fun n => separable sq (points (man_fem 4) n)) (man_hex 4 ltac:(lia)) ex_gauss S0 S1 S2 ltac:(reflexivity)) as [E4 _].
  cbv zeta in *. rewrite E2, E4, H2. change (vec (man_fem 2)) with 1%nat. change (vec (man_fem 4)) with 1%nat. unfold sumN. cbn [seq sumR along sq2 INR].
  assert (Q : forall x y, 0 <= y -> x = y ^ 2 -> sqrt x = y) by (intros x y Hy ->; now apply sqrt_pow2).
  split; [apply Q; [lra|field]|]. split; [apply Q; [lra|field]|]. f_equal; [apply Q; [lra|field]|f_equal; field].
Qed.
Close Scope R_scope.
