(** * Theorems about the inferred source (applications/fem/full_field_infer). *)
From Coq Require Import String FunctionalExtensionality Lra Lia.
From Verif Require Import Prelude PreludeFacts FemModel FemFacts FemSpec FemGeoProofs FemMatProofs BasisModel BasisSpec BasisExamples MatModel SolverModel SolverSpec SolverAdProofs SolverExamples RveModel RveExamples BoxSpec BoxProofs BoxExamples LinFacts WellSpec WellProofs WellBoxProofs WellMainProofs WellExamples WellProps InfModel InfSpec InfProofs InfMainProofs InfExamples.
From Verif Require MeshModel.
Open Scope R_scope.
Open Scope list_scope.

Lemma some_ok (a b : R) : Some (Ok a) = Some (Ok b) -> a = b.
Proof. congruence. Qed.
(** ** C153: the forward map *)
Theorem infer_forward_linear : forall V (M : fem V) B Nx Ny Nz Lx Ly Lz ev vjp Pp rp, infer_setup M B Nx Ny Nz Lx Ly Lz ev vjp Pp rp ->
  let F := infer_fem M None in let '(locs, vecs, fns) := zero_sides Lx Ly Lz in
  exists G : mat, forall agrad fuel p, exists u, fwd_pred ev agrad fuel Pp p = Some (Ok u) /\ discrete_solution F locs vecs fns [] (set_params p) u /\
  (forall n, (n < num_total_nodes M)%nat -> u n 0%nat = field_of (num_total_nodes M) G p n) /\
  (forall n, (n < num_total_nodes M)%nat -> fixed F locs vecs n 0 -> u n 0%nat = 0).
Proof.
  intros V M B Nx Ny Nz Lx Ly Lz ev vjp Pp rp (HF & Hex & Hfl & Hv & (jac & cjac & eps & Hj & HP) & Hr). cbn zeta.
  destruct (green M B Nx Ny Nz Lx Ly Lz ev Pp rp HF Hex Hfl jac cjac eps Hj HP Hr) as (G & HG). exists G. intros agrad fuel p. destruct (HG agrad fuel p) as (u & H1 & H2 & H3). exists u.
  split; [exact H1|]. split; [exact H2|]. split; [exact H3|]. exact (proj1 (proj1 (sol_zero M Lx Ly Lz Pp rp jac cjac eps Hj HP Hr _ _) H2)).
Qed.
Print Assumptions infer_forward_linear.
(** eight cubes: a source at the node inside produces a field that is not zero, but zero at the corner *)
Example infer_forward_case : exists u, fwd_pred exact_env (fun _ _ => vzero) 5 cubes_problem (unit_vec 13) = Some (Ok u) /\ 0 < compute_L2 cubes_fem u /\ u 0%nat 0%nat = 0.
Proof.
  destruct (infer_forward_linear R cubes ex_basix 2 2 2 2 2 2 exact_env _ cubes_problem cubes_residual cubes_setup) as (G & HG). destruct (HG (fun _ _ => vzero) 5%nat (unit_vec 13)) as (u & Hu & Hs & _ & Hz). exists u. split; [exact Hu|].
  pose proof cubes_setup as (HF & Hex & Hfl & Hv & (jac & cjac & eps & Hj & HP) & Hr). split.
  - destruct (L2_definite cubes_fem ex_basix 2 2 2 2 2 2 cubes_hex u) as [H0 H1]. destruct (Rle_lt_or_eq_dec _ _ H0) as [H|H]; [exact H|exfalso]. symmetry in H. apply H1 in H.
    destruct Hs as [_ (r & Er & H2)]. rewrite Hr in Er. injection Er as <-. specialize (H2 13%nat 0%nat ltac:(vm_compute; lia) ltac:(cbn; lia) middle_free).
    rewrite (rp_value cubes ex_basix 2 2 2 2 2 2 cubes_residual HF Hr (unit_vec 13) u 13 ltac:(vm_compute; lia)) in H2.
    pose proof middle_load as Hp. unfold cubes_fem in Hp. rewrite (form_zero cubes ex_basix 2 2 2 2 2 2 HF (set_params (unit_vec 13)) u (one_dof 13 0) H) in H2. lra.
  - apply Hz; [vm_compute; lia|]. exists 0%nat. split; [cbn; lia|]. split; [reflexivity|]. cbn [zero_sides fst nth]. unfold on_plane.
    pose proof (node_point cubes 2 2 2 2 2 2 ltac:(lia) ltac:(lia) ltac:(lia) (brick_mesh _ _ _ _ _ _ _ _) eq_refl 0 0 0 0 ltac:(lia) ltac:(lia) ltac:(lia) ltac:(lia)) as Hn. change (node 2 2 0 0 0) with 0%nat in Hn.
    change (points (infer_fem cubes None) 0 0%nat) with (points cubes 0 0%nat). rewrite Hn. cbn [along INR]. replace (0 * 2 / _) with 0 by (unfold Rdiv; ring). unfold isclose. apply Rleb_true. rewrite Rminus_0_r, Rabs_R0. lra.
Qed.

(** ** C154: the gradient *)
Theorem infer_gradient_exact : forall V (M : fem V) B Nx Ny Nz Lx Ly Lz ev vjp Pp rp, infer_setup M B Nx Ny Nz Lx Ly Lz ev vjp Pp rp ->
  let N := num_total_nodes M in
  exists G : mat, (forall agrad fuel p, exists u, fwd_pred ev agrad fuel Pp p = Some (Ok u) /\ forall n, (n < N)%nat -> u n 0%nat = field_of N G p n) /\
  forall obs tv, observations M obs tv -> forall agrad fuel p, exists j g, J_total ev agrad fuel Pp obs tv p = Some (Ok j) /\ J_grad ev agrad fuel vjp Pp rp obs tv p = Some (Ok g) /\
  forall dp, J_total ev agrad fuel Pp obs tv (fun i => p i + dp i) = Some (Ok (j + dotN N g dp + sumR obs (fun n => field_of N G dp n ^ 2))).
Proof.
  intros V M B Nx Ny Nz Lx Ly Lz ev vjp Pp rp H. destruct (objective_values M B Nx Ny Nz Lx Ly Lz ev vjp Pp rp H) as (G & H1 & _ & H2). exists G. split; [exact H1|].
  intros obs tv Ho agrad fuel p. destruct (H2 obs tv Ho agrad fuel p) as (j & g & Hj & Hg & _ & Hd). exists j, g. auto.
Qed.
Print Assumptions infer_gradient_exact.
Theorem infer_stationary_iff_minimum : forall V (M : fem V) B Nx Ny Nz Lx Ly Lz ev vjp Pp rp obs tv, infer_setup M B Nx Ny Nz Lx Ly Lz ev vjp Pp rp -> observations M obs tv ->
  forall agrad fuel p, exists j g, J_total ev agrad fuel Pp obs tv p = Some (Ok j) /\ J_grad ev agrad fuel vjp Pp rp obs tv p = Some (Ok g) /\ 0 <= j /\
  ((forall i, (i < num_total_nodes M)%nat -> g i = 0) <-> forall p' j', J_total ev agrad fuel Pp obs tv p' = Some (Ok j') -> j <= j').
Proof.
  intros V M B Nx Ny Nz Lx Ly Lz ev vjp Pp rp obs tv H Ho agrad fuel p. destruct (objective_values M B Nx Ny Nz Lx Ly Lz ev vjp Pp rp H) as (G & _ & _ & H2).
  destruct (H2 obs tv Ho agrad fuel p) as (j & g & Hj & Hg & Hp & Hd). exists j, g. split; [exact Hj|]. split; [exact Hg|]. split; [exact Hp|]. split.
  - intros Hz p' j' Hj'. specialize (Hd (fun i => p' i - p i)). cbv beta in Hd. replace (fun i => p i + (p' i - p i)) with p' in Hd by (apply functional_extensionality; intros; ring). rewrite Hd in Hj'. apply some_ok in Hj'. rewrite <- Hj'. clear j' Hj'.
    assert (E : dotN (num_total_nodes M) g (fun i => p' i - p i) = 0) by (apply sumN_zero; intros i Hi; rewrite Hz by exact Hi; ring). rewrite E. pose proof (squares_nonneg obs (field_of (num_total_nodes M) G (fun i => p' i - p i))) as Hs. lra.
  - intros Hmin i Hi. apply (square_line (g i) (sumR obs (fun n => field_of (num_total_nodes M) G (unit_vec i) n ^ 2)) (squares_nonneg obs _)). intros t.
    specialize (Hmin _ _ (Hd (fun k => t * unit_vec i k))). rewrite (sumR_ext _ _ (fun n => (t * field_of (num_total_nodes M) G (unit_vec i) n) ^ 2)) in Hmin by (intros; now rewrite field_scal). rewrite sumR_pow_scal in Hmin.
    assert (E : dotN (num_total_nodes M) g (fun k => t * unit_vec i k) = t * g i).
    { rewrite <- (dot_unit (num_total_nodes M) g i Hi). unfold dotN. rewrite <- sumN_scal. apply sumN_ext. intros; ring. }
    rewrite E in Hmin. lra.
Qed.
Print Assumptions infer_stationary_iff_minimum.
(** the Taylor test of the script: the remainder is h^2 times a constant, exactly; the reference line is a fifth of it *)
Theorem infer_taylor_test : forall V (M : fem V) B Nx Ny Nz Lx Ly Lz ev vjp Pp rp obs tv agrad fuel fn fn_grad, infer_setup M B Nx Ny Nz Lx Ly Lz ev vjp Pp rp -> observations M obs tv ->
  (forall p, J_total ev agrad fuel Pp obs tv p = Some (Ok (fn p))) -> (forall p, J_grad ev agrad fuel vjp Pp rp obs tv p = Some (Ok (fn_grad p))) ->
  exists Q, 0 <= Q /\ forall m, let res := taylor_tests (num_total_nodes M) m fn fn_grad in
  map snd res = map (fun h => h ^ 2 * Q) hs /\ ref_first (map snd res) = map (fun r => r / 5) (map snd res) /\
  forall i, (i < 4)%nat -> Rabs (fst (nth i res (0, 0))) <= nth i hs 0 * Rabs (dotN (num_total_nodes M) (fn_grad m) (fun _ => 1)) + nth i hs 0 ^ 2 * Q.
Proof.
  intros V M B Nx Ny Nz Lx Ly Lz ev vjp Pp rp obs tv agrad fuel fn fn_grad H Ho Hfn Hgr. destruct (objective_values M B Nx Ny Nz Lx Ly Lz ev vjp Pp rp H) as (G & _ & _ & H2). set (N := num_total_nodes M) in *.
  exists (sumR obs (fun n => field_of N G (fun _ => 1) n ^ 2)). set (Q := sumR obs _). assert (HQ : 0 <= Q) by apply squares_nonneg. split; [exact HQ|]. intros m.
  assert (Hh : forall h, fn (fun i => 1 * h + m i) = fn m + h * sumN N (fun i => fn_grad m i * 1) + h ^ 2 * Q).
  { intros h. destruct (H2 obs tv Ho agrad fuel m) as (j & g & Hj & Hg & _ & Hd). rewrite Hfn in Hj. injection Hj as <-. rewrite Hgr in Hg. injection Hg as <-. specialize (Hd (fun _ => h * 1)). rewrite Hfn in Hd. apply some_ok in Hd.
    replace (fun i => 1 * h + m i) with (fun i => m i + h * 1) by (apply functional_extensionality; intros; ring). rewrite Hd.
    rewrite (sumR_ext _ _ (fun n => (h * field_of N G (fun _ => 1) n) ^ 2)) by (intros; now rewrite field_scal). rewrite sumR_pow_scal. fold Q. f_equal. f_equal. unfold dotN. rewrite <- sumN_scal. apply sumN_ext. intros; ring. }
  assert (Hr : map snd (taylor_tests N m fn fn_grad) = map (fun h => h ^ 2 * Q) hs).
  { unfold taylor_tests. rewrite map_map. apply map_ext_in. intros h Hin. cbn [snd]. rewrite Hh. replace (_ - _ - _) with (h ^ 2 * Q) by ring. apply Rabs_pos_eq. apply Rmult_le_pos; [apply pow2_ge_0|exact HQ]. }
  cbv zeta. split; [exact Hr|]. split.
  - rewrite Hr. unfold ref_first, hs. cbn [map last]. f_equal; [field|]. f_equal; [field|]. f_equal; [field|]. f_equal. field.
  - intros i Hi. unfold taylor_tests, hs. cbn [map].
    assert (T : forall h, 0 < h -> Rabs (Rabs (fn (fun k => 1 * h + m k) - fn m)) <= h * Rabs (dotN N (fn_grad m) (fun _ => 1)) + h ^ 2 * Q).
    { intros h Hp. rewrite Rabs_Rabsolu, Hh. replace (_ - _) with (h * sumN N (fun k => fn_grad m k * 1) + h ^ 2 * Q) by ring. eapply Rle_trans; [apply Rabs_triang|]. rewrite Rabs_mult, (Rabs_pos_eq h) by lra. rewrite (Rabs_pos_eq (h ^ 2 * Q)); [unfold dotN; lra|]. apply Rmult_le_pos; [apply pow2_ge_0|exact HQ]. }
    do 4 (destruct i as [|i]; [cbn [nth fst]; apply T; lra|]). lia.
Qed.
Print Assumptions infer_taylor_test.
(** one observed value 2 at the middle of the cubes *)
Example infer_gradient_case : exists g u, J_total exact_env (fun _ _ => vzero) 5 cubes_problem [13%nat] [2] (fun _ => 0) = Some (Ok 4) /\
  J_grad exact_env (fun _ _ => vzero) 5 (exact_vjp 27) cubes_problem cubes_residual [13%nat] [2] (fun _ => 0) = Some (Ok g) /\
  fwd_pred exact_env (fun _ _ => vzero) 5 cubes_problem (unit_vec 13) = Some (Ok u) /\ g 13%nat = - 4 * u 13%nat 0%nat.
Proof.
  destruct (infer_gradient_exact R cubes ex_basix 2 2 2 2 2 2 exact_env _ cubes_problem cubes_residual cubes_setup) as (G & HG & HJ). change (num_total_nodes cubes) with 27%nat in *.
  destruct (HJ [13%nat] [2] cubes_obs (fun _ _ => vzero) 5%nat (fun _ => 0)) as (j & g & Hj & Hg & Hd). destruct (HG (fun _ _ => vzero) 5%nat (unit_vec 13)) as (u & Hu & Hv). destruct (HG (fun _ _ => vzero) 5%nat (fun _ => 0)) as (u0 & Hu0 & Hv0).
  specialize (Hd (unit_vec 13)). specialize (Hv 13%nat ltac:(lia)). specialize (Hv0 13%nat ltac:(lia)). unfold field_of in Hv0. rewrite sumN_zero in Hv0 by (intros; ring).
  replace (fun i => 0 + unit_vec 13 i) with (unit_vec 13) in Hd by (apply functional_extensionality; intros; ring).
  unfold J_total in Hj, Hd. rewrite Hu0 in Hj. rewrite Hu in Hd. unfold J_fn in Hj, Hd. cbn [option_map bind List.length Nat.eqb combine sumR fst snd] in Hj, Hd. rewrite Hv0 in Hj. rewrite <- Hv in Hd. apply some_ok in Hj. apply some_ok in Hd. rewrite (dot_unit 27 g 13 ltac:(lia)) in Hd.
  exists g, u. split; [unfold J_total; rewrite Hu0; unfold J_fn; cbn [option_map bind List.length Nat.eqb combine sumR fst snd]; rewrite Hv0; do 2 f_equal; ring|]. split; [exact Hg|]. split; [exact Hu|]. rewrite <- Hj in Hd. lra.
Qed.

(** ** C155: what the observations do not determine *)
Theorem infer_source_not_unique : forall V (M : fem V) B Nx Ny Nz Lx Ly Lz ev vjp Pp rp, infer_setup M B Nx Ny Nz Lx Ly Lz ev vjp Pp rp ->
  exists d : vector, (exists n, (n < num_total_nodes M)%nat /\ d n <> 0) /\
  forall t p obs tv agrad fuel, observations M obs tv -> exists u u' j, fwd_pred ev agrad fuel Pp p = Some (Ok u) /\ fwd_pred ev agrad fuel Pp (fun i => p i + t * d i) = Some (Ok u') /\
  (forall n, (n < num_total_nodes M)%nat -> u' n 0%nat = u n 0%nat) /\
  J_total ev agrad fuel Pp obs tv p = Some (Ok j) /\ J_total ev agrad fuel Pp obs tv (fun i => p i + t * d i) = Some (Ok j).
Proof.
  intros V M B Nx Ny Nz Lx Ly Lz ev vjp Pp rp H. destruct (objective_values M B Nx Ny Nz Lx Ly Lz ev vjp Pp rp H) as (G & H1 & HG & _).
  destruct (silent_source M B Nx Ny Nz Lx Ly Lz ev vjp Pp rp G H HG) as (d & Hd & Hz). exists d. split; [exact Hd|]. intros t p obs tv agrad fuel [Hl Ho].
  destruct (H1 agrad fuel p) as (u & Hu & Hv). destruct (H1 agrad fuel (fun i => p i + t * d i)) as (u' & Hu' & Hv').
  assert (E : forall n, (n < num_total_nodes M)%nat -> u' n 0%nat = u n 0%nat).
  { intros n Hn. rewrite (Hv n Hn), (Hv' n Hn). transitivity (field_of (num_total_nodes M) G p n + t * field_of (num_total_nodes M) G d n); [|rewrite (Hz n Hn); ring].
    unfold field_of. rewrite <- sumN_scal, <- sumN_add. apply sumN_ext. intros; ring. }
  exists u, u', (sumR (combine obs tv) (fun p => (u (fst p) 0%nat - snd p) ^ 2)). split; [exact Hu|]. split; [exact Hu'|]. split; [exact E|]. unfold J_total. rewrite Hu, Hu'. cbn [option_map bind]. unfold J_fn. rewrite Hl, Nat.eqb_refl. split; [reflexivity|]. do 2 f_equal.
  apply sumR_ext. intros [n y] Hin. cbn [fst snd]. rewrite E; [reflexivity|]. rewrite Forall_forall in Ho. apply Ho. exact (in_combine_l _ _ _ _ Hin).
Qed.
Print Assumptions infer_source_not_unique.
(** an affine source given as a function in problem_fwd: its values at the nodes reproduce every observation *)
Theorem infer_affine_source_fits : forall V (M : fem V) B Nx Ny Nz Lx Ly Lz ev vjp Pp rp fn jac cjac eps P obs, infer_setup M B Nx Ny Nz Lx Ly Lz ev vjp Pp rp ->
  (exists b g, forall x, fn x 0%nat = b + sumN 3 (fun d => g d * x d)) -> Forall (fun n => (n < num_total_nodes M)%nat) obs ->
  exact_jacobians (infer_fem M (Some fn)) fresh_vars jac -> fem_problem (infer_fem M (Some fn)) [] fresh_vars jac cjac (Some (zero_sides Lx Ly Lz)) None eps = Ok P ->
  forall agrad fuel, exists true_sol, solver ev P agrad fuel true true None false = Some (Ok true_sol) /\
  J_total ev agrad fuel Pp obs (map (fun n => true_sol n 0%nat) obs) (fun n => fn (points M n) 0%nat) = Some (Ok 0).
Proof.
  intros V M B Nx Ny Nz Lx Ly Lz ev vjp Pp rp fn jac0 cjac0 eps0 P obs (HF & Hex & Hfl & Hv & (jac & cjac & eps & Hj & HP) & Hr) Haff Ho Hj0 HP0 agrad fuel.
  destruct (poisson_solved R (infer_fem M (Some fn)) B Nx Ny Nz Lx Ly Lz [] fresh_vars jac0 cjac0 _ _ _ eps0 P HF eq_refl eq_refl eq_refl ltac:(split; [split; constructor|split; [exact I|intros s []]]) Hj0 HP0 ltac:(repeat constructor)
    (held_somewhere M B Nx Ny Nz Lx Ly Lz HF) ev agrad fuel true None false Hex Hfl) as (u & Hu & Hs & _). exists u. split; [exact Hu|].
  destruct (inf_solved M B Nx Ny Nz Lx Ly Lz ev Pp HF Hex Hfl jac cjac eps Hj HP agrad fuel (nodal_source M fn)) as (w & Hw & _ & Hq).
  assert (Hsame : same_field (infer_fem M None) u w).
  { apply Hq. apply (sol_zero M Lx Ly Lz Pp rp jac cjac eps Hj HP Hr). destruct Hs as [Hval (r & Er & Hz)]. split.
    - intros n Hn Hf. destruct (last_exists (infer_fem M (Some fn)) _ _ n 0%nat Hf) as (i & Hi). rewrite (Hval i n 0%nat Hn Hi). apply (zero_value Lx Ly Lz).
    - intros n Hn Hf. rewrite (rp_value M B Nx Ny Nz Lx Ly Lz rp HF Hr _ u n Hn). rewrite <- (truth_residual M B Nx Ny Nz Lx Ly Lz fn HF Haff u r Er n Hn). apply Hz; [exact Hn|cbn; lia|exact Hf]. }
  change (fun n => fn (points M n) 0%nat) with (nodal_source M fn). unfold J_total. rewrite Hw. cbn [option_map bind]. unfold J_fn. rewrite map_length, Nat.eqb_refl. do 2 f_equal.
  clear -Hsame Ho. induction Ho as [|n obs Hn Ho IH]; [reflexivity|]. cbn [map combine sumR fst snd]. rewrite IH, (Hsame n 0%nat Hn ltac:(cbn; lia)). ring.
Qed.
Print Assumptions infer_affine_source_fits.
(** on the cubes: a source of 1 + x *)
Definition rising : point -> nat -> R := fun x _ => 1 + x 0%nat.
Definition rising_fem : fem R := infer_fem cubes (Some rising).
Definition rising_problem : problem :=
  match fem_problem rising_fem [] fresh_vars (unit_jac rising_fem) cjac0 (Some (zero_sides 2 2 2)) None None with Ok q => q | Err _ => per 4 end.
Example infer_affine_case : exists true_sol, solver exact_env rising_problem (fun _ _ => vzero) 5 true true None false = Some (Ok true_sol) /\
  J_total exact_env (fun _ _ => vzero) 5 cubes_problem [13; 5]%nat [true_sol 13%nat 0%nat; true_sol 5%nat 0%nat] (fun n => 1 + points cubes n 0%nat) = Some (Ok 0).
Proof.
  refine (infer_affine_source_fits R cubes ex_basix 2 2 2 2 2 2 exact_env _ cubes_problem cubes_residual rising (unit_jac rising_fem) cjac0 None rising_problem [13; 5]%nat cubes_setup _ _ _ eq_refl (fun _ _ => vzero) 5%nat).
  - exists 1, (fun d => match d with 0%nat => 1 | _ => 0 end). intros x. unfold rising, sumN. cbn [seq sumR]. ring.
  - repeat constructor; vm_compute; lia.
  - apply (unit_jac_exact rising_fem (fun _ => poisson_map) eq_refl (poisson_linear rising_fem) eq_refl). intros vars G H k d HG Hk Hd. now apply HG.
Qed.

(** ** C156: the quadrature norm that measures the errors *)
Theorem L2_is_a_norm : forall (F : fem R) B Nx Ny Nz Lx Ly Lz, box_hex F B Nx Ny Nz Lx Ly Lz -> forall u,
  compute_L2 F u = square_integral F u /\ 0 <= compute_L2 F u /\ (compute_L2 F u = 0 <-> same_field F u (fun _ _ => 0)) /\
  (forall w, sqrt (compute_L2 F (fun n k => u n k - w n k)) / sqrt (compute_L2 F u) = 0 -> same_field F u (fun _ _ => 0) \/ same_field F w u).
Proof.
  intros F B Nx Ny Nz Lx Ly Lz HF u. destruct (L2_definite F B Nx Ny Nz Lx Ly Lz HF u) as [H0 H1]. split; [exact (L2_is_integral F B Nx Ny Nz Lx Ly Lz HF u)|]. split; [exact H0|]. split; [exact H1|].
  intros w Hw. destruct (Req_dec (compute_L2 F u) 0) as [E|E]; [left; now apply H1|right].
  destruct (L2_definite F B Nx Ny Nz Lx Ly Lz HF (fun n k => u n k - w n k)) as [D0 D1]. apply Rmult_integral in Hw as [Hw|Hw].
  - apply sqrt_eq_0 in Hw; [|exact D0]. apply D1 in Hw. intros n k Hn Hk. specialize (Hw n k Hn Hk). cbv beta in Hw. lra.
  - exfalso. assert (Hs : 0 < sqrt (compute_L2 F u)) by (apply sqrt_lt_R0; lra). apply (Rinv_neq_0_compat _ (Rgt_not_eq _ _ Hs) Hw).
Qed.
Print Assumptions L2_is_a_norm.
Example L2_case : 0 < compute_L2 cubes_fem (one_dof 13 0) /\ compute_L2 cubes_fem (fun _ _ => 0) = 0.
Proof.
  split.
  - destruct (L2_is_a_norm cubes_fem ex_basix 2 2 2 2 2 2 cubes_hex (one_dof 13 0)) as (_ & H0 & H1 & _). destruct (Rle_lt_or_eq_dec _ _ H0) as [H|H]; [exact H|exfalso]. symmetry in H. apply H1 in H.
    specialize (H 13%nat 0%nat ltac:(vm_compute; lia) ltac:(cbn; lia)). unfold one_dof in H. cbn in H. lra.
  - apply (L2_is_a_norm cubes_fem ex_basix 2 2 2 2 2 2 cubes_hex). intros n k _ _. reflexivity.
Qed.

(** ** C157: objective_wrapper and derivative_wrapper *)
Theorem wrapper_right_in_step : forall value grad cs, in_step None cs -> wrapper_run value grad None cs = Ok (map (right_reply value grad) cs).
Proof. intros value grad cs H. exact (wrapper_in_step value grad cs None H). Qed.
Print Assumptions wrapper_right_in_step.
(** ... but the point that derivative_wrapper is given plays no part: elsewhere the answer is the old gradient, and there is none at first *)
Theorem wrapper_derivative_refuted : forall value grad x y z,
  wrapper_run value grad None [Objective x; Derivative y] = Ok [Value (value x); Gradient (grad x)] /\
  wrapper_run value grad None [Objective x; Objective z; Derivative x] = Ok [Value (value x); Value (value z); Gradient (grad z)] /\
  wrapper_run value grad None [Derivative y] = Err AttributeError.
Proof. intros. repeat split. Qed.
Print Assumptions wrapper_derivative_refuted.
Definition line (x : vector) : R := x 0%nat ^ 2.
Definition line_grad (x : vector) : vector := fun _ => 2 * x 0%nat.
Example wrapper_case :
  wrapper_run line line_grad None [Objective (fun _ => 3); Derivative (fun _ => 3); Objective (fun _ => 1)] = Ok [Value (3 ^ 2); Gradient (fun _ => 2 * 3); Value (1 ^ 2)] /\
  wrapper_run line line_grad None [Objective (fun _ => 3); Derivative (fun _ => 1)] <> Ok (map (right_reply line line_grad) [Objective (fun _ => 3); Derivative (fun _ => 1)]).
Proof.
  split; [refine (wrapper_right_in_step line line_grad _ _); cbn; auto|]. intros H.
  assert (E : line_grad (fun _ => 3) = line_grad (fun _ => 1)) by (unfold wrapper_run, wrapper_step, map, right_reply, bind in H; congruence). apply (f_equal (fun g => g 0%nat)) in E. unfold line_grad in E. lra.
Qed.
Close Scope R_scope.
