(** * A block of one cube for the inverse example. *)
From Coq Require Import String FunctionalExtensionality ClassicalEpsilon Lra Lia.
From Verif Require Import Prelude PreludeFacts FemModel FemSpec FemFacts FemAsmProofs FemGeoProofs FemMatProofs BasisModel BasisSpec BasisExamples MatModel MatSpec MatProofs MatHyperProofs RveModel RveSpec RveExamples
  SolverModel SolverSpec SolverProofs SolverAdProofs SolverFemProofs SolverExamples LinFacts BoxSpec BoxProofs BoxExamples WellSpec WellProofs WellBoxProofs WellMainProofs WellExamples InvModel InvSpec InvProofs InvGradProofs InvRestProofs.
Open Scope R_scope.
Open Scope list_scope.

(** a function that transposes derivatives of functions with n values exists *)
Definition derivative_of (n : nat) (f : vector -> vector) (x : vector) (D : vector -> vector) : Prop :=
  forall d i, (i < n)%nat -> derivable_pt_lim (fun t => f (step x t d) i) 0 (D d i).
Definition transposer (n : nat) (f : vector -> vector) (x w : vector) : vector :=
  fun j => dotN n w (epsilon (inhabits (fun _ => vzero)) (derivative_of n f x) (unit_vec j)).
Lemma transposer_ok n m : transposes n m (transposer n).
Proof.
  intros f x D HD Hder w d. pose proof (epsilon_spec (inhabits (fun _ : vector => vzero)) (derivative_of n f x) (ex_intro _ D Hder)) as He.
  set (D' := epsilon (inhabits (fun _ => vzero)) (derivative_of n f x)) in *.
  assert (E : forall e i, (i < n)%nat -> D' e i = D e i) by (intros e i Hi; exact (dl_unique _ _ _ _ (He e i Hi) (Hder e i Hi))).
  unfold dotN, transposer. fold D'. unfold dotN. rewrite (sumN_ext m _ (fun j => sumN n (fun i => w i * D (unit_vec j) i * d j))) by (intros j _; rewrite <- sumN_scal_r; apply sumN_ext; intros i Hi; now rewrite E).
  rewrite sumN_swap. apply sumN_ext. intros i Hi. rewrite (linear_map_matrix n m D HD d i Hi), <- sumN_scal. apply sumN_ext. intros; ring.
Qed.

(** ** the derivative of the element function of an unloaded block *)
Section RestJac.
Context {V : Type}.
Variable M : fem V.
Variable P_fn : R -> R -> mat -> mat.
Variables (Bx : basix) (Nx Ny Nz : nat) (Lx Ly Lz : R).
Hypothesis HB : box_hex M Bx Nx Ny Nz Lx Ly Lz.
Hypothesis HP : psi_contract P_fn.
Definition soft (E : R) (vars : list R) (H : mat) : mat := fun i j => match vars with [rho] => E * rho / 70000 * linear_elastic_stress 3 H i j | _ => 0 end.
Definition soft_fem (p : vector) : fem R := mkFem (f_ele M) (num_total_nodes M) (points M) (cells M) 3 (Some (soft (E_of p))) None (fun u => u) None None None.
Definition rest_jac (p : vector) := unit_jac (soft_fem p).
Lemma soft_linear p : linear_tensor (soft_fem p) (soft (E_of p)).
Proof. intros vars a G H k d _ _. unfold soft. destruct vars as [|rho [|? ?]]; [ring| |ring]. unfold linear_elastic_stress, trace. rewrite !sumN3. ring. Qed.
Lemma rest_jac_exact p t u : lifted t u -> exact_at M P_fn rest_jac p u.
Proof.
  intros Hu.
  pose proof (box_mesh_ok M Bx Nx Ny Nz Lx Ly Lz HB) as HM. pose proof (inv_dim M HM) as Hdim.
  unfold exact_at. cbv zeta. set (F := inv_fem M P_fn p). set (iv := inv_vars M p). intros c Hc d a k Ha Hk. change (vec F) with 3%nat in Hk.
  assert (HE := unit_jac_exact (soft_fem p) (soft (E_of p)) eq_refl (soft_linear p) eq_refl).
  assert (Hloc : forall vars G H k d, (forall i j, (i < vec (soft_fem p))%nat -> (j < dim (soft_fem p))%nat -> G i j = H i j) -> (k < vec (soft_fem p))%nat -> (d < dim (soft_fem p))%nat -> soft (E_of p) vars G k d = soft (E_of p) vars H k d).
  { intros vars G H i j HG Hi Hj. change (vec (soft_fem p)) with 3%nat in *. change (dim (soft_fem p)) with (dim M) in *. rewrite Hdim in *. unfold soft. destruct vars as [|rho [|? ?]]; try reflexivity.
    unfold linear_elastic_stress, trace. rewrite !sumN3, !HG by lia. reflexivity. }
  specialize (HE Hloc iv u c Hc d a k Ha Hk).
  set (cs := cells_sol F u c).
  set (Hd := fun q (i j : nat) => sumN (num_nodes (f_ele M)) (fun b => d b i * shape_grads M c q b j)).
  set (D := sumN (num_quads (f_ele M)) (fun q => sumN 3 (fun e => E_of p * rho_of M p c q / 70000 * linear_elastic_stress 3 (Hd q) k e * v_grads_JxW M c q a e))).
  assert (Hv : vars_at (iv_laplace iv) c = [rho_of M p c]) by (unfold vars_at; cbn [iv_laplace iv inv_vars flat_map]; rewrite nth_error_map_seq by exact Hc; reflexivity).
  assert (E1 : jac_mul F (cell_jac F (rest_jac p) iv u c) d a k = D).
  { refine (dl_unique _ _ _ _ HE _). unfold kernel. cbn [tensor_map mass_map soft_fem]. unfold laplace_kernel. change (dim (soft_fem p)) with (dim M). rewrite Hdim, Hv. cbn [map]. cbn [soft].
    eapply dl_eq; [|intros s; symmetry; apply Rplus_0_r|reflexivity].
    apply (dl_sumN _ (fun q s => sumN 3 (fun e => E_of p * rho_of M p c q / 70000 * linear_elastic_stress 3 (fun i j => sumN (num_nodes (f_ele M)) (fun b => add_step cs s d b i * shape_grads M c q b j)) k e * v_grads_JxW M c q a e))). intros q _.
    apply (dl_sumN _ (fun e s => E_of p * rho_of M p c q / 70000 * linear_elastic_stress 3 (fun i j => sumN (num_nodes (f_ele M)) (fun b => add_step cs s d b i * shape_grads M c q b j)) k e * v_grads_JxW M c q a e)). intros e He.
    set (G0 := fun i j : nat => sumN (num_nodes (f_ele M)) (fun b => cs b i * shape_grads M c q b j)). set (w := v_grads_JxW M c q a e). set (mo := E_of p * rho_of M p c q / 70000).
    apply (dl_eq (fun s => mo * linear_elastic_stress 3 G0 k e * w + s * (mo * linear_elastic_stress 3 (Hd q) k e * w)) _ 0 (mo * linear_elastic_stress 3 (Hd q) k e * w)); [apply dl_line| |reflexivity].
    intros s. assert (EG : (fun i j => sumN (num_nodes (f_ele M)) (fun b => add_step cs s d b i * shape_grads M c q b j)) = (fun i j => s * Hd q i j + G0 i j)).
    { apply functional_extensionality. intros i. apply functional_extensionality. intros j. unfold Hd, G0. rewrite <- sumN_scal, <- sumN_add. apply sumN_ext. intros b _. unfold add_step. ring. }
    rewrite EG. unfold linear_elastic_stress, trace. rewrite !sumN3. ring. }
  fold cs. rewrite E1. unfold kernel. cbn [tensor_map mass_map F inv_fem]. unfold laplace_kernel. change (dim F) with (dim M). rewrite Hdim, Hv. cbn [map inv_tensor_map].
  eapply dl_eq; [|intros s; symmetry; apply Rplus_0_r|reflexivity].
  apply (dl_sumN _ (fun q s => sumN 3 (fun e => P_fn (E_of p * rho_of M p c q) (3 / 10) (fun i j => sumN (num_nodes (f_ele M)) (fun b => add_step cs s d b i * shape_grads M c q b j) + eye i j) k e * v_grads_JxW M c q a e))). intros q Hq.
  apply (dl_sumN _ (fun e s => P_fn (E_of p * rho_of M p c q) (3 / 10) (fun i j => sumN (num_nodes (f_ele M)) (fun b => add_step cs s d b i * shape_grads M c q b j) + eye i j) k e * v_grads_JxW M c q a e)). intros e He.
  set (Dq := fun (s : R) (i j : nat) => sumN (num_nodes (f_ele M)) (fun b => add_step cs s d b i * shape_grads M c q b j) + eye i j).
  assert (HD : forall s, meq 3 (near_rest (Hd q) s) (Dq s)).
  { intros s i j Hi _. unfold near_rest. rewrite <- (lifted_grad M Bx Nx Ny Nz Lx Ly Lz HB t u c q i j Hu Hq Hi). unfold def_grad, Hd, Dq, sol_to_grad. rewrite <- Rplus_assoc. f_equal. rewrite <- sumN_scal, <- sumN_add. apply sumN_ext. intros b _. unfold add_step, cs, cells_sol. change (cell_node F c b) with (cell_node M c b). ring. }
  eapply dl_eq; [apply (dl_scal (v_grads_JxW M c q a e)); exact (stress_linearised P_fn (E_of p * rho_of M p c q) (Hd q) Dq k e HP HD Hk He)| |ring].
  intros s. cbv beta. apply Rmult_comm.
Qed.
End RestJac.
(** ** one cube: eight nodes, eight quadrature points *)
Definition block : fem R := brick 1 1 1 1 1 1 (fun _ => poisson_map) None.
Definition block_problem (p : vector) : problem :=
  match fem_problem (inv_fem block P_ex p) (inv_inds block 1) (inv_vars block p) (rest_jac block p) cjac0 (Some (inv_dirichlet block 1 p)) None None with Ok q => q | Err _ => per 4 end.
Definition block_residual (p : vector) (u : nodal) : nodal := match compute_residual_vars (inv_fem block P_ex p) (inv_inds block 1) u (inv_vars block p) with Ok r => r | Err _ => fun _ _ => 0 end.
Lemma block_hex : box_hex block ex_basix 1 1 1 1 1 1.
Proof. exact (brick_hex 1 1 1 1 1 1 (fun _ => poisson_map) None ltac:(lia) ltac:(lia) ltac:(lia) ltac:(lra) ltac:(lra) ltac:(lra)). Qed.
Lemma block_ok : mesh_ok block.
Proof. exact (box_mesh_ok block ex_basix 1 1 1 1 1 1 block_hex). Qed.
Lemma block_objects : inv_objects block P_ex 1 (rest_jac block) block_problem block_residual.
Proof.
  split; [exists cjac0, None; intros p; reflexivity|]. intros p u. destruct (residual_ok block P_ex 1 block_ok p u) as (r & Hr). unfold block_residual. rewrite Hr. reflexivity.
Qed.
Lemma block_weights : positive_weights block.
Proof.
  intros c q Hc Hq. unfold JxW. pose proof block_hex as (H & Hq2 & Hx & Hy & Hz & H1 & H2 & H3 & Hm & Hnn & HE).
  rewrite (box_det ex_basix H block 1 1 1 1 1 1 Hx Hy Hz Hm Hnn HE c q Hc). apply Rmult_lt_0_compat; [unfold hh; cbn; lra|].
  change (num_quads (f_ele block)) with 8%nat in Hq. do 8 (destruct q as [|q]; [cbn; lra|]). lia.
Qed.
Lemma block_setup : inv_setup block P_ex 1 (rest_jac block) block_problem block_residual exact_env (transposer 24).
Proof.
  split; [exact block_ok|]. split; [exact P_ex_ok|]. split; [exact block_objects|]. split; [exact (proj1 exact_env_ok)|].
  split; apply (transposer_ok 24).
Qed.
(** lifted by one, and the parameters: modulus 2, density 1, no loads *)
Definition up : vector := fun i => if Nat.eqb (i mod 3) 2 then 1 else 0.
Definition block_params (e n s : R) : vector := pack block e (fun _ => 1) 1 n s.
Lemma up_lifted : lifted 1 (as_field up).
Proof. intros n k Hk. unfold as_field, up. rewrite <- (Nat.mod_unique (3 * n + k) 3 n k Hk eq_refl). reflexivity. Qed.
Lemma block_fields e n s : E_of (block_params e n s) = e /\ (forall c q, (c < num_cells block)%nat -> (q < num_quads (f_ele block))%nat -> rho_of block (block_params e n s) c q = 1)
  /\ d_of block (block_params e n s) = 1 /\ n_of block (block_params e n s) = n /\ s_of block (block_params e n s) = s.
Proof. exact (pack_fields block e (fun _ => 1) 1 n s). Qed.
Lemma block_regular e n s : 0 < e -> regular block_problem (block_params e n s) (as_field up).
Proof.
  intros He. destruct (block_fields e n s) as (H1 & H2 & _). destruct block_objects as [(cjac & eps & Hpp) _].
  apply (rest_regular block P_ex ex_basix 1 1 1 1 1 1 block_hex P_ex_ok block_weights (rest_jac block) block_problem cjac eps Hpp (block_params e n s) 1).
  - exact up_lifted.
  - intros c q Hc Hq. rewrite H1, (H2 c q Hc Hq). lra.
  - exact (rest_jac_exact block P_ex ex_basix 1 1 1 1 1 1 block_hex P_ex_ok _ 1 _ up_lifted).
Qed.
Close Scope R_scope.
