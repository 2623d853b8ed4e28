(** * Concrete topology optimisation problems. *)
From Coq Require Import FunctionalExtensionality ClassicalEpsilon Lra Lia Psatz.
From Verif Require Import Prelude PreludeFacts FemModel FemFacts FemSpec FemGeoProofs FemMatProofs FemExamples MatModel MatSpec MatProofs MatPlasticProofs MatTopProofs FormModel SolverModel.
From Verif Require Import TopModel TopSpec TopLProofs TopEigenProofs TopPlasticProofs.
Open Scope R_scope.

(** ** A unit square with quadrature points at its corners *)
Definition quad_ele : ele :=
  mkEle 2 4 4 0 (fun q a => if Nat.eqb q a then 1 else 0)
    (pick3 [[[-1; -1]; [1; 0]; [0; 0]; [0; 1]]; [[-1; 0]; [1; -1]; [0; 1]; [0; 0]]; [[0; 0]; [0; -1]; [1; 1]; [-1; 0]]; [[0; -1]; [0; 0]; [1; 0]; [-1; 1]]])
    (fun _ => 1 / 4) (fun _ _ _ => 0) (fun _ _ _ _ => 0) (fun _ _ => 0) (fun _ _ => 0) [].
Definition square (tm : option (list (list R) -> mat -> mat)) mm : fem (list R) :=
  mkFem quad_ele 4 square_pts [[0; 1; 2; 3]]%nat 2 tm mm (fun u => u) None None None.
Definition sqK : fem (list R) := square (Some stiffness_map) None.
Definition sqM : fem (list R) := square None (Some mass_density_map).
Lemma sqK_ok : stiffness_problem sqK.
Proof. split; [|split; reflexivity]. repeat split; try constructor; try (cbn; lia); repeat constructor. Qed.
Lemma sqM_ok : mass_problem sqM.
Proof. split; [|split; reflexivity]. repeat split; try constructor; try (cbn; lia); repeat constructor. Qed.
Lemma sq_jac tm mm q i j : (q < 4)%nat -> (i < 2)%nat -> (j < 2)%nat -> jacobian_dx_deta (square tm mm) 0 q i j = if Nat.eqb i j then 1 else 0.
Proof.
  intros Hq Hi Hj. unfold jacobian_dx_deta, physical_coos, cell_node, sumN. cbn [f_ele square num_nodes quad_ele cells nth points shape_grads_ref seq sumR]. unfold square_pts, pick3, pick2, pick.
  lt_cases q; lt_cases i; lt_cases j; cbn; lra.
Qed.
Lemma sq_det tm mm q : (q < 4)%nat -> jacobian_det (square tm mm) 0 q = 1.
Proof. intros Hq. unfold jacobian_det. change (dim (square tm mm)) with 2%nat. unfold det. rewrite !sq_jac by lia. cbn. ring. Qed.
Lemma sq_JxW tm mm q : (q < 4)%nat -> JxW (square tm mm) 0 q = 1 / 4.
Proof. intros Hq. unfold JxW. rewrite sq_det by exact Hq. cbn. ring. Qed.
Lemma sq_grads tm mm q a j : (q < 4)%nat -> (j < 2)%nat -> shape_grads (square tm mm) 0 q a j = shape_grads_ref quad_ele q a j.
Proof.
  intros Hq Hj. unfold shape_grads, jacobian_deta_dx, inv. change (dim (square tm mm)) with 2%nat. change (det 2 (jacobian_dx_deta (square tm mm) 0 q)) with (jacobian_det (square tm mm) 0 q). rewrite sq_det by exact Hq.
  change (f_ele (square tm mm)) with quad_ele. unfold adj. cbn [seq sumR sumN]. unfold sumN. cbn [seq sumR]. rewrite !sq_jac by lia. cbn [Nat.eqb]. destruct j as [|[|j]]; [| |lia]; field.
Qed.
Lemma sq_tables tm mm : fem_tables (square tm mm).
Proof.
  repeat split.
  - right. left. reflexivity.
  - intros q j Hq Hj. cbn in Hq, Hj. lt_cases q; lt_cases j; cbn; unfold pick3, pick2, pick; cbn; lra.
  - intros q Hq. cbn in Hq. lt_cases q; cbn; lra.
  - intros f p Hf Hp. cbn in Hp. lia.
  - intros c q Hc Hq. cbn in Hc, Hq. destruct c; [|lia]. rewrite sq_det by exact Hq. lra.
Qed.
Lemma sq_positive tm mm : positive_weights (square tm mm).
Proof. intros c q Hc Hq. cbn in Hc, Hq. destruct c; [|lia]. rewrite sq_JxW by exact Hq. lra. Qed.
(** what jax.jacfwd returns for these linear kernels *)
Definition jac_K (s : nodal) g w vg (mv lv : list (nat -> list R)) : jac4 := fun a i b l => kernel sqK (one_dof b l) g w vg mv lv a i.
Definition jac_M (s : nodal) g w vg (mv lv : list (nat -> list R)) : jac4 := fun a i b l => kernel sqM (one_dof b l) g w vg mv lv a i.
Lemma linear_jacobian (F : fem (list R)) (K : nodal -> nodal) s :
  (forall u t d a i, (a < num_nodes (f_ele F))%nat -> (i < vec F)%nat -> K (add_step u t d) a i = K u a i + t * K d a i) ->
  (forall d a i, (a < num_nodes (f_ele F))%nat -> (i < vec F)%nat -> K d a i = jac_mul F (fun a i b l => K (one_dof b l) a i) d a i) ->
  is_jacobian F K s (fun a i b l => K (one_dof b l) a i).
Proof.
  intros H1 H2 d a i Ha Hi. rewrite <- H2 by assumption.
  eapply dl_eq; [exact (dl_add _ _ 0 _ _ (dl_const (K s a i) 0) (dl_scal (K d a i) _ 0 _ (derivable_pt_lim_id 0)))|intros t; cbn beta; rewrite H1 by assumption; unfold id; ring|ring].
Qed.
Ltac flat := unfold jac_mul, kernel, laplace_kernel, mass_kernel, add_step, one_dof, sumN;
  cbn [tensor_map mass_map sqK sqM square f_ele num_nodes num_quads vec dim quad_ele seq sumR].
Lemma sq_jac_K theta c : (c < 1)%nat ->
  is_jacobian sqK (fun s => kernel sqK s (shape_grads sqK c) (JxW sqK c) (v_grads_JxW sqK c) [] (vars_at [theta_array theta (num_cells sqK)] c))
    (cells_sol sqK (fun _ _ => 0) c) (cell_jac sqK jac_K (stiffness_vars (num_cells sqK) theta) (fun _ _ => 0) c).
Proof.
  intros Hc. apply (linear_jacobian sqK (fun s => kernel sqK s (shape_grads sqK c) (JxW sqK c) (v_grads_JxW sqK c) [] (vars_at [theta_array theta (num_cells sqK)] c))).
  - intros u t d a i _ Hi. generalize (shape_grads sqK c) (v_grads_JxW sqK c). intros g vg. flat. change (dim sqK) with 2%nat. cbn [seq sumR]. rewrite !theta_at by exact Hc. unfold stiffness_map, plane_stress, strain.
    cbn in Hi. destruct i as [|[|i]]; [| |lia]; ring.
  - intros d a i _ Hi. generalize (shape_grads sqK c) (v_grads_JxW sqK c). intros g vg. flat. change (dim sqK) with 2%nat. cbn [seq sumR]. rewrite !theta_at by exact Hc. unfold stiffness_map, plane_stress, strain.
    cbn in Hi. destruct i as [|[|i]]; [| |lia]; cbn [Nat.eqb andb]; ring.
Qed.
Lemma sq_jac_M theta c : (c < 1)%nat ->
  is_jacobian sqM (fun s => kernel sqM s (shape_grads sqM c) (JxW sqM c) (v_grads_JxW sqM c) (vars_at [theta_array theta (num_cells sqM)] c) [])
    (cells_sol sqM (fun _ _ => 0) c) (cell_jac sqM jac_M (mass_vars (num_cells sqM) theta) (fun _ _ => 0) c).
Proof.
  intros Hc. apply (linear_jacobian sqM (fun s => kernel sqM s (shape_grads sqM c) (JxW sqM c) (v_grads_JxW sqM c) (vars_at [theta_array theta (num_cells sqM)] c) [])).
  - intros u t d a i _ Hi. generalize (JxW sqM c). intros w. flat. rewrite !theta_at by exact Hc. unfold mass_density_map. ring.
  - intros d a i _ Hi. generalize (JxW sqM c). intros w. flat. rewrite !theta_at by exact Hc. unfold mass_density_map.
    cbn in Hi. destruct i as [|[|i]]; [| |lia]; cbn [Nat.eqb andb]; ring.
Qed.
(** the square growing about its centre *)
Definition breath : nodal := fun n k => square_pts n k - 1 / 2.
Lemma breath_grad q i d : (q < 4)%nat -> (i < 2)%nat -> (d < 2)%nat -> sol_to_grad sqK breath 0 q i d = if Nat.eqb i d then 1 else 0.
Proof.
  intros Hq Hi Hd. unfold sol_to_grad, cell_node, breath, sumN. change (f_ele sqK) with quad_ele. cbn [num_nodes quad_ele seq sumR cells sqK square nth].
  unfold sqK. rewrite !sq_grads by assumption. cbn [shape_grads_ref quad_ele]. unfold square_pts, pick3, pick2, pick. lt_cases q; lt_cases i; lt_cases d; cbn; lra.
Qed.
Lemma breath_k n k : (n < 4)%nat -> (k < 2)%nat -> cell_k sqK 0 breath (one_dof n k) = 10 / 7 * breath n k.
Proof.
  intros Hn Hk. unfold cell_k. change (num_quads (f_ele sqK)) with 4%nat.
  rewrite (sumN_ext 4 _ (fun q => 1 / 4 * (10 / 7 * shape_grads_ref quad_ele q n k))).
  - unfold sumN. cbn [seq sumR shape_grads_ref quad_ele]. unfold breath, square_pts, pick3, pick2, pick. lt_cases n; lt_cases k; cbn; lra.
  - intros q Hq. unfold sqK at 1. rewrite sq_JxW by exact Hq. f_equal. unfold ddot, sumN. cbn [seq sumR]. unfold unit_stress. rewrite !breath_grad by lia. cbn [Nat.eqb].
    assert (G : forall i d, (d < 2)%nat -> sol_to_grad sqK (one_dof n k) 0 q i d = if Nat.eqb i k then shape_grads_ref quad_ele q n d else 0).
    { intros i d Hd. unfold sol_to_grad, cell_node, one_dof, sumN. change (f_ele sqK) with quad_ele. cbn [num_nodes quad_ele seq sumR cells sqK square nth].
      unfold sqK. rewrite !sq_grads by assumption. lt_cases n; cbn [Nat.eqb andb nth]; destruct (Nat.eqb i k); cbn [andb]; ring. }
    rewrite !G by lia. destruct k as [|[|k]]; [| |lia]; cbn [Nat.eqb]; lra.
Qed.
Lemma breath_m n k : (n < 4)%nat -> (k < 2)%nat -> cell_m sqM 0 breath (one_dof n k) = 1 / 4 * breath n k.
Proof.
  intros Hn Hk. unfold cell_m. change (num_quads (f_ele sqM)) with 4%nat. unfold at_quad, convert_from_dof_to_quad, one_dof, cell_node. change (f_ele sqM) with quad_ele.
  unfold sumN. cbn [seq sumR num_nodes quad_ele shape_vals cells sqM square nth Nat.eqb]. unfold sqM. rewrite !sq_JxW by lia.
  lt_cases n; lt_cases k; cbn [nth Nat.eqb andb]; ring.
Qed.
Definition breath_value (t : R) : R := 40 / 7 * (modulus_of t / density_of t).
Lemma breath_mass : cell_m sqM 0 breath breath = 1 / 2.
Proof.
  unfold cell_m. change (num_quads (f_ele sqM)) with 4%nat. unfold at_quad, convert_from_dof_to_quad, cell_node. change (f_ele sqM) with quad_ele.
  unfold sumN. cbn [seq sumR num_nodes quad_ele shape_vals cells sqM square nth Nat.eqb]. unfold sqM. rewrite !sq_JxW by lia. unfold breath, square_pts, pick2, pick. cbn. lra.
Qed.
Lemma breath_pair theta : 0 < theta 0%nat -> eigenpair sqK sqM theta (breath_value (theta 0%nat)) breath.
Proof.
  intros Ht. destruct (k_work sqK theta breath sqK_ok) as (rK & HrK & HpK). destruct (m_work sqM theta breath sqM_ok) as (rM & HrM & HpM).
  exists rK, rM. split; [exact HrK|]. split; [exact HrM|]. split.
  - intros n k Hn Hk. rewrite <- (power_one_dof sqK rK n k Hn Hk), <- (power_one_dof sqM rM n k Hn Hk), HpK, HpM. unfold k_form, m_form.
    change (num_cells sqK) with 1%nat. change (num_cells sqM) with 1%nat. unfold sumN. cbn [seq sumR]. rewrite breath_k, breath_m by assumption. unfold breath_value, density_of. field. lra.
  - rewrite (vMv_form sqM theta breath sqM_ok). intros E. injection E as E. unfold m_form in E. change (num_cells sqM) with 1%nat in E. unfold sumN in E. cbn [seq sumR] in E.
    rewrite breath_mass in E. unfold density_of in E. lra.
Qed.
Lemma breath_branch theta : 0 < theta 0%nat -> exists dl, branch sqK sqM (fun t => shift theta 0 t) (fun t => breath_value (theta 0%nat + t)) (fun _ => breath) dl.
Proof.
  intros Ht. assert (D : derivable_pt_lim (fun t => theta 0%nat + t) 0 1).
  { eapply dl_eq; [exact (dl_add _ _ 0 _ _ (dl_const (theta 0%nat) 0) (derivable_pt_lim_id 0))|intros t; reflexivity|ring]. }
  assert (DM := dl_modulus (fun t => theta 0%nat + t) 1 ltac:(lra) D).
  assert (DD : derivable_pt_lim (fun t => density_of (theta 0%nat + t)) 0 (2700 * 1)) by exact (dl_scal 2700 _ 0 _ D).
  eexists. split.
  - exists (theta 0%nat). split; [exact Ht|]. intros t Hlt. apply Rabs_def2 in Hlt. assert (E : theta 0%nat + t = shift theta 0 t 0%nat) by reflexivity. rewrite E. apply breath_pair. rewrite <- E. lra.
  - unfold breath_value. apply (dl_scal (40 / 7)). refine (derivable_pt_lim_div _ _ 0 _ _ DM DD _). unfold density_of. lra.
  - exists (fun _ _ => 0). intros n k. apply dl_const.
Qed.
Lemma gradient_exists : exists grad, gradient_of grad.
Proof.
  exists (fun f theta c => epsilon (inhabits 0) (fun d => derivable_pt_lim (fun t => f (shift theta c t)) 0 d)). intros f theta c d Hd.
  exact (dl_unique _ _ _ _ (epsilon_spec (inhabits 0) (fun d => derivable_pt_lim (fun t => f (shift theta c t)) 0 d) (ex_intro _ d Hd)) Hd).
Qed.
Lemma list_gradient_exists : exists g, list_gradient_of g.
Proof.
  exists (fun f l => map (fun j => epsilon (inhabits 0) (fun d => derivable_pt_lim (fun t => f (nudge l j t)) 0 d)) (seq 0 (length l))). intros f l j d Hj Hd.
  rewrite (nth_indep _ 0 ((fun j => epsilon (inhabits 0) (fun d => derivable_pt_lim (fun t => f (nudge l j t)) 0 d)) 0%nat)) by (rewrite map_length, seq_length; exact Hj).
  rewrite (map_nth (fun j => epsilon (inhabits 0) (fun d => derivable_pt_lim (fun t => f (nudge l j t)) 0 d))), seq_nth by exact Hj. cbn [plus].
  exact (dl_unique _ _ _ _ (epsilon_spec (inhabits 0) (fun d => derivable_pt_lim (fun t => f (nudge l j t)) 0 d) (ex_intro _ d Hd)) Hd).
Qed.
Lemma shift_same theta t : shift theta 0 t 0%nat = theta 0%nat + t. Proof. reflexivity. Qed.
(** ten equal pairs *)
Definition ten (theta : nat -> R) : list (R * nodal) := repeat (breath_value (theta 0%nat), breath) 10.
Lemma ten_case theta t : ten (shift theta 0 t) = map (fun _ => (breath_value (theta 0%nat + t), breath)) (seq 0 10).
Proof. reflexivity. Qed.

(** ** One tetrahedron under five load steps: every node but node 2 is fixed, the face x = 0 is loaded *)
Definition block_ele : ele :=
  mkEle 3 1 4 1 (fun _ _ => / 4) (fun _ a j => pick2 [[-1; -1; -1]; [1; 0; 0]; [0; 1; 0]; [0; 0; 1]] a j) (fun _ => / 6)
    (fun _ _ => pick [1 / 3; 0; 1 / 3; 1 / 3]) (fun _ _ a j => pick2 [[-1; -1; -1]; [1; 0; 0]; [0; 1; 0]; [0; 0; 1]] a j) (fun _ _ => 1 / 2) (pick2 [[-1; 0; 0]]) [[0; 2; 3]]%nat.
Definition block : fem pvars :=
  mkFem block_ele 4 (pick2 [[0; 0; 0]; [2; 0; 0]; [0; 3; 0]; [0; 0; 1]]) [[0; 1; 2; 3]]%nat 3 (Some (top_tensor_map 3)) None (fun u => u) None None None.
Definition block_sel : list (nat * nat) := [(0, 0)]%nat.
Definition block_fixed (n k : nat) : bool := negb (Nat.eqb n 2).
Lemma block_ok : top_problem block block_sel.
Proof. repeat split; try reflexivity; try (cbn; lia); repeat constructor; cbn; lia. Qed.
Lemma block_det q : jacobian_det block 0 q = 6.
Proof. unfold jacobian_det, jacobian_dx_deta, physical_coos, cell_node, sumN. cbn. unfold pick2, pick. cbn. ring. Qed.
Lemma block_JxW q : JxW block 0 q = 1.
Proof. unfold JxW. rewrite block_det. cbn. field. Qed.
Lemma block_grad2 q j : (j < 3)%nat -> shape_grads block 0 q 2 j = if Nat.eqb j 1 then 1 / 3 else 0.
Proof.
  intros Hj. unfold shape_grads, jacobian_deta_dx, inv. change (dim block) with 3%nat. change (det 3 (jacobian_dx_deta block 0 q)) with (jacobian_det block 0 q). rewrite block_det.
  unfold sumN. cbn [seq sumR]. unfold adj, jacobian_dx_deta, physical_coos, cell_node, sumN. lt_cases j; cbn; unfold pick2, pick; cbn; field.
Qed.
(** a displacement of node 2 only *)
Definition only2 (w : nat -> R) : nodal := fun n k => if Nat.eqb n 2 then w k else 0.
Lemma only2_grad w q i d : (d < 3)%nat -> sol_to_grad block (only2 w) 0 q i d = w i * (if Nat.eqb d 1 then 1 / 3 else 0).
Proof.
  intros Hd. unfold sol_to_grad, cell_node, only2, sumN. change (f_ele block) with block_ele. cbn [num_nodes block_ele seq sumR cells block nth Nat.eqb]. rewrite block_grad2 by exact Hd. ring.
Qed.
Lemma block_area : nanson_scale block (0, 0)%nat 0 = 3 / 2.
Proof.
  unfold nanson_scale. change (dim block) with 3%nat. cbn [fst snd].
  assert (J : forall i j, (i < 3)%nat -> (j < 3)%nat -> face_jacobian block (0, 0)%nat 0 i j = if Nat.eqb i j then pick [2; 3; 1] i else 0).
  { intros i j Hi Hj. unfold face_jacobian, physical_coos, cell_node, sumN. lt_cases i; lt_cases j; cbn; unfold pick2, pick; cbn; ring. }
  assert (D : det 3 (face_jacobian block (0, 0)%nat 0) = 6). { unfold det. rewrite !J by lia. cbn. unfold pick. cbn. ring. }
  unfold inv. rewrite D. unfold adj, sumN. cbn [seq sumR]. rewrite !J by lia. cbn. unfold pick2, pick. cbn.
  match goal with |- sqrt ?x * 6 * (1 / 2) = _ => replace x with ((1 / 2) * (1 / 2)) by field end. rewrite sqrt_square by lra. field.
Qed.
Lemma block_compliance load w : compute_compliance block block_sel (neumann_val load) (only2 w) = - load * w 1%nat / 2.
Proof.
  unfold compute_compliance, block_sel, only2, cell_node. change (f_ele block) with block_ele. change (vec block) with 3%nat.
  unfold sumN. cbn [sumR seq num_face_quads block_ele num_nodes fst snd cells block nth Nat.eqb face_shape_vals]. rewrite block_area. unfold neumann_val, pick. cbn. field.
Qed.
(** the displacement for a load: node 2 moves along the second axis *)
Definition move (load : R) : R := - (9 / 2) * load * (26 / (35 * 70000)).
Definition block_solve (load : R) (_ : top_params) : nodal := only2 (fun k => if Nat.eqb k 1 then move load else 0).
Definition block_strain (load : R) : mat := fun i j => if Nat.eqb i 1 && Nat.eqb j 1 then move load / 3 else 0.
Lemma block_strain_eq load p q : meq 3 (strain (sol_to_grad block (block_solve load p) 0 q)) (block_strain load).
Proof.
  intros i j Hi Hj. unfold strain, block_solve, block_strain. rewrite !only2_grad by assumption. lt_cases i; lt_cases j; cbn [Nat.eqb andb]; field.
Qed.
Lemma E_one : top_E (1, 1) = 70000.
Proof. unfold top_E, simp. cbn [fst]. unfold Rpower. rewrite ln_1, Rmult_0_r, exp_0. lra. Qed.
Lemma sig0_one : top_sig0 (1, 1) = 350. Proof. unfold top_sig0. cbn [snd]. lra. Qed.
(** the stress under a load: uniaxial strain *)
Definition block_stress (load : R) : mat := iso_stress 3 70000 (block_strain load).
Lemma block_stress_vm load : 0 <= load <= 400 -> von_mises 3 (block_stress load) <= 350.
Proof.
  intros Hl. assert (E : von_mises 3 (block_stress load) = 6 / 7 * load).
  { unfold von_mises. match goal with |- sqrt ?x = _ => replace x with ((6 / 7 * load) * (6 / 7 * load)) end; [apply sqrt_square; lra|].
    unfold dev, ddot, pressure, block_stress, iso_stress, trace, block_strain, lmbda_of, mu_of, nu, move, eye, identity, sumN. cbn [seq sumR Nat.eqb andb INR]. field. }
  rewrite E. lra.
Qed.
Lemma block_stress_diff a b i j : iso_stress 3 70000 (fun i j => block_strain a i j - block_strain b i j) i j + block_stress b i j = block_stress a i j.
Proof. unfold block_stress. rewrite iso_sub. ring. Qed.
(** the history after n steps *)
Definition block_p0 : top_params := fun c _ => mkPv (fun _ _ => 0) (fun _ _ => 0) (nth c [(1, 1)] (1, 1)).
Lemma block_hist n q : (n <= 5)%nat -> let p := hist block block_solve block_p0 n 0%nat q in
  pv_theta p = (1, 1) /\ meq 3 (pv_sigma p) (block_stress (80 * INR n)) /\ meq 3 (pv_epsilon p) (block_strain (80 * INR n)).
Proof.
  induction n as [|n IH]; intros Hn; cbv zeta.
  - cbn [hist block_p0 pv_theta pv_sigma pv_epsilon nth INR]. assert (Z : forall i j, block_strain (80 * 0) i j = 0) by (intros i j; unfold block_strain, move; destruct (_ && _); field).
    split; [reflexivity|]. split; intros i j Hi Hj; [|symmetry; apply Z]. unfold block_stress. symmetry. apply (iso_zero 3 70000); [|assumption|assumption]. intros a b _ _. apply Z.
  - destruct IH as (Ht & Hs & He); [lia|]. cbn [hist]. unfold top_update. cbn [pv_theta pv_sigma pv_epsilon]. split; [exact Ht|].
    set (p := hist block block_solve block_p0 n 0%nat q) in *. set (L := step_load n) in *.
    assert (EL : L = 80 * INR (S n)) by reflexivity.
    assert (Hb : 0 <= L <= 400). { rewrite EL. assert (INR (S n) <= INR 5) by (apply le_INR; lia). pose proof (pos_INR (S n)). rewrite (INR_IZR_INZ 5) in H. change (IZR (Z.of_nat 5)) with 5 in H. lra. }
    split.
    + unfold top_return_map. change (dim block) with 3%nat. rewrite Ht, E_one, sig0_one.
      set (T := fun i j => iso_stress 3 70000 (fun i j => strain (sol_to_grad block (block_solve L (hist block block_solve block_p0 n)) 0 q) i j - pv_epsilon p i j) i j + pv_sigma p i j).
      assert (ET : meq 3 T (block_stress L)).
      { intros i j Hi Hj. unfold T. rewrite <- (block_stress_diff L (80 * INR n)), <- (Hs i j Hi Hj). f_equal. apply (iso_ext 3 70000); [|assumption|assumption]. intros a b Ha Hbb.
        rewrite (He a b Ha Hbb), (block_strain_eq L _ q a b Ha Hbb). reflexivity. }
      intros i j Hi Hj. rewrite ret_elastic; [rewrite ET by assumption; now rewrite EL|lra|]. rewrite (von_mises_ext 3 T (block_stress L) ET). now apply block_stress_vm.
    + intros i j Hi Hj. rewrite <- EL. now apply block_strain_eq.
Qed.
Lemma block_equilibrium n : (n < 5)%nat -> equilibrium block block_sel block_fixed (step_load n) (hist block block_solve block_p0 n) (block_solve (step_load n) (hist block block_solve block_p0 n)).
Proof.
  intros Hn r Hr m k Hm Hk. unfold block_fixed. destruct (Nat.eqb_spec m 2) as [->|Hm2]; cbn [negb].
  - destruct (top_work block block_sel block_ok (step_load n) (hist block block_solve block_p0 n) (block_solve (step_load n) (hist block block_solve block_p0 n))) as (r' & Hr' & Hp).
    rewrite Hr in Hr'. injection Hr' as <-. rewrite <- (power_one_dof block r 2 k Hm Hk).
    assert (EV : one_dof 2 k = only2 (fun l => if Nat.eqb l k then 1 else 0)). { extensionality a. extensionality b. unfold one_dof, only2. destruct (Nat.eqb a 2); reflexivity. }
    rewrite EV, Hp, block_compliance. unfold stress_work. change (num_cells block) with 1%nat. change (num_quads (f_ele block)) with 1%nat. unfold sumN at 1 2. cbn [seq sumR]. rewrite block_JxW.
    change (top_update block (block_solve (step_load n) (hist block block_solve block_p0 n)) (hist block block_solve block_p0 n)) with (hist block block_solve block_p0 (S n)).
    destruct (block_hist (S n) 0 ltac:(lia)) as (_ & Hs & _). change (dim block) with 3%nat. change (80 * INR (S n)) with (step_load n) in Hs.
    cbn in Hk. unfold ddot, sumN. cbn [seq sumR]. rewrite !Hs by lia. rewrite !only2_grad by lia.
    unfold block_stress, iso_stress, trace, block_strain, lmbda_of, mu_of, nu, move, eye, sumN. cbn [seq sumR Nat.eqb andb].
    lt_cases k; cbn [Nat.eqb]; field.
  - unfold block_solve, only2. destruct (Nat.eqb_spec m 2); [contradiction|reflexivity].
Qed.
Lemma block_init : top_init block [(1, 1)] = Ok block_p0.
Proof. reflexivity. Qed.
Lemma block_norms n : (n <= 5)%nat -> mean_norm block (hist block block_solve block_p0 n) 0 = INR n * mean_norm block (hist block block_solve block_p0 1) 0 /\ 0 < mean_norm block (hist block block_solve block_p0 1) 0.
Proof.
  assert (E : forall n, (n <= 5)%nat -> mean_norm block (hist block block_solve block_p0 n) 0 = INR n * sqrt (ddot 3 (block_stress 80) (block_stress 80))).
  { intros m Hm. unfold mean_norm. change (num_quads (f_ele block)) with 1%nat. unfold sumN. cbn [seq sumR INR]. change (dim block) with 3%nat.
    destruct (block_hist m 0 Hm) as (_ & Hs & _). rewrite (ddot_ext 3 _ _ _ _ Hs Hs).
    assert (B : forall i j, block_stress (80 * INR m) i j = INR m * block_stress 80 i j).
    { intros i j. unfold block_stress, iso_stress, trace, block_strain, move, sumN. cbn [seq sumR]. destruct i as [|[|i]]; destruct j as [|[|j]]; cbn [Nat.eqb andb]; unfold Rdiv; ring. }
    rewrite (ddot_ext 3 _ (fun i j => INR m * block_stress 80 i j) _ (fun i j => INR m * block_stress 80 i j)) by (intros i j _ _; apply B).
    rewrite ddot_scal_l, ddot_comm, ddot_scal_l. replace (INR m * (INR m * ddot 3 (block_stress 80) (block_stress 80))) with ((INR m * INR m) * ddot 3 (block_stress 80) (block_stress 80)) by ring.
    rewrite sqrt_mult by (try (apply Rmult_le_pos; apply pos_INR); apply ddot_nonneg). rewrite sqrt_square by apply pos_INR. field. }
  intros Hn. rewrite (E n Hn), (E 1%nat ltac:(lia)). split; [cbn [INR]; ring|]. rewrite Rmult_1_l. apply sqrt_lt_R0.
  unfold ddot, block_stress, iso_stress, trace, block_strain, lmbda_of, mu_of, nu, move, eye, sumN. cbn [seq sumR Nat.eqb andb]. lra.
Qed.
Close Scope R_scope.
