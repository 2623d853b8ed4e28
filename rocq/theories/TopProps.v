(** * Theorems C138-C148: the topology optimisation drivers (L_shape, multi_material, eigen, plasticity). *)
From Coq Require Import FunctionalExtensionality Lra Lia Psatz.
From Verif Require Import Prelude PreludeFacts FemModel FemFacts FemSpec FemGeoProofs FemMatProofs FemExamples MatModel MatSpec MatProofs MatPlasticProofs MatTopProofs FormModel SolverModel SolverSpec SolverExamples.
From Verif Require Import TopModel TopSpec TopLProofs TopEigenProofs TopPlasticProofs TopExamples.
Open Scope R_scope.

(** ** C138: the stress constraint follows the largest stress *)
Theorem stress_constraint_tracks : forall vm jacrev n rhos rho M,
  (forall r, In r rhos -> stresses n (vm r)) -> stresses n (vm rho) -> largest (vm rho) M ->
  (M / 3500000 / root12 n <= nth 1 (values_after vm jacrev rhos rho) 0 + 1 <= root12 n * (M / 3500000))
  /\ forall k, nth 1 (values_after vm jacrev (rhos ++ repeat rho (S k)) rho) 0 - (M / 3500000 - 1)
     = (nth 1 (values_after vm jacrev (rhos ++ [rho]) rho) 0 - (M / 3500000 - 1)) / 2 ^ k.
Proof.
  intros vm jacrev n rhos rho M Hr Hs HM. assert (Hn : (0 < n)%nat) by exact (proj2 (proj2 (stresses_max n _ Hs))).
  assert (EA : 3500000 = max_allowed_stress) by (unfold max_allowed_stress; lra). rewrite EA. split.
  - exact (value_bounds vm jacrev n Hn rhos rho M Hr Hs HM).
  - intros k. exact (repeated_values vm jacrev n rhos rho M k Hs HM).
Qed.
Print Assumptions stress_constraint_tracks.
Example stress_constraint_tracks_case : stresses 2 (vm_uniform [1 / 2]) /\ largest (vm_uniform [1 / 2]) 1750000.
Proof.
  split; [apply uniform_stresses; cbn; lra|]. unfold vm_uniform, max_allowed_stress. cbn [nth]. split; [left; lra|]. intros x [<-|[<-|[]]]; lra.
Qed.

(** ** C139: gradients of the constraints *)
Theorem constraint_gradients_partial : forall vm jacrev n rhos rho j d, jacobian_of jacrev ->
  (forall r, In r rhos -> stresses n (vm r)) -> stresses n (vm rho) -> (j < length rho)%nat ->
  derivable_pt_lim (fun t => nth 0 (values_after vm jacrev rhos (nudge rho j t)) 0) 0 (nth j (nth 0 (gradients_after vm jacrev rhos rho) []) 0)
  /\ (derivable_pt_lim (fun t => nth 1 (values_after vm jacrev rhos (nudge rho j t)) 0) 0 d ->
      exists k, / root12 n <= k <= root12 n /\ nth j (nth 1 (gradients_after vm jacrev rhos rho) []) 0 = k * d).
Proof.
  intros vm jacrev n rhos rho j d Hj Hr Hs Hl. assert (Hn : (0 < n)%nat) by exact (proj2 (proj2 (stresses_max n _ Hs))).
  destruct (volume_row vm jacrev Hj rhos rho j Hl) as (Hd & Hg). split; [now rewrite Hg|]. intros Hd1.
  pose proof (good_cp n _ (good_calls vm jacrev n Hn rhos Hr)) as B1.
  assert (Hr2 : forall r, In r (rhos ++ [rho]) -> stresses n (vm r)) by (intros r Hin; apply in_app_or in Hin; destruct Hin as [Hin|[<-|[]]]; auto).
  pose proof (good_cp n _ (good_calls vm jacrev n Hn (rhos ++ [rho]) Hr2)) as B2.
  set (a := cp_of (constraint_calls vm jacrev rhos)) in *. set (b := cp_of (constraint_calls vm jacrev (rhos ++ [rho]))) in *.
  destruct (inv_root_le_1 n Hn) as (Hp & _). pose proof (root12_pos n) as HR. assert (Ha : 0 < a) by lra.
  assert (D : derivable_pt_lim (fun t => vm_PN (vm (nudge rho j t))) 0 (d / a)).
  { eapply dl_eq; [exact (dl_scal (/ a) _ 0 _ (dl_add _ _ 0 _ _ Hd1 (dl_const 1 0)))| |unfold Rdiv; ring].
    intros t. cbn beta. rewrite values_form. cbn [nth]. fold a. field. lra. }
  destruct (stress_row vm jacrev Hj rhos rho j (d / a) Hl D) as (_ & ->). fold b. exists (b / a). split.
  - assert (H1 : / root12 n * a <= b) by nra. assert (H2 : b <= root12 n * a).
    { assert (1 <= root12 n * a). { replace 1 with (root12 n * / root12 n) by (field; lra). apply Rmult_le_compat_l; lra. } lra. }
    assert (Hi : 0 < / a) by now apply Rinv_0_lt_compat.
    apply (Rmult_le_compat_r (/ a)) in H1; [|lra]. apply (Rmult_le_compat_r (/ a)) in H2; [|lra].
    rewrite Rmult_assoc, Rinv_r, Rmult_1_r in H1 by lra. rewrite Rmult_assoc, Rinv_r, Rmult_1_r in H2 by lra. split; assumption.
  - field. lra.
Qed.
Print Assumptions constraint_gradients_partial.
Example constraint_gradients_case : exists jacrev, jacobian_of jacrev /\ derivable_pt_lim (fun t => vm_PN (vm_uniform (nudge [1 / 2] 0 t))) 0 (root12 2) /\ 1 < root12 2.
Proof. destruct jacobian_exists as (j & Hj). exists j. split; [exact Hj|]. split; [exact uniform_derivative|exact root12_2]. Qed.
Theorem constraint_gradients_refuted : ~ forall vm jacrev n rhos rho j d, jacobian_of jacrev ->
  (forall r, In r rhos -> stresses n (vm r)) -> stresses n (vm rho) -> (j < length rho)%nat ->
  derivable_pt_lim (fun t => nth 1 (values_after vm jacrev rhos (nudge rho j t)) 0) 0 d ->
  nth j (nth 1 (gradients_after vm jacrev rhos rho) []) 0 = d.
Proof.
  intros H. destruct jacobian_exists as (jacrev & Hj).
  destruct (stress_row vm_uniform jacrev Hj [] [1 / 2] 0 (root12 2) ltac:(cbn; lia) uniform_derivative) as (D & G).
  specialize (H vm_uniform jacrev 2%nat [] [1 / 2] 0%nat _ Hj ltac:(intros r []) ltac:(apply uniform_stresses; cbn; lra) ltac:(cbn; lia) D).
  rewrite G in H. cbn [app] in H. rewrite cp_after_uniform in H by lra. pose proof root12_2.
  unfold constraint_calls in H. cbn [fold_left] in H. unfold cp_of, cs_init in H. cbn [cs_cp cs_max cs_PN] in H.
  assert (E : 5 / 10 * max_allowed_stress / (max_allowed_stress * 1) = 5 / 10) by (pose proof A_pos; field; lra). rewrite E in H.
  assert (E2 : (/ 2 / root12 2 + / 2) * root12 2 = / 2 + / 2 * root12 2) by (field; lra). lra.
Qed.
Print Assumptions constraint_gradients_refuted.

(** ** C140: a satisfied constraint and the allowed stress *)
Theorem allowed_stress_partial : forall vm jacrev n rhos rho M,
  (forall r, In r rhos -> stresses n (vm r)) -> stresses n (vm rho) -> largest (vm rho) M ->
  (nth 1 (values_after vm jacrev rhos rho) 0 <= 0 -> M <= root12 n * 3500000)
  /\ (M <= 3500000 / root12 n -> nth 1 (values_after vm jacrev rhos rho) 0 <= 0).
Proof.
  intros vm jacrev n rhos rho M Hr Hs HM. destruct (stress_constraint_tracks vm jacrev n rhos rho M Hr Hs HM) as ((H1 & H2) & _). pose proof (root12_pos n) as HR. split; intros H.
  - assert (E : M / 3500000 / root12 n * (root12 n * 3500000) = M) by (field; lra). rewrite <- E.
    assert (M / 3500000 / root12 n <= 1) by lra. assert (0 < root12 n * 3500000) by lra. nra.
  - assert (root12 n * (M / 3500000) <= 1); [|lra]. assert (E : root12 n * (3500000 / root12 n / 3500000) = 1) by (field; lra). rewrite <- E. apply Rmult_le_compat_l; lra.
Qed.
Print Assumptions allowed_stress_partial.
Example allowed_stress_case jacrev : nth 1 (values_after vm_two jacrev [[1]] [1 / 2]) 0 = 0 /\ stresses 2 (vm_two [1 / 2]).
Proof. split; [apply two_value|apply two_stresses]. Qed.
Theorem allowed_stress_refuted : ~ forall vm jacrev n rhos rho M,
  (forall r, In r rhos -> stresses n (vm r)) -> stresses n (vm rho) -> largest (vm rho) M ->
  nth 1 (values_after vm jacrev rhos rho) 0 <= 0 -> M <= 3500000.
Proof.
  intros H. destruct jacobian_exists as (jacrev & _). pose proof y_conc_gt as Hy. assert (EA : max_allowed_stress = 3500000) by (unfold max_allowed_stress; lra).
  specialize (H vm_two jacrev 2%nat [[1]] [1 / 2] (max_allowed_stress * y_conc) (fun r _ => two_stresses r) (two_stresses _)). rewrite two_value, two_second in H.
  assert (max_allowed_stress * y_conc <= 3500000); [|rewrite EA in *; nra]. apply H; [|lra]. split; [left; reflexivity|]. intros x [<-|[<-|[]]]; rewrite ?EA in *; nra.
Qed.
Print Assumptions allowed_stress_refuted.

(** ** C141: volume constraints of the two-variable designs *)
Theorem material_constraints : forall rho, rho <> [] ->
  (forall j t, (j < length rho)%nat ->
     multi_constraint (nudge1 rho j t) = multi_constraint rho + t * ((4 + 6 * snd (nth j rho (0, 0))) / 3 / INR (length rho))
     /\ multi_constraint (nudge2 rho j t) = multi_constraint rho + t * (2 * fst (nth j rho (0, 0)) / INR (length rho))
     /\ plastic_constraints (nudge1 rho j t) = [nth 0 (plastic_constraints rho) 0 + t * (2 / INR (length rho)); nth 1 (plastic_constraints rho) 0]
     /\ plastic_constraints (nudge2 rho j t) = [nth 0 (plastic_constraints rho) 0; nth 1 (plastic_constraints rho) 0 + t * (4 / INR (length rho))])
  /\ (unit_rows rho -> (4 / 3) * (sumR rho fst / INR (length rho)) <= multi_constraint rho + 1 <= (10 / 3) * (sumR rho fst / INR (length rho)))
  /\ multi_constraint (multi_rho_ini (length rho)) = - (3 / 10) /\ plastic_constraints (plastic_rho_ini (length rho)) = [0; 0].
Proof.
  intros rho Hr. split; [|split].
  - intros j t Hj. split; [now apply multi_nudge1|]. split; [now apply multi_nudge2|]. now apply plastic_nudge.
  - intros Hu. now apply multi_mean.
  - apply initial_values. destruct rho; [congruence|cbn; lia].
Qed.
Print Assumptions material_constraints.
Example material_constraints_case : unit_rows [(1, 1); (1 / 2, 0)] /\ multi_constraint [(1, 1); (1 / 2, 0)] = 1 /\ plastic_constraints [(1, 1); (1 / 2, 0)] = [1 / 2; 1].
Proof.
  split; [|split].
  - intros r [<-|[<-|[]]]; cbn; lra.
  - unfold multi_constraint. cbn. lra.
  - unfold plastic_constraints. cbn. apply list2_eq; lra.
Qed.

(** ** C142: the stiffness and mass problems *)
Theorem vibration_forms : forall FK FM, stiffness_problem FK -> mass_problem FM ->
  (forall theta v, vAv FK (stiffness_vars (num_cells FK) theta) v = Ok (k_form FK theta v v) /\ vAv FM (mass_vars (num_cells FM) theta) v = Ok (m_form FM theta v v))
  /\ (forall theta u v, k_form FK theta u v = k_form FK theta v u /\ m_form FM theta u v = m_form FM theta v u)
  /\ (forall theta v, positive_weights FK -> 0 <= k_form FK theta v v)
  /\ (forall theta v, positive_weights FM -> (forall c, (c < num_cells FM)%nat -> 0 <= theta c) -> 0 <= m_form FM theta v v)
  /\ (forall theta b W r, fem_tables FK -> mskew 2 W -> compute_residual_vars FK [] (rigid_motion FK b W) (stiffness_vars (num_cells FK) theta) = Ok r ->
      forall n k, (n < num_total_nodes FK)%nat -> (k < 2)%nat -> r n k = 0)
  /\ (forall theta lambda mu u v, num_total_nodes FK = num_total_nodes FM -> eigenpair FK FM theta lambda u -> eigenpair FK FM theta mu v -> lambda <> mu -> m_form FM theta u v = 0)
  /\ (forall theta lambda v, num_total_nodes FK = num_total_nodes FM -> positive_weights FK -> positive_weights FM -> (forall c, (c < num_cells FM)%nat -> 0 <= theta c) ->
      eigenpair FK FM theta lambda v -> 0 <= lambda).
Proof.
  intros FK FM HK HM. split; [intros; split; [now apply vKv_form|now apply vMv_form]|]. split; [intros; split; [apply k_sym|apply m_sym]|].
  split; [intros; now apply k_nonneg|]. split; [intros; now apply m_nonneg|]. split; [intros; eapply rigid_residual; eauto|]. split.
  - intros theta lambda mu u v Hn Hu Hv Hne. destruct (pair_forms FK FM theta lambda u HK HM Hn Hu) as (Eu & _). destruct (pair_forms FK FM theta mu v HK HM Hn Hv) as (Ev & _).
    specialize (Eu v). specialize (Ev u). rewrite (k_sym FK theta v u), (m_sym FM theta v u), Eu in Ev.
    assert (Hz : (lambda - mu) * m_form FM theta u v = 0) by lra. apply Rmult_integral in Hz. destruct Hz; [lra|assumption].
  - intros theta lambda v Hn Hp Hq Ht Hv. destruct (pair_forms FK FM theta lambda v HK HM Hn Hv) as (Ev & Hne). specialize (Ev v).
    pose proof (k_nonneg FK theta v Hp). pose proof (m_nonneg FM theta v Hq Ht). nra.
Qed.
Print Assumptions vibration_forms.
Theorem vibration_matrices : forall FK FM jacK jacM cjac theta d, stiffness_problem FK -> mass_problem FM ->
  (forall c, (c < num_cells FK)%nat ->
     is_jacobian FK (fun s => kernel FK s (shape_grads FK c) (JxW FK c) (v_grads_JxW FK c) [] (vars_at [theta_array theta (num_cells FK)] c))
       (cells_sol FK (fun _ _ => 0) c) (cell_jac FK jacK (stiffness_vars (num_cells FK) theta) (fun _ _ => 0) c)) ->
  (forall c, (c < num_cells FM)%nat ->
     is_jacobian FM (fun s => kernel FM s (shape_grads FM c) (JxW FM c) (v_grads_JxW FM c) (vars_at [theta_array theta (num_cells FM)] c) [])
       (cells_sol FM (fun _ _ => 0) c) (cell_jac FM jacM (mass_vars (num_cells FM) theta) (fun _ _ => 0) c)) ->
  (exists r IJV rd, compute_newton_vars FK [] (fun _ _ => 0) (stiffness_vars (num_cells FK) theta) jacK cjac = Ok (r, IJV)
   /\ compute_residual_vars FK [] d (stiffness_vars (num_cells FK) theta) = Ok rd
   /\ forall n k, (n < num_total_nodes FK)%nat -> (k < 2)%nat -> coo_mul (num_total_nodes FK * vec FK) IJV (flatten FK d) (vec FK * n + k) = rd n k)
  /\ (exists r IJV rd, compute_newton_vars FM [] (fun _ _ => 0) (mass_vars (num_cells FM) theta) jacM cjac = Ok (r, IJV)
   /\ compute_residual_vars FM [] d (mass_vars (num_cells FM) theta) = Ok rd
   /\ forall n k, (n < num_total_nodes FM)%nat -> (k < 2)%nat -> coo_mul (num_total_nodes FM * vec FM) IJV (flatten FM d) (vec FM * n + k) = rd n k).
Proof. intros FK FM jacK jacM cjac theta d HK HM H1 H2. split; [now apply k_matrix|now apply m_matrix]. Qed.
Print Assumptions vibration_matrices.
Example vibration_matrices_case theta c : (c < 1)%nat ->
  is_jacobian sqK (fun s => kernel sqK s (shape_grads sqK c) (JxW sqK c) (v_grads_JxW sqK c) [] (vars_at [theta_array theta (num_cells sqK)] c))
    (cells_sol sqK (fun _ _ => 0) c) (cell_jac sqK jac_K (stiffness_vars (num_cells sqK) theta) (fun _ _ => 0) c)
  /\ is_jacobian sqM (fun s => kernel sqM s (shape_grads sqM c) (JxW sqM c) (v_grads_JxW sqM c) (vars_at [theta_array theta (num_cells sqM)] c) [])
    (cells_sol sqM (fun _ _ => 0) c) (cell_jac sqM jac_M (mass_vars (num_cells sqM) theta) (fun _ _ => 0) c).
Proof. intros Hc. split; [now apply sq_jac_K|now apply sq_jac_M]. Qed.
Example vibration_case : stiffness_problem sqK /\ mass_problem sqM /\ positive_weights sqK /\ fem_tables sqK
  /\ forall theta, 0 < theta 0%nat -> eigenpair sqK sqM theta (40 / 7 * (modulus_of (theta 0%nat) / density_of (theta 0%nat))) breath /\ breath 0%nat 0%nat = - 1 / 2.
Proof.
  split; [exact sqK_ok|]. split; [exact sqM_ok|]. split; [apply sq_positive|]. split; [apply sq_tables|]. intros theta Ht. split; [now apply breath_pair|]. unfold breath, square_pts, pick2, pick. cbn. lra.
Qed.

(** ** C143: derivatives of eigenvalues *)
Theorem eigenvalue_derivative : forall FK FM grad theta lambda v dl c, stiffness_problem FK -> mass_problem FM -> num_total_nodes FK = num_total_nodes FM ->
  num_cells FK = num_cells FM -> gradient_of grad -> (forall i, (i < num_cells FK)%nat -> 0 < theta i) -> (c < num_cells FK)%nat ->
  branch FK FM (fun t => shift theta c t) lambda v dl -> d_eigen_val FK FM grad theta (lambda 0) (v 0) c = dl.
Proof. intros FK FM grad theta lambda v dl c HK HM Hn Hc Hg Ht Hl Hb. symmetry. now apply (d_eigen_correct FK FM HK HM Hn grad Hg). Qed.
Print Assumptions eigenvalue_derivative.
Example eigenvalue_derivative_case : (exists grad, gradient_of grad) /\ exists dl, branch sqK sqM (fun t => shift (fun _ => 1) 0 t) (fun t => breath_value (1 + t)) (fun _ => breath) dl.
Proof. split; [exact gradient_exists|]. exact (breath_branch (fun _ => 1) ltac:(cbn; lra)). Qed.

(** ** C144: the frequency constraint *)
Theorem frequency_constraint : forall l, l <> [] ->
  (eigen_cstr l <= 0 -> forall x, In x l -> 10 ^ 6 <= x)
  /\ ((forall x, In x l -> 10 ^ 6 + ln (INR (length l)) / 10 <= x) -> eigen_cstr l <= 0)
  /\ (forall x, In x l -> soft_min l <= x) /\ (forall m, (forall x, In x l -> m <= x) -> m - ln (INR (length l)) / 10 <= soft_min l)
  /\ exists w, (forall j, (j < length l)%nat -> derivable_pt_lim (fun t => eigen_cstr (nudge l j t)) 0 (w (nth j l 0))) /\ (forall x, w x < 0) /\ sumR l w = - / 10 ^ 6.
Proof.
  intros l Hl. assert (HE : eigen_cstr l = 1 - soft_min l / 10 ^ 6) by reflexivity.
  split; [|split; [|split; [|split]]].
  - intros H x Hx. pose proof (soft_min_le l x Hx). rewrite HE in H. assert (soft_min l / 10 ^ 6 * 10 ^ 6 = soft_min l) by (field; lra). assert (1 <= soft_min l / 10 ^ 6) by lra. nra.
  - intros H. pose proof (soft_min_ge l (10 ^ 6 + ln (INR (length l)) / 10) Hl H). rewrite HE. assert (10 ^ 6 <= soft_min l) by lra.
    assert (1 <= soft_min l / 10 ^ 6); [|lra]. apply (Rmult_le_reg_r (10 ^ 6)); [lra|]. unfold Rdiv. rewrite Rmult_assoc, Rinv_l by lra. lra.
  - intros x Hx. now apply soft_min_le.
  - intros m Hm. now apply soft_min_ge.
  - exists (weight l). split; [intros j Hj; now apply cstr_partial|]. split; [intros x; now apply weight_neg|now apply weight_sum].
Qed.
Print Assumptions frequency_constraint.
Theorem frequency_gradient : forall FK FM grad egrad vgrad solve rho c (lam : nat -> R -> R) (v : nat -> R -> nodal) (dl : nat -> R),
  stiffness_problem FK -> mass_problem FM -> num_total_nodes FK = num_total_nodes FM -> num_cells FK = num_cells FM ->
  gradient_of grad -> list_gradient_of egrad -> list_gradient_of vgrad ->
  (c < length rho)%nat -> length rho = num_cells FK -> (forall x, In x rho -> 0 < x) ->
  (exists e, 0 < e /\ forall t, Rabs t < e -> solve (shift (fun i => nth i rho 0) c t) = map (fun j => (lam j t, v j t)) (seq 0 10)) ->
  (forall j, In j [3; 4; 5]%nat -> branch FK FM (fun t => shift (fun i => nth i rho 0) c t) (lam j) (v j) (dl j)) ->
  exists cs g1 g2, eigen_constraints FK FM grad egrad vgrad solve rho = Ok (cs, (g1, g2))
  /\ exists ct, (exists e, 0 < e /\ forall t, Rabs t < e -> exists g, eigen_constraints FK FM grad egrad vgrad solve (nudge rho c t) = Ok (ct t, g))
  /\ derivable_pt_lim (fun t => nth 0 (ct t) 0) 0 (nth c g1 0)
  /\ derivable_pt_lim (fun t => nth 1 (ct t) 0) 0 (g2 c).
Proof. intros FK FM grad egrad vgrad solve rho c lam v dl HK HM Hn Hc Hg He Hv. now apply (eigen_gradient FK FM HK HM Hn Hc grad Hg egrad vgrad He Hv). Qed.
Print Assumptions frequency_gradient.
Example frequency_case : (exists g, gradient_of g) /\ (exists g, list_gradient_of g)
  /\ (forall t, ten (shift (fun i => nth i [1] 0) 0 t) = map (fun j => (breath_value (1 + t), breath)) (seq 0 10))
  /\ exists dl, branch sqK sqM (fun t => shift (fun i => nth i [1] 0) 0 t) (fun t => breath_value (1 + t)) (fun _ => breath) dl.
Proof.
  split; [exact gradient_exists|]. split; [exact list_gradient_exists|]. split; [intros t; apply ten_case|]. exact (breath_branch (fun i => nth i [1] 0) ltac:(cbn; lra)).
Qed.

Example frequency_values_case : soft_min [10; 10] = 10 - ln 2 / 10.
Proof.
  rewrite soft_min_eq. cbn [map sumR]. rewrite Rplus_0_r. replace (exp (-10 * 10) + exp (-10 * 10)) with (exp (-10 * 10) * 2) by ring.
  rewrite ln_mult by (try apply exp_pos; lra). rewrite ln_exp. field.
Qed.

(** ** C145: the modes used by the constraint *)
Theorem kept_modes_partial : forall l, length l = 10%nat -> by_distance l -> length (filter (fun x => Rleb x 20) l) = 3%nat -> (forall x, In x l -> 0 <= x) ->
  exists a b c rest, kept l = Ok [a; b; c] /\ l = firstn 3 l ++ [a; b; c] ++ rest /\ (forall x, In x (firstn 3 l) -> x <= 20)
  /\ 20 < a <= b /\ b <= c /\ forall x, In x rest -> c <= x.
Proof. exact kept_modes. Qed.
Print Assumptions kept_modes_partial.
Theorem too_few_pairs : forall FK FM grad egrad vgrad (solve : (nat -> R) -> list (R * nodal)) (rho : list R), (length (solve (fun c => nth c rho 0%R)) < 10)%nat ->
  eigen_constraints FK FM grad egrad vgrad solve rho = Err (if Nat.eqb (length (solve (fun c => nth c rho 0))) 0%nat then ValueError else IndexError).
Proof.
  intros FK FM grad egrad vgrad solve rho H. unfold eigen_constraints, eigen_analysis. cbv zeta. destruct (solve (fun c => nth c rho 0)) as [|p ps]; [reflexivity|].
  cbn [length Nat.eqb]. unfold kept. rewrite (proj2 (Nat.ltb_lt _ _) H). reflexivity.
Qed.
Print Assumptions too_few_pairs.
Definition soft_spectrum : list R := [5; 0; 0; 0; 100; 200; 300; 400; 500; 600].
Definition usual_spectrum : list R := [0; 0; 0; 100; 200; 300; 400; 500; 600; 700].
Ltac ten_cases i := destruct i as [|[|[|[|[|[|[|[|[|[|i]]]]]]]]]]; try (exfalso; lia).
Lemma spectra_sorted : by_distance soft_spectrum /\ by_distance usual_spectrum.
Proof.
  split; intros i j H; cbn [length soft_spectrum usual_spectrum] in H;
  ten_cases j; ten_cases i; cbn [nth soft_spectrum usual_spectrum]; unfold Rabs; repeat destruct Rcase_abs; lra.
Qed.
Example kept_modes_case : by_distance usual_spectrum /\ length (filter (fun x => Rleb x 20) usual_spectrum) = 3%nat /\ kept usual_spectrum = Ok [100; 200; 300].
Proof.
  split; [apply spectra_sorted|]. split; [|reflexivity]. unfold usual_spectrum. cbn [filter].
  assert (T : Rleb 0 20 = true) by (apply Rleb_true; lra). rewrite T.
  rewrite !(proj2 (Rleb_false _ 20)) by lra. reflexivity.
Qed.
Theorem kept_modes_refuted : ~ forall l k, length l = 10%nat -> by_distance l -> (forall x, In x l -> 0 <= x) -> length (filter (fun x => Reqb x 0) l) = 3%nat ->
  kept l = Ok k -> forall x, In x k -> 0 < x.
Proof.
  intros H. specialize (H soft_spectrum [0; 100; 200] eq_refl (proj1 spectra_sorted)). assert (0 < 0); [|lra]. apply H.
  - intros x Hx. cbn in Hx. repeat destruct Hx as [<-|Hx]; try lra.
  - unfold soft_spectrum. cbn [filter]. assert (T : Reqb 0 0 = true) by now apply Reqb_true. rewrite T. rewrite !(proj2 (Reqb_false _ 0)) by lra. reflexivity.
  - reflexivity.
  - now left.
Qed.
Print Assumptions kept_modes_refuted.

(** ** C146: the plastic load sequence *)
Theorem plastic_load_sequence : forall F sel solve o theta, top_problem F sel ->
  (length theta <> num_cells F -> fwd_pred_seq F solve o theta = Err ValueError)
  /\ (length theta = num_cells F -> exists ps us, load_steps F solve 5 (fun i => 80 * INR (S i)) ps us
      /\ (forall c q, (c < num_cells F)%nat -> ps 0%nat c q = mkPv (fun _ _ => 0) (fun _ _ => 0) (nth c theta (1, 1)))
      /\ fwd_pred_seq F solve o theta = Ok (us 4%nat, ps 5%nat, mkTo 400 (ps 4%nat))
      /\ (forall i c q, (i <= 5)%nat -> (c < num_cells F)%nat -> (0 < dim F)%nat -> 0 <= snd (nth c theta (1, 1)) ->
          von_mises (dim F) (pv_sigma (ps i c q)) <= 250 + 100 * snd (nth c theta (1, 1)) /\ msym (dim F) (pv_sigma (ps i c q)) /\ pv_theta (ps i c q) = nth c theta (1, 1))
      /\ forall fixed, (forall i, (i < 5)%nat -> equilibrium F sel fixed (80 * INR (S i)) (ps i) (us i)) ->
          (forall i v, (i < 5)%nat -> admissible F fixed v -> stress_work F (ps (S i)) v = compute_compliance F sel (neumann_val (80 * INR (S i))) v)
          /\ J_total F solve sel o theta = Ok (stress_work F (ps 5%nat) (us 4%nat))).
Proof.
  intros F sel solve o theta HF. split; [apply seq_wrong|]. intros Hl. destruct (seq_result F solve o theta Hl) as (p0 & _ & Hp & Hz & Hs).
  exists (hist F solve p0), (fun i => solve (step_load i) (hist F solve p0 i)). assert (HS := hist_steps F solve p0 5). split; [exact HS|]. split; [exact Hp|].
  assert (E4 : step_load 4 = 400) by (unfold step_load; rewrite INR_IZR_INZ; change (IZR (Z.of_nat 5)) with 5; lra). rewrite E4.
  split; [exact Hs|]. split.
  - intros i c q Hi Hc Hd H0. pose proof (steps_yield F solve 5 _ _ _ HS Hd Hz i c q Hi) as Y. pose proof (steps_theta F solve 5 _ _ _ HS i Hi c q) as T.
    cbn [hist] in Y, T. rewrite (Hp c q Hc) in Y, T. cbn [pv_theta] in Y, T. unfold top_sig0 in Y.
    destruct Y as (Y1 & Y2 & _); [lra|]. split; [lra|]. split; [exact Y2|exact T].
  - intros fixed Heq. assert (HW : forall i v, (i < 5)%nat -> admissible F fixed v -> stress_work F (hist F solve p0 (S i)) v = compute_compliance F sel (neumann_val (80 * INR (S i))) v).
    { intros i v Hi Hv. exact (equilibrium_stress F sel HF fixed _ _ _ (Heq i Hi) v Hv). }
    split; [exact HW|]. unfold J_total. rewrite Hs. cbn [bind]. f_equal. rewrite HW with (i := 4%nat).
    + change (80 * INR 5) with (step_load 4). rewrite E4. unfold max_load. replace (4 * 10 ^ 2) with 400 by lra. reflexivity.
    + lia.
    + specialize (Heq 4%nat ltac:(lia)). destruct (top_work F sel HF (80 * INR 5) (hist F solve p0 4) (solve (step_load 4) (hist F solve p0 4))) as (r & Hr & _).
      specialize (Heq r Hr). intros n k Hn Hk Hf. rewrite E4 in Heq. exact (balanced_fixed F fixed r _ n k Heq Hn Hk Hf).
Qed.
Print Assumptions plastic_load_sequence.
Example plastic_load_sequence_case : top_problem block block_sel /\ fwd_pred_seq block block_solve (mkTo 0 block_p0) [(1, 1)] = Ok (block_solve 400 (hist block block_solve block_p0 4), hist block block_solve block_p0 5, mkTo 400 (hist block block_solve block_p0 4))
  /\ (forall i, (i < 5)%nat -> equilibrium block block_sel block_fixed (80 * INR (S i)) (hist block block_solve block_p0 i) (block_solve (80 * INR (S i)) (hist block block_solve block_p0 i)))
  /\ move 400 < 0.
Proof.
  split; [exact block_ok|]. split; [|split; [exact block_equilibrium|unfold move; lra]].
  destruct (seq_result block block_solve (mkTo 0 block_p0) [(1, 1)] eq_refl) as (p0 & Hp & _ & _ & ->). rewrite block_init in Hp. injection Hp as <-. reflexivity.
Qed.

(** ** C147: the stress written to the file *)
Theorem inspect_previous_partial : forall F sel solve o theta, top_problem F sel -> length theta = num_cells F ->
  exists ps us, load_steps F solve 5 (fun i => 80 * INR (S i)) ps us /\ fwd_pred_seq F solve o theta = Ok (us 4%nat, ps 5%nat, mkTo 400 (ps 4%nat))
  /\ (forall c, inspect F (mkTo 400 (ps 4%nat)) c = mean_norm F (ps 4%nat) c)
  /\ forall fixed v, (forall i, (i < 5)%nat -> equilibrium F sel fixed (80 * INR (S i)) (ps i) (us i)) -> admissible F fixed v ->
     stress_work F (ps 4%nat) v = 4 / 5 * stress_work F (ps 5%nat) v.
Proof.
  intros F sel solve o theta HF Hl. destruct (plastic_load_sequence F sel solve o theta HF) as (_ & H). destruct (H Hl) as (ps & us & HS & _ & Hs & _ & Hw).
  exists ps, us. split; [exact HS|]. split; [exact Hs|]. split; [intros c; reflexivity|]. intros fixed v He Hv. destruct (Hw fixed He) as (W & _).
  rewrite (W 3%nat v ltac:(lia) Hv), (W 4%nat v ltac:(lia) Hv).
  replace (80 * INR 4) with (4 / 5 * (80 * INR 5)); [apply compliance_load|]. rewrite !INR_IZR_INZ. change (IZR (Z.of_nat 4)) with 4. change (IZR (Z.of_nat 5)) with 5. lra.
Qed.
Print Assumptions inspect_previous_partial.
Example inspect_previous_case : compute_compliance block block_sel (neumann_val 400) (only2 (fun k => if Nat.eqb k 1 then 1 else 0)) = - 200.
Proof. rewrite block_compliance. cbn. lra. Qed.
Theorem inspect_final_refuted : ~ forall F sel solve fixed o theta ps us o', top_problem F sel ->
  load_steps F solve 5 (fun i => 80 * INR (S i)) ps us -> (forall i, (i < 5)%nat -> equilibrium F sel fixed (80 * INR (S i)) (ps i) (us i)) ->
  fwd_pred_seq F solve o theta = Ok (us 4%nat, ps 5%nat, o') -> forall c, (c < num_cells F)%nat -> inspect F o' c = mean_norm F (ps 5%nat) c.
Proof.
  intros H. destruct plastic_load_sequence_case as (H1 & H2 & H3 & _).
  assert (E4 : 80 * INR 5 = 400) by (rewrite INR_IZR_INZ; change (IZR (Z.of_nat 5)) with 5; lra).
  specialize (H block block_sel block_solve block_fixed (mkTo 0 block_p0) [(1, 1)] (hist block block_solve block_p0) (fun i => block_solve (80 * INR (S i)) (hist block block_solve block_p0 i)) (mkTo 400 (hist block block_solve block_p0 4))
    H1 (hist_steps block block_solve block_p0 5) H3). cbv beta in H. rewrite E4 in H. specialize (H H2 0%nat ltac:(cbn; lia)).
  change (inspect block (mkTo 400 (hist block block_solve block_p0 4)) 0) with (mean_norm block (hist block block_solve block_p0 4) 0) in H.
  destruct (block_norms 4 ltac:(lia)) as (N4 & Hp). destruct (block_norms 5 ltac:(lia)) as (N5 & _). rewrite N4, N5, !INR_IZR_INZ in H.
  change (IZR (Z.of_nat 4)) with 4 in H. change (IZR (Z.of_nat 5)) with 5 in H. lra.
Qed.
Print Assumptions inspect_final_refuted.

(** ** C148: the traction stored in the object does not matter for the derivative *)
Theorem backprop_ignores_traction : forall F sel load load' dec jac cjac dbc ev vjp Pp Pp' rp rp' sol params v pet g, ignores_constants vjp ->
  (forall p, fem_problem (loaded F load) [sel] (top_vars F (dec p)) jac cjac dbc None None = Ok (Pp p)) ->
  (forall p, fem_problem (loaded F load') [sel] (top_vars F (dec p)) jac cjac dbc None None = Ok (Pp' p)) ->
  (forall p u, compute_residual_vars (loaded F load) [sel] u (top_vars F (dec p)) = Ok (rp p u)) ->
  (forall p u, compute_residual_vars (loaded F load') [sel] u (top_vars F (dec p)) = Ok (rp' p u)) ->
  implicit_vjp ev Pp rp vjp sol params v pet = Ok g ->
  exists g', implicit_vjp ev Pp' rp' vjp sol params v pet = Ok g' /\ forall i, g' i = g i.
Proof. exact backprop. Qed.
Print Assumptions backprop_ignores_traction.
(** such a vjp exists, and so do the problems and residuals *)
Example backprop_case jac cjac load (dec : vector -> top_params) : ignores_constants (dvjp 12)
  /\ (exists Pp, forall p, fem_problem (loaded block load) [block_sel] (top_vars block (dec p)) jac cjac (Some ([fun x => Reqb (x 1%nat) 0], [0%nat], [fun _ => 0])) None None = Ok (Pp p))
  /\ exists rp, forall p u, compute_residual_vars (loaded block load) [block_sel] u (top_vars block (dec p)) = Ok (rp p u).
Proof.
  split; [|split].
  - intros f g k x w H j. unfold dvjp. apply sumN_ext. intros i _. rewrite !H. ring.
  - eexists. intros p. unfold fem_problem. cbn [Dirichlet_boundary_conditions length Nat.eqb andb bind]. reflexivity.
  - exists (fun p u => match compute_residual_vars (loaded block load) [block_sel] u (top_vars block (dec p)) with Ok r => r | Err _ => fun _ _ => 0 end).
    intros p u. destruct (top_work block block_sel block_ok load (dec p) u) as (r & -> & _). reflexivity.
Qed.
Close Scope R_scope.
