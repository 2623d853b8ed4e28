(** * Proofs about the eigenvalue problem of eigen.py. *)
From Coq Require Import FunctionalExtensionality Lra Lia.
From Verif Require Import Prelude PreludeFacts FemModel FemFacts FemSpec FemAsmProofs FemGeoProofs FemMatProofs MatModel MatSpec MatProofs MatHyperProofs MatTopProofs CrysFemProofs TopModel TopSpec TopLProofs.
Open Scope R_scope.

Lemma unit_plane G i j : (i < 2)%nat -> (j < 2)%nat -> unit_stress G i j = plane_unit G i j.
Proof.
  intros Hi Hj. unfold unit_stress, plane_unit, strain, nu. destruct i as [|[|i]], j as [|[|j]]; try lia; cbn [Nat.eqb]; field.
Qed.
Lemma modulus_simp t : modulus_of t = simp (/ 1000 * (70 * 10 ^ 9)) (70 * 10 ^ 9) t 5.
Proof. unfold modulus_of, simp. lra. Qed.
Lemma stiffness_stress t G i j : (i < 2)%nat -> (j < 2)%nat -> stiffness_map [[t]] G i j = modulus_of t * unit_stress G i j.
Proof. intros Hi Hj. unfold stiffness_map. rewrite plane_stress_unit, <- modulus_simp, unit_plane by assumption. reflexivity. Qed.
Lemma theta_at theta n c q : (c < n)%nat -> map (fun f : nat -> list R => f q) (vars_at [theta_array theta n] c) = [[theta c]].
Proof.
  intros Hc. unfold vars_at, theta_array. cbn [flat_map]. rewrite nth_error_map, nth_error_nth' with (d := 0%nat) by (rewrite seq_length; exact Hc). rewrite seq_nth by exact Hc. reflexivity.
Qed.
Lemma theta_len theta n : length (theta_array theta n) = n. Proof. unfold theta_array. now rewrite map_length, seq_length. Qed.

Section Forms.
Variable F : fem (list R).
Lemma k_work theta u : stiffness_problem F -> exists r, compute_residual_vars F [] u (stiffness_vars (num_cells F) theta) = Ok r
  /\ forall v, power F r v = k_form F theta u v.
Proof.
  intros ((Hwf & Hc & Hv & Hd & Hs & Hca & Hn) & Ht & Hm).
  destruct (internal_only_work F Hwf [] (stiffness_vars (num_cells F) theta) u) as (r & Hr & He).
  - split; cbn; [constructor|]. constructor; [apply theta_len|constructor].
  - exact Hc.
  - repeat split; assumption || reflexivity.
  - intros sel [].
  - exists r. split; [exact Hr|]. intros v. unfold power. rewrite He. unfold k_form, cell_k. apply sumN_ext. intros c Hcc. rewrite <- sumN_scal. apply sumN_ext. intros q _.
    unfold stress. rewrite Ht. cbn [stiffness_vars iv_laplace]. rewrite theta_at by exact Hcc. rewrite Hv, Hd. unfold ddot. rewrite <- !Rmult_assoc, (Rmult_comm _ (JxW F c q)), Rmult_assoc. f_equal.
    rewrite <- sumN_scal. apply sumN_ext. intros k Hk. rewrite <- sumN_scal. apply sumN_ext. intros d Hdd. rewrite stiffness_stress by assumption. ring.
Qed.
Lemma m_work theta u : mass_problem F -> exists r, compute_residual_vars F [] u (mass_vars (num_cells F) theta) = Ok r
  /\ forall v, power F r v = m_form F theta u v.
Proof.
  intros ((Hwf & Hc & Hv & Hd & Hs & Hca & Hn) & Ht & Hm).
  destruct (virtual_work F Hwf [] u (mass_vars (num_cells F) theta)) as (r & Hr & He).
  - split; cbn; [constructor; [apply theta_len|constructor]|constructor].
  - exact Hc.
  - unfold neumann_ok. now rewrite Hn.
  - intros sel [].
  - exists r. split; [exact Hr|]. intros v. unfold power. rewrite He. unfold neumann_power, cauchy_power, cauchy_faces, body_power, body_load. rewrite Hca, Hs. cbn [indexed seq length combine sumR iv_body mass_vars].
    rewrite (sumN_zero (num_cells F)) by (intros c _; apply sumN_zero; intros q _; unfold dot_vec; rewrite sumN_zero by (intros; ring); ring).
    rewrite !Rplus_0_r, !Rminus_0_r. unfold internal_power, m_form, cell_m. apply sumN_ext. intros c Hcc. rewrite <- sumN_scal. apply sumN_ext. intros q _.
    unfold stress, reaction. rewrite Ht, Hm. cbn [mass_vars iv_mass]. rewrite theta_at by exact Hcc. rewrite Hv.
    rewrite (sumN_zero 2) by (intros k _; apply sumN_zero; intros d _; ring). rewrite Rplus_0_l.
    rewrite <- !Rmult_assoc, (Rmult_comm _ (JxW F c q)), Rmult_assoc. f_equal. unfold dot_vec. rewrite Hv, <- sumN_scal. apply sumN_ext. intros k _. unfold mass_density_map, density_of. lra.
Qed.
Lemma vAv_power iv v r : compute_residual_vars F [] v iv = Ok r -> vAv F iv v = Ok (power F r v).
Proof. intros H. unfold vAv. rewrite H. reflexivity. Qed.
Lemma vKv_form theta v : stiffness_problem F -> vAv F (stiffness_vars (num_cells F) theta) v = Ok (k_form F theta v v).
Proof. intros H. destruct (k_work theta v H) as (r & Hr & He). now rewrite (vAv_power _ _ _ Hr), He. Qed.
Lemma vMv_form theta v : mass_problem F -> vAv F (mass_vars (num_cells F) theta) v = Ok (m_form F theta v v).
Proof. intros H. destruct (m_work theta v H) as (r & Hr & He). now rewrite (vAv_power _ _ _ Hr), He. Qed.
Lemma unit_sym G H : ddot 2 (unit_stress G) H = ddot 2 (unit_stress H) G.
Proof.
  rewrite (ddot_ext 2 _ (plane_unit G) _ H) by (intros i j Hi Hj; now rewrite ?unit_plane). rewrite plane_unit_sym. symmetry. apply ddot_ext; intros i j Hi Hj; now rewrite ?unit_plane.
Qed.
Lemma cell_k_sym c u v : cell_k F c u v = cell_k F c v u.
Proof. unfold cell_k. apply sumN_ext. intros q _. now rewrite unit_sym. Qed.
Lemma cell_m_sym c u v : cell_m F c u v = cell_m F c v u.
Proof. unfold cell_m. apply sumN_ext. intros q _. f_equal. apply sumN_ext. intros; ring. Qed.
Lemma k_sym theta u v : k_form F theta u v = k_form F theta v u.
Proof. unfold k_form. apply sumN_ext. intros c _. now rewrite cell_k_sym. Qed.
Lemma m_sym theta u v : m_form F theta u v = m_form F theta v u.
Proof. unfold m_form. apply sumN_ext. intros c _. now rewrite cell_m_sym. Qed.
Lemma modulus_pos t : 0 < modulus_of t.
Proof. unfold modulus_of. assert (0 < Rpower t 5) by apply exp_pos. nra. Qed.
Lemma k_nonneg theta v : positive_weights F -> 0 <= k_form F theta v v.
Proof.
  intros Hw. unfold k_form. apply sumN_nonneg. intros c Hc. apply Rmult_le_pos; [left; apply modulus_pos|]. unfold cell_k. apply sumN_nonneg. intros q Hq.
  apply Rmult_le_pos; [left; now apply Hw|]. rewrite (ddot_ext 2 _ (plane_unit (sol_to_grad F v c q)) _ (sol_to_grad F v c q)) by (intros i j Hi Hj; now rewrite ?unit_plane). apply plane_unit_energy.
Qed.
Lemma m_nonneg theta v : positive_weights F -> (forall c, (c < num_cells F)%nat -> 0 <= theta c) -> 0 <= m_form F theta v v.
Proof.
  intros Hw Ht. unfold m_form. apply sumN_nonneg. intros c Hc. apply Rmult_le_pos; [unfold density_of; specialize (Ht c Hc); lra|]. unfold cell_m. apply sumN_nonneg. intros q Hq.
  apply Rmult_le_pos; [left; now apply Hw|]. apply sumN_nonneg. intros k _. nra.
Qed.
(** rigid motions *)
Lemma unit_skew G : mskew 2 G -> meq 2 (unit_stress G) mzero.
Proof.
  intros H i j Hi Hj. unfold unit_stress, mzero. pose proof (H 0%nat 0%nat ltac:(lia) ltac:(lia)). pose proof (H 1%nat 1%nat ltac:(lia) ltac:(lia)). rewrite (H i j Hi Hj).
  replace (G 0%nat 0%nat + G 1%nat 1%nat) with 0 by lra. ring.
Qed.
Lemma rigid_k theta b W v : stiffness_problem F -> fem_tables F -> mskew 2 W -> k_form F theta (rigid_motion F b W) v = 0.
Proof.
  intros ((_ & _ & _ & Hd & _) & _) (Hsd & Hg & _ & _ & Hi) HW. unfold k_form. apply sumN_zero. intros c Hc. replace (cell_k F c (rigid_motion F b W) v) with 0; [ring|].
  symmetry. unfold cell_k. apply sumN_zero. intros q Hq.
  rewrite (ddot_ext 2 _ mzero _ (sol_to_grad F v c q)); [| |intros i j _ _; reflexivity].
  - unfold ddot, mzero. rewrite sumN_zero by (intros i _; apply sumN_zero; intros; ring). ring.
  - intros i j Hii Hjj. rewrite <- (unit_skew W HW i j Hii Hjj). unfold unit_stress.
    assert (P : forall i d, (d < 2)%nat -> sol_to_grad F (rigid_motion F b W) c q i d = W i d) by (intros; apply patch_test; try assumption; [now apply Hi|now rewrite Hd]).
    rewrite !P by lia. reflexivity.
Qed.
End Forms.

(** testing with one degree of freedom *)
Definition one_dof (n k : nat) : nodal := fun a b => if Nat.eqb a n && Nat.eqb b k then 1 else 0.
Lemma power_one_dof {V} (F : fem V) r n k : (n < num_total_nodes F)%nat -> (k < vec F)%nat -> power F r (one_dof n k) = r n k.
Proof.
  intros Hn Hk. unfold power, one_dof. rewrite (sumN_ext _ _ (fun a => if Nat.eqb a n then r a k else 0)).
  - now apply sumN_pick with (f := fun a => r a k).
  - intros a _. destruct (Nat.eqb a n); cbn [andb].
    + rewrite (sumN_ext _ _ (fun b => if Nat.eqb b k then r a b else 0)) by (intros b _; destruct (Nat.eqb b k); ring). now apply sumN_pick with (f := fun b => r a b).
    + apply sumN_zero. intros; ring.
Qed.
Lemma rigid_residual F theta b W r : stiffness_problem F -> fem_tables F -> mskew 2 W ->
  compute_residual_vars F [] (rigid_motion F b W) (stiffness_vars (num_cells F) theta) = Ok r ->
  forall n k, (n < num_total_nodes F)%nat -> (k < 2)%nat -> r n k = 0.
Proof.
  intros H Ht HW Hr n k Hn Hk. destruct (k_work F theta (rigid_motion F b W) H) as (r' & Hr' & He). rewrite Hr in Hr'. injection Hr' as <-.
  rewrite <- (power_one_dof F r n k) by (try assumption; destruct H as ((_ & _ & Hv & _) & _); lia). rewrite He. now apply rigid_k.
Qed.
(** the assembled matrices act as the forms *)
Lemma grad_scal F (a : R) v c q i d : sol_to_grad (V := list R) F (fun n k => a * v n k) c q i d = a * sol_to_grad F v c q i d.
Proof. unfold sol_to_grad. rewrite <- sumN_scal. apply sumN_ext. intros; ring. Qed.
Lemma at_quad_scal F (a : R) v c q k : at_quad (V := list R) F (fun n k => a * v n k) c q k = a * at_quad F v c q k.
Proof. unfold at_quad, convert_from_dof_to_quad. rewrite <- sumN_scal. apply sumN_ext. intros; ring. Qed.
Lemma cell_k_scal F c a u v : cell_k F c (fun n k => a * u n k) v = a * cell_k F c u v.
Proof.
  unfold cell_k. rewrite <- sumN_scal. apply sumN_ext. intros q _. transitivity (JxW F c q * (a * ddot 2 (unit_stress (sol_to_grad F u c q)) (sol_to_grad F v c q))); [|ring]. f_equal.
  rewrite <- ddot_scal_l. apply ddot_ext; intros i j _ _; [|reflexivity]. unfold unit_stress. rewrite !grad_scal. ring.
Qed.
Lemma k_scal F theta a u v : k_form F theta (fun n k => a * u n k) v = a * k_form F theta u v.
Proof. unfold k_form. rewrite <- sumN_scal. apply sumN_ext. intros c _. rewrite cell_k_scal. ring. Qed.
Lemma cell_m_scal F c a u v : cell_m F c (fun n k => a * u n k) v = a * cell_m F c u v.
Proof.
  unfold cell_m. rewrite <- sumN_scal. apply sumN_ext. intros q _. rewrite <- Rmult_assoc, (Rmult_comm a), Rmult_assoc. f_equal. rewrite <- sumN_scal. apply sumN_ext. intros k _.
  rewrite at_quad_scal. ring.
Qed.
Lemma m_scal F theta a u v : m_form F theta (fun n k => a * u n k) v = a * m_form F theta u v.
Proof. unfold m_form. rewrite <- sumN_scal. apply sumN_ext. intros c _. rewrite cell_m_scal. ring. Qed.
Lemma k_matrix F jac cjac theta d : stiffness_problem F ->
  (forall c, (c < num_cells F)%nat ->
     is_jacobian F (fun s => kernel F s (shape_grads F c) (JxW F c) (v_grads_JxW F c) [] (vars_at [theta_array theta (num_cells F)] c))
       (cells_sol F (fun _ _ => 0) c) (cell_jac F jac (stiffness_vars (num_cells F) theta) (fun _ _ => 0) c)) ->
  exists r IJV rd, compute_newton_vars F [] (fun _ _ => 0) (stiffness_vars (num_cells F) theta) jac cjac = Ok (r, IJV)
  /\ compute_residual_vars F [] d (stiffness_vars (num_cells F) theta) = Ok rd
  /\ forall n k, (n < num_total_nodes F)%nat -> (k < 2)%nat -> coo_mul (num_total_nodes F * vec F) IJV (flatten F d) (vec F * n + k) = rd n k.
Proof.
  intros H Hj. pose proof H as ((Hwf & Hc & Hv & Hd & Hs & Hca & Hn) & Ht & Hm).
  destruct (matrix_is_derivative F Hwf jac cjac [] (fun _ _ => 0) (stiffness_vars (num_cells F) theta)) as (r & IJV & Hr & HD).
  - split; cbn; [constructor|]. constructor; [apply theta_len|constructor].
  - exact Hc.
  - unfold neumann_ok. now rewrite Hn.
  - intros sel [].
  - exact Hj.
  - unfold cauchy_faces. rewrite Hca. intros x [].
  - destruct (k_work F theta d H) as (rd & Hrd & Hpd). exists r, IJV, rd. split; [exact Hr|]. split; [exact Hrd|]. intros n k Hnn Hk.
    destruct (HD d) as (rt & Hrt & Hder). assert (Hkv : (k < vec F)%nat) by lia. specialize (Hder n k Hkv). apply (dl_unique _ 0 _ _ Hder).
    eapply dl_eq; [exact (dl_mul _ _ 0 _ _ (dl_id 0) (dl_const (rd n k) 0))| |cbn; ring]. intros t. cbn beta.
    destruct (k_work F theta (add_step (fun _ _ => 0) t d) H) as (r' & Hr' & He'). rewrite Hrt in Hr'. injection Hr' as <-.
    rewrite <- (power_one_dof F (rt t) n k), He', <- (power_one_dof F rd n k), Hpd by assumption. rewrite <- k_scal. f_equal. extensionality a. extensionality b. unfold add_step. ring.
Qed.
Lemma m_matrix F jac cjac theta d : mass_problem F ->
  (forall c, (c < num_cells F)%nat ->
     is_jacobian F (fun s => kernel F s (shape_grads F c) (JxW F c) (v_grads_JxW F c) (vars_at [theta_array theta (num_cells F)] c) [])
       (cells_sol F (fun _ _ => 0) c) (cell_jac F jac (mass_vars (num_cells F) theta) (fun _ _ => 0) c)) ->
  exists r IJV rd, compute_newton_vars F [] (fun _ _ => 0) (mass_vars (num_cells F) theta) jac cjac = Ok (r, IJV)
  /\ compute_residual_vars F [] d (mass_vars (num_cells F) theta) = Ok rd
  /\ forall n k, (n < num_total_nodes F)%nat -> (k < 2)%nat -> coo_mul (num_total_nodes F * vec F) IJV (flatten F d) (vec F * n + k) = rd n k.
Proof.
  intros H Hj. pose proof H as ((Hwf & Hc & Hv & Hd & Hs & Hca & Hn) & Ht & Hm).
  destruct (matrix_is_derivative F Hwf jac cjac [] (fun _ _ => 0) (mass_vars (num_cells F) theta)) as (r & IJV & Hr & HD).
  - split; cbn; [constructor; [apply theta_len|constructor]|constructor].
  - exact Hc.
  - unfold neumann_ok. now rewrite Hn.
  - intros sel [].
  - exact Hj.
  - unfold cauchy_faces. rewrite Hca. intros x [].
  - destruct (m_work F theta d H) as (rd & Hrd & Hpd). exists r, IJV, rd. split; [exact Hr|]. split; [exact Hrd|]. intros n k Hnn Hk.
    destruct (HD d) as (rt & Hrt & Hder). assert (Hkv : (k < vec F)%nat) by lia. specialize (Hder n k Hkv). apply (dl_unique _ 0 _ _ Hder).
    eapply dl_eq; [exact (dl_mul _ _ 0 _ _ (dl_id 0) (dl_const (rd n k) 0))| |cbn; ring]. intros t. cbn beta.
    destruct (m_work F theta (add_step (fun _ _ => 0) t d) H) as (r' & Hr' & He'). rewrite Hrt in Hr'. injection Hr' as <-.
    rewrite <- (power_one_dof F (rt t) n k), He', <- (power_one_dof F rd n k), Hpd by assumption. rewrite <- m_scal. f_equal. extensionality a. extensionality b. unfold add_step. ring.
Qed.

(** ** derivative of an eigenvalue *)
Lemma pair_forms FK FM theta lambda v : stiffness_problem FK -> mass_problem FM -> num_total_nodes FK = num_total_nodes FM ->
  eigenpair FK FM theta lambda v -> (forall w, k_form FK theta v w = lambda * m_form FM theta v w) /\ m_form FM theta v v <> 0.
Proof.
  intros HK HM Hnn (rK & rM & HrK & HrM & He & Hne). destruct (k_work FK theta v HK) as (r & Hr & Hp). rewrite HrK in Hr. injection Hr as <-.
  destruct (m_work FM theta v HM) as (r & Hr & Hq). rewrite HrM in Hr. injection Hr as <-. split.
  - intros w. rewrite <- Hp, <- Hq. unfold power. rewrite <- Hnn. destruct HK as ((_ & _ & HvK & _) & _). destruct HM as ((_ & _ & HvM & _) & _). rewrite HvK, HvM.
    rewrite <- sumN_scal. apply sumN_ext. intros n Hn. rewrite <- sumN_scal. apply sumN_ext. intros k Hk. rewrite He by assumption. ring.
  - intros E. apply Hne. rewrite vMv_form by exact HM. now rewrite E.
Qed.
Lemma dl_grad F (v : R -> nodal) dv c q i d : (forall n k, derivable_pt_lim (fun t => v t n k) 0 (dv n k)) ->
  derivable_pt_lim (fun t => sol_to_grad (V := list R) F (v t) c q i d) 0 (sol_to_grad F dv c q i d).
Proof.
  intros H. unfold sol_to_grad. apply dl_sumN. intros a _.
  eapply dl_eq; [exact (dl_mul _ _ 0 _ _ (H (cell_node F c a) i) (dl_const (shape_grads F c q a d) 0))|intros t; reflexivity|cbn beta; ring].
Qed.
Lemma dl_at_quad F (v : R -> nodal) dv c q k : (forall n k, derivable_pt_lim (fun t => v t n k) 0 (dv n k)) ->
  derivable_pt_lim (fun t => at_quad (V := list R) F (v t) c q k) 0 (at_quad F dv c q k).
Proof.
  intros H. unfold at_quad, convert_from_dof_to_quad. apply dl_sumN. intros a _.
  eapply dl_eq; [exact (dl_mul _ _ 0 _ _ (H (cell_node F c a) k) (dl_const (shape_vals (f_ele F) q a) 0))|intros t; cbn beta; ring|cbn beta; ring].
Qed.
Lemma dl_cell_k F (v : R -> nodal) dv c w : (forall n k, derivable_pt_lim (fun t => v t n k) 0 (dv n k)) ->
  derivable_pt_lim (fun t => cell_k F c (v t) w) 0 (cell_k F c dv w).
Proof.
  intros H. unfold cell_k. apply dl_sumN. intros q _. apply dl_scal. unfold ddot. apply dl_sumN. intros i _. apply dl_sumN. intros j _.
  pose proof (fun i d => dl_grad F v dv c q i d H) as G. unfold unit_stress.
  eapply dl_eq; [exact (dl_mul _ _ 0 _ _ (dl_add _ _ 0 _ _ (dl_scal (1 / (1 + 3 / 10) * / 2) _ 0 _ (dl_add _ _ 0 _ _ (G i j) (G j i)))
     (dl_scal (3 / 10 / (1 - (3 / 10) ^ 2) * (if Nat.eqb i j then 1 else 0)) _ 0 _ (dl_add _ _ 0 _ _ (G 0%nat 0%nat) (G 1%nat 1%nat)))) (dl_const (sol_to_grad F w c q i j) 0))|intros t; cbn beta; ring|cbn beta; ring].
Qed.
Lemma dl_cell_m F (v : R -> nodal) dv c w : (forall n k, derivable_pt_lim (fun t => v t n k) 0 (dv n k)) ->
  derivable_pt_lim (fun t => cell_m F c (v t) w) 0 (cell_m F c dv w).
Proof.
  intros H. unfold cell_m. apply dl_sumN. intros q _. apply dl_scal. apply dl_sumN. intros k _.
  eapply dl_eq; [exact (dl_mul _ _ 0 _ _ (dl_at_quad F v dv c q k H) (dl_const (at_quad F w c q k) 0))|intros t; reflexivity|cbn beta; ring].
Qed.
Definition modulus_slope (t : R) : R := (7 * 10 ^ 10 - 7 * 10 ^ 7) * (5 * Rpower t 5 / t).
Lemma dl_modulus f a : 0 < f 0 -> derivable_pt_lim f 0 a -> derivable_pt_lim (fun t => modulus_of (f t)) 0 (modulus_slope (f 0) * a).
Proof.
  intros Hf H. unfold modulus_of, modulus_slope. eapply dl_eq; [exact (dl_add _ _ 0 _ _ (dl_const (7 * 10 ^ 7) 0) (dl_scal (7 * 10 ^ 10 - 7 * 10 ^ 7) _ 0 _ (dl_Rpower f 0 5 a Hf H)))|intros t; reflexivity|ring].
Qed.
Section Deriv.
Variables FK FM : fem (list R).
Hypothesis HK : stiffness_problem FK.
Hypothesis HM : mass_problem FM.
Hypothesis Hnn : num_total_nodes FK = num_total_nodes FM.
Lemma eigen_derivative theta dtheta lambda v dl :
  (forall c, (c < num_cells FK)%nat -> 0 < theta 0 c) -> (forall c, derivable_pt_lim (fun t => theta t c) 0 (dtheta c)) -> branch FK FM theta lambda v dl ->
  dl * m_form FM (theta 0) (v 0) (v 0)
  = sumN (num_cells FK) (fun c => modulus_slope (theta 0 c) * dtheta c * cell_k FK c (v 0) (v 0)) - lambda 0 * sumN (num_cells FM) (fun c => 2700 * dtheta c * cell_m FM c (v 0) (v 0)).
Proof.
  intros Hpos Hth [(e & He & Hp) Hl (dv & Hdv)].
  assert (P0 : forall w, k_form FK (theta 0) (v 0) w = lambda 0 * m_form FM (theta 0) (v 0) w) by (apply (pair_forms FK FM _ _ _ HK HM Hnn); apply Hp; rewrite Rabs_R0; exact He).
  assert (DK : derivable_pt_lim (fun t => k_form FK (theta t) (v t) (v 0)) 0
    (sumN (num_cells FK) (fun c => modulus_slope (theta 0 c) * dtheta c * cell_k FK c (v 0) (v 0)) + k_form FK (theta 0) dv (v 0))).
  { unfold k_form. rewrite <- sumN_add. apply dl_sumN. intros c Hc. exact (dl_mul _ _ 0 _ _ (dl_modulus (fun t => theta t c) (dtheta c) (Hpos c Hc) (Hth c)) (dl_cell_k FK v dv c (v 0) Hdv)). }
  assert (DM : derivable_pt_lim (fun t => m_form FM (theta t) (v t) (v 0)) 0
    (sumN (num_cells FM) (fun c => 2700 * dtheta c * cell_m FM c (v 0) (v 0)) + m_form FM (theta 0) dv (v 0))).
  { unfold m_form, density_of. rewrite <- sumN_add. apply dl_sumN. intros c _. exact (dl_mul _ _ 0 _ _ (dl_scal 2700 (fun t => theta t c) 0 _ (Hth c)) (dl_cell_m FM v dv c (v 0) Hdv)). }
  assert (DR := dl_mul _ _ 0 _ _ Hl DM). cbn beta in DR.
  assert (E : derivable_pt_lim (fun t => lambda t * m_form FM (theta t) (v t) (v 0)) 0
    (sumN (num_cells FK) (fun c => modulus_slope (theta 0 c) * dtheta c * cell_k FK c (v 0) (v 0)) + k_form FK (theta 0) dv (v 0))).
  { apply (dl_local (fun t => k_form FK (theta t) (v t) (v 0))); [|exact DK]. exists e. split; [exact He|]. intros t Ht. rewrite Rminus_0_r in Ht.
    now apply (pair_forms FK FM _ _ _ HK HM Hnn (Hp t Ht)). }
  pose proof (dl_unique _ _ _ _ DR E) as U. rewrite (k_sym FK (theta 0) dv (v 0)), P0, (m_sym FM (theta 0) (v 0) dv) in U. lra.
Qed.
(** the gradients of line 175 *)
Lemma shift_0 theta c : shift theta c 0 = theta. Proof. extensionality i. unfold shift. destruct (Nat.eqb i c); ring. Qed.
Lemma dl_shift theta c i : derivable_pt_lim (fun t => shift theta c t i) 0 (if Nat.eqb i c then 1 else 0).
Proof.
  unfold shift. destruct (Nat.eqb i c); [|apply dl_const]. eapply dl_eq; [exact (dl_add _ _ 0 _ _ (dl_const (theta i) 0) (dl_id 0))|intros; reflexivity|ring].
Qed.
Lemma vKv_gradient theta v c : 0 < theta c -> (c < num_cells FK)%nat ->
  derivable_pt_lim (fun t => vKv FK (shift theta c t) v) 0 (modulus_slope (theta c) * cell_k FK c v v).
Proof.
  intros Hp Hc. unfold vKv. eapply dl_eq with (f := fun t => k_form FK (shift theta c t) v v); [| |reflexivity].
  2: { intros t. rewrite vKv_form by exact HK. reflexivity. }
  unfold k_form. rewrite <- (sumN_pick (num_cells FK) c (fun c => modulus_slope (theta c) * cell_k FK c v v) Hc). apply dl_sumN. intros i _.
  destruct (Nat.eqb_spec i c) as [->|Hi].
  - eapply dl_eq; [exact (dl_mul _ _ 0 _ _ (dl_modulus (fun t => shift theta c t c) _ ltac:(cbn beta; rewrite shift_0; exact Hp) (dl_shift theta c c)) (dl_const (cell_k FK c v v) 0))|intros; reflexivity|].
    cbn beta. rewrite shift_0, Nat.eqb_refl. ring.
  - apply dl_ext with (fun _ => modulus_of (theta i) * cell_k FK i v v); [|apply dl_const]. intros t. unfold shift. now rewrite (proj2 (Nat.eqb_neq i c) Hi).
Qed.
Lemma vMv_gradient theta v c : (c < num_cells FM)%nat ->
  derivable_pt_lim (fun t => vMv FM (shift theta c t) v) 0 (2700 * cell_m FM c v v).
Proof.
  intros Hc. unfold vMv. eapply dl_eq with (f := fun t => m_form FM (shift theta c t) v v); [| |reflexivity].
  2: { intros t. rewrite vMv_form by exact HM. reflexivity. }
  unfold m_form. rewrite <- (sumN_pick (num_cells FM) c (fun c => 2700 * cell_m FM c v v) Hc). apply dl_sumN. intros i _. unfold density_of.
  eapply dl_eq; [exact (dl_mul _ _ 0 _ _ (dl_scal 2700 _ 0 _ (dl_shift theta c i)) (dl_const (cell_m FM i v v) 0))|intros; reflexivity|]. cbn beta. destruct (Nat.eqb_spec i c) as [->|Hi]; ring.
Qed.
Variable grad : ((nat -> R) -> R) -> (nat -> R) -> nat -> R.
Hypothesis Hg : gradient_of grad.
Lemma d_eigen_form theta lambda v c : 0 < theta c -> (c < num_cells FK)%nat -> (c < num_cells FM)%nat ->
  d_eigen_val FK FM grad theta lambda v c = (modulus_slope (theta c) * cell_k FK c v v - lambda * (2700 * cell_m FM c v v)) / m_form FM theta v v.
Proof.
  intros Hp HcK HcM. unfold d_eigen_val. rewrite (Hg _ _ _ _ (vKv_gradient theta v c Hp HcK)), (Hg _ _ _ _ (vMv_gradient theta v c HcM)).
  unfold vMv. rewrite vMv_form by exact HM. reflexivity.
Qed.
Lemma d_eigen_correct theta lambda v dl c : (forall i, (i < num_cells FK)%nat -> 0 < theta i) -> num_cells FK = num_cells FM -> (c < num_cells FK)%nat ->
  branch FK FM (fun t => shift theta c t) lambda v dl -> dl = d_eigen_val FK FM grad theta (lambda 0) (v 0) c.
Proof.
  intros Hp Hcells Hc Hb. rewrite d_eigen_form by (try apply Hp; lia).
  assert (N : m_form FM theta (v 0) (v 0) <> 0).
  { destruct Hb as [(e & He & H) _ _]. specialize (H 0 ltac:(rewrite Rabs_R0; exact He)). cbn beta in H. rewrite shift_0 in H. now apply (pair_forms FK FM _ _ _ HK HM Hnn H). }
  assert (D := eigen_derivative (fun t => shift theta c t) (fun i => if Nat.eqb i c then 1 else 0) lambda v dl ltac:(intros i Hi; cbn beta; rewrite shift_0; now apply Hp) ltac:(intros i; apply dl_shift) Hb).
  cbn beta in D. rewrite shift_0 in D.
  rewrite (sumN_ext (num_cells FK) _ (fun i => if Nat.eqb i c then modulus_slope (theta i) * cell_k FK i (v 0) (v 0) else 0)) in D by (intros i _; destruct (Nat.eqb i c); ring).
  rewrite (sumN_pick (num_cells FK) c (fun i => modulus_slope (theta i) * cell_k FK i (v 0) (v 0))) in D by exact Hc.
  rewrite (sumN_ext (num_cells FM) _ (fun i => if Nat.eqb i c then 2700 * cell_m FM i (v 0) (v 0) else 0)) in D by (intros i _; destruct (Nat.eqb i c); ring).
  rewrite (sumN_pick (num_cells FM) c (fun i => 2700 * cell_m FM i (v 0) (v 0))) in D by lia.
  rewrite <- D. field. exact N.
Qed.
End Deriv.

(** ** soft minimum *)
Lemma expsum_pos l : l <> [] -> 0 < sumR (map (fun x => - 10 * x) l) exp.
Proof.
  destruct l as [|a l]; [congruence|]. intros _. cbn [map sumR]. assert (0 < exp (- 10 * a)) by apply exp_pos.
  assert (0 <= sumR (map (fun x => - 10 * x) l) exp); [|lra]. clear. induction l as [|b l IH]; cbn [map sumR]; [lra|]. assert (0 < exp (- 10 * b)) by apply exp_pos. lra.
Qed.
Lemma soft_min_eq l : soft_min l = - 1 / 10 * ln (sumR (map (fun x => - 10 * x) l) exp).
Proof. reflexivity. Qed.
Lemma soft_min_le l x : In x l -> soft_min l <= x.
Proof.
  intros Hx. rewrite soft_min_eq. assert (Hl : l <> []) by (intros ->; destruct Hx).
  assert (H : exp (- 10 * x) <= sumR (map (fun x => - 10 * x) l) exp).
  { apply (sumR_ge_in _ exp (- 10 * x)); [apply (in_map (fun x => - 10 * x)); exact Hx|intros; left; apply exp_pos]. }
  assert (- 10 * x <= ln (sumR (map (fun x => - 10 * x) l) exp)); [|lra]. rewrite <- (ln_exp (- 10 * x)). destruct (Rle_lt_or_eq_dec _ _ H) as [L|L].
  - left. apply ln_increasing; [apply exp_pos|exact L].
  - rewrite L. lra.
Qed.
Lemma soft_min_ge l m : l <> [] -> (forall x, In x l -> m <= x) -> m - ln (INR (length l)) / 10 <= soft_min l.
Proof.
  intros Hl Hm. rewrite soft_min_eq. pose proof (expsum_pos l Hl) as HS. assert (HN : 0 < INR (length l)) by (apply lt_0_INR; destruct l; [congruence|cbn; lia]).
  assert (H : sumR (map (fun x => - 10 * x) l) exp <= INR (length l) * exp (- 10 * m)).
  { rewrite <- (map_length (fun x => - 10 * x) l). apply sumR_le_const. intros y Hy. apply in_map_iff in Hy. destruct Hy as (x & <- & Hx). specialize (Hm x Hx).
    destruct (Rle_lt_or_eq_dec _ _ Hm) as [L|L]; [left; apply exp_increasing; lra|right; now rewrite L]. }
  assert (ln (sumR (map (fun x => - 10 * x) l) exp) <= ln (INR (length l)) + - 10 * m); [|lra].
  rewrite <- (ln_exp (- 10 * m)), <- ln_mult by (assumption || apply exp_pos). destruct (Rle_lt_or_eq_dec _ _ H) as [L|L]; [left; now apply ln_increasing|right; now rewrite L].
Qed.
Definition weight (l : list R) (x : R) : R := - exp (- 10 * x) / sumR l (fun y => exp (- 10 * y)) / 10 ^ 6.
Lemma cstr_path (L : list ((R -> R) * R)) : L <> [] -> (forall p, In p L -> derivable_pt_lim (fst p) 0 (snd p)) ->
  derivable_pt_lim (fun t => eigen_cstr (map (fun p => fst p t) L)) 0 (sumR L (fun p => weight (map (fun p => fst p 0) L) (fst p 0) * snd p)).
Proof.
  intros HL H. set (S := fun t => sumR L (fun p => exp (- 10 * fst p t))).
  assert (HS : forall t, sumR (map (fun x => - 10 * x) (map (fun p => fst p t) L)) exp = S t) by (intros t; unfold S; now rewrite !sumR_map).
  assert (HS0 : 0 < S 0) by (rewrite <- HS; apply expsum_pos; destruct L; [congruence|discriminate]).
  assert (DS : derivable_pt_lim S 0 (sumR L (fun p => exp (- 10 * fst p 0) * (- 10 * snd p)))).
  { unfold S. apply dl_sumR. intros p Hp. exact (derivable_pt_lim_comp (fun t => - 10 * fst p t) exp 0 _ _ (dl_scal (- 10) _ 0 _ (H p Hp)) (derivable_pt_lim_exp (- 10 * fst p 0))). }
  assert (DL := derivable_pt_lim_comp S ln 0 _ _ DS (derivable_pt_lim_ln (S 0) HS0)).
  eapply dl_eq; [exact (dl_sub _ _ 0 _ _ (dl_const 1 0) (dl_scal (- 1 / 10 / 10 ^ 6) _ 0 _ DL))| |].
  - intros t. unfold eigen_cstr, min_freq, comp. rewrite soft_min_eq, HS. field.
  - unfold weight. rewrite sumR_map. fold (S 0). rewrite Rminus_0_l.
    assert (E : forall f, sumR L (fun p => f p * (- 10 * snd p)) = - 10 * sumR L (fun p => f p * snd p)) by (intros f; rewrite <- sumR_scal; apply sumR_ext; intros; ring).
    rewrite E. assert (E2 : sumR L (fun p => - exp (- 10 * fst p 0) / S 0 / 10 ^ 6 * snd p) = - / S 0 / 10 ^ 6 * sumR L (fun p => exp (- 10 * fst p 0) * snd p)).
    { rewrite <- sumR_scal. apply sumR_ext. intros p _. unfold Rdiv. ring. }
    rewrite E2. field. lra.
Qed.
Lemma cstr_partial l j : (j < length l)%nat -> derivable_pt_lim (fun t => eigen_cstr (nudge l j t)) 0 (weight l (nth j l 0)).
Proof.
  intros Hj. set (L := map (fun i => ((fun t => nth i l 0 + (if Nat.eqb i j then t else 0)), if Nat.eqb i j then 1 else 0)) (seq 0 (length l))).
  assert (HL : L <> []) by (unfold L; destruct l; [cbn in Hj; lia|discriminate]).
  assert (E : forall t, map (fun p => fst p t) L = nudge l j t) by (intros t; unfold L, nudge; rewrite map_map; reflexivity).
  eapply dl_eq; [apply (cstr_path L HL)| |].
  - intros p Hp. unfold L in Hp. apply in_map_iff in Hp. destruct Hp as (i & <- & _). cbn [fst snd]. destruct (Nat.eqb i j).
    + eapply dl_eq; [exact (dl_add _ _ 0 _ _ (dl_const (nth i l 0) 0) (dl_id 0))|intros; reflexivity|ring].
    + apply dl_ext with (fun _ => nth i l 0); [intros; ring|apply dl_const].
  - intros t. cbn beta. now rewrite E.
  - rewrite E, nudge_0. unfold L. rewrite sumR_map. cbn [fst snd].
    change (sumN (length l) (fun i => weight l (nth i l 0 + (if Nat.eqb i j then 0 else 0)) * (if Nat.eqb i j then 1 else 0)) = weight l (nth j l 0)).
    rewrite <- (sumN_pick (length l) j (fun i => weight l (nth i l 0)) Hj). apply sumN_ext. intros i _. destruct (Nat.eqb i j); rewrite ?Rplus_0_r; ring.
Qed.
Lemma weight_sum l : l <> [] -> sumR l (weight l) = - / 10 ^ 6.
Proof.
  intros Hl. pose proof (expsum_pos l Hl) as H. rewrite sumR_map in H. unfold weight. rewrite (sumR_ext l _ (fun x => - / sumR l (fun y => exp (- 10 * y)) / 10 ^ 6 * exp (- 10 * x))) by (intros; unfold Rdiv; ring).
  rewrite sumR_scal. field. lra.
Qed.
Lemma weight_neg l x : l <> [] -> weight l x < 0.
Proof.
  intros Hl. pose proof (expsum_pos l Hl) as H. rewrite sumR_map in H. assert (0 < exp (- 10 * x)) by apply exp_pos.
  assert (0 < exp (- 10 * x) / sumR l (fun y => exp (- 10 * y)) / 10 ^ 6) by (repeat apply Rdiv_lt_0_compat; lra). unfold weight, Rdiv in *. lra.
Qed.

(** ** the kept pairs *)
Lemma kept_ok {X} (l : list X) : length l = 10%nat -> forall d, kept l = Ok [nth 3 l d; nth 4 l d; nth 5 l d].
Proof. intros H d. do 11 (destruct l as [|? l]; try discriminate H). reflexivity. Qed.
Section Constraint.
Variables FK FM : fem (list R).
Hypothesis HK : stiffness_problem FK.
Hypothesis HM : mass_problem FM.
Hypothesis Hnn : num_total_nodes FK = num_total_nodes FM.
Hypothesis Hcc : num_cells FK = num_cells FM.
Variable grad : ((nat -> R) -> R) -> (nat -> R) -> nat -> R.
Hypothesis Hg : gradient_of grad.
Variables egrad vgrad : (list R -> R) -> list R -> list R.
Hypothesis He : list_gradient_of egrad.
Hypothesis Hv : list_gradient_of vgrad.
Lemma nudge_theta rho c t : (c < length rho)%nat -> (fun i => nth i (nudge rho c t) 0) = shift (fun i => nth i rho 0) c t.
Proof.
  intros Hc. extensionality i. unfold shift. destruct (Nat.lt_ge_cases i (length rho)) as [H|H].
  - rewrite nudge_nth by exact H. destruct (Nat.eqb i c); ring.
  - rewrite !nth_overflow by (rewrite ?nudge_length; exact H). destruct (Nat.eqb_spec i c); [lia|reflexivity].
Qed.
Lemma eigen_gradient solve rho c (lam : nat -> R -> R) (v : nat -> R -> nodal) (dl : nat -> R) :
  (c < length rho)%nat -> length rho = num_cells FK -> (forall x, In x rho -> 0 < x) ->
  (exists e, 0 < e /\ forall t, Rabs t < e -> solve (shift (fun i => nth i rho 0) c t) = map (fun j => (lam j t, v j t)) (seq 0 10)) ->
  (forall j, In j [3; 4; 5]%nat -> branch FK FM (fun t => shift (fun i => nth i rho 0) c t) (lam j) (v j) (dl j)) ->
  exists cs g1 g2, eigen_constraints FK FM grad egrad vgrad solve rho = Ok (cs, (g1, g2))
  /\ exists ct, (exists e, 0 < e /\ forall t, Rabs t < e -> exists g, eigen_constraints FK FM grad egrad vgrad solve (nudge rho c t) = Ok (ct t, g))
  /\ derivable_pt_lim (fun t => nth 0 (ct t) 0) 0 (nth c g1 0)
  /\ derivable_pt_lim (fun t => nth 1 (ct t) 0) 0 (g2 c).
Proof.
  intros Hc Hlen Hpos (e & Hee & Hsol) Hbr. set (theta := fun i => nth i rho 0) in *.
  assert (Hp : forall i, (i < num_cells FK)%nat -> 0 < theta i) by (intros i Hi; apply Hpos, nth_In; lia).
  assert (S0 : solve theta = map (fun j => (lam j 0, v j 0)) (seq 0 10)) by (rewrite <- (Hsol 0) by (rewrite Rabs_R0; exact Hee); now rewrite shift_0).
  assert (DV : derivable_pt_lim (fun t => mean (nudge rho c t) / vf_half - 1) 0 (/ INR (length rho) / vf_half)).
  { eapply dl_eq; [exact (dl_add _ _ 0 _ _ (dl_const (mean rho / vf_half - 1) 0) (dl_scal (/ INR (length rho) / vf_half) _ 0 _ (dl_id 0)))| |ring].
    intros t. cbn beta. rewrite mean_nudge by exact Hc. unfold Rdiv. ring. }
  set (evals := [lam 3%nat 0; lam 4%nat 0; lam 5%nat 0]).
  set (dev := map (fun j => d_eigen_val FK FM grad theta (lam j 0) (v j 0)) [3; 4; 5]%nat).
  exists [mean rho / vf_half - 1; eigen_cstr evals], (vgrad (fun r => mean r / vf_half - 1) rho),
    (fun c => sumN 3 (fun j => nth j (egrad eigen_cstr evals) 0 * nth j dev (fun _ => 0) c)).
  split; [|exists (fun t => [mean (nudge rho c t) / vf_half - 1; eigen_cstr [lam 3%nat t; lam 4%nat t; lam 5%nat t]]); split; [|split]].
  - unfold eigen_constraints. fold theta. rewrite S0. reflexivity.
  - exists e. split; [exact Hee|]. intros t Ht. unfold eigen_constraints. rewrite nudge_theta by exact Hc. fold theta. rewrite (Hsol t Ht). eexists. reflexivity.
  - cbn [nth]. rewrite (Hv _ _ _ _ Hc DV). exact DV.
  - cbn [nth]. set (L := map (fun j => (lam j, dl j)) [3; 4; 5]%nat).
    assert (HD : forall p, In p L -> derivable_pt_lim (fst p) 0 (snd p)).
    { intros p Hp'. unfold L in Hp'. apply in_map_iff in Hp'. destruct Hp' as (j & <- & Hj). cbn [fst snd]. exact (br_value _ _ _ _ _ _ (Hbr j Hj)). }
    pose proof (cstr_path L ltac:(discriminate) HD) as D. eapply dl_eq; [exact D|intros t; reflexivity|]. unfold L. cbn [map sumR fst snd]. fold evals.
    unfold sumN. cbn [seq sumR]. unfold dev. cbn [map nth].
    rewrite (He eigen_cstr evals 0%nat _ ltac:(cbn; lia) (cstr_partial evals 0%nat ltac:(cbn; lia))), (He eigen_cstr evals 1%nat _ ltac:(cbn; lia) (cstr_partial evals 1%nat ltac:(cbn; lia))),
      (He eigen_cstr evals 2%nat _ ltac:(cbn; lia) (cstr_partial evals 2%nat ltac:(cbn; lia))).
    assert (E : forall j, In j [3; 4; 5]%nat -> dl j = d_eigen_val FK FM grad theta (lam j 0) (v j 0) c) by (intros j Hj; apply d_eigen_correct with (lambda := lam j) (v := v j); try assumption; [lia|now apply Hbr]).
    rewrite (E 3%nat), (E 4%nat), (E 5%nat) by (cbn; tauto). reflexivity.
Qed.
End Constraint.
(** ** which modes are kept: ten eigenvalues in the order of their distance from the target 10 *)
Lemma kept_modes l : length l = 10%nat -> by_distance l -> length (filter (fun x => Rleb x 20) l) = 3%nat -> (forall x, In x l -> 0 <= x) ->
  exists a b c rest, kept l = Ok [a; b; c] /\ l = firstn 3 l ++ [a; b; c] ++ rest /\ (forall x, In x (firstn 3 l) -> x <= 20)
  /\ 20 < a <= b /\ b <= c /\ forall x, In x rest -> c <= x.
Proof.
  intros H10 Hd Hf H0. do 11 (destruct l as [|? l]; try discriminate H10). clear H10. unfold by_distance in Hd. cbn [length] in Hd.
  rename r into x0, r0 into x1, r1 into x2, r2 into x3, r3 into x4, r4 into x5, r5 into x6, r6 into x7, r7 into x8, r8 into x9.
  assert (P : forall x, In x [x0; x1; x2; x3; x4; x5; x6; x7; x8; x9] -> 0 <= x) by exact H0.
  assert (Q : forall x y, 0 <= x -> 0 <= y -> Rabs (x - 10) <= Rabs (y - 10) -> 20 < x -> 20 < y /\ x <= y).
  { intros x y Hx Hy H Hx20. rewrite (Rabs_right (x - 10)) in H by lra. unfold Rabs in H. destruct (Rcase_abs (y - 10)); lra. }
  assert (P0 := P x0 ltac:(cbn; tauto)). assert (P1 := P x1 ltac:(cbn; tauto)). assert (P2 := P x2 ltac:(cbn; tauto)). assert (P3 := P x3 ltac:(cbn; tauto)). assert (P4 := P x4 ltac:(cbn; tauto)).
  assert (P5 := P x5 ltac:(cbn; tauto)). assert (P6 := P x6 ltac:(cbn; tauto)). assert (P7 := P x7 ltac:(cbn; tauto)). assert (P8 := P x8 ltac:(cbn; tauto)). assert (P9 := P x9 ltac:(cbn; tauto)).
  assert (Q0 := Q x0 x1 P0 P1 (Hd 0%nat 1%nat ltac:(lia))). assert (Q1 := Q x1 x2 P1 P2 (Hd 1%nat 2%nat ltac:(lia))). assert (Q2 := Q x2 x3 P2 P3 (Hd 2%nat 3%nat ltac:(lia))).
  assert (Q3 := Q x3 x4 P3 P4 (Hd 3%nat 4%nat ltac:(lia))). assert (Q4 := Q x4 x5 P4 P5 (Hd 4%nat 5%nat ltac:(lia))). assert (Q5 := Q x5 x6 P5 P6 (Hd 5%nat 6%nat ltac:(lia))).
  assert (Q6 := Q x6 x7 P6 P7 (Hd 6%nat 7%nat ltac:(lia))). assert (Q7 := Q x7 x8 P7 P8 (Hd 7%nat 8%nat ltac:(lia))). assert (Q8 := Q x8 x9 P8 P9 (Hd 8%nat 9%nat ltac:(lia))).
  clear P H0 Hd Q P0 P1 P2 P3 P4 P5 P6 P7 P8 P9.
  assert (L : forall x m, 20 < x -> filter (fun x => Rleb x 20) (x :: m) = filter (fun x => Rleb x 20) m).
  { intros x m Hx. cbn [filter]. unfold Rleb. destruct (Rle_dec x 20); [lra|reflexivity]. }
  assert (S : forall x m, x <= 20 -> length (filter (fun x => Rleb x 20) (x :: m)) = S (length (filter (fun x => Rleb x 20) m))).
  { intros x m Hx. cbn [filter]. unfold Rleb at 1. destruct (Rle_dec x 20); [reflexivity|lra]. }
  assert (T3 : 20 < x3 -> 20 < x3 <= x4 /\ 20 < x4 <= x5 /\ 20 < x5 <= x6 /\ 20 < x6 <= x7 /\ 20 < x7 <= x8 /\ 20 < x8 <= x9 /\ 20 < x9).
  { intros H. destruct (Q3 H) as (A4 & B4). destruct (Q4 A4) as (A5 & B5). destruct (Q5 A5) as (A6 & B6). destruct (Q6 A6) as (A7 & B7). destruct (Q7 A7) as (A8 & B8). destruct (Q8 A8) as (A9 & B9). repeat split; assumption. }
  assert (N3 : 20 < x3 -> filter (fun x => Rleb x 20) [x3; x4; x5; x6; x7; x8; x9] = []) by (intros H; destruct (T3 H) as (? & ? & ? & ? & ? & ? & ?); rewrite !L by lra; reflexivity).
  destruct (Rle_lt_dec x3 20) as [H3|H3].
  - assert (x2 <= 20) by (destruct (Rle_lt_dec x2 20) as [|H]; [assumption|destruct (Q2 H); lra]). assert (x1 <= 20) by (destruct (Rle_lt_dec x1 20) as [|H']; [assumption|destruct (Q1 H'); lra]).
    assert (x0 <= 20) by (destruct (Rle_lt_dec x0 20) as [|H']; [assumption|destruct (Q0 H'); lra]). rewrite !S in Hf by assumption. lia.
  - destruct (T3 H3) as (U1 & U2 & U3 & U4 & U5 & U6 & U7).
    assert (H2 : x2 <= 20).
    { destruct (Rle_lt_dec x2 20) as [|H2]; [assumption|]. exfalso.
      assert (E : filter (fun x => Rleb x 20) [x2; x3; x4; x5; x6; x7; x8; x9] = []) by (rewrite L by exact H2; now apply N3).
      destruct (Rle_lt_dec x0 20) as [H0|H0], (Rle_lt_dec x1 20) as [H1|H1]; first [rewrite S in Hf by exact H0 | rewrite L in Hf by exact H0]; first [rewrite S in Hf by exact H1 | rewrite L in Hf by exact H1]; rewrite E in Hf; discriminate Hf. }
    assert (H1 : x1 <= 20) by (destruct (Rle_lt_dec x1 20) as [|H']; [assumption|destruct (Q1 H'); lra]). assert (H0 : x0 <= 20) by (destruct (Rle_lt_dec x0 20) as [|H']; [assumption|destruct (Q0 H'); lra]).
    exists x3, x4, x5, [x6; x7; x8; x9]. split; [reflexivity|]. split; [reflexivity|]. split; [intros x [<-|[<-|[<-|[]]]]; assumption|]. split; [lra|]. split; [lra|].
    intros x [<-|[<-|[<-|[<-|[]]]]]; lra.
Qed.
Close Scope R_scope.
