(** * Theorems about crystal plasticity (applications/fem/crystal_plasticity). *)
From Coq Require Import Lra Lia.
From Verif Require Import Prelude PreludeFacts FemModel FemFacts FemSpec FemGeoProofs MatModel MatSpec MatProofs MatHyperProofs MatExamples MatProps CrysModel CrysSpec CrysTensorProofs CrysProofs CrysDiffProofs CrysFemProofs CrysHistProofs CrysExamples.
Open Scope R_scope.

(** ** C111 orientations *)
Theorem orientation_matrix : forall q,
  meq 3 (matmul 3 (get_rot_mat q) (transpose (get_rot_mat q))) (mscal (qnorm2 q ^ 2) identity)
  /\ det 3 (get_rot_mat q) = qnorm2 q ^ 3
  /\ (qnorm2 q = 1 -> rotation 3 (get_rot_mat q))
  /\ meq 3 (get_rot_mat (fun i => - q i)) (get_rot_mat q)
  /\ forall p, meq 3 (get_rot_mat (qmul p q)) (matmul 3 (get_rot_mat p) (get_rot_mat q)).
Proof.
  intros q. split; [apply rot_orth|]. split; [apply rot_det|]. split; [apply rot_rotation|]. split; [apply rot_neg|]. intros p. apply rot_mul.
Qed.
Print Assumptions orientation_matrix.
Example orientation_case : let q := fun i : nat => match i with 0%nat => 3 / 5 | 1%nat => 4 / 5 | _ => 0 end in
  qnorm2 q = 1 /\ get_rot_mat q 1%nat 1%nat = - (7 / 25) /\ get_rot_mat q 2%nat 1%nat = 24 / 25 /\ get_rot_mat q 1%nat 2%nat = - (24 / 25).
Proof. cbv zeta. unfold qnorm2, get_rot_mat. repeat split; field. Qed.
(** the axis of a unit quaternion is fixed; the angle is twice that of the quaternion *)
Theorem orientation_axis_angle : forall q, qnorm2 q = 1 ->
  (forall i, (i < 3)%nat -> apply3 (get_rot_mat q) (fun k => q (S k)) i = q (S i))
  /\ trace 3 (get_rot_mat q) = 4 * q 0%nat ^ 2 - 1.
Proof.
  intros q H. split.
  - intros i Hi. unfold qnorm2 in H. assert (E : q (S i) = q (S i) * (q 0%nat ^ 2 + q 1%nat ^ 2 + q 2%nat ^ 2 + q 3%nat ^ 2)) by (rewrite H; ring). rewrite E. unfold apply3, get_rot_mat. sums. by3; ring.
  - unfold qnorm2 in H. unfold trace, get_rot_mat. sums. lra.
Qed.
Print Assumptions orientation_axis_angle.

(** ** C112 elasticity of the lattice *)
Theorem lattice_elasticity : forall Q, orthogonal 3 Q ->
  symmetric4 (rotate4 Q elastic_C)
  /\ (forall E, meq 3 (contract4 (rotate4 Q elastic_C) E) (conj Q (contract4 elastic_C (conj (transpose Q) E))))
  /\ (forall E, msym 3 E -> 47000 * ddot 3 E E <= ddot 3 (contract4 (rotate4 Q elastic_C) E) E).
Proof.
  intros Q HQ. split; [|split].
  - apply rotate4_symmetric.
  - intros E i j Hi Hj. rewrite rotate4_contract, <- rotate2_conj. apply rotate2_ext. intros a b Ha Hb. unfold contract4. apply sumN_ext. intros k _. apply sumN_ext. intros l _. now rewrite rotate2_conj.
  - intros E HE. apply rotated_coercive; assumption.
Qed.
Print Assumptions lattice_elasticity.
Theorem lattice_stress : forall s Fe, orthogonal 3 (rot_mat s) ->
  msym 3 (S_of s Fe)
  /\ 47000 * ddot 3 (green Fe) (green Fe) <= ddot 3 (S_of s Fe) (green Fe)
  /\ (meq 3 (S_of s Fe) mzero <-> meq 3 (matmul 3 (transpose Fe) Fe) identity).
Proof.
  intros s Fe HQ. split; [intros i j _ _; apply S_of_sym|]. split; [now apply S_of_energy|]. split.
  - intros HZ. apply green_zero. pose proof (S_of_energy s Fe HQ) as H. rewrite (ddot_ext 3 (S_of s Fe) mzero (green Fe) (green Fe) HZ (fun _ _ _ _ => eq_refl)) in H.
    apply ddot_zero. replace (ddot 3 mzero (green Fe)) with 0 in H by (unfold ddot, mzero; sums; ring). pose proof (ddot_nonneg 3 (green Fe)). lra.
  - intros HI. apply S_zero. intros i j Hi Hj. unfold green, mzero. rewrite (HI i j Hi Hj). ring.
Qed.
Print Assumptions lattice_stress.
Example lattice_case : contract4 elastic_C (shear 1) 0%nat 1%nat = 2 * 75400 /\ contract4 elastic_C identity 1%nat 1%nat = 168400 + 2 * 121400 /\ msym 3 (shear 1) /\ orthogonal 3 (rot_mat fresh).
Proof.
  split; [|split; [|split; [|apply fresh_orth]]].
  - unfold contract4, shear. sums. cbn [elastic_C]. unfold C44. ring.
  - unfold contract4, identity. sums. cbn [elastic_C Nat.eqb]. unfold C11, C12. ring.
  - intros i j Hi Hj. by3; reflexivity.
Qed.

(** ** C113 slip *)
Theorem slip_dissipates : forall rows dt s S, 0 <= dt ->
  (forall a, 0 <= gamma_inc rows dt s S a * tau rows s S a) /\ 0 <= ddot 3 S (L_plastic_inc rows dt s S).
Proof. intros rows dt s S H. split; [intros a; now apply gamma_tau|now apply dissipation]. Qed.
Print Assumptions slip_dissipates.
Theorem slip_power_law : forall rows dt s S a, 0 < slip_resistance s a ->
  (Rabs (gamma_inc rows dt s S a) = ao * Rabs dt * (Rabs (tau rows s S a) / slip_resistance s a) ^ 10)
  /\ (tau rows s S a = 0 -> gamma_inc rows dt s S a = 0).
Proof. intros rows dt s S a Hg. split; [now apply gamma_abs|apply gamma_zero]. Qed.
Print Assumptions slip_power_law.
Theorem slip_keeps_volume : forall rows dt s S, Forall slip_system rows -> orthogonal 3 (rot_mat s) ->
  trace 3 (L_plastic_inc rows dt s S) = 0
  /\ forall a, (a < length rows)%nat -> only_active rows dt s S a -> det 3 (Fp_inv (new_state rows (fun _ _ => 1) dt s S)) = det 3 (Fp_inv s).
Proof. intros rows dt s S Hr HQ. split; [now apply L_trace|]. intros a Ha Ho. cbn [new_state Fp_inv]. now apply (det_slip rows dt s S a). Qed.
Print Assumptions slip_keeps_volume.
Theorem single_slip_history_keeps_volume : forall rows qm steps s, Forall slip_system rows -> orthogonal 3 (rot_mat s) -> single_slips rows qm s steps ->
  det 3 (Fp_inv (crystal_run rows qm s steps)) = det 3 (Fp_inv s).
Proof. intros rows qm steps s Hr. now apply run_volume. Qed.
Print Assumptions single_slip_history_keeps_volume.
Example single_slip_case : single_slips three_slips (fun _ _ => 1) fresh [(1, shear 50); (2, shear 60)] /\ Forall slip_system three_slips
  /\ gamma_inc three_slips 1 fresh (shear gss_initial) 0 = / 1000.
Proof.
  split; [|split; [apply three_ok|]].
  - cbn [single_slips fst snd]. split; [exists 0%nat; split; [cbn; lia|apply three_single; [apply fresh_meq|lra]]|]. split; [|exact I]. exists 0%nat. split; [cbn; lia|apply three_single; [apply fresh_meq|lra]].
  - destruct (three_gamma fresh gss_initial 1 fresh_meq) as (G & _); [unfold gss_initial; lra|]. rewrite G. unfold fresh, crystal_init. cbn [slip_resistance]. unfold ao, gss_initial. field.
Qed.
(** two crossed systems that slip together change the plastic volume, at an exact local solution *)
Theorem joint_slip_keeps_volume_refuted : exists rows u S, Forall slip_system rows /\ det 3 (F_of u) <> 0 /\ solves_local rows 1 fresh u S
  /\ det 3 (Fp_inv (new_state rows (fun _ _ => 1) 1 fresh S)) < det 3 (Fp_inv fresh).
Proof.
  destruct (shear_solvable crossed_slips 1 fresh gss_initial) as (u & Hu & Hd).
  - apply fresh_meq.
  - unfold gss_initial, C44. rewrite Rabs_right; lra.
  - rewrite crossed_volume. lra.
  - exists crossed_slips, u, (shear gss_initial). split; [apply crossed_ok|]. split; [exact Hd|]. split; [exact Hu|]. cbn [new_state Fp_inv]. rewrite crossed_volume. change (Fp_inv fresh) with eye. rewrite det_eye. lra.
Qed.
Print Assumptions joint_slip_keeps_volume_refuted.

(** ** C114 hardening *)
Theorem hardening_matrix : forall r n,
  ((n mod 3 = 0)%nat -> exists q, q_matrix r n = Ok q /\ forall a b, (a < n)%nat -> (b < n)%nat -> q a b = if Nat.eqb (a / 3) (b / 3) then 1 else r)
  /\ ((n mod 3 <> 0)%nat -> q_matrix r n = Err IndexError).
Proof.
  intros r n. split; [|apply q_matrix_err]. intros H. pose proof (Nat.div_mod n 3 ltac:(lia)) as E. rewrite H, Nat.add_0_r in E. rewrite E. apply q_matrix_ok.
Qed.
Print Assumptions hardening_matrix.
Theorem hardening_monotone : forall rows qm dt s S a, (forall b, (b < length rows)%nat -> 0 <= slip_resistance s b <= t_sat) -> (forall a b, 0 <= qm a b) ->
  slip_resistance s a <= slip_resistance (new_state rows qm dt s S) a.
Proof. intros. now apply resistance_grows. Qed.
Print Assumptions hardening_monotone.
(** the matrix of the code has r = 1: all slip systems harden alike, whatever the history *)
Theorem hardening_isotropic : forall rows qm steps s, (forall a b, (a < length rows)%nat -> (b < length rows)%nat -> qm a b = 1) -> uniform_resistance (length rows) s ->
  uniform_resistance (length rows) (crystal_run rows qm s steps).
Proof. intros rows qm steps s Hq Hu. apply run_uniform; [|exact Hu]. intros. now rewrite !Hq. Qed.
Print Assumptions hardening_isotropic.
(** as long as the slips of every step are small, the resistance grows and never passes t_sat *)
Theorem hardening_saturates_partial : forall rows qm steps s, (forall a b, (a < length rows)%nat -> (b < length rows)%nat -> qm a b = 1) -> (forall a b, 0 <= qm a b) ->
  uniform_resistance (length rows) s -> (forall b, (b < length rows)%nat -> 0 <= slip_resistance s b <= t_sat) -> gentle_run rows qm s steps ->
  forall a, (a < length rows)%nat -> slip_resistance s a <= slip_resistance (crystal_run rows qm s steps) a <= t_sat.
Proof. intros rows qm steps s Hq Hp. now apply run_bounds. Qed.
Print Assumptions hardening_saturates_partial.
Example hardening_case : q_matrix 1 4 = Err IndexError /\ uniform_resistance 3 fresh /\ (forall b, 0 <= slip_resistance fresh b <= t_sat) /\ gentle_run three_slips (fun _ _ => 1) fresh [(1, shear gss_initial)].
Proof.
  split; [apply q_matrix_err; cbn; lia|]. split; [intros a b _ _; reflexivity|]. split; [intros b; cbn; unfold gss_initial, t_sat; lra|]. cbn [gentle_run]. split; [|exact I]. exact fresh_gentle.
Qed.
(** without the bound on the slips one step passes t_sat, at an exact local solution *)
Theorem hardening_saturates_refuted : exists rows u S q, Forall slip_system rows /\ q_matrix 1 (length rows) = Ok q /\ det 3 (F_of u) <> 0 /\ solves_local rows 1 fresh u S
  /\ t_sat < slip_resistance (new_state rows q 1 fresh S) 0.
Proof.
  destruct (shear_solvable three_slips 1 fresh (4 * gss_initial)) as (u & Hu & Hd).
  - apply fresh_meq.
  - unfold gss_initial, C44. rewrite Rabs_right; lra.
  - rewrite fresh_det by (unfold gss_initial; lra). lra.
  - destruct (q_matrix_ok 1 1) as (q & Eq & Hq). exists three_slips, u, (shear (4 * gss_initial)), q. split; [apply three_ok|]. split; [exact Eq|]. split; [exact Hd|]. split; [exact Hu|].
    cbn [new_state slip_resistance]. apply three_overshoot. intros a b Ha Hb. rewrite Hq by assumption. now destruct (Nat.eqb (a / 3) (b / 3)).
Qed.
Print Assumptions hardening_saturates_refuted.

(** ** C115 the local solve *)
Theorem local_solve_tolerance : forall rows dt s jac solve fuel u S, newton_solver rows dt s jac solve fuel u = Some S ->
  fnorm (implicit_residual rows dt s u S) <= tol
  /\ forall i j, (i < 3)%nat -> (j < 3)%nat -> Rabs (S i j - S_of s (Fe_of rows dt s u S) i j) <= tol /\ Rabs (S i j - S j i) <= 2 * tol.
Proof.
  intros rows dt s jac solve fuel u S H. split; [unfold newton_solver in H; apply loop_spec in H; [exact H|reflexivity]|].
  intros i j Hi Hj. split; [now apply (newton_tol rows dt s jac solve fuel u S)|now apply (nearly_symmetric rows dt s jac solve fuel u S)].
Qed.
Print Assumptions local_solve_tolerance.
(** one step of the damped Newton iteration *)
Theorem damped_newton_step : forall jac solve f res_vec y, let d := solve (jac f y) (fun i j => - res_vec i j) in
  exists k, (k <= 4)%nat /\ newton_step jac solve f (res_vec, y) = (f (axpy ((/ 2) ^ k) d y), axpy ((/ 2) ^ k) d y)
  /\ (fnorm (f (axpy ((/ 2) ^ k) d y)) < fnorm res_vec \/ k = 4%nat)
  /\ forall k', (k' < k)%nat -> fnorm res_vec <= fnorm (f (axpy ((/ 2) ^ k') d y)).
Proof. exact step_first. Qed.
Print Assumptions damped_newton_step.
Theorem elastic_predictor : forall rows dt s jac solve u, is_jac jac (implicit_residual rows dt s u) (fun _ _ => 0) -> exact_solve solve ->
  let f := implicit_residual rows dt s u in
  meq 3 (solve (jac f (fun _ _ => 0)) (fun i j => - f (fun _ _ => 0) i j)) (S_of s (matmul 3 (F_of u) (Fp_inv s))).
Proof. exact predictor. Qed.
Print Assumptions elastic_predictor.
(** a quadratic: the full step overshoots and is halved *)
Example damped_case : let f := fun y : mat => (fun i j : nat => match i, j with 0%nat, 0%nat => y 0%nat 0%nat - 8 | _, _ => 0 end) : mat in
  let solve := fun (_ : tensor4) (b : mat) => (fun i j : nat => 4 * b i j) : mat in
  exists k, (k <= 4)%nat /\ newton_step (fun _ _ _ _ _ _ => 0) solve f (f (fun _ _ => 0), fun _ _ => 0) = (f (axpy ((/ 2) ^ k) (solve (fun _ _ _ _ => 0) (fun i j => - f (fun _ _ => 0) i j)) (fun _ _ => 0)), axpy ((/ 2) ^ k) (solve (fun _ _ _ _ => 0) (fun i j => - f (fun _ _ => 0) i j)) (fun _ _ => 0))
  /\ k = 2%nat.
Proof.
  intros f solve. destruct (damped_newton_step (fun _ _ _ _ _ _ => 0) solve f (f (fun _ _ => 0)) (fun _ _ => 0)) as (k & Hk & E & Hd & Hf). exists k. split; [exact Hk|]. split; [exact E|].
  assert (N : forall t, fnorm (f (axpy t (solve (fun _ _ _ _ => 0) (fun i j => - f (fun _ _ => 0) i j)) (fun _ _ => 0))) = Rabs (t * 32 - 8)).
  { intros t. unfold fnorm, ddot. sums. unfold f, axpy, solve. rewrite <- sqrt_Rsqr_abs. f_equal. unfold Rsqr. ring. }
  assert (N0 : fnorm (f (fun _ _ => 0)) = 8).
  { unfold fnorm, ddot. sums. unfold f. match goal with |- sqrt ?x = 8 => replace x with (8 * 8) by ring end. apply sqrt_square. lra. }
  rewrite N0 in *. destruct k as [|[|[|k]]]; [| |reflexivity|].
  - destruct Hd as [Hd|Hd]; [|lia]. rewrite N in Hd. cbn [pow] in Hd. rewrite Rabs_right in Hd by lra. lra.
  - destruct Hd as [Hd|Hd]; [|lia]. rewrite N in Hd. cbn [pow] in Hd. rewrite Rabs_right in Hd by lra. lra.
  - specialize (Hf 2%nat ltac:(lia)). rewrite N in Hf. cbn [pow] in Hf. replace (/ 2 * (/ 2 * 1) * 32 - 8) with 0 in Hf by field. rewrite Rabs_R0 in Hf. lra.
Qed.

(** ** C116 stress *)
Theorem crystal_stress_form : forall rows dt s u S, det 3 (F_of u) <> 0 -> let Fe := Fe_of rows dt s u S in let G := Fp_inv_new rows dt s S in
  meq 3 (PK_of rows dt s u S) (fun i j => / det 3 G * matmul 3 (matmul 3 Fe S) (transpose G) i j)
  /\ meq 3 (P_to_sigma (PK_of rows dt s u S) (F_of u)) (fun i j => / det 3 Fe * matmul 3 (matmul 3 Fe S) (transpose Fe) i j)
  /\ (msym 3 S -> msym 3 (matmul 3 (PK_of rows dt s u S) (transpose (F_of u)))).
Proof. intros rows dt s u S H Fe G. split; [now apply PK_form|]. split; [now apply cauchy_stress|now apply PK_moment_free]. Qed.
Print Assumptions crystal_stress_form.
Theorem crystal_frame_indifference : forall rows dt s jac solve fuel Q u, rotation 3 Q -> det 3 (F_of u) <> 0 ->
  newton_solver rows dt s jac solve fuel (turned Q u) = newton_solver rows dt s jac solve fuel u
  /\ (forall qm, update_int_vars rows qm dt s jac solve fuel (turned Q u) = update_int_vars rows qm dt s jac solve fuel u)
  /\ forall S, meq 3 (PK_of rows dt s (turned Q u) S) (matmul 3 Q (PK_of rows dt s u S)).
Proof.
  intros rows dt s jac solve fuel Q u HQ Hd. split; [apply newton_frame, HQ|]. split; [intros qm; unfold update_int_vars; now rewrite (newton_frame rows dt s jac solve fuel Q u (proj1 HQ))|]. intros S. now apply PK_frame.
Qed.
Print Assumptions crystal_frame_indifference.
Theorem crystal_unstrained : forall rows qm dt s jac solve fuel u, orthogonal 3 (matmul 3 (F_of u) (Fp_inv s)) ->
  exists P s', first_PK rows dt s jac solve fuel u = Some P /\ meq 3 P mzero /\ update_int_vars rows qm dt s jac solve fuel u = Some s'
  /\ meq 3 (Fp_inv s') (Fp_inv s) /\ (forall a, slip_resistance s' a = slip_resistance s a) /\ (forall a, slip s' a = slip s a) /\ rot_mat s' = rot_mat s.
Proof.
  intros rows qm dt s jac solve fuel u H. pose proof (unstrained rows dt s jac solve fuel u H) as E. unfold first_PK, update_int_vars. rewrite E. cbn [option_map]. eexists. eexists. split; [reflexivity|]. split; [apply zero_stress|]. split; [reflexivity|].
  exact (zero_state rows qm dt s).
Qed.
Print Assumptions crystal_unstrained.
Example crystal_stress_case : orthogonal 3 (matmul 3 (F_of (fun _ _ => 0)) (Fp_inv fresh)) /\ exists u, det 3 (F_of u) <> 0 /\ solves_local three_slips 1 fresh u (shear gss_initial).
Proof.
  split.
  - split; intros i j Hi Hj; unfold matmul, transpose, F_of, fresh, crystal_init; cbn [Fp_inv]; sums; by3; unfold eye, identity; cbn [Nat.eqb]; ring.
  - destruct (shear_solvable three_slips 1 fresh gss_initial) as (u & Hu & Hd); [apply fresh_meq|unfold gss_initial, C44; rewrite Rabs_right; lra|rewrite fresh_det by (unfold gss_initial; lra); lra|]. exists u. auto.
Qed.

(** ** C117 the implicit derivative *)
Theorem local_residual_differentiable : forall rows dt s u S u' S', path u u' -> path S S' ->
  path (fun t => implicit_residual rows dt s (u t) (S t)) (dres rows dt s (u 0) (S 0) u' S').
Proof. exact residual_path. Qed.
Print Assumptions local_residual_differentiable.
Theorem local_tangent_exact : forall rows dt s jac solve u S v up yp dy,
  is_jac jac (implicit_residual rows dt s u) S -> is_jac jac (fun u => implicit_residual rows dt s u S) u -> exact_solve solve ->
  nonsingular4 (jac (implicit_residual rows dt s u) S) -> up 0 = u -> yp 0 = S -> path up v -> path yp dy -> (forall t, solves_local rows dt s (up t) (yp t)) ->
  meq 3 (f_jvp rows dt s jac solve u S v) dy.
Proof. exact jvp_exact. Qed.
Print Assumptions local_tangent_exact.
Theorem local_jacobian_at_rest : forall rows dt s jac u, is_jac jac (implicit_residual rows dt s u) (fun _ _ => 0) ->
  nonsingular4 (jac (implicit_residual rows dt s u) (fun _ _ => 0)) /\ forall d, meq 3 (contract4 (jac (implicit_residual rows dt s u) (fun _ _ => 0)) d) d.
Proof. intros rows dt s jac u H. split; [|now apply jac_at_zero]. intros x Hx i j Hi Hj. rewrite <- (Hx i j Hi Hj). symmetry. now apply jac_at_zero. Qed.
Print Assumptions local_jacobian_at_rest.
(** with no slip systems the local solution is the elastic law, and its tangent the elastic tangent *)
Example local_tangent_case : forall s u v, solves_local [] 1 s u (S_of s (matmul 3 (F_of u) (Fp_inv s)))
  /\ path (fun t => S_of s (matmul 3 (F_of (axpy t v u)) (Fp_inv s))) (dS_of s (matmul 3 (F_of u) (Fp_inv s)) (matmul 3 v (Fp_inv s))).
Proof. intros s u v. split; [apply elastic_solution|apply elastic_tangent]. Qed.

(** ** C118 moments about the deformed positions *)
Theorem deformed_moments_balance : forall V (F : fem V) inds iv sol i j, wf_mesh F -> small_dim (dim F) -> vec F = dim F -> grads_sum_zero F -> invertible_cells F ->
  iv_sized F iv -> (0 < num_cells F)%nat -> only_internal F iv -> (forall sel, In sel inds -> faces_ok F sel) ->
  (forall c q, (c < num_cells F)%nat -> (q < num_quads (f_ele F))%nat -> msym (dim F) (matmul (dim F) (stress F iv sol c q) (transpose (F_of (sol_to_grad F sol c q))))) ->
  (i < dim F)%nat -> (j < dim F)%nat ->
  exists r, compute_residual_vars F inds sol iv = Ok r /\
  sumN (num_total_nodes F) (fun n => (points F n i + sol n i) * r n j - (points F n j + sol n j) * r n i) = 0.
Proof. intros V F inds iv sol i j Hwf. now apply moment_free_deformed. Qed.
Print Assumptions deformed_moments_balance.
Theorem crystal_moments_balance : forall (F : fem crystal) rows dt local params inds sol i j, tensor_map F = Some (crystal_tensor_map rows dt local) -> wf_mesh F ->
  dim F = 3%nat -> vec F = 3%nat -> (0 < num_cells F)%nat -> only_internal F (crystal_vars F params) -> (forall sel, In sel inds -> faces_ok F sel) -> grads_sum_zero F -> invertible_cells F ->
  (forall c q, (c < num_cells F)%nat -> (q < num_quads (f_ele F))%nat -> let u := sol_to_grad F sol c q in det 3 (F_of u) <> 0 /\ solves_local rows dt (params c q) u (local (params c q) u)) ->
  (i < 3)%nat -> (j < 3)%nat ->
  exists r, compute_residual_vars F inds sol (crystal_vars F params) = Ok r /\
  sumN (num_total_nodes F) (fun n => (points F n i + sol n i) * r n j - (points F n j + sol n j) * r n i) = 0.
Proof.
  intros F rows dt local params inds sol i j Ht Hwf H3 Hv Hc Ho Hf Hg Hi HL. apply (crystal_moments F rows dt local Ht params Hwf inds H3 Hv Hc Ho Hf); [exact Hg|exact Hi|].
  intros c q Hcc Hq. destruct (HL c q Hcc Hq) as (Hd & Hs). split; [exact Hd|]. intros a b Ha Hb. rewrite (Hs a b Ha Hb), (Hs b a Hb Ha). apply S_of_sym.
Qed.
Print Assumptions crystal_moments_balance.
Theorem hyperelastic_moments_balance : forall V (F : fem V) P_fn iv inds sol i j, is_grad 3 (psi 3) (fun F => 0 < det 3 F) P_fn -> tensor_map F = Some (fun _ => first_PK_stress P_fn) -> wf_mesh F ->
  dim F = 3%nat -> vec F = 3%nat -> (0 < num_cells F)%nat -> iv_sized F iv -> only_internal F iv -> (forall sel, In sel inds -> faces_ok F sel) -> grads_sum_zero F -> invertible_cells F ->
  (forall c q, (c < num_cells F)%nat -> (q < num_quads (f_ele F))%nat -> 0 < det 3 (F_of (sol_to_grad F sol c q))) ->
  (i < 3)%nat -> (j < 3)%nat ->
  exists r, compute_residual_vars F inds sol iv = Ok r /\
  sumN (num_total_nodes F) (fun n => (points F n i + sol n i) * r n j - (points F n j + sol n j) * r n i) = 0.
Proof.
  intros V F P_fn iv inds sol i j HP Ht Hwf H3 Hv Hc Hiv Ho Hf Hg Hinv HJ Hi Hj. apply (moment_free_deformed F Hwf); try assumption; try (rewrite H3; assumption).
  - rewrite H3. unfold small_dim. auto.
  - intros c q Hcc Hq. rewrite H3. unfold stress. rewrite Ht. exact (proj1 (proj2 (hyperelastic_stress P_fn HP)) _ (HJ c q Hcc Hq)).
Qed.
Print Assumptions hyperelastic_moments_balance.
Example deformed_moments_case : exists sol r, compute_residual_vars (crystal_solid gss_initial) [] sol (crystal_vars (crystal_solid gss_initial) (fun _ _ => fresh)) = Ok r
  /\ sumN 4 (fun n => (points (crystal_solid gss_initial) n 0%nat + sol n 0%nat) * r n 1%nat - (points (crystal_solid gss_initial) n 1%nat + sol n 1%nat) * r n 0%nat) = 0.
Proof.
  destruct crystal_solid_case as (sol & Hs). exists sol.
  apply (crystal_moments_balance (crystal_solid gss_initial) three_slips 1 (fun _ _ => shear gss_initial) (fun _ _ => fresh) [] sol 0 1); try reflexivity; try lia; try (cbn; lia).
  - apply solid_wf.
  - repeat split.
  - apply solid_grads.
  - apply solid_invertible.
  - exact Hs.
Qed.
(** the state update uses the local stress of the residual *)
Theorem crystal_state_and_residual_agree : forall (F : fem crystal) rows qm dt local params sol c q, tensor_map F = Some (crystal_tensor_map rows dt local) -> (c < num_cells F)%nat ->
  let u := sol_to_grad F sol c q in let S := local (params c q) u in
  stress F (crystal_vars F params) sol c q = PK_of rows dt (params c q) u S
  /\ update_int_vars_gp F rows qm dt local sol params c q = new_state rows qm dt (params c q) S.
Proof. intros F rows qm dt local params sol c q Ht Hc u S. split; [now apply crystal_stress|reflexivity]. Qed.
Print Assumptions crystal_state_and_residual_agree.

(** ** C119 repeated simulations *)
(** what a second call starts from, and returns: the loads but the last are applied once more *)
Theorem second_simulation : forall (P Sol Load Out : Type) (fwd : Load -> P -> Sol) (upd : Sol -> P -> P) (out : Sol -> P -> Out) loads p, loads <> [] ->
  let p1 := snd (simulation fwd upd out (fun p => p) loads p) in
  p1 = fold_left (fun p ld => upd (fwd ld p) p) (removelast loads) p
  /\ fst (simulation fwd upd out (fun p => p) loads p1) = fst (simulation fwd upd out (fun p => p) (removelast loads ++ loads) p).
Proof.
  intros P Sol Load Out fwd upd out loads p H p1. assert (E : p1 = fold_left (fun p ld => upd (fwd ld p) p) (removelast loads) p) by now apply sim_stored.
  split; [exact E|]. unfold simulation. rewrite E. symmetry. now apply sim_app.
Qed.
Print Assumptions second_simulation.
Theorem one_step_simulation_repeats : forall (P Sol Load Out : Type) (fwd : Load -> P -> Sol) (upd : Sol -> P -> P) (out : Sol -> P -> Out) ld p,
  fst (simulation fwd upd out (fun p => p) [ld] (snd (simulation fwd upd out (fun p => p) [ld] p))) = fst (simulation fwd upd out (fun p => p) [ld] p).
Proof. reflexivity. Qed.
Print Assumptions one_step_simulation_repeats.
(** a point under a prescribed shear stress: the slip reported by the second call is larger *)
Theorem repeated_simulation_refuted : exists loads,
  let run := simulation (fun (S : mat) (_ : crystal) => S) (fun S s => new_state three_slips (fun _ _ => 1) 1 s S) (fun S s => slip_new three_slips 1 s S 0) (fun s => s) loads in
  exists g g', fst (run fresh) = Some g /\ fst (run (snd (run fresh))) = Some g' /\ g < g'.
Proof.
  exists [shear gss_initial; shear gss_initial]. cbv zeta. unfold simulation. cbn [sim_loop fst snd]. eexists. eexists. split; [reflexivity|]. split; [reflexivity|].
  assert (Hg : forall s, meq 3 (rot_mat s) eye -> 0 < slip_resistance s 0 -> 0 < gamma_inc three_slips 1 s (shear gss_initial) 0).
  { intros s HR Hs. destruct (three_gamma s gss_initial 1 HR) as (-> & _); [unfold gss_initial; lra|]. apply Rmult_lt_0_compat; [unfold ao; lra|]. apply pow_lt. apply Rdiv_lt_0_compat; [unfold gss_initial; lra|exact Hs]. }
  set (s1 := new_state three_slips (fun _ _ => 1) 1 fresh (shear gss_initial)). set (s2 := new_state three_slips (fun _ _ => 1) 1 s1 (shear gss_initial)).
  destruct two_steps as (H1 & H2). specialize (Hg s2 fresh_meq H2). unfold slip_new at 2. fold s2. change (slip s2 0%nat) with (slip_new three_slips 1 s1 (shear gss_initial) 0). fold s1. lra.
Qed.
Print Assumptions repeated_simulation_refuted.
Close Scope R_scope.
