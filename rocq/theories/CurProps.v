(** * Properties C205-C207: the beam of applications/fem/design/curve.py. *)
From Coq Require Import Lra Lia.
From Verif Require Import Prelude PreludeFacts FemModel FemFacts FemSpec MatModel SolverSpec WellSpec CurModel CurSpec CurProofs CurExamples.
Open Scope R_scope.
Open Scope list_scope.

(** ** C205: more material makes the beam stiffer *)
Theorem beam_hooke : forall t G, let E := 70 + 69930 * t ^ 3 in let s := cur_stress t G in
  E * G 0%nat 0%nat = s 0%nat 0%nat - 3 / 10 * s 1%nat 1%nat /\ E * G 1%nat 1%nat = s 1%nat 1%nat - 3 / 10 * s 0%nat 0%nat
  /\ s 0%nat 1%nat = s 1%nat 0%nat /\ E * ((G 0%nat 1%nat + G 1%nat 0%nat) / 2) = (1 + 3 / 10) * s 0%nat 1%nat.
Proof. intros t G E s. unfold s, E, cur_stress, cur_E. repeat split; field. Qed.
Print Assumptions beam_hooke.
Theorem beam_work_monotone : forall s t G, 0 <= s <= t -> t <= 1 ->
  let work x := sumN 2 (fun k => sumN 2 (fun d => cur_stress x G k d * G k d)) in 0 <= work s <= work t /\ work t <= 1000 * work s.
Proof.
  intros s t G Hs Ht work. assert (W : forall x, work x = cur_E x * dens G G).
  { intros x. unfold work, dens. rewrite <- sumN_scal. apply sumN_ext. intros k _. rewrite <- sumN_scal. apply sumN_ext. intros d _. rewrite stress_scale. ring. }
  rewrite !W. pose proof (dens_pos G) as Hd. pose proof (E_mono s t Hs). pose proof (E_range s ltac:(lra)). pose proof (E_range t ltac:(lra)). split; [split|].
  - apply Rmult_le_pos; lra.
  - apply Rmult_le_compat_r; lra.
  - rewrite <- Rmult_assoc. apply Rmult_le_compat_r; lra.
Qed.
Print Assumptions beam_work_monotone.
Theorem beam_energy_monotone : forall F, beam F -> forall locs vecs fns params params' u u',
  design F params -> design F params' -> (forall c, (c < num_cells F)%nat -> nth c params 0 <= nth c params' 0) ->
  discrete_solution F locs vecs fns [] (cur_vars F params) u -> discrete_solution F locs vecs fns [] (cur_vars F params') u' ->
  0 <= stored F params u <= stored F params' u'.
Proof. intros F HF locs vecs fns p p' u u' Hd Hd' Hle Hu Hu'. split; [now apply stored_nonneg|]. now apply (stiffer F HF locs vecs fns). Qed.
Print Assumptions beam_energy_monotone.
Theorem beam_energy_range : forall F, beam F -> forall locs vecs fns params params' u u', design F params -> design F params' ->
  discrete_solution F locs vecs fns [] (cur_vars F params) u -> discrete_solution F locs vecs fns [] (cur_vars F params') u' ->
  stored F params u <= 1000 * stored F params' u'.
Proof. intros F HF locs vecs fns p p' u u' Hd Hd' Hu Hu'. now apply (floor F HF locs vecs fns). Qed.
Print Assumptions beam_energy_range.
(** both bounds are reached by the stretched beam of three triangles *)
Example beam_energy_case : beam bm /\ (let '(locs, vecs, fns) := held in
    discrete_solution bm locs vecs fns [] (cur_vars bm [0; 0; 0]) stretch /\ discrete_solution bm locs vecs fns [] (cur_vars bm [1; 1; 1]) stretch /\ discrete_solution bm locs vecs fns [] (cur_vars bm [0; 1; 0]) stretch)
  /\ stored bm [0; 0; 0] stretch = 70 /\ stored bm [0; 1; 0] stretch = 35035 /\ stored bm [1; 1; 1] stretch = 70000.
Proof.
  split; [exact bm_beam|]. split; [cbn [held]; split; [|split]; apply stretch_solves; reflexivity|]. rewrite !stretch_stored by reflexivity. cbn [nth]. unfold cur_E. repeat split; field.
Qed.

(** ** C206: a uniform density does not change the shape of the beam *)
Theorem uniform_density_same : forall F, beam F -> forall locs vecs fns s t u, 0 <= s <= 1 -> 0 <= t <= 1 ->
  (discrete_solution F locs vecs fns [] (cur_vars F (repeat s (num_cells F))) u <-> discrete_solution F locs vecs fns [] (cur_vars F (repeat t (num_cells F))) u).
Proof. intros F HF locs vecs fns s t u Hs Ht. split; now apply (uniform F HF locs vecs fns). Qed.
Print Assumptions uniform_density_same.
(** ... and more generally neither does a change of all moduli by one factor *)
Theorem proportional_density_same : forall F, beam F -> forall locs vecs fns k params params' u, length params = num_cells F -> length params' = num_cells F ->
  (forall c, (c < num_cells F)%nat -> 70 + 69930 * nth c params 0 ^ 3 = k * (70 + 69930 * nth c params' 0 ^ 3)) ->
  discrete_solution F locs vecs fns [] (cur_vars F params') u -> discrete_solution F locs vecs fns [] (cur_vars F params) u.
Proof.
  intros F HF locs vecs fns k p p' u Hp Hp' HE. apply (same_solutions F HF locs vecs fns p p' k u Hp Hp'). intros c Hc. specialize (HE c Hc).
  assert (W : forall x, cur_E x = 70 + 69930 * x ^ 3) by (intros x; unfold cur_E; field). now rewrite !W.
Qed.
Print Assumptions proportional_density_same.
(** the distribution matters, only the common factor does not *)
Example uniform_density_case : let '(locs, vecs, fns) := held in discrete_solution bm locs vecs fns [] (cur_vars bm (repeat (1 / 2) 3)) stretch /\ ~ discrete_solution bm locs vecs fns [] (cur_vars bm [1; 1; 0]) stretch.
Proof.
  cbn [held]. split; [apply stretch_solves; reflexivity|]. intros (_ & r & Hr & Hz). specialize (Hz 4%nat 1%nat ltac:(cbn; lia) ltac:(cbn; lia) (bm_free 1)).
  rewrite (stretch_residual [1; 1; 0] r 1 eq_refl ltac:(lia) Hr) in Hz. cbn [Nat.eqb nth] in Hz. unfold cur_E in Hz. lra.
Qed.

(** ** C207: parameters, volume constraint and objective *)
Theorem set_params_cells : forall flex_inds params, NoDup flex_inds -> length params = length flex_inds ->
  (forall i, (i < length flex_inds)%nat -> full_params flex_inds params (nth i flex_inds 0%nat) = nth i params 0) /\ (forall c, ~ In c flex_inds -> full_params flex_inds params c = 1).
Proof. intros inds ps Hn Hl. split; [intros i Hi; now apply full_in|intros c Hc; now apply full_out]. Qed.
Print Assumptions set_params_cells.
Example set_params_case : full_params [2; 0]%nat [3; 5] 0%nat = 5 /\ full_params [2; 0]%nat [3; 5] 1%nat = 1 /\ full_params [2; 0]%nat [3; 5] 2%nat = 3.
Proof. repeat split. Qed.
Theorem beam_vars : forall F params, length params = num_cells F -> forall c, (c < num_cells F)%nat -> forall q, map (fun v => v q) (vars_at (iv_laplace (cur_vars F params)) c) = [[nth c params 0]].
Proof. intros F params Hp c Hc q. now rewrite vars_here. Qed.
Print Assumptions beam_vars.
Theorem volume_constraint_inactive : forall params, params <> [] -> Forall (fun r => 0 <= r <= 1) params ->
  cur_constraint params <= 0 /\ (cur_constraint params = 0 <-> Forall (fun r => r = 1) params).
Proof. exact constraint_le. Qed.
Print Assumptions volume_constraint_inactive.
Example volume_constraint_case : cur_constraint [1 / 2; 1 / 2; 1 / 2] = - / 2 /\ cur_constraint [1; 1] = 0.
Proof. unfold cur_constraint. cbn [sumR length INR]. split; field. Qed.
Theorem beam_error_zero : forall F Lx on_line sol, 0 <= cur_error F Lx on_line sol
  /\ (cur_error F Lx on_line sol = 0 <-> forall n, (n < num_total_nodes F)%nat -> on_line n = true -> sol n 1%nat = 15 / 100 * sin (2 * PI * (points F n 0%nat / Lx))).
Proof.
  intros F Lx on_line sol. unfold cur_error. destruct (sum_sq_zero (filter on_line (seq 0 (num_total_nodes F))) (fun n => sol n 1%nat - 15 / 100 * sin (2 * PI / Lx * points F n 0%nat))) as [H0 H1]. split; [exact H0|].
  assert (E : forall n, 2 * PI / Lx * points F n 0%nat = 2 * PI * (points F n 0%nat / Lx)) by (intros n; unfold Rdiv; ring).
  rewrite H1. split.
  - intros H n Hn Ho. specialize (H n ltac:(apply filter_In; split; [apply in_seq; lia|exact Ho])). rewrite E in H. lra.
  - intros H n Hn. apply filter_In in Hn. destruct Hn as [Hn Ho]. apply in_seq in Hn. rewrite E, (H n) by (lia || exact Ho). ring.
Qed.
Print Assumptions beam_error_zero.
(** node 1 of the triangles lies at x = 1 *)
Example beam_error_case : cur_error bm 2 (fun n => Nat.eqb n 1) (fun _ _ => 1) = 1 /\ cur_error bm 4 (fun n => Nat.eqb n 1) (fun _ _ => 1) = 289 / 400.
Proof.
  unfold cur_error. cbn [num_total_nodes bm seq filter Nat.eqb sumR]. replace (points bm 1 0%nat) with 1 by reflexivity.
  replace (2 * PI / 2 * 1) with PI by field. replace (2 * PI / 4 * 1) with (PI / 2) by field. rewrite sin_PI, sin_PI2. split; field.
Qed.
Close Scope R_scope.
