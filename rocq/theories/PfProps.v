(** * Properties C22, C23, C25, C26, C72, C73, C75: the Allen-Cahn phase field and its coupling to the flow solver *)
From Verif Require Import Prelude PreludeFacts PfModel PfSpec PfProofs PfAuxProofs.
From Coq Require Import Lra.
Open Scope R_scope.

(** A small physical parameter set: two orientations on a 2 x 2 x 2 grid. *)
Definition pf_example (aniso : R) : pfargs :=
  mkPf 2 2 2 2 1 1 1 1 1 1 aniso 1600 1 1 1 (fun d _ => match d with 0%nat => (1, 0, 0) | 1%nat => (0, 1, 0) | _ => (0, 0, 1) end).

(** C22 *)
Theorem laplacian_conservative :
  forall a eta o, anisotropy a <= 0 -> sumR (seq 0 (num_cells a)) (fun n => laplace a eta n o) = 0.
Proof. exact laplacian_sums_to_zero. Qed.
Print Assumptions laplacian_conservative.

Theorem laplacian_vanishes_on_uniform :
  forall a eta o c, (forall n, (n < num_cells a)%nat -> eta n o = c) ->
  forall n, (n < num_cells a)%nat -> laplace a eta n o = 0.
Proof. exact laplace_local. Qed.
Print Assumptions laplacian_vanishes_on_uniform.

Theorem no_orientation_from_nothing_euler :
  forall a o steps s, (forall n, (n < num_cells a)%nat -> fst s n o = 0) ->
  forall n, (n < num_cells a)%nat -> fst (pf_run explicit_euler a steps s) n o = 0.
Proof. intros a o. apply run_zero. intros. now apply euler_zero. Qed.
Print Assumptions no_orientation_from_nothing_euler.

Theorem no_orientation_from_nothing_rk4 :
  forall a o steps s, (forall n, (n < num_cells a)%nat -> fst s n o = 0) ->
  forall n, (n < num_cells a)%nat -> fst (pf_run rk4 a steps s) n o = 0.
Proof. intros a o. apply run_zero. intros. now apply rk4_zero. Qed.
Print Assumptions no_orientation_from_nothing_rk4.

(** The Laplacian is not trivially zero: a single grain loses to its neighbours. *)
Example laplacian_nontrivial : laplace (pf_example 0) (fun n o => if Nat.eqb n 0 then 1 else 0) 0%nat 0%nat = 3.
Proof.
  unfold laplace, laplace_xyz, aniso_at. cbn [Nx Ny pf_example anisotropy].
  assert (E : Rltb 0 0 = false) by (apply Rltb_false; lra). rewrite E.
  cbv [pos_x neg_x pos_y neg_y pos_z neg_z eta_xyz cat Nx Ny Nz pf_example h_x h_y h_z kappa_g ad_hoc Nat.div Nat.modulo Nat.divmod fst snd Nat.ltb Nat.leb Nat.eqb Nat.mul Nat.add Nat.sub].
  lra.
Qed.

(** C23 *)
Theorem integrators_return_new_time :
  forall f s t, snd (explicit_euler f s t) = t /\ snd (rk4 f s t) = t.
Proof. intros. split; [apply euler_time|apply rk4_time]. Qed.
Print Assumptions integrators_return_new_time.
Theorem euler_order_one :
  forall lam (c : nat -> nat -> nat -> R) y t0 t n o,
  fst (explicit_euler (fun y _ => f_scal lam y) (y, t0) t) n o = exp_taylor 1 (lam * (t - t0)) * y n o /\
  fst (explicit_euler (fun _ s n o => poly (c n o) 0 s) (y, t0) t) n o = y n o + poly_integral (c n o) 0 t0 t.
Proof. intros. split; [apply euler_linear|apply euler_quadrature]. Qed.
Print Assumptions euler_order_one.
Theorem rk4_order_four :
  forall lam (c : nat -> nat -> nat -> R) y t0 t n o,
  fst (rk4 (fun y _ => f_scal lam y) (y, t0) t) n o = exp_taylor 4 (lam * (t - t0)) * y n o /\
  fst (rk4 (fun _ s n o => poly (c n o) 3 s) (y, t0) t) n o = y n o + poly_integral (c n o) 3 t0 t.
Proof. intros. split; [apply rk4_linear|apply rk4_quadrature]. Qed.
Print Assumptions rk4_order_four.
Example taylor_example : exp_taylor 4 1 = 65 / 24 /\ poly_integral (fun _ => 1) 3 0 1 = 25 / 12.
Proof. unfold exp_taylor, poly_integral. cbn. split; field. Qed.

(** C25: within one CFD interval the value is between the snapshots and meets both ends. *)
Theorem interpolation_inside_interval_partial :
  forall dt t_cfd t_pf p f, 0 < dt ->
  (t_cfd - dt <= t_pf <= t_cfd -> between (interpolate_T dt t_cfd t_pf p f) p f) /\
  interpolate_T dt t_cfd (t_cfd - dt) p f = p /\ interpolate_T dt t_cfd t_cfd p f = f.
Proof.
  intros dt tc tp p f Hd. split; [now apply interpolate_between|]. apply interpolate_ends. lra.
Qed.
Print Assumptions interpolation_inside_interval_partial.
(** What the time loop really does: after the first CFD step it always extrapolates from the last two
    snapshots, both older than the phase-field time. *)
Theorem coupled_temperature_extrapolates :
  forall dt snap ts, 0 < dt -> times_ok dt 0 ts ->
  forall t m v, In (t, m, v) (coupled_run dt snap ts) ->
    (t <= dt -> m = 1%nat /\ v = snap 0%nat + (snap 1%nat - snap 0%nat) * (t / dt)) /\
    (dt < t -> (1 <= m)%nat /\ INR m * dt < t <= INR m * dt + dt /\
       v = snap m + (snap m - snap (m - 1)%nat) * ((t - INR m * dt) / dt)).
Proof. exact coupled_ok. Qed.
Print Assumptions coupled_temperature_extrapolates.
Theorem temperature_between_snapshots_refuted :
  exists dt snap ts t m v, 0 < dt /\ times_ok dt 0 ts /\
  In (t, m, v) (coupled_run dt snap ts) /\ dt < t /\
  ~ between v (snap (m - 1)%nat) (snap m) /\
  (forall m', ~ between v (snap m') (snap (S m'))).
Proof. exact coupled_not_between. Qed.
Print Assumptions temperature_between_snapshots_refuted.
Example times_example : times_ok 2 0 [1; 2; 3; 4; 5].
Proof. cbn. repeat split; lra. Qed.

(** C26 *)
Theorem convert_temperature_keeps_location :
  forall nx ny nz T, length (convert_temperature nx ny nz T) = (nx * ny * nz)%nat /\
  forall x y z, (x < nx)%nat -> (y < ny)%nat -> (z < nz)%nat ->
  nth_error (convert_temperature nx ny nz T) (at_cell nx ny x y z) = Some (T x y z).
Proof. intros. split; [apply convert_length|]. intros; now apply convert_ok. Qed.
Print Assumptions convert_temperature_keeps_location.
Example convert_example : convert_temperature 2 1 2 (fun x y z => INR x + 10 * INR z) = [0 + 10 * 0; 1 + 10 * 0; 0 + 10 * 1; 1 + 10 * 1].
Proof. reflexivity. Qed.

(** C72 *)
Theorem order_parameters_stay_in_unit_interval :
  forall a hmax steps, physical a -> hmax * L0 a * rate a <= 1 -> forall s,
  in_unit (num_cells a) (num_oris a) (fst s) -> steps_ok a hmax (snd s) steps ->
  in_unit (num_cells a) (num_oris a) (fst (pf_run explicit_euler a steps s)).
Proof. exact run_in_unit. Qed.
Print Assumptions order_parameters_stay_in_unit_interval.
Theorem anisotropy_factor_bounds :
  forall a o e, 0 <= anisotropy a -> 1 + anisotropy a / 2 <= aniso_factor a o e <= 1 + anisotropy a.
Proof. exact aniso_bounds. Qed.
Print Assumptions anisotropy_factor_bounds.
Theorem liquid_fraction_and_mobility_bounds :
  forall a t, 0 < zeta_of a t < 1 /\
  (0 < L0 a -> 0 <= Qg a -> 0 < gas_const a -> 0 < t -> 0 < mobility a t <= L0 a).
Proof. intros. split; [apply zeta_unit|apply mobility_bounds]. Qed.
Print Assumptions liquid_fraction_and_mobility_bounds.
Example unit_interval_hypotheses :
  let a := pf_example (1 / 10) in
  physical a /\ 1 / 100 * L0 a * rate a <= 1 /\ steps_ok a (1 / 100) 0 [((fun _ => 300), 1 / 100); ((fun _ => 1800), 2 / 100)].
Proof.
  cbn. repeat split; try (intros; lra); try (cbn; lra). unfold rate. cbn. lra.
Qed.

(** C73 *)
Theorem local_energy_gradient_is_derivative :
  forall a v z n o, (n < num_cells a)%nat -> (o < num_oris a)%nat ->
  partial_derivative (fun w => chemical_energy (num_cells a) (num_oris a) (m_g a) w z) v n o (local_energy_grad a v z n o).
Proof.
  intros a v z n o Hn Ho. unfold partial_derivative.
  eapply dlim_ext; [intros t; apply (local_is_chemical a)|]. now apply local_energy_gradient.
Qed.
Print Assumptions local_energy_gradient_is_derivative.
Theorem phase_field_is_gradient_flow :
  forall a T v t n o, anisotropy a <= 0 -> h_x a <> 0 -> h_y a <> 0 -> h_z a <> 0 -> ad_hoc a <> 0 ->
  (n < num_cells a)%nat -> (o < num_oris a)%nat ->
  let z := fun n => zeta_of a (cap_T (T n)) in
  exists g,
    partial_derivative (fun w => chemical_energy (num_cells a) (num_oris a) (m_g a) w z / ad_hoc a
        + interface_energy (Nx a) (Ny a) (Nz a) (num_oris a) (h_x a) (h_y a) (h_z a) (kappa_g a * ad_hoc a) w) v n o g /\
    state_rhs a T v t n o = - mobility a (cap_T (T n)) * g.
Proof.
  intros a T v t n o Ha Hx Hy Hz Had Hn Ho z.
  exists (local_energy_grad a v z n o / ad_hoc a + laplace a v n o). split; [|reflexivity].
  pose proof (local_energy_gradient_is_derivative a v z n o Hn Ho) as D1.
  pose proof (interface_gradient a v n o Ha Hx Hy Hz Hn Ho) as D2.
  unfold partial_derivative in *.
  pose proof (derivable_pt_lim_plus _ _ _ _ _ (derivable_pt_lim_scal _ (/ ad_hoc a) _ _ D1) D2) as D.
  eapply dlim_ext; [|eapply dlim_val; [|exact D]].
  - intros s. unfold plus_fct, mult_real_fct, Rdiv. ring.
  - unfold Rdiv. ring.
Qed.
Print Assumptions phase_field_is_gradient_flow.
Theorem interface_term_symmetric_and_dissipative :
  forall a eta u v o, anisotropy a <= 0 ->
  (forall n, eta n o = v n) ->
  sumR (seq 0 (num_cells a)) (fun n => u n * laplace a eta n o) =
    sumR (seq 0 (num_cells a)) (fun n => v n * laplace a (fun n _ => u n) n o) /\
  (0 <= kappa_g a * ad_hoc a -> 0 <= sumR (seq 0 (num_cells a)) (fun n => v n * laplace a eta n o)).
Proof.
  intros a eta u v o Ha Hv. split.
  - rewrite !laplace_form by exact Ha. f_equal. rewrite dform_sym. apply dform_ext; auto.
  - intros Hk. rewrite laplace_form by exact Ha. apply Rmult_le_pos; [exact Hk|].
    rewrite (dform_ext a v v (fun n => eta n o) v) by auto. apply dform_nonneg.
Qed.
Print Assumptions interface_term_symmetric_and_dissipative.

(** C75 *)
Theorem written_orientation_is_dominant :
  forall a eta n, (0 < num_oris a)%nat ->
  (written_ori a eta n < num_oris a)%nat /\
  forall o, (o < num_oris a)%nat -> eta n o <= eta n (written_ori a eta n).
Proof. exact written_ori_ok. Qed.
Print Assumptions written_orientation_is_dominant.
Close Scope R_scope.
