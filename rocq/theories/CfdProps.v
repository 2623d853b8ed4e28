(** * Properties C27-C38 and C76-C80: the thermal-fluid solver (jax_am/cfd/cfd_am.py) *)
From Verif Require Import Prelude PreludeFacts GridFacts CfdMeshModel CfdMeshSpec CfdMeshProofs CfdModel CfdSpec
  CfdProofs CfdOpProofs CfdEqProofs CfdSolveProofs CfdRestProofs.
From Coq Require Import Lra Psatz ZifyBool ZifyNat.
Open Scope R_scope.

(** ** C27 *)
Theorem mesh_neighbours :
  forall m i j k, (i < mNx m)%nat -> (j < mNy m)%nat -> (k < mNz m)%nat ->
  exists row, nth_error (cell_conn m) (number (mNy m) (mNz m) (i, j, k)) = Some row /\ length row = 7%nat /\
    nth_error row 0 = Some (number (mNy m) (mNz m) (i, j, k)) /\
    forall s, (s < 6)%nat -> nth_error row (S s) =
      Some (number (mNy m) (mNz m) (match across (mNx m) (mNy m) (mNz m) s i j k with Some c => c | None => (i, j, k) end)).
Proof. exact conn_spec. Qed.
Print Assumptions mesh_neighbours.
Theorem mesh_neighbours_mutual :
  forall m n s n' row, (n < cell_num m)%nat -> (s < 6)%nat ->
  nth_error (cell_conn m) n = Some row -> nth_error row (S s) = Some n' -> n' <> n ->
  exists row', nth_error (cell_conn m) n' = Some row' /\ nth_error row' (S (opposite s)) = Some n.
Proof. exact conn_mutual. Qed.
Print Assumptions mesh_neighbours_mutual.
Theorem mesh_boundary_faces_once :
  forall m, (0 < mNx m)%nat -> (0 < mNy m)%nat -> (0 < mNz m)%nat ->
  NoDup (combine (surf_orient m) (surf_cell m)) /\
  (forall s c, In (s, c) (combine (surf_orient m) (surf_cell m)) <->
    (s < 6)%nat /\ exists i j k, (i < mNx m)%nat /\ (j < mNy m)%nat /\ (k < mNz m)%nat /\
      c = number (mNy m) (mNz m) (i, j, k) /\ across (mNx m) (mNy m) (mNz m) s i j k = None).
Proof. intros m Px Py Pz. split; [now apply pairs_NoDup|]. intros. now apply in_pairs. Qed.
Print Assumptions mesh_boundary_faces_once.
(** The six sets split the list of boundary faces, and the faces of set s have orientation s. *)
Theorem mesh_surface_sets_partition :
  forall m, concat (surf_sets m) = seq 0 (length (surf_cell m)) /\ map (@length nat) (surf_sets m) = surf_set_num m /\
  forall s p, (s < 6)%nat -> In p (nth s (surf_sets m) []) -> nth p (surf_orient m) 6%nat = s.
Proof.
  intros m. split; [apply surf_sets_concat|]. split; [apply surf_sets_num|]. intros s p Hs Hp.
  apply (in_map (fun p => nth p (surf_orient m) 6%nat)) in Hp. rewrite gather_orient in Hp by assumption.
  now apply repeat_spec in Hp.
Qed.
Print Assumptions mesh_surface_sets_partition.
Theorem mesh_face_centres :
  forall m p s c, (0 < mNx m)%nat -> (0 < mNy m)%nat -> (0 < mNz m)%nat ->
  nth_error (surf_orient m) p = Some s -> nth_error (surf_cell m) p = Some c ->
  exists i j k, (i < mNx m)%nat /\ (j < mNy m)%nat /\ (k < mNz m)%nat /\ c = number (mNy m) (mNz m) (i, j, k) /\
    across (mNx m) (mNy m) (mNz m) s i j k = None /\
    nth_error (surface m) p = Some (face_centre (dXx m) (dXy m) (dXz m) s i j k).
Proof. exact surface_nth. Qed.
Print Assumptions mesh_face_centres.
Theorem mesh2_neighbours :
  forall m i j, (i < nNx m)%nat -> (j < nNy m)%nat ->
  exists row, nth_error (cell_conn2 m) (i * nNy m + j) = Some row /\ length row = 5%nat /\
    nth_error row 0 = Some (i * nNy m + j)%nat /\
    forall s, (s < 4)%nat -> nth_error row (S s) =
      Some (let '(i', j') := match across2 (nNx m) (nNy m) s i j with Some c => c | None => (i, j) end in i' * nNy m + j')%nat.
Proof. exact conn2_spec. Qed.
Print Assumptions mesh2_neighbours.
Theorem mesh2_boundary_faces_once :
  forall m, (0 < nNx m)%nat -> (0 < nNy m)%nat ->
  concat (surf_sets2 m) = seq 0 (length (surf_cell2 m)) /\
  forall s, (s < 4)%nat ->
    NoDup (map (fun p => nth p (surf_cell2 m) 0%nat) (nth s (surf_sets2 m) [])) /\
    forall c, In c (map (fun p => nth p (surf_cell2 m) 0%nat) (nth s (surf_sets2 m) [])) <->
      exists i j, (i < nNx m)%nat /\ (j < nNy m)%nat /\ c = (i * nNy m + j)%nat /\ across2 (nNx m) (nNy m) s i j = None.
Proof. exact surf2. Qed.
Print Assumptions mesh2_boundary_faces_once.
Definition mesh_ex : mesh3 := mkMesh3 2 3 2 2 3 2.
Example mesh_example : cell_num mesh_ex = 12%nat /\ nth 0 (cell_conn mesh_ex) [] = [0; 0; 6; 0; 2; 0; 1]%nat /\
  length (surf_cell mesh_ex) = 32%nat /\ nth 1 (surf_sets mesh_ex) [] = [6; 7; 8; 9; 10; 11]%nat.
Proof. repeat split; reflexivity. Qed.

(** ** C28 *)
Lemma good_ex : good_mesh mesh_ex.
Proof. unfold good_mesh, mesh_ex. cbn. repeat split; lia || lra. Qed.
Theorem diffusion_conservative :
  forall e U, good_mesh (e_mesh e) -> sumR (seq 0 (cell_num (e_mesh e))) (laplace e U) = 0.
Proof. intros e U W. now apply lap_sum_zero. Qed.
Print Assumptions diffusion_conservative.
Theorem diffusion_vanishes_on_constants :
  forall e U c, good_mesh (e_mesh e) -> (forall n, (n < cell_num (e_mesh e))%nat -> U n = c) ->
  forall n, (n < cell_num (e_mesh e))%nat -> laplace e U n = 0.
Proof. intros e U c W. now apply lap_const_zero. Qed.
Print Assumptions diffusion_vanishes_on_constants.
Theorem diffusion_symmetric :
  forall e U V, good_mesh (e_mesh e) -> e_mufn e = None ->
  sumR (seq 0 (cell_num (e_mesh e))) (fun n => V n * laplace e U n) =
  sumR (seq 0 (cell_num (e_mesh e))) (fun n => U n * laplace e V n).
Proof. intros e U V W. now apply lap_symmetric. Qed.
Print Assumptions diffusion_symmetric.
(** Constant conductivity mu >= 0, or any positive conductivity function. *)
Theorem diffusion_dissipative :
  forall e U, good_mesh (e_mesh e) ->
  (e_mufn e = None /\ (forall mu, e_mu e = Some mu -> 0 <= mu) \/ exists k, e_mufn e = Some k /\ forall x, 0 < k x) ->
  sumR (seq 0 (cell_num (e_mesh e))) (fun n => U n * laplace e U n) <= 0.
Proof.
  intros e U W H. apply lap_dissipative; [assumption|]. intros p q. unfold face_mu, harmonic.
  destruct H as [(-> & H)|(k & -> & H)].
  - destruct (e_mu e) as [mu|]; [now apply H|lra].
  - pose proof (H p). pose proof (H q). apply Rlt_le, Rdiv_lt_0_compat; [|lra]. apply Rmult_lt_0_compat; [lra|assumption].
Qed.
Print Assumptions diffusion_dissipative.
(** The module-level routine on arrays and the equation object agree. *)
Theorem diffusion_routines_agree :
  forall e miu f i j k, good_mesh (e_mesh e) -> e_mufn e = None -> e_mu e = Some miu ->
  (i < mNx (e_mesh e))%nat -> (j < mNy (e_mesh e))%nat -> (k < mNz (e_mesh e))%nat ->
  laplace_const (grid_of (e_mesh e)) miu f i j k = laplace e (flat (e_mesh e) f) (cell_idx (e_mesh e) i j k).
Proof. intros e miu f i j k W. now apply module_laplace_eq. Qed.
Print Assumptions diffusion_routines_agree.
Definition eqn_ex : eqn := mkEqn mesh_ex PyFalse (Some 2) None (fun _ _ => 0).
Example diffusion_nontrivial : laplace eqn_ex (fun n => if Nat.eqb n 0 then 1 else 0) 0%nat = -6 /\
  laplace eqn_ex (fun n => if Nat.eqb n 0 then 1 else 0) 6%nat = 2.
Proof.
  unfold laplace, laplace_kernel, nb.
  replace (nth 0 (cell_conn (e_mesh eqn_ex)) []) with [0; 0; 6; 0; 2; 0; 1]%nat by reflexivity.
  replace (nth 6 (cell_conn (e_mesh eqn_ex)) []) with [6; 0; 6; 6; 8; 6; 7]%nat by reflexivity.
  cbn [seq sumR nth Nat.eqb face_mu e_mufn e_mu eqn_ex D3 dS3 e_mesh].
  replace (dXx mesh_ex) with 1 by (unfold dXx; cbn; field). replace (dXy mesh_ex) with 1 by (unfold dXy; cbn; field).
  replace (dXz mesh_ex) with 1 by (unfold dXz; cbn; field). split; field.
Qed.

(** ** C29 *)
Theorem ghost_cells_realise_bc :
  forall g B c f s p q, (s < 6)%nat ->
  (value_given (bkind B s) c ->
     (get_GC g B c f s p q + edge_value (gNx g) (gNy g) (gNz g) f s p q) / 2 = bval B s c p q) /\
  (slope_given (bkind B s) c -> width g s <> 0 ->
     face_slope s (width g s) (edge_value (gNx g) (gNy g) (gNz g) f s p q) (get_GC g B c f s p q) = bval B s c p q).
Proof. exact ghost_ok. Qed.
Print Assumptions ghost_cells_realise_bc.
Example ghost_example : value_given Dirichlet 0 /\ value_given Marangoni 2 /\ slope_given Neumann 1 /\ slope_given Marangoni 1 /\
  get_GC (mkGrid 2 2 2 1 1 1) (mkBcs (fun _ => Neumann) (fun _ _ _ _ => 3)) 0 (fun _ _ _ => 7) 0 0 0 = 4 /\
  get_GC (mkGrid 2 2 2 1 1 1) (mkBcs (fun _ => Neumann) (fun _ _ _ _ => 3)) 0 (fun _ _ _ => 7) 5 0 0 = 10.
Proof. cbn. repeat split; try lia; lra. Qed.

(** ** C30 *)
Theorem convection_conservative :
  forall g theta B f uf vf wf, closed_box g uf vf wf ->
  box_sum (gNx g) (gNy g) (gNz g) (div g theta B f uf vf wf) = 0.
Proof. exact div_sum_zero. Qed.
Print Assumptions convection_conservative.
Theorem convection_of_constant :
  forall g theta c uf vf wf i j k,
  div g theta default_BCs (fun _ _ _ => c) uf vf wf i j k = c * face_div g uf vf wf i j k.
Proof. exact div_const_field. Qed.
Print Assumptions convection_of_constant.
(** The interpolated face value is exact on linear fields for every blend and either direction. *)
Theorem convection_face_value_linear :
  forall theta n g0 g1 u a b i, (2 <= i)%nat -> (i + 2 <= n)%nat ->
  f_face theta n g0 (fun i => a + b * (INR i + 1 / 2)) g1 u i = a + b * INR i.
Proof. exact f_face_linear. Qed.
Print Assumptions convection_face_value_linear.
(** The driver's boundary conditions close the box, so its convective terms sum to zero. *)
Theorem driver_convection_conservative :
  forall a T vel T', (0 < mNx (a_local a))%nat -> (0 < mNy (a_local a))%nat -> (0 < mNz (a_local a))%nat ->
  let '(convT, conv) := update_convective_terms a T' vel (vel_BCs a T) in
  box_sum (mNx (a_local a)) (mNy (a_local a)) (mNz (a_local a)) convT = 0 /\
  forall c, box_sum (mNx (a_local a)) (mNy (a_local a)) (mNz (a_local a)) (conv c) = 0.
Proof. exact conv_closed. Qed.
Print Assumptions driver_convection_conservative.
Example closed_box_example : exists uf, closed_box (mkGrid 2 1 1 1 1 1) uf (fun _ _ _ => 0) (fun _ _ _ => 0) /\ uf 1%nat 0%nat 0%nat = 5.
Proof. exists (fun i _ _ => if Nat.eqb i 1 then 5 else 0). unfold closed_box. cbn. auto. Qed.

(** ** C31 *)
Theorem window_inside_domain :
  forall a t, (mNx (a_local a) <= mNx (a_mesh a))%nat -> (mNy (a_local a) <= mNy (a_mesh a))%nat ->
  (mNz (a_local a) <= mNz (a_mesh a))%nat ->
  let '((x0, x1), (y0, y1), (z0, z1)) := moving_box a t in
  (x1 - x0 = Z.of_nat (mNx (a_local a)) /\ 0 <= x0 /\ x1 <= Z.of_nat (mNx (a_mesh a)))%Z /\
  (y1 - y0 = Z.of_nat (mNy (a_local a)) /\ 0 <= y0 /\ y1 <= Z.of_nat (mNy (a_mesh a)))%Z /\
  (z1 - z0 = Z.of_nat (mNz (a_local a)) /\ 0 <= z0 /\ z1 = Z.of_nat (mNz (a_mesh a)))%Z.
Proof.
  intros a t Hx Hy Hz. unfold moving_box. destruct (toolpath a t) as [[[xl yl] zl] P].
  pose proof (box_axis_size xl (dXx (a_mesh a)) _ _ Hx) as Bx. pose proof (box_axis_size yl (dXy (a_mesh a)) _ _ Hy) as By.
  destruct (box_axis xl _ _ _) as [x0 x1], (box_axis yl _ _ _) as [y0 y1]. split; [exact Bx|]. split; [exact By|]. lia.
Qed.
Print Assumptions window_inside_domain.
(** The laser at (xl, yl) over cell column (i, j). *)
Theorem window_contains_laser :
  forall a t xl yl zl P i j, good_mesh (a_mesh a) -> toolpath a t = (xl, yl, zl, P) ->
  (2 <= mNx (a_local a) <= mNx (a_mesh a))%nat -> (2 <= mNy (a_local a) <= mNy (a_mesh a))%nat ->
  (i < mNx (a_mesh a))%nat -> INR i * dXx (a_mesh a) <= xl < (INR i + 1) * dXx (a_mesh a) ->
  (j < mNy (a_mesh a))%nat -> INR j * dXy (a_mesh a) <= yl < (INR j + 1) * dXy (a_mesh a) ->
  let '((x0, x1), (y0, y1), (z0, z1)) := moving_box a t in
  (x0 <= Z.of_nat i < x1)%Z /\ (y0 <= Z.of_nat j < y1)%Z /\ (z0 = Z.of_nat (mNz (a_mesh a)) - Z.of_nat (mNz (a_local a)))%Z.
Proof.
  intros a t xl yl zl P i j W E Hx Hy Hi Ci Hj Cj. unfold moving_box. rewrite E.
  destruct (widths (mkEqn (a_mesh a) PyFalse None None (fun _ _ => 0)) W) as (Wx & Wy & _). cbn [e_mesh] in *.
  pose proof (box_axis_contains xl (dXx (a_mesh a)) _ _ i Wx Hx Hi Ci) as Bx.
  pose proof (box_axis_contains yl (dXy (a_mesh a)) _ _ j Wy Hy Hj Cj) as By.
  destruct (box_axis xl _ _ _) as [x0 x1], (box_axis yl _ _ _) as [y0 y1]. auto.
Qed.
Print Assumptions window_contains_laser.
(** A window of one cell misses the laser when the laser is in the right half of its cell. *)
Theorem window_one_cell_contains_laser_refuted :
  exists x, let '(lo, hi) := box_axis x 1 3 1 in 0 <= x < 1 /\ (lo = 1 /\ hi = 2)%Z.
Proof. exact box_axis_one_misses. Qed.
Print Assumptions window_one_cell_contains_laser_refuted.

Definition am_ex (heat_source : nat) (P tOFF : R) : amargs :=
  mkAm (mkMesh3 4 3 3 4 3 3) (mkMesh3 2 2 2 2 2 2) (1 / 10) 1 (1 / 2, 3 / 2, 3) P tOFF 1 1 1 1600 1700 1 1 1 300 1 1 1 1
       (fun _ => 1) (fun T => 1 + T * T) heat_source.
Example window_example : good_mesh (a_mesh (am_ex 0 1 1)) /\ toolpath (am_ex 0 1 1) 0 = (1 / 2 + 0 * 1, 3 / 2, 3, 1 * b2R (Rltb 0 1)) /\
  (2 <= mNx (a_local (am_ex 0 1 1)) <= mNx (a_mesh (am_ex 0 1 1)))%nat.
Proof. unfold good_mesh. cbn. repeat split; try lia; lra. Qed.

(** ** C32 *)
Theorem step_clock_frame_melted :
  forall a update_T solve_v solve_p s s', time_integration a update_T solve_v solve_p s = Ok s' ->
  s_t s' = s_t s + a_dt a /\
  (forall i j k, s_solidID s' i j k = Rmax (s_solidID s i j k) (fluid_frac a (s_T s' i j k))) /\
  (forall i j k, outside (window_at a (s_t s)) i j k ->
     (forall c, s_vel s' c i j k = s_vel s c i j k) /\ (forall c, s_gradp s' c i j k = s_gradp s c i j k) /\
     (forall c, s_conv s' c i j k = s_conv s c i j k) /\ s_convT s' i j k = s_convT s i j k).
Proof. exact step_spec. Qed.
Print Assumptions step_clock_frame_melted.
Theorem run_advances_time :
  forall a update_T solve_v solve_p n s s', run a update_T solve_v solve_p n s = Ok s' -> s_t s' = s_t s + INR n * a_dt a.
Proof. exact run_clock. Qed.
Print Assumptions run_advances_time.
Theorem melted_fraction_is_running_maximum :
  forall a update_T solve_v solve_p n s s', run a update_T solve_v solve_p n s = Ok s' -> forall i j k,
  s_solidID s i j k <= s_solidID s' i j k /\
  (forall p sp, (1 <= p <= n)%nat -> run a update_T solve_v solve_p p s = Ok sp -> fluid_frac a (s_T sp i j k) <= s_solidID s' i j k) /\
  (s_solidID s' i j k = s_solidID s i j k \/
   exists p sp, (1 <= p <= n)%nat /\ run a update_T solve_v solve_p p s = Ok sp /\ s_solidID s' i j k = fluid_frac a (s_T sp i j k)).
Proof. exact run_solid. Qed.
Print Assumptions melted_fraction_is_running_maximum.
Theorem melted_fraction_in_unit_interval :
  forall a update_T solve_v solve_p n s s', a_Ts a < a_Tl a -> run a update_T solve_v solve_p n s = Ok s' ->
  forall i j k, 0 <= s_solidID s i j k <= 1 -> 0 <= s_solidID s' i j k <= 1.
Proof.
  intros a uT sv sp n s s' Ht E i j k Hs. destruct (run_solid a uT sv sp n s s' E i j k) as (H1 & _ & H3).
  destruct H3 as [-> |(p & s1 & _ & _ & ->)]; [assumption|now apply fluid_frac_range].
Qed.
Print Assumptions melted_fraction_in_unit_interval.
Theorem fluid_fraction_by_temperature :
  forall a T, a_Ts a < a_Tl a -> 0 <= fluid_frac a T <= 1 /\ (T <= a_Ts a -> fluid_frac a T = 0) /\ (a_Tl a <= T -> fluid_frac a T = 1).
Proof.
  intros a T H. split; [now apply fluid_frac_range|]. unfold fluid_frac, clipR. split; intros HT.
  - rewrite Rmax_right, Rmin_left by lra. field. lra.
  - rewrite Rmax_left, Rmin_right by lra. field. lra.
Qed.
Print Assumptions fluid_fraction_by_temperature.
Example run_example : exists s', run (am_ex 0 1 1) (fun T _ _ _ => fun i j k => T i j k + 1650) (fun _ _ _ _ _ _ _ => 0) (fun _ _ => 0) 1
    (init_state (am_ex 0 1 1)) = Ok s' /\ s_solidID s' 0%nat 0%nat 0%nat = 1.
Proof.
  eexists. split; [reflexivity|]. cbn. unfold fluid_frac, clipR. cbn.
  rewrite (Rmax_left (0 + 300 + 1650) 1600), (Rmin_right _ 1700) by lra.
  replace ((1700 - 1600) / (1700 - 1600)) with 1 by field. apply Rmax_right. lra.
Qed.

(** ** C33 *)
Theorem matrix_is_derivative_of_residual :
  forall e dk ds bc U V r v,
  (forall k, e_mufn e = Some k -> forall x, 0 < k x /\ derivable_pt_lim k x (dk x)) ->
  (forall n u, derivable_pt_lim (e_src e n) u (ds n u)) ->
  (e_mufn e = None \/ e_mu e = None) ->
  (forall l, bc = Some l -> good_bc (e_mesh e) l) ->
  compute_residual e bc U = Ok r -> newton_values e dk ds bc U = Ok v ->
  forall n, (n < cell_num (e_mesh e))%nat ->
  derivable_pt_lim (fun s => ok_or (fun _ => 0) (compute_residual e bc (fun i => U i + s * V i)) n) 0
    (linearized_residual (e_mesh e) v V n) /\
  exists r', compute_residual e bc (fun i => U i + 0 * V i) = Ok r'.
Proof.
  intros e dk ds bc U V r v Hk Hs Hm GB E Ev n Hn. split.
  - apply (newton_is_derivative e dk ds Hk Hs bc U V r v); auto.
    intros x mu. unfold bc_mu, kappa_of. destruct Hm as [-> | ->].
    + destruct (eq_true _); [discriminate|]. destruct (e_mu e); congruence.
    + destruct (eq_true _); [|discriminate]. destruct (e_mufn e); congruence.
  - now apply (residual_total e bc U _ r).
Qed.
Print Assumptions matrix_is_derivative_of_residual.
Theorem jacobi_uses_matrix_diagonal :
  forall e v U n, (n < cell_num (e_mesh e))%nat ->
  jacobi (e_mesh e) v U n = 1 / linearized_residual (e_mesh e) v (fun i => if Nat.eqb i n then 1 else 0) n * U n.
Proof. intros e v U n Hn. unfold jacobi. now rewrite (precond_diag e v n Hn). Qed.
Print Assumptions jacobi_uses_matrix_diagonal.
(** One exact solve of a linear equation with affine source leaves no residual. *)
Theorem linear_solve_leaves_no_residual :
  forall e dk s0 s1 bc bicg r0 v, e_mufn e = None -> (forall n u, e_src e n u = s0 n + s1 n * u) ->
  (forall l, bc = Some l -> good_bc (e_mesh e) l) ->
  compute_residual e bc (fun _ => 0) = Ok r0 -> newton_values e dk (fun n _ => s1 n) bc (fun _ => 0) = Ok v ->
  (forall n, (n < cell_num (e_mesh e))%nat ->
     linearized_residual (e_mesh e) v (bicg (linearized_residual (e_mesh e) v) (fun n => - r0 n)) n = - r0 n) ->
  exists r, compute_residual e bc (solver_linear bicg (e_mesh e) v r0) = Ok r /\
    forall n, (n < cell_num (e_mesh e))%nat -> r n = 0.
Proof.
  intros e dk s0 s1 bc bicg r0 v L A GB E0 Ev Hb. apply (linear_solve_exact e dk s0 s1 L A bc bicg r0 v); auto.
  intros x mu. unfold bc_mu, kappa_of. rewrite L. destruct (eq_true _); [discriminate|]. destruct (e_mu e); congruence.
Qed.
Print Assumptions linear_solve_leaves_no_residual.
Definition bc_ex : bclist :=
  [(0%nat, repeat 1 6); (1%nat, repeat 2 6); (1%nat, repeat 0 4); (1%nat, repeat 0 4); (0%nat, repeat 3 6); (1%nat, repeat 0 6)].
Lemma bc_ex_good : good_bc mesh_ex bc_ex.
Proof.
  split; [reflexivity|]. intros s ty vals H.
  do 6 (destruct s as [|s]; [cbn in H; inversion H; subst; split; [lia|reflexivity]|]). destruct s; discriminate.
Qed.
Definition eqn_ex2 : eqn := mkEqn mesh_ex PyTrue None (Some (fun x => 1 + x * x)) (fun _ u => 3 - 2 * u).
Example matrix_example :
  (forall k, e_mufn eqn_ex2 = Some k -> forall x, 0 < k x /\ derivable_pt_lim k x (2 * x)) /\
  (forall n u, derivable_pt_lim (e_src eqn_ex2 n) u (-2)) /\ good_bc (e_mesh eqn_ex2) bc_ex /\
  exists r v, compute_residual eqn_ex2 (Some bc_ex) (fun n => INR n) = Ok r /\
    newton_values eqn_ex2 (fun x => 2 * x) (fun _ _ => -2) (Some bc_ex) (fun n => INR n) = Ok v.
Proof.
  split; [|split; [|split]].
  - intros k E x. inversion E; subst. split; [nra|].
    eapply dlim_eq; [apply dlim_add; [apply (dlim_cst 1)|apply dlim_mul; apply derivable_pt_lim_id]|reflexivity|unfold id; ring].
  - intros n u. eapply dlim_eq; [apply (dlim_line 3 (-2) u)| |reflexivity]. intros. cbn. ring.
  - exact bc_ex_good.
  - assert (N : forall ty vals, In (ty, vals) bc_ex -> ty = 0%nat -> forall v, exists mu, bc_mu eqn_ex2 v = Ok mu)
      by (intros; eexists; reflexivity).
    destruct (residual_defined eqn_ex2 bc_ex (fun n => INR n) bc_ex_good N) as (r & Er).
    destruct (newton_defined eqn_ex2 (fun x => 2 * x) (fun _ _ => -2) bc_ex (fun n => INR n) bc_ex_good N) as (v & Ev).
    eauto.
Qed.

(** ** C34 *)
Theorem residual_global_balance :
  forall e bc U r, good_mesh (e_mesh e) -> (e_mufn e = None \/ e_mu e = None) -> good_bc (e_mesh e) bc ->
  compute_residual e (Some bc) U = Ok r ->
  sumR (seq 0 (cell_num (e_mesh e))) r =
  - sumR (seq 0 (cell_num (e_mesh e))) (fun n => e_src e n (U n)) * dV (e_mesh e)
  - boundary_gain (e_mesh e) (kappa_of e) bc U.
Proof.
  intros e bc U r W Hm G E. apply balance; auto.
  intros x mu. unfold bc_mu, kappa_of. destruct Hm as [-> | ->].
  - destruct (eq_true _); [discriminate|]. destruct (e_mu e); congruence.
  - destruct (eq_true _); [|discriminate]. destruct (e_mufn e); congruence.
Qed.
Print Assumptions residual_global_balance.
(** A converged energy step: stored heat changes by convection, body source and boundary flux only. *)
Theorem energy_step_global_balance :
  forall a T0 conv Q bc T r, good_mesh (a_mesh a) -> good_bc (a_mesh a) bc ->
  energy_residual a T0 conv Q bc T = Ok r -> (forall n, (n < cell_num (a_mesh a))%nat -> r n = 0) ->
  sumR (seq 0 (cell_num (a_mesh a))) (fun n => a_rho a * cp_fn a (T0 n) * (T n - T0 n) / a_dt a * dV (a_mesh a)) =
  sumR (seq 0 (cell_num (a_mesh a))) (fun n => (Q n - a_rho a * cp_fn a (T0 n) * conv n) * dV (a_mesh a))
  + boundary_gain (a_mesh a) (a_k a) bc T.
Proof.
  intros a T0 conv Q bc T r W G E Z. unfold energy_residual in E. rewrite energy_eqn_ok in E. cbn [bind] in E.
  match type of E with compute_residual ?x _ _ = _ => set (e := x) in * end.
  pose proof (residual_global_balance e bc T r W (or_intror eq_refl) G E) as B. cbn [e_mesh e] in B. fold e in B.
  rewrite sumR_zero in B by (intros n Hn; apply in_seq in Hn; apply Z; lia).
  change (kappa_of e) with (a_k a) in B. cbn [e_src e] in B.
  assert (S : sumR (seq 0 (cell_num (a_mesh a))) (fun n => a_rho a * cp_fn a (T0 n) * (T n - T0 n) / a_dt a * dV (a_mesh a)) -
    sumR (seq 0 (cell_num (a_mesh a))) (fun n => (Q n - a_rho a * cp_fn a (T0 n) * conv n) * dV (a_mesh a)) =
    - sumR (seq 0 (cell_num (a_mesh a))) (fun n => energy_src a T0 conv Q n (T n)) * dV (a_mesh a)).
  { rewrite <- sumR_sub, <- sumR_opp, <- sumR_scal_r. apply sumR_ext. intros n _.
    unfold energy_src, Rdiv. ring. }
  lra.
Qed.
Print Assumptions energy_step_global_balance.
Example balance_example : good_mesh mesh_ex /\ good_bc mesh_ex bc_ex /\ boundary_gain mesh_ex (fun _ => 1) bc_ex (fun _ => 0) = 60.
Proof.
  split; [exact good_ex|]. split; [exact bc_ex_good|]. unfold boundary_gain, bc_ex, side_list, mesh_ex.
  cbn [seq combine sumR fst snd repeat flat2 flat_map map app mNx mNy mNz Nat.mul Nat.add Nat.sub face_gain area spacing].
  unfold dXx, dXy, dXz. cbn [mLx mLy mLz mNx mNy mNz INR]. field.
Qed.

(** ** C35 *)
Theorem newton_loop_bounded :
  forall N residual step tol relaxation max_it init d it,
  solver_nonlinear N residual step tol relaxation max_it init = (d, it) ->
  (it <= max_it)%nat /\
  ((it < max_it)%nat ->
     norm2 N (residual d) <= tol * norm2 N (residual (start init)) \/ norm2 N (residual d) = 0).
Proof. exact nonlinear_spec. Qed.
Print Assumptions newton_loop_bounded.
Theorem newton_loop_keeps_exact_start :
  forall N residual step tol relaxation max_it init,
  (forall n, (n < N)%nat -> residual (start init) n = 0) ->
  solver_nonlinear N residual step tol relaxation max_it init = (start init, 0%nat).
Proof. exact nonlinear_converged. Qed.
Print Assumptions newton_loop_keeps_exact_start.
(** x - 1 = 0 from 0 with the exact step: one iteration. *)
Example newton_example : snd (solver_nonlinear 1 (fun x n => x n - 1) (fun _ b => b) (1 / 2) 1 5 None) = 1%nat.
Proof.
  unfold solver_nonlinear. cbn [nl_loop].
  assert (N1 : norm2 1 (fun n => - (0 - 1)) = 1) by (unfold norm2; cbn [seq sumR]; replace ((- (0 - 1)) ^ 2 + 0) with (1 * 1) by ring; apply sqrt_square; lra).
  rewrite N1, Rabs_R1. unfold ratio_gt at 1. rewrite (proj2 (Reqb_false 1 0)) by lra.
  rewrite (proj2 (Rltb_true _ _)) by lra. cbn [andb Nat.ltb Nat.leb].
  assert (N2 : norm2 1 (fun n => - (0 + - (0 - 1) * 1 - 1)) = 0) by (unfold norm2; cbn [seq sumR]; replace ((- (0 + - (0 - 1) * 1 - 1)) ^ 2 + 0) with 0 by ring; apply sqrt_0).
  rewrite N2. unfold ratio_gt at 1. rewrite (proj2 (Reqb_false 1 0)) by lra. rewrite (proj2 (Rltb_false _ _)) by lra. reflexivity.
Qed.

(** ** C36 *)
(** Every list with a Dirichlet side makes the energy equation raise: it passes nonlinear='True',
    which is neither == True nor == False, so the boundary flux reads the missing attribute mu. *)
Theorem energy_dirichlet_raises :
  forall a T0 conv Q bc T, good_bc (a_mesh a) bc -> (exists vals, In (0%nat, vals) bc) ->
  energy_residual a T0 conv Q bc T = Err AttributeError.
Proof. exact energy_dirichlet. Qed.
Print Assumptions energy_dirichlet_raises.
Theorem energy_dirichlet_usable_refuted :
  exists a T0 conv Q bc T, good_mesh (a_mesh a) /\ good_bc (a_mesh a) bc /\ energy_residual a T0 conv Q bc T = Err AttributeError.
Proof.
  set (a := mkAm mesh_ex mesh_ex 1 1 (0, 0, 0) 1 1 1 1 1 1600 1700 1 1 1 300 1 1 1 1 (fun _ => 1) (fun _ => 1) 0).
  exists a, (fun _ => 300), (fun _ => 0), (fun _ => 0), bc_ex, (fun _ => 300).
  split; [exact good_ex|]. split; [exact bc_ex_good|]. apply energy_dirichlet; [exact bc_ex_good|]. eexists. now left.
Qed.
Print Assumptions energy_dirichlet_usable_refuted.
(** With the boolean True the same object works and uses the conductivity at the boundary value.
    What is missing from C36: energy_eqn passes the string. *)
Theorem energy_dirichlet_usable_partial :
  forall m k src bc U, good_mesh m -> good_bc m bc -> exists e r,
  mk_poisson m PyTrue None (Some k) (Some src) = Ok e /\ compute_residual e (Some bc) U = Ok r /\
  sumR (seq 0 (cell_num m)) r = - sumR (seq 0 (cell_num m)) (fun n => src n (U n)) * dV m - boundary_gain m k bc U.
Proof.
  intros m k src bc U W G. set (e := mkEqn m PyTrue None (Some k) src).
  destruct (residual_defined e bc U G) as (r & Er); [intros; eexists; reflexivity|].
  exists e, r. split; [reflexivity|]. split; [assumption|].
  exact (residual_global_balance e bc U r W (or_intror eq_refl) G Er).
Qed.
Print Assumptions energy_dirichlet_usable_partial.
(** The driver only passes fluxes, so its own solves never meet the exception. *)
Theorem driver_solves_defined :
  forall a t Ttop T0 conv Q dk ds T u0 cv gp fl Tl c U,
  (exists e r v, energy_eqn a T0 conv Q = Ok e /\ energy_residual a T0 conv Q (energy_bc a t Ttop) T = Ok r /\
     newton_values e dk ds (Some (energy_bc a t Ttop)) T = Ok v) /\
  (exists e r v, vel_eqn a u0 cv gp fl = Ok e /\ compute_residual e (Some (vel_bc_scalar a Tl c)) U = Ok r /\
     newton_values e dk ds (Some (vel_bc_scalar a Tl c)) U = Ok v).
Proof. intros. split; [apply energy_defined|apply vel_defined]. Qed.
Print Assumptions driver_solves_defined.

(** ** C37 *)
Theorem gradient_exact_on_linear_partial :
  forall g B a b0 b1 b2 f i j k,
  (0 < i)%nat -> (i + 1 < gNx g)%nat -> (0 < j)%nat -> (j + 1 < gNy g)%nat -> (0 < k)%nat -> (k + 1 < gNz g)%nat ->
  gdx g <> 0 -> gdy g <> 0 -> gdz g <> 0 ->
  (forall i j k, f i j k = a + b0 * ((INR i + 1 / 2) * gdx g) + b1 * ((INR j + 1 / 2) * gdy g) + b2 * ((INR k + 1 / 2) * gdz g)) ->
  gradient g B f 0 i j k = b0 /\ gradient g B f 1 i j k = b1 /\ gradient g B f 2 i j k = b2.
Proof. exact gradient_linear. Qed.
Print Assumptions gradient_exact_on_linear_partial.
Theorem gradient_ignores_boundary_conditions : forall g B B' f, gradient g B f = gradient g B' f.
Proof. exact gradient_ignores. Qed.
Print Assumptions gradient_ignores_boundary_conditions.
Theorem gradient_honours_bc_refuted :
  exists g B f i j k, (i < gNx g)%nat /\ (j < gNy g)%nat /\ (k < gNz g)%nat /\
  gradient g (Some B) f 0 i j k <> grad_x_with g B f i j k.
Proof.
  exists (mkGrid 1 1 1 1 1 1), (mkBcs (fun _ => Dirichlet) (fun s _ _ _ => INR s)), (fun _ _ _ => 1), 0%nat, 0%nat, 0%nat.
  cbn. repeat split; try lia. unfold diff_app, diff_pre, grad_x_with. cbn. lra.
Qed.
Print Assumptions gradient_honours_bc_refuted.
Example gradient_example : gradient (mkGrid 3 3 3 1 1 1) None (fun i _ _ => 1 + 2 * ((INR i + 1 / 2) * 1)) 0 1 1 1 = 2.
Proof. unfold gradient, diff_app, diff_pre. cbn. field. Qed.

(** ** C38 *)
Theorem face_velocity_component_partial :
  forall g B vel, exists u v,
  get_face_vel_component g B 0 (vel 0%nat) 0 = Ok (Some u) /\ (forall i j k, u i j k = face_u g B vel i j k) /\
  get_face_vel_component g B 1 (vel 1%nat) 1 = Ok (Some v) /\ (forall i j k, v i j k = face_v g B vel i j k).
Proof. exact component_01. Qed.
Print Assumptions face_velocity_component_partial.
Theorem face_velocity_component_refuted :
  exists axis, (axis < 3)%nat /\ forall g B c vel, get_face_vel_component g B c vel axis = Err TypeError.
Proof. exists 2%nat. split; [lia|reflexivity]. Qed.
Print Assumptions face_velocity_component_refuted.
Example face_velocity_example : face_u (mkGrid 2 1 1 1 1 1) default_BCs (fun _ i _ _ => INR i) 1%nat 0%nat 0%nat = 1 / 2.
Proof. unfold face_u, face_avg, ext1. cbn. field. Qed.

(** ** C76 *)
Theorem body_source_off_raises :
  forall a update_T solve_v solve_p s, a_heat_source a = 1%nat -> a_tOFF a <= s_t s ->
  time_integration a update_T solve_v solve_p s = Err ZeroDivisionError.
Proof. exact body_off. Qed.
Print Assumptions body_source_off_raises.
Theorem run_past_laser_off_fails :
  forall a update_T solve_v solve_p n s, a_heat_source a = 1%nat -> a_tOFF a <= s_t s + INR n * a_dt a ->
  forall s', run a update_T solve_v solve_p (S n) s <> Ok s'.
Proof. exact run_body_off. Qed.
Print Assumptions run_past_laser_off_fails.
Example body_source_on : exists q, body_heat_source (am_ex 1 1 1) 0 = Ok q.
Proof.
  unfold body_heat_source, toolpath. cbn [a_X0 am_ex a_speed a_rb a_P a_tOFF a_phi].
  rewrite (proj2 (Reqb_false 1 0)) by lra. rewrite (proj2 (Reqb_false (1 ^ 2) 0)) by lra.
  rewrite (proj2 (Rltb_true 0 1)) by lra. cbn [b2R]. rewrite (proj2 (Reqb_false (1 * (1 * 1) / 1 / 1 ^ 2) 0)) by lra. eauto.
Qed.

(** ** C77 *)
Theorem pressure_source_sums_to_zero :
  forall a T vel, (0 < mNx (a_local a))%nat -> (0 < mNy (a_local a))%nat -> (0 < mNz (a_local a))%nat ->
  box_sum (mNx (a_local a)) (mNy (a_local a)) (mNz (a_local a)) (div_vel a (vel_BCs a T) vel) = 0.
Proof. exact div_vel_sum. Qed.
Print Assumptions pressure_source_sums_to_zero.
(** Constants are in the kernel of the pressure operator and its residual always sums to zero. *)
Theorem pressure_equation_compatible :
  forall a T vel p e r, good_mesh (a_local a) ->
  pressure_eqn a (flat (a_local a) (div_vel a (vel_BCs a T) vel)) = Ok e -> compute_residual e None p = Ok r ->
  sumR (seq 0 (cell_num (a_local a))) r = 0 /\
  forall c r', compute_residual e None (fun n => p n + c) = Ok r' -> forall n, r' n = r n.
Proof.
  intros a T vel p e r W E Er. unfold pressure_eqn, mk_poisson in E. cbn [eq_false] in E. inversion E; subst e. clear E.
  rewrite residual_none in Er. inversion Er; subst r. clear Er. cbn [e_mesh e_src].
  match goal with |- context [laplace ?x _ _] => set (e := x) in * end. split.
  - rewrite sumR_sub, sumR_opp, (lap_sum_zero e W).
    rewrite sumR_scal_r, sumR_opp, sum_cells3.
    pose proof (div_vel_sum a T vel) as D. destruct W as (Px & Py & Pz & _). specialize (D Px Py Pz). unfold box_sum in D.
    rewrite (sumR_ext (seq 0 (mNx (a_local a))) (fun i => _) (fun i => sumR (seq 0 (mNy (a_local a))) (fun j => sumR (seq 0 (mNz (a_local a)))
       (fun k => div_vel a (vel_BCs a T) vel i j k)))); [rewrite D; ring|].
    intros i Hi. apply sumR_ext. intros j Hj. apply sumR_ext. intros k Hk. apply in_seq in Hj, Hk.
    unfold flat.
    unfold cell_idx. destruct (decode_encode (mNy (a_local a)) (mNz (a_local a)) i j k) as (D1 & D2 & D3); try lia.
    congruence.
  - intros c r' Er. rewrite residual_none in Er. inversion Er; subst r'. intros n. cbn [e_src e_mesh e]. f_equal. f_equal.
    unfold laplace, laplace_kernel. apply sumR_ext. intros l _. unfold face_mu. cbn [e_mufn e_mu e].
    match goal with |- ?x / _ * _ * _ = ?y / _ * _ * _ => replace x with y by ring end. reflexivity.
Qed.
Print Assumptions pressure_equation_compatible.
Example pressure_example : exists e r, pressure_eqn (am_ex 0 1 1) (fun n => INR n) = Ok e /\ compute_residual e None (fun _ => 0) = Ok r /\ good_mesh (a_local (am_ex 0 1 1)).
Proof. eexists _, _. split; [reflexivity|]. split; [reflexivity|]. unfold good_mesh. cbn. repeat split; lia || lra. Qed.

(** ** C78 *)
Theorem energy_maximum_principle :
  forall a T0 Q bc T r M, good_mesh (a_mesh a) -> (forall x, 0 < a_k a x) -> (forall x, 0 < cp_fn a x) ->
  0 < a_rho a -> 0 < a_dt a -> good_bc (a_mesh a) bc ->
  energy_residual a T0 (fun _ => 0) Q bc T = Ok r -> (forall n, (n < cell_num (a_mesh a))%nat -> r n = 0) ->
  all_flux (fun v => v <= 0) bc -> (forall n, (n < cell_num (a_mesh a))%nat -> Q n <= 0) ->
  (forall n, (n < cell_num (a_mesh a))%nat -> T0 n <= M) -> forall n, (n < cell_num (a_mesh a))%nat -> T n <= M.
Proof. intros a T0 Q bc T r M W Pk Pc Pr Pd GB Er Zr. apply (energy_max a T0 Q bc T r W Pk Pc Pr Pd GB Er Zr). Qed.
Print Assumptions energy_maximum_principle.
Theorem energy_minimum_principle :
  forall a T0 Q bc T r M, good_mesh (a_mesh a) -> (forall x, 0 < a_k a x) -> (forall x, 0 < cp_fn a x) ->
  0 < a_rho a -> 0 < a_dt a -> good_bc (a_mesh a) bc ->
  energy_residual a T0 (fun _ => 0) Q bc T = Ok r -> (forall n, (n < cell_num (a_mesh a))%nat -> r n = 0) ->
  all_flux (Rle 0) bc -> (forall n, (n < cell_num (a_mesh a))%nat -> 0 <= Q n) ->
  (forall n, (n < cell_num (a_mesh a))%nat -> M <= T0 n) -> forall n, (n < cell_num (a_mesh a))%nat -> M <= T n.
Proof. intros a T0 Q bc T r M W Pk Pc Pr Pd GB Er Zr. apply (energy_min a T0 Q bc T r W Pk Pc Pr Pd GB Er Zr). Qed.
Print Assumptions energy_minimum_principle.
(** A resting state is an exact solution, so the hypotheses are met. *)
Example energy_principle_example : let a := am_ex 0 0 0 in exists r,
  energy_residual a (fun _ => 300) (fun _ => 0) (fun _ => 0) (energy_bc a 0 (fun _ _ => 300)) (fun _ => 300) = Ok r /\
  (forall n, (n < cell_num (a_mesh a))%nat -> r n = 0) /\ (forall x, 0 < cp_fn a x) /\
  all_flux (fun v => v <= 0) (energy_bc a 0 (fun _ _ => 300)) /\ all_flux (Rle 0) (energy_bc a 0 (fun _ _ => 300)).
Proof.
  cbv zeta. set (a := am_ex 0 0 0). set (bc := energy_bc a 0 (fun _ _ => 300)).
  assert (Z : forall ty vals v, In (ty, vals) bc -> In v vals -> v = 0).
  { apply energy_bc_zero; [now left|lra|reflexivity]. }
  assert (AF : forall P : R -> Prop, P 0 -> all_flux P bc).
  { intros P P0 ty vals I. split; [now apply energy_bc_flux in I|]. intros v Hv. now rewrite (Z ty vals v I Hv). }
  destruct (energy_defined a 0 (fun _ _ => 300) (fun _ => 300) (fun _ => 0) (fun _ => 0) (fun _ => 0) (fun _ _ => 0) (fun _ => 300))
    as (e & r & v & Ee & Er & _). fold bc in Er. exists r. split; [assumption|].
  split; [|split; [|split; apply AF; lra]].
  - intros n Hn. unfold energy_residual in Er. rewrite energy_eqn_ok in Er. cbn [bind] in Er.
    match type of Er with compute_residual ?x _ _ = _ => set (e' := x) in * end.
    rewrite (residual_form e' bc _ r (ok_mu_nonlinear e' (a_k a) eq_refl eq_refl) (energy_bc_good _ _ _) Er n).
    rewrite (lap_const_zero e' ltac:(unfold good_mesh; cbn; repeat split; lia || lra) (fun _ => 300) 300) by (try assumption; reflexivity).
    cbn [e_src e' e_mesh]. unfold energy_src. rewrite sumR_zero; [unfold Rdiv; ring|].
    intros f Hf. destruct (Nat.eqb (fc f) n); [|reflexivity].
    assert (Hv : fv f = 0) by (revert f Hf; apply (faces_value _ 0 bc (fun x => x = 0)); exact Z).
    unfold face_flux. rewrite Hv, (faces_flux_only a 0 (fun _ _ => 300) f Hf). ring.
  - intros x. unfold cp_fn. cbn. destruct (Rltb 1600 x), (Rltb x 1700); cbn; lra.
Qed.

(** ** C79 *)
Theorem flow_left_behind_is_frozen :
  forall a update_T solve_v solve_p n s s', run a update_T solve_v solve_p n s = Ok s' -> forall i j k,
  (forall p, (p < n)%nat -> outside (window_at a (s_t s + INR p * a_dt a)) i j k) ->
  (forall c, s_vel s' c i j k = s_vel s c i j k) /\ (forall c, s_gradp s' c i j k = s_gradp s c i j k) /\
  (forall c, s_conv s' c i j k = s_conv s c i j k) /\ s_convT s' i j k = s_convT s i j k.
Proof. exact run_frozen. Qed.
Print Assumptions flow_left_behind_is_frozen.
(** A completely solid cell can keep a velocity for ever. *)
Theorem solid_cells_at_rest_refuted :
  exists a update_T solve_v solve_p s, forall n, exists s', run a update_T solve_v solve_p n s = Ok s' /\
    exists i j k, (i < mNx (a_mesh a))%nat /\ (j < mNy (a_mesh a))%nat /\ (k < mNz (a_mesh a))%nat /\
      fluid_frac a (s_T s' i j k) = 0 /\ s_vel s' 0%nat i j k = 1.
Proof.
  set (a := am_ex 0 1 1). exists a, (fun T _ _ _ => T), (fun _ _ _ _ _ _ _ => 0), (fun _ _ => 0).
  set (s := mkSt 0 (fun _ _ _ => 300) (fun _ _ _ => 0) (fun _ _ _ _ => 1) (fun _ _ _ _ => 0) (fun _ _ _ _ => 0) (fun _ _ _ => 0)).
  exists s. intros n.
  assert (E : exists s', run a (fun T _ _ _ => T) (fun _ _ _ _ _ _ _ => 0) (fun _ _ => 0) n s = Ok s' /\ s_T s' = fun _ _ _ => 300).
  { induction n as [|n (s1 & E1 & T1)]; [exists s; auto|]. cbn [run]. rewrite E1. cbn [bind]. unfold time_integration.
    cbn [a_heat_source a am_ex Nat.eqb bind]. unfold vel_update, update_convective_terms. eexists. split; [reflexivity|]. exact T1. }
  destruct E as (s' & E & T). exists s'. split; [assumption|]. exists 0%nat, 0%nat, 0%nat.
  split; [cbn; lia|]. split; [cbn; lia|]. split; [cbn; lia|]. split.
  - rewrite T. apply fluid_fraction_by_temperature; cbn; lra.
  - destruct (run_frozen a _ _ _ n s s' E 0%nat 0%nat 0%nat) as (V & _); [|now rewrite V].
    intros p _. unfold window_at, moving_box. destruct (toolpath a _) as [[[xl yl] zl] P].
    destruct (box_axis xl _ _ _), (box_axis yl _ _ _). unfold outside. cbn. lia.
Qed.
Print Assumptions solid_cells_at_rest_refuted.

(** ** C80 *)
Theorem ambient_equilibrium :
  forall a bicg dk n, good_mesh (a_mesh a) -> a_heat_source a <> 1%nat -> 0 <= a_dt a ->
  (a_P a = 0 \/ a_tOFF a <= 0) ->
  (forall A b, (forall n, b n = 0) -> forall n, bicg A b n = 0) ->
  exists s, cfd_run a bicg dk n = Ok s /\
  (forall i j k, s_T s i j k = a_Tref a) /\ (forall c i j k, s_vel s c i j k = 0) /\
  (forall c i j k, s_gradp s c i j k = 0) /\ (forall c i j k, s_conv s c i j k = 0) /\ (forall i j k, s_convT s i j k = 0).
Proof.
  intros a bicg dk n W Hh Hd Hoff Hb. destruct (rest_run a bicg dk W Hh Hd Hoff Hb n) as (s & E & _ & H).
  exists s. split; assumption.
Qed.
Print Assumptions ambient_equilibrium.
Example ambient_example : let a := am_ex 0 0 0 in
  good_mesh (a_mesh a) /\ a_heat_source a <> 1%nat /\ 0 <= a_dt a /\ (a_P a = 0 \/ a_tOFF a <= 0).
Proof. unfold good_mesh. cbn. repeat split; try lia; lra. Qed.
