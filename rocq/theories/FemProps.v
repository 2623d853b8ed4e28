(** * Properties of the finite-element core (jax_am/fem/core.py). *)
From Coq Require Import Sorted FunctionalExtensionality.
From Verif Require Import Prelude FemModel FemFacts FemSpec FemProofs FemAsmProofs FemMatProofs FemGeoProofs FemExamples.
Open Scope R_scope.

(** ** C40 *)
Theorem batched_evaluation_is_direct : forall V (F : fem V) B fn (x : inputs V),
  inputs_sized F x -> (0 < num_cells F)%nat ->
  exists ys : list B, split_and_compute_cell F fn x = Ok ys /\ length ys = num_cells F /\
  forall c, (c < num_cells F)%nat -> exists s g w vg,
    nth_error (in_sol x) c = Some s /\ nth_error (in_grads x) c = Some g /\ nth_error (in_JxW x) c = Some w
    /\ nth_error (in_vg x) c = Some vg /\ nth_error ys c = Some (fn s g w vg (vars_at (in_mass x) c) (vars_at (in_lap x) c)).
Proof. intros V F B fn x. exact (split_spec F fn x). Qed.
Print Assumptions batched_evaluation_is_direct.
Theorem batched_evaluation_without_cells_raises : forall V (F : fem V) B fn (x : inputs V),
  num_cells F = 0%nat -> split_and_compute_cell (B := B) F fn x = Err ZeroDivisionError.
Proof. intros V F B fn x. exact (split_zero F fn x). Qed.
Print Assumptions batched_evaluation_without_cells_raises.
Theorem batched_evaluation_wrong_size_raises : forall V (F : fem V) B fn (x : inputs V),
  (0 < num_cells F)%nat -> length (in_sol x) = num_cells F -> ~ inputs_sized F x ->
  split_and_compute_cell (B := B) F fn x = Err ValueError.
Proof. intros V F B fn x. exact (split_bad_sizes F fn x). Qed.
Print Assumptions batched_evaluation_wrong_size_raises.
Example batched_inputs_exist : inputs_sized fem_scalar (the_inputs fem_scalar zeros [[fun _ => tt; fun _ => tt]] []) /\ (0 < num_cells fem_scalar)%nat
  /\ ~ inputs_sized fem_scalar (the_inputs fem_scalar zeros [[fun _ => tt]] []).
Proof.
  split; [unfold inputs_sized; cbn; repeat split; repeat constructor|]. split; [cbn; repeat constructor|].
  intros (_ & _ & _ & _ & H & _). inversion H as [|? ? Hl _]. discriminate.
Qed.
Example no_cells_exist : num_cells (mkFem tri3 0 square_pts [] 1 None None (fun u => u) None None None : fem unit) = 0%nat.
Proof. reflexivity. Qed.

(** ** C41 *)
Theorem residual_is_sum_over_corners : forall V (F : fem V) inds sol iv,
  wf_mesh F -> iv_sized F iv -> (0 < num_cells F)%nat -> neumann_ok F inds -> (forall sel, In sel inds -> faces_ok F sel) ->
  exists r, compute_residual_vars F inds sol iv = Ok r /\ forall n k,
  r n k = corners F (all_cells F) (fun c => c) (cell_force F iv sol) n k
        + corners F (cauchy_faces F) (fun x => fst (fst x)) (cauchy_force F sol) n k
        - corners F (all_cells F) (fun c => c) (fun c a k => sumN (num_quads (f_ele F)) (fun q => body_load F iv c q k * shape_vals (f_ele F) q a * JxW F c q)) n k
        - sumR (indexed inds) (fun isel => corners F (indexed (snd isel)) (fun js => fst (snd js))
            (fun js a k => sumN (num_face_quads (f_ele F)) (fun p => face_shape_vals (f_ele F) (snd (snd js)) p a
               * traction F iv (fst isel) (fst js) (snd js) p k * nanson_scale F (snd js) p)) n k).
Proof. intros V F inds sol iv Hwf. exact (residual_corners F Hwf inds sol iv). Qed.
Print Assumptions residual_is_sum_over_corners.
Theorem matrix_acts_as_assembled_jacobians : forall V (F : fem V) jac cjac inds sol iv,
  wf_mesh F -> iv_sized F iv -> (0 < num_cells F)%nat -> neumann_ok F inds -> (forall sel, In sel inds -> faces_ok F sel) ->
  exists r IJV, compute_newton_vars F inds sol iv jac cjac = Ok (r, IJV)
  /\ compute_residual_vars F inds sol iv = Ok r
  /\ (forall i, In i (fst (fst IJV)) \/ In i (snd (fst IJV)) -> (i < num_total_nodes F * vec F)%nat)
  /\ length (fst (fst IJV)) = length (snd IJV) /\ length (snd (fst IJV)) = length (snd IJV)
  /\ forall d n k, (k < vec F)%nat ->
     coo_mul (num_total_nodes F * vec F) IJV (flatten F d) (vec F * n + k)
     = corners F (all_cells F) (fun c => c) (fun c => jac_mul F (cell_jac F jac iv sol c) (cells_sol F d c)) n k
     + corners F (cauchy_faces F) (fun x => fst (fst x)) (fun x => jac_mul F (cauchy_jac F cjac sol x) (cells_sol F d (fst (fst x)))) n k.
Proof. intros V F jac cjac inds sol iv Hwf. exact (newton_spec F Hwf jac cjac inds sol iv). Qed.
Print Assumptions matrix_acts_as_assembled_jacobians.
Theorem assembled_matrix_is_derivative : forall V (F : fem V) jac cjac inds sol iv,
  wf_mesh F -> iv_sized F iv -> (0 < num_cells F)%nat -> neumann_ok F inds -> (forall sel, In sel inds -> faces_ok F sel) ->
  (forall c, (c < num_cells F)%nat ->
     is_jacobian F (fun s => kernel F s (shape_grads F c) (JxW F c) (v_grads_JxW F c) (vars_at (iv_mass iv) c) (vars_at (iv_laplace iv) c))
       (cells_sol F sol c) (cell_jac F jac iv sol c)) ->
  (forall x, In x (cauchy_faces F) ->
     is_jacobian F (fun s => cauchy_kernel F (snd x) s (face_shape_vals (f_ele F) (snd (fst x))) (nanson_scale F (fst x)))
       (cells_sol F sol (fst (fst x))) (cauchy_jac F cjac sol x)) ->
  exists r IJV, compute_newton_vars F inds sol iv jac cjac = Ok (r, IJV) /\
  forall d, exists rt : R -> nodal, (forall t, compute_residual_vars F inds (add_step sol t d) iv = Ok (rt t)) /\
  forall n k, (k < vec F)%nat ->
    derivable_pt_lim (fun t => rt t n k) 0 (coo_mul (num_total_nodes F * vec F) IJV (flatten F d) (vec F * n + k)).
Proof. intros V F jac cjac inds sol iv Hwf. exact (matrix_is_derivative F Hwf jac cjac inds sol iv). Qed.
Print Assumptions assembled_matrix_is_derivative.
Theorem assembled_residual_affine : forall V (F : fem V) jac cjac inds sol iv d,
  wf_mesh F -> iv_sized F iv -> (0 < num_cells F)%nat -> neumann_ok F inds -> (forall sel, In sel inds -> faces_ok F sel) ->
  (forall c a k, (c < num_cells F)%nat -> (a < num_nodes (f_ele F))%nat -> (k < vec F)%nat ->
     cell_force F iv (add_step sol 1 d) c a k = cell_force F iv sol c a k + jac_mul F (cell_jac F jac iv sol c) (cells_sol F d c) a k) ->
  (forall x a k, In x (cauchy_faces F) -> (a < num_nodes (f_ele F))%nat -> (k < vec F)%nat ->
     cauchy_force F (add_step sol 1 d) x a k = cauchy_force F sol x a k + jac_mul F (cauchy_jac F cjac sol x) (cells_sol F d (fst (fst x))) a k) ->
  exists r r1 IJV, compute_newton_vars F inds sol iv jac cjac = Ok (r, IJV) /\
  compute_residual_vars F inds (add_step sol 1 d) iv = Ok r1 /\
  forall n k, (k < vec F)%nat -> r1 n k = r n k + coo_mul (num_total_nodes F * vec F) IJV (flatten F d) (vec F * n + k).
Proof. intros V F jac cjac inds sol iv d Hwf. exact (affine_residual F Hwf jac cjac inds sol iv d). Qed.
Print Assumptions assembled_residual_affine.
Example assembly_hypotheses_met :
  wf_mesh fem_scalar /\ iv_sized fem_scalar no_vars /\ (0 < num_cells fem_scalar)%nat /\ neumann_ok fem_scalar (bottom_inds fem_scalar)
  /\ (forall sel, In sel (bottom_inds fem_scalar) -> faces_ok fem_scalar sel) /\ bottom_inds fem_scalar = [[(0, 2)]]%nat /\ cauchy_faces fem_scalar <> []
  /\ (forall sol c, is_jacobian fem_scalar
       (fun s => kernel fem_scalar s (shape_grads fem_scalar c) (JxW fem_scalar c) (v_grads_JxW fem_scalar c) (vars_at (iv_mass no_vars) c) (vars_at (iv_laplace no_vars) c))
       (cells_sol fem_scalar sol c) (cell_jac fem_scalar ex_jac no_vars sol c))
  /\ (forall sol x, In x (cauchy_faces fem_scalar) -> is_jacobian fem_scalar
       (fun s => cauchy_kernel fem_scalar (snd x) s (face_shape_vals (f_ele fem_scalar) (snd (fst x))) (nanson_scale fem_scalar (fst x)))
       (cells_sol fem_scalar sol (fst (fst x))) (cauchy_jac fem_scalar ex_cjac sol x)).
Proof.
  destruct ex_invariants as (H1 & H2 & H3). exact (conj (proj1 ex_wf) (conj H1 (conj H2 (conj H3 (conj ex_faces_ok (conj ex_bottom (conj ex_cauchy_nonempty (conj ex_is_jacobian ex_is_cjacobian)))))))).
Qed.
Example affine_hypotheses_met : forall sol d,
  (forall c a k, (c < num_cells fem_scalar)%nat -> (a < num_nodes (f_ele fem_scalar))%nat -> (k < vec fem_scalar)%nat ->
     cell_force fem_scalar no_vars (add_step sol 1 d) c a k = cell_force fem_scalar no_vars sol c a k + jac_mul fem_scalar (cell_jac fem_scalar ex_jac no_vars sol c) (cells_sol fem_scalar d c) a k)
  /\ (forall x a k, In x (cauchy_faces fem_scalar) -> (a < num_nodes (f_ele fem_scalar))%nat -> (k < vec fem_scalar)%nat ->
     cauchy_force fem_scalar (add_step sol 1 d) x a k = cauchy_force fem_scalar sol x a k + jac_mul fem_scalar (cauchy_jac fem_scalar ex_cjac sol x) (cells_sol fem_scalar d (fst (fst x))) a k).
Proof.
  intros sol d. split.
  - intros c a k _ _ Hk. rewrite <- Rmult_1_l with (r := jac_mul _ _ _ _ _). exact (ex_affine _ 1 _ _ _ _ a k Hk).
  - intros x a k Hx _ Hk. unfold cauchy_force, cauchy_values. rewrite (ex_cauchy_snd x Hx). rewrite <- Rmult_1_l with (r := jac_mul _ _ _ _ _).
    unfold cauchy_jac. rewrite (ex_cauchy_snd x Hx). exact (ex_caffine _ 1 _ _ _ a k Hk).
Qed.

(** ** C42 *)
Theorem internal_forces_self_equilibrated : forall V (F : fem V) inds iv sol k,
  wf_mesh F -> grads_sum_zero F -> iv_sized F iv -> (0 < num_cells F)%nat -> only_internal F iv ->
  (forall sel, In sel inds -> faces_ok F sel) -> (k < vec F)%nat ->
  exists r, compute_residual_vars F inds sol iv = Ok r /\ sumN (num_total_nodes F) (fun n => r n k) = 0.
Proof. intros V F inds iv sol k Hwf. exact (self_equilibrated F Hwf inds iv sol k). Qed.
Print Assumptions internal_forces_self_equilibrated.
Example internal_only_problem : wf_mesh fem_vector /\ grads_sum_zero fem_vector /\ iv_sized fem_vector no_vars /\ (0 < num_cells fem_vector)%nat /\ only_internal fem_vector no_vars.
Proof. exact (conj (proj2 ex_wf) (conj (proj2 ex_grads) ex_vec_inv)). Qed.

(** ** C43 *)
Theorem patch_test_gradient : forall V (F : fem V) c q b G i d,
  small_dim (dim F) -> grads_sum_zero F -> (q < num_quads (f_ele F))%nat -> jacobian_det F c q <> 0 -> (d < dim F)%nat ->
  sol_to_grad F (affine_field F b G) c q i d = G i d.
Proof. intros V F c q b G i d. exact (patch_test F c q b G i d). Qed.
Print Assumptions patch_test_gradient.
Theorem affine_field_value_exact : forall V (F : fem V) c q b G i,
  vals_sum_one F -> (q < num_quads (f_ele F))%nat ->
  convert_from_dof_to_quad F (affine_field F b G) c q i = b i + sumN (dim F) (fun m => G i m * physical_quad_point F c q m).
Proof. intros V F c q b G i. exact (affine_at_quad F c q b G i). Qed.
Print Assumptions affine_field_value_exact.
Theorem singular_element_raises : forall V (F : fem V),
  (exists c q, (c < num_cells F)%nat /\ (q < num_quads (f_ele F))%nat /\ jacobian_det F c q = 0) <-> get_shape_grads F = Err LinAlgError.
Proof. intros V F. exact (linear_jacobian_error F). Qed.
Print Assumptions singular_element_raises.
Example patch_hypotheses_met : small_dim (dim fem_vector) /\ grads_sum_zero fem_vector /\ vals_sum_one fem_vector /\ invertible_cells fem_vector.
Proof. exact (conj (or_intror (or_introl eq_refl)) (conj (proj2 ex_grads) (conj (proj2 ex_vals) (proj2 ex_inv)))). Qed.

(** ** C44, selection of the constrained nodes *)
Theorem dirichlet_nodes_exact : forall V (F : fem V) locs vecs fns, length locs = length fns -> length fns = length vecs ->
  exists nl vl xl, Dirichlet_boundary_conditions F (Some (locs, vecs, fns)) = Ok (nl, vl, xl) /\
  length nl = length locs /\ length vl = length locs /\ length xl = length locs /\
  forall i loc, nth_error locs i = Some loc -> exists nodes,
    nth_error nl i = Some nodes /\ StronglySorted lt nodes /\
    (forall n, In n nodes <-> (n < num_total_nodes F)%nat /\ loc (points F n) = true) /\
    nth_error vl i = Some (map (fun _ => nth i vecs 0%nat) nodes) /\
    nth_error xl i = Some (map (fun n => nth i fns (fun _ => 0) (points F n)) nodes).
Proof. intros V F. exact (dirichlet_ok F). Qed.
Print Assumptions dirichlet_nodes_exact.
Theorem dirichlet_length_mismatch_raises : forall V (F : fem V) locs vecs fns, length locs <> length fns \/ length fns <> length vecs ->
  Dirichlet_boundary_conditions F (Some (locs, vecs, fns)) = Err AssertionError.
Proof. intros V F. exact (dirichlet_mismatch F). Qed.
Print Assumptions dirichlet_length_mismatch_raises.
Example dirichlet_lists_exist : length [left_side; right_side] = length [fun _ : point => 0; fun _ => 1] /\ length [fun _ : point => 0; fun _ => 1] = length [0; 0]%nat
  /\ length [left_side] <> length [fun _ : point => 0; fun _ => 1].
Proof. repeat split. discriminate. Qed.

(** ** C48 *)
Theorem periodic_pairs_correct : forall V (F : fem V) A B mapping la lb, periodic_pair F A B mapping = Ok (la, lb) ->
  length la = length lb /\ NoDup la /\ StronglySorted lt la /\
  (forall n, In n la <-> (n < num_total_nodes F)%nat /\ A (points F n) = true) /\
  (forall i a, nth_error la i = Some a -> exists b, nth_error lb i = Some b /\ (b < num_total_nodes F)%nat /\ B (points F b) = true /\
     dist (dim F) (mapping (points F a)) (points F b) < EPS /\
     forall b', (b' < num_total_nodes F)%nat -> B (points F b') = true -> dist (dim F) (mapping (points F a)) (points F b') < EPS -> b' = b).
Proof. intros V F A B mapping la lb. exact (periodic_pair_ok F A B mapping la lb). Qed.
Print Assumptions periodic_pairs_correct.
Example periodic_square : periodic_pair fem_scalar left_side right_side shift_x = Ok ([0; 3], [1; 2])%nat.
Proof. exact ex_periodic. Qed.

(** ** C49: what is missing in the partial theorem is "they are boundary faces"; see the refutation. *)
Theorem selected_faces_exact_partial : forall V (F : fem V) loc,
  (forall s, In s (boundary_inds F loc) <->
     (fst s < num_cells F)%nat /\ (snd s < length (face_inds (f_ele F)))%nat /\ forall n, In n (face_nodes F s) -> loc (points F n) = true)
  /\ StronglySorted lex (boundary_inds F loc) /\ NoDup (boundary_inds F loc).
Proof. intros V F loc. exact (conj (in_boundary_inds F loc) (conj (boundary_inds_sorted F loc) (lex_sorted_NoDup _ (boundary_inds_sorted F loc)))). Qed.
Print Assumptions selected_faces_exact_partial.
Theorem selected_faces_on_boundary_refuted : exists (F : fem unit) loc s, wf_mesh F /\ invertible_cells F /\ In s (boundary_inds F loc) /\ interior_face F s.
Proof. exact (ex_intro _ fem_scalar (ex_intro _ (fun _ => true) (ex_intro _ (0, 1)%nat (conj (proj1 ex_wf) (conj (proj1 ex_inv) interior_selected))))). Qed.
Print Assumptions selected_faces_on_boundary_refuted.

(** ** C53 *)
Theorem body_force_resultant_exact : forall V (F : fem V) fn k, wf_mesh F -> vals_sum_one F -> (k < vec F)%nat -> source_info F = Some fn ->
  sumN (num_total_nodes F) (fun n => compute_body_force_by_fn F n k)
  = sumN (num_cells F) (fun c => sumN (num_quads (f_ele F)) (fun q => fn (physical_quad_point F c q) k * JxW F c q)).
Proof. intros V F fn k Hwf. exact (body_force_resultant F Hwf fn k). Qed.
Print Assumptions body_force_resultant_exact.
Theorem body_force_from_field_resultant_exact : forall V (F : fem V) b k, wf_mesh F -> vals_sum_one F -> (k < vec F)%nat ->
  sumN (num_total_nodes F) (fun n => compute_body_force_by_sol F b n k)
  = sumN (num_cells F) (fun c => sumN (num_quads (f_ele F)) (fun q => body_map F (convert_from_dof_to_quad F b c q) k * JxW F c q)).
Proof. intros V F b k Hwf. exact (body_force_by_sol_resultant F Hwf b k). Qed.
Print Assumptions body_force_from_field_resultant_exact.
Theorem traction_resultant_exact : forall V (F : fem V) inds iv fns k,
  wf_mesh F -> face_vals_sum_one F -> (k < vec F)%nat -> neumann_bc_info F = Some fns -> (length inds <= length fns)%nat ->
  (forall sel, In sel inds -> faces_ok F sel) ->
  exists nm, compute_Neumann_integral_vars F inds (iv_neumann iv) = Ok nm /\
  sumN (num_total_nodes F) (fun n => nm n k) = sumR (indexed inds) (fun isel => sumR (indexed (snd isel)) (fun js => sumN (num_face_quads (f_ele F)) (fun p =>
     nth (fst isel) fns (fun _ _ _ => 0) (surface_quad_point F (snd js) p) (map (fun f => f (fst js) p) (iv_neumann iv (fst isel))) k * nanson_scale F (snd js) p))).
Proof. intros V F inds iv fns k Hwf. exact (neumann_resultant F Hwf inds iv fns k). Qed.
Print Assumptions traction_resultant_exact.
Theorem total_resultant_exact : forall V (F : fem V) inds sol iv k,
  wf_mesh F -> grads_sum_zero F -> vals_sum_one F -> face_vals_sum_one F -> (k < vec F)%nat ->
  iv_sized F iv -> (0 < num_cells F)%nat -> neumann_ok F inds -> (forall sel, In sel inds -> faces_ok F sel) ->
  exists r, compute_residual_vars F inds sol iv = Ok r /\
  sumN (num_total_nodes F) (fun n => r n k)
  = sumN (num_cells F) (fun c => sumN (num_quads (f_ele F)) (fun q => JxW F c q * (reaction F iv sol c q k - body_load F iv c q k)))
    + sumR (cauchy_faces F) (fun x => sumN (num_face_quads (f_ele F)) (fun p => nanson_scale F (fst x) p * snd x (at_face F sol (fst x) p) k))
    - sumR (indexed inds) (fun isel => sumR (indexed (snd isel)) (fun js => sumN (num_face_quads (f_ele F)) (fun p =>
        nanson_scale F (snd js) p * traction F iv (fst isel) (fst js) (snd js) p k))).
Proof. intros V F inds sol iv k Hwf. exact (resultant F Hwf inds sol iv k). Qed.
Print Assumptions total_resultant_exact.
Example load_hypotheses_met : wf_mesh fem_scalar /\ grads_sum_zero fem_scalar /\ vals_sum_one fem_scalar /\ face_vals_sum_one fem_scalar
  /\ source_info fem_scalar = Some (fun _ _ => 1) /\ neumann_bc_info fem_scalar = Some [fun _ _ _ => 1] /\ (length (bottom_inds fem_scalar) <= 1)%nat
  /\ nanson_scale fem_scalar (0, 2)%nat 0%nat = 1.
Proof. exact (conj (proj1 ex_wf) (conj (proj1 ex_grads) (conj (proj1 ex_vals) (conj (proj1 ex_face_vals) (conj eq_refl (conj eq_refl (conj (le_n _) ex_bottom_length))))))). Qed.

(** ** C83: the residual is the discrete weak form *)
Theorem virtual_work_identity : forall V (F : fem V) inds sol iv,
  wf_mesh F -> iv_sized F iv -> (0 < num_cells F)%nat -> neumann_ok F inds -> (forall sel, In sel inds -> faces_ok F sel) ->
  exists r, compute_residual_vars F inds sol iv = Ok r /\ forall v,
  sumN (num_total_nodes F) (fun n => sumN (vec F) (fun k => v n k * r n k))
  = internal_power F iv sol v + cauchy_power F sol v - body_power F iv v - neumann_power F inds iv v.
Proof. intros V F inds sol iv Hwf. exact (virtual_work F Hwf inds sol iv). Qed.
Print Assumptions virtual_work_identity.

(** ** C84: no internal moment for a symmetric stress *)
Theorem internal_moments_vanish : forall V (F : fem V) inds iv sol i j,
  wf_mesh F -> small_dim (dim F) -> vec F = dim F -> grads_sum_zero F -> invertible_cells F ->
  iv_sized F iv -> (0 < num_cells F)%nat -> only_internal F iv -> (forall sel, In sel inds -> faces_ok F sel) ->
  (forall c q k d, (c < num_cells F)%nat -> (q < num_quads (f_ele F))%nat -> (k < dim F)%nat -> (d < dim F)%nat ->
      stress F iv sol c q k d = stress F iv sol c q d k) ->
  (i < dim F)%nat -> (j < dim F)%nat ->
  exists r, compute_residual_vars F inds sol iv = Ok r /\
  sumN (num_total_nodes F) (fun n => points F n i * r n j - points F n j * r n i) = 0.
Proof. intros V F inds iv sol i j Hwf. exact (moment_free F Hwf inds iv sol i j). Qed.
Print Assumptions internal_moments_vanish.
Example symmetric_problem : vec fem_vector = dim fem_vector /\ forall sol c q k d, stress fem_vector no_vars sol c q k d = stress fem_vector no_vars sol c q d k.
Proof. exact (conj eq_refl ex_symmetric). Qed.

(** ** C85: surface integrals are weighted with the true area *)
Theorem nanson_scale_is_area : forall V (F : fem V) s p t1 t2, dim F = 3%nat -> 0 < det 3 (face_jacobian F s p) ->
  (forall i, (i < 3)%nat -> face_normals (f_ele F) (snd s) i = cross t1 t2 i) ->
  nanson_scale F s p = norm3 (cross (push (face_jacobian F s p) 3 t1) (push (face_jacobian F s p) 3 t2)) * face_quad_weights (f_ele F) (snd s) p.
Proof. intros V F s p t1 t2. exact (nanson3 F s p t1 t2). Qed.
Print Assumptions nanson_scale_is_area.
Theorem nanson_scale_is_length : forall V (F : fem V) s p t, dim F = 2%nat -> 0 < det 2 (face_jacobian F s p) ->
  face_normals (f_ele F) (snd s) 0%nat = t 1%nat -> face_normals (f_ele F) (snd s) 1%nat = - t 0%nat ->
  nanson_scale F s p = norm2 (push (face_jacobian F s p) 2 t) * face_quad_weights (f_ele F) (snd s) p.
Proof. intros V F s p t. exact (nanson2 F s p t). Qed.
Print Assumptions nanson_scale_is_length.
Example nanson_hypotheses_met : (dim fem_tet = 3%nat /\ 0 < det 3 (face_jacobian fem_tet (0, 0)%nat 0%nat)
  /\ forall i, (i < 3)%nat -> face_normals (f_ele fem_tet) 0%nat i = cross (pick [0; 1; 0]) (pick [1; 0; 0]) i)
  /\ (dim fem_scalar = 2%nat /\ 0 < det 2 (face_jacobian fem_scalar (0, 2)%nat 0%nat)
  /\ face_normals (f_ele fem_scalar) 2%nat 0%nat = (pick [1; 0]) 1%nat /\ face_normals (f_ele fem_scalar) 2%nat 1%nat = - (pick [1; 0]) 0%nat).
Proof. exact (conj ex_nanson3 ex_nanson2). Qed.
Close Scope R_scope.
