(** * The material models and their finite element problems: theorems. *)
From Coq Require Import Lra Lia String.
From Verif Require Import Prelude PreludeFacts FemModel FemFacts FemSpec FemProofs FemAsmProofs FemGeoProofs FemExamples
  MatModel MatSpec MatProofs MatPlasticProofs MatFemProofs MatHyperProofs MatPostProofs MatThermoProofs MatTopProofs MatFractureProofs MatEigenProofs MatLawProofs MatExamples.
Open Scope R_scope.

(** ** C60 linear elasticity, at a point *)
Theorem linear_elasticity_laws : forall d a G H,
  msym d (linear_elastic_stress d G)
  /\ meq d (linear_elastic_stress d (madd (mscal a G) H)) (madd (mscal a (linear_elastic_stress d G)) (linear_elastic_stress d H))
  /\ (mskew d G -> meq d (linear_elastic_stress d G) mzero)
  /\ ddot d (linear_elastic_stress d G) H = ddot d (linear_elastic_stress d H) G
  /\ 0 <= ddot d (linear_elastic_stress d G) G
  /\ (ddot d (linear_elastic_stress d G) G = 0 <-> mskew d G).
Proof.
  intros d a G H. split; [apply lin_symmetric|]. split; [apply lin_linear|]. split; [apply lin_skew|]. split; [apply lin_work|]. split; [apply lin_energy|apply lin_energy_zero].
Qed.
Print Assumptions linear_elasticity_laws.
Theorem linear_elasticity_isotropic : forall d Q G, orthogonal d Q ->
  meq d (linear_elastic_stress d (matmul d (matmul d Q G) (transpose Q))) (matmul d (matmul d Q (linear_elastic_stress d G)) (transpose Q)).
Proof. exact lin_isotropic. Qed.
Print Assumptions linear_elasticity_isotropic.
(** Young's modulus 70000, Poisson's ratio 0.3, shear modulus E / (2 (1 + nu)) *)
Theorem linear_elasticity_constants :
  (forall e, meq 3 (linear_elastic_stress 3 (fun i j => if Nat.eqb i j then (if Nat.eqb i 0 then e else - (3 / 10) * e) else 0))
                   (fun i j => if Nat.eqb i 0 && Nat.eqb j 0 then 70000 * e else 0))
  /\ (forall g, meq 3 (linear_elastic_stress 3 (fun i j => if Nat.eqb i 0 && Nat.eqb j 1 then g else 0))
                   (fun i j => if (Nat.eqb i 0 && Nat.eqb j 1) || (Nat.eqb i 1 && Nat.eqb j 0) then 70000 / (2 * (1 + 3 / 10)) * g else 0)).
Proof. split; [exact lin_uniaxial|exact lin_shear]. Qed.
Print Assumptions linear_elasticity_constants.
Example linear_elasticity_case : ddot 3 (linear_elastic_stress 3 (stretch 1)) (stretch 1) = 525000 /\ orthogonal 3 quarter /\ ~ mskew 3 (stretch 1).
Proof.
  split; [|split; [apply quarter_rotation|]].
  - unfold linear_elastic_stress, ddot, trace, stretch, eye, sumN. cbn. field.
  - intros H. specialize (H 0%nat 0%nat ltac:(lia) ltac:(lia)). cbn in H. lra.
Qed.

(** ** C97 the assembled stiffness *)
Theorem elastic_stiffness_symmetric_psd : forall V (F : fem V) iv inds u w a, elastic_problem F iv inds ->
  exists ru rw rs, compute_residual_vars F inds u iv = Ok ru /\ compute_residual_vars F inds w iv = Ok rw
  /\ compute_residual_vars F inds (fun n k => a * u n k + w n k) iv = Ok rs
  /\ (forall n k, (n < num_total_nodes F)%nat -> (k < vec F)%nat -> rs n k = a * ru n k + rw n k)
  /\ power F ru w = power F rw u
  /\ (positive_weights F -> 0 <= power F ru u)
  /\ (positive_weights F -> power F ru u = 0 ->
        (forall c q, (c < num_cells F)%nat -> (q < num_quads (f_ele F))%nat -> mskew (dim F) (sol_to_grad F u c q))
        /\ forall n k, (n < num_total_nodes F)%nat -> (k < vec F)%nat -> ru n k = 0).
Proof.
  intros V F iv inds u w a (Hwf & Hc & Hv & Ht & Hiv & Ho & Hf).
  apply elastic_stiffness; try assumption. intros sel Hs. rewrite Forall_forall in Hf. now apply Hf.
Qed.
Print Assumptions elastic_stiffness_symmetric_psd.
Theorem rigid_motions_cost_nothing : forall V (F : fem V) iv inds b W u, elastic_problem F iv inds -> fem_tables F -> mskew (dim F) W ->
  exists ru rr, compute_residual_vars F inds u iv = Ok ru
  /\ compute_residual_vars F inds (fun n k => u n k + rigid_motion F b W n k) iv = Ok rr
  /\ forall n k, (n < num_total_nodes F)%nat -> (k < vec F)%nat -> rr n k = ru n k.
Proof.
  intros V F iv inds b W u (Hwf & Hc & Hv & Ht & Hiv & Ho & Hf) (Hs & Hg & _ & _ & Hi) HW.
  apply elastic_rigid; try assumption. intros sel Hsel. rewrite Forall_forall in Hf. now apply Hf.
Qed.
Print Assumptions rigid_motions_cost_nothing.
Example elastic_case : elastic_problem elastic_fem no_vars [] /\ fem_tables elastic_fem /\ positive_weights elastic_fem.
Proof. split; [exact ex_elastic|]. split; [apply sq_tables|apply sq_positive]. Qed.

(** ** C61 plasticity *)
Theorem return_map_radial : forall d G so eo, (0 < d)%nat ->
  let Z := stress_return_map d G so eo in let T := trial_stress d G so eo in
  von_mises d Z = Rmin (von_mises d T) 250 /\ pressure d Z = pressure d T
  /\ (von_mises d T <= 250 -> meq d Z T) /\ (msym d so -> msym d eo -> msym d Z)
  /\ exists b, 0 <= b <= 1 /\ forall i j, dev d Z i j = (1 - b) * dev d T i j.
Proof.
  intros d G so eo Hd. cbv zeta. rewrite srm_form.
  assert (ET : meq d (trial d G so eo) (trial_stress d G so eo)).
  { intros i j _ _. unfold trial, trial_stress, iso_stress, strain, lmbda_of, mu_of, nu, trace, eye, identity. ring. }
  assert (ED : forall i j, dev d (trial d G so eo) i j = dev d (trial_stress d G so eo) i j).
  { intros i j. unfold dev. rewrite !pressure_trace, (trace_ext d _ _ ET). f_equal.
    unfold trial, trial_stress, iso_stress, strain, lmbda_of, mu_of, nu, trace, eye, identity. ring. }
  rewrite <- (von_mises_ext d _ _ ET). rewrite !pressure_trace, <- (trace_ext d _ _ ET), <- !pressure_trace.
  split; [apply ret_von_mises; (assumption || lra)|]. split; [apply ret_pressure; (assumption || lra)|]. split; [|split].
  - intros Hvm i j Hi Hj. rewrite <- ET by assumption. apply ret_elastic; (assumption || lra).
  - intros Hs He. apply ret_sym; [..|now apply trial_sym]; (assumption || lra).
  - exists (shrink 250 (von_mises d (trial d G so eo))).
    destruct (shrink_range 250 (von_mises d (trial d G so eo)) ltac:(lra) (von_mises_nonneg d _)) as (Hb & _). split; [exact Hb|].
    intros i j. rewrite <- ED. apply ret_dev; (assumption || lra).
Qed.
Print Assumptions return_map_radial.
Theorem plastic_histories_admissible : forall V (F : fem V) sols c q, (0 < dim F)%nat ->
  von_mises (dim F) (sigmas_old (plastic_run F sols) c q) <= 250
  /\ msym (dim F) (sigmas_old (plastic_run F sols) c q) /\ msym (dim F) (epsilons_old (plastic_run F sols) c q)
  /\ forall sol, (forall i j, epsilons_old (plastic_run F (sols ++ [sol])) c q i j = / 2 * (sol_to_grad F sol c q i j + sol_to_grad F sol c q j i))
     /\ sigmas_old (plastic_run F (sols ++ [sol])) c q = stress_return_map (dim F) (sol_to_grad F sol c q) (sigmas_old (plastic_run F sols) c q) (epsilons_old (plastic_run F sols) c q).
Proof.
  intros V F sols c q Hd. destruct (run_invariant F Hd sols c q) as (A & B & C). split; [exact A|]. split; [exact B|]. split; [exact C|]. intros sol. split.
  - intros i j. apply run_last.
  - rewrite run_app. reflexivity.
Qed.
Print Assumptions plastic_histories_admissible.
Example plastic_case : exists G, von_mises 3 (trial_stress 3 G mzero mzero) > 250.
Proof.
  exists (diagonal 1 (-1) 0). unfold von_mises, Rgt. rewrite <- (sqrt_pow2 250) by lra. apply sqrt_lt_1; [lra|apply Rmult_le_pos; [lra|apply ddot_nonneg]|].
  unfold ddot, dev, pressure, trial_stress, mzero, diagonal, identity, sumN. cbn. lra.
Qed.

(** ** C98 the return map is the closest-point projection *)
Theorem maximum_plastic_dissipation : forall d sig0 T A, (0 < d)%nat -> 0 <= sig0 -> von_mises d A <= sig0 ->
  ddot d (msub T (fst (radial_return d sig0 T))) (msub A (fst (radial_return d sig0 T))) <= 0.
Proof. intros d sig0 T A Hd H0 HA. now apply ret_variational. Qed.
Print Assumptions maximum_plastic_dissipation.
Theorem return_map_contraction : forall d sig0 T1 T2, (0 < d)%nat -> 0 <= sig0 ->
  let Z1 := fst (radial_return d sig0 T1) in let Z2 := fst (radial_return d sig0 T2) in
  ddot d (msub Z1 Z2) (msub Z1 Z2) <= ddot d (msub T1 T2) (msub Z1 Z2)
  /\ ddot d (msub Z1 Z2) (msub Z1 Z2) <= ddot d (msub T1 T2) (msub T1 T2).
Proof. intros d sig0 T1 T2 Hd H0. split; [now apply return_monotone|now apply return_nonexpansive]. Qed.
Print Assumptions return_map_contraction.
Example projection_case : von_mises 3 (fun _ _ => 0) <= 250.
Proof. rewrite von_mises_zero by lia. lra. Qed.

(** ** C99 the plastic boundary value problem *)
Theorem plastic_residual : forall F inds s sol, plastic_problem F inds ->
  (forall c q, (c < num_cells F)%nat -> stress F (plastic_vars (num_cells F) s) sol c q = sigmas_old (update_stress_strain F sol s) c q)
  /\ exists r, compute_residual_vars F inds sol (plastic_vars (num_cells F) s) = Ok r /\ forall v,
       power F r v = sumN (num_cells F) (fun c => sumN (num_quads (f_ele F)) (fun q => JxW F c q *
           ddot (dim F) (sigmas_old (update_stress_strain F sol s) c q) (sol_to_grad F v c q)))
         + cauchy_power F sol v - body_power F (plastic_vars (num_cells F) s) v - neumann_power F inds (plastic_vars (num_cells F) s) v.
Proof.
  intros F inds s sol (Hwf & Hc & Hv & Ht & Hm & Hn & Hf). rewrite Forall_forall in Hf. split.
  - intros c q Hcc. now apply stored_stress.
  - now apply plastic_work.
Qed.
Print Assumptions plastic_residual.
Theorem plastic_residual_monotone : forall F inds sols u w, plastic_problem F inds -> (0 < dim F)%nat -> cauchy_bc_info F = None -> positive_weights F ->
  exists ru rw, compute_residual_vars F inds u (plastic_vars (num_cells F) (plastic_run F sols)) = Ok ru
  /\ compute_residual_vars F inds w (plastic_vars (num_cells F) (plastic_run F sols)) = Ok rw
  /\ 0 <= power F (fun n k => ru n k - rw n k) (fun n k => u n k - w n k).
Proof.
  intros F inds sols u w (Hwf & Hc & Hv & Ht & Hm & Hn & Hf) Hd Hca Hw. rewrite Forall_forall in Hf. apply plastic_monotone; try assumption.
  intros c q. apply (run_invariant F Hd sols c q).
Qed.
Print Assumptions plastic_residual_monotone.
(** a second update with the same displacement changes nothing *)
Theorem plastic_update_idempotent : forall V (F : fem V) sols sol c q, (0 < dim F)%nat ->
  let s := plastic_run F (sols ++ [sol]) in let s' := update_stress_strain F sol s in
  meq (dim F) (sigmas_old s' c q) (sigmas_old s c q) /\ epsilons_old s' c q = epsilons_old s c q.
Proof. intros V F sols sol c q Hd. now apply update_idempotent. Qed.
Print Assumptions plastic_update_idempotent.
Theorem average_stress_admissible : forall V (F : fem V) s k, positive_weights F -> 0 < volume F -> 0 <= k ->
  (forall c q, (c < num_cells F)%nat -> (q < num_quads (f_ele F))%nat -> von_mises (dim F) (sigmas_old s c q) <= k) ->
  von_mises (dim F) (compute_avg_stress F s) <= k
  /\ forall i j S, (forall c q, (c < num_cells F)%nat -> (q < num_quads (f_ele F))%nat -> sigmas_old s c q i j = S) -> compute_avg_stress F s i j = S.
Proof. intros V F s k Hw Hvol Hk Hs. split; [now apply avg_von_mises|]. intros i j S HS. now apply avg_homogeneous. Qed.
Print Assumptions average_stress_admissible.
Example plastic_problem_case : plastic_problem plastic_fem [] /\ positive_weights plastic_fem /\ volume plastic_fem = 1.
Proof. split; [exact ex_plastic|]. split; [apply sq_positive|apply sq_volume]. Qed.

(** ** C62 hyperelasticity *)
Theorem hyperelastic_energy : forall F,
  (forall d Q, small_dim d -> rotation d Q -> psi d (matmul d Q F) = psi d F)
  /\ psi 3 identity = 0
  /\ (0 < det 3 F -> 0 <= psi 3 F /\ (psi 3 F = 0 <-> rotation 3 F)).
Proof.
  intros F. unfold psi. cbv zeta. split; [intros d Q Hd HQ; now apply psi_frame|]. split; [apply psi_rest|]. intros HF.
  split; [apply psi_nonneg; lra|apply psi_zero_iff; lra].
Qed.
Print Assumptions hyperelastic_energy.
Theorem hyperelastic_stress : forall P_fn, is_grad 3 (psi 3) (fun F => 0 < det 3 F) P_fn ->
  meq 3 (first_PK_stress P_fn mzero) mzero
  /\ (forall F, 0 < det 3 F -> msym 3 (matmul 3 (P_fn F) (transpose F)))
  /\ (forall Q F, rotation 3 Q -> 0 < det 3 F -> meq 3 (P_fn (matmul 3 Q F)) (matmul 3 Q (P_fn F)))
  /\ forall H i j, (i < 3)%nat -> (j < 3)%nat -> derivable_pt_lim (fun t => first_PK_stress P_fn (fun i j => t * H i j) i j) 0
       (1000 * (3 / 10) / ((1 + 3 / 10) * (1 - 2 * (3 / 10))) * (H 0%nat 0%nat + H 1%nat 1%nat + H 2%nat 2%nat) * identity i j
        + 2 * (1000 / (2 * (1 + 3 / 10))) * (/ 2 * (H i j + H j i))).
Proof.
  intros P_fn Hg. set (mu := 1000 / (2 * (1 + 3 / 10))). set (kappa := 1000 / (3 * (1 - 2 * (3 / 10)))).
  assert (Hg' : is_grad 3 (psi_mod 3 mu kappa) (fun F => 0 < det 3 F) P_fn) by exact Hg. assert (S3 : small_dim 3) by (unfold small_dim; lia).
  split; [|split; [|split]].
  - intros i j Hi Hj. unfold first_PK_stress.
    assert (HD : 0 < det 3 (fun i j : nat => mzero i j + eye i j)) by (cbn; unfold mzero, eye; cbn; lra).
    rewrite (P_formula 3 mu kappa P_fn _ S3 Hg' HD i j Hi Hj).
    replace (fun i j : nat => mzero i j + eye i j) with identity.
    + rewrite PK_rest by assumption. unfold mzero. cbn [INR]. field.
    + apply FunctionalExtensionality.functional_extensionality. intros a. apply FunctionalExtensionality.functional_extensionality. intros b. unfold mzero. change (eye a b) with (identity a b). ring.
  - intros F HF i j Hi Hj. assert (E : meq 3 (P_fn F) (PK 3 mu kappa F)) by (now apply P_formula).
    rewrite (matmul_ext 3 _ _ (transpose F) (transpose F) E (fun _ _ _ _ => eq_refl) i j Hi Hj), (matmul_ext 3 _ _ (transpose F) (transpose F) E (fun _ _ _ _ => eq_refl) j i Hj Hi).
    apply PK_moment; try assumption. lra.
  - intros Q F HQ HF i j Hi Hj.
    assert (HD : 0 < det 3 (matmul 3 Q F)) by (rewrite det_matmul by assumption; rewrite (proj2 HQ); lra).
    rewrite (P_formula 3 mu kappa P_fn _ S3 Hg' HD i j Hi Hj), (PK_objective mu kappa Q F HQ i j Hi Hj).
    apply (matmul_ext 3 Q Q); try assumption; [intros ? ? _ _; reflexivity|]. intros a b Ha Hb. symmetry. now apply P_formula.
  - intros H i j Hi Hj. match goal with |- derivable_pt_lim _ _ ?L => replace L with (iso_stress 3 1000 (strain H) i j) end; [exact (small_strain P_fn H i j Hg Hi Hj)|].
    unfold iso_stress, lmbda_of, mu_of, nu, trace, strain, sumN, eye, identity. cbn [seq sumR]. unfold mu. field.
Qed.
Print Assumptions hyperelastic_stress.
(** In two dimensions the energy uses the 3-D invariants (- 3 and exponent - 2/3) on 2 x 2 tensors:
    the undeformed state has negative energy and is not stress free. *)
Theorem hyperelastic_rest_2d_refuted : psi 2 identity < 0
  /\ forall P_fn, is_grad 2 (psi 2) (fun F => 0 < det 2 F) P_fn -> first_PK_stress P_fn mzero 0%nat 0%nat > 0.
Proof.
  set (mu := 1000 / (2 * (1 + 3 / 10))). set (kappa := 1000 / (3 * (1 - 2 * (3 / 10)))). assert (S2 : small_dim 2) by (unfold small_dim; lia).
  assert (Hmu : 0 < mu) by (unfold mu; lra). split.
  - change (psi 2 identity) with (psi_mod 2 mu kappa identity). rewrite psi_form, det_identity, ddot_identity, Rpower_1_l by exact S2. cbn [INR]. lra.
  - intros P_fn Hg. assert (Hg' : is_grad 2 (psi_mod 2 mu kappa) (fun F => 0 < det 2 F) P_fn) by exact Hg. unfold first_PK_stress.
    assert (HD : 0 < det 2 (fun i j : nat => mzero i j + eye i j)) by (cbn; unfold mzero, eye; cbn; lra).
    rewrite (P_formula 2 mu kappa P_fn _ S2 Hg' HD 0%nat 0%nat ltac:(lia) ltac:(lia)).
    replace (fun i j : nat => mzero i j + eye i j) with identity.
    + rewrite PK_rest by (assumption || lia). unfold identity. cbn [INR Nat.eqb]. lra.
    + apply FunctionalExtensionality.functional_extensionality. intros a. apply FunctionalExtensionality.functional_extensionality. intros b. unfold mzero. change (eye a b) with (identity a b). ring.
Qed.
Print Assumptions hyperelastic_rest_2d_refuted.
(** the plane-strain variant of the cellular solid application has none of these defects *)
Theorem cellular_solid_energy : (forall Q F, rotation 2 Q -> psi_2d (matmul 2 Q F) = psi_2d F) /\ psi_2d identity = 0
  /\ (forall F, 0 < det 2 F -> 0 <= psi_2d F)
  /\ forall P_fn, is_grad 2 psi_2d (fun F => 0 < det 2 F) P_fn -> meq 2 (P_fn identity) mzero.
Proof. split; [exact psi2_frame|]. split; [exact psi2_rest|]. split; [exact psi2_nonneg|exact psi2_stress_free]. Qed.
Print Assumptions cellular_solid_energy.
Example hyperelastic_case : rotation 3 quarter /\ 0 < det 3 (stretch 2) /\ ~ rotation 3 (stretch 2)
  /\ is_grad 3 (psi 3) (fun F => 0 < det 3 F) (PK 3 (1000 / (2 * (1 + 3 / 10))) (1000 / (3 * (1 - 2 * (3 / 10))))).
Proof.
  split; [apply quarter_rotation|]. split; [cbn; unfold stretch; cbn; lra|]. split.
  - intros (_ & H). cbn in H. unfold stretch in H. cbn in H. lra.
  - apply PK_is_grad. unfold small_dim; lia.
Qed.

(** ** C100 surface integrals *)
Theorem surface_area_is_area : forall V (F : fem V) loc sol k, compute_surface_area F loc sol k = area F loc.
Proof. intros. apply area_form. Qed.
Print Assumptions surface_area_is_area.
Theorem traction_outcomes : forall V (F : fem V) loc sol,
  (tensor_map F = None -> compute_traction F loc sol = Err AttributeError)
  /\ (tensor_map F <> None -> dim F <> 3%nat -> compute_traction F loc sol = Err TypeError)
  /\ (tensor_map F <> None -> dim F = 3%nat -> exists t, compute_traction F loc sol = Ok t).
Proof.
  intros V F loc sol. unfold compute_traction. destruct (tensor_map F).
  - split; [discriminate|]. split; intros _ Hd.
    + now rewrite (proj2 (Nat.eqb_neq _ _) Hd).
    + rewrite Hd. cbn [Nat.eqb]. eexists. reflexivity.
  - split; [reflexivity|]. split; congruence.
Qed.
Print Assumptions traction_outcomes.
(** the force through surfaces whose outward normal is e_z (missing: every other orientation) *)
Theorem traction_is_force_partial : forall V (F : fem V) loc sol tm, tensor_map F = Some tm -> dim F = 3%nat ->
  (forall s p, In s (boundary_inds F loc) -> (p < num_face_quads (f_ele F))%nat -> unit_normal F s p 0%nat = 0 /\ unit_normal F s p 1%nat = 0 /\ unit_normal F s p 2%nat = 1) ->
  exists t, compute_traction F loc sol = Ok t /\ forall k, t k = surface_force F (tm []) loc sol k.
Proof. intros V F loc sol tm. apply traction_force. Qed.
Print Assumptions traction_is_force_partial.
Theorem traction_of_affine_field : forall V (F : fem V) loc b G tm, tensor_map F = Some tm -> dim F = 3%nat -> face_grads_sum_zero F ->
  (forall A B, (forall i d, (d < 3)%nat -> A i d = B i d) -> forall k d, tm [] A k d = tm [] B k d) ->
  (forall s p, In s (boundary_inds F loc) -> (p < num_face_quads (f_ele F))%nat -> det 3 (face_jacobian F s p) <> 0) ->
  exists t, compute_traction F loc (affine_field F b G) = Ok t /\ forall k, t k = tm [] G k 2%nat * area F loc.
Proof. intros V F loc b G tm. apply traction_affine. Qed.
Print Assumptions traction_of_affine_field.
(** On a bottom face the reported force has the wrong sign. *)
Theorem traction_is_force_refuted : exists (F : fem unit) loc sol tm t, tensor_map F = Some tm /\ dim F = 3%nat
  /\ compute_traction F loc sol = Ok t /\ t 2%nat > 0 /\ surface_force F (tm []) loc sol 2%nat = - t 2%nat.
Proof.
  exists bottom_tet, ground, (affine_field bottom_tet (fun _ => 0) pull_up), (fun _ => linear_elastic_stress 3).
  destruct (traction_ok bottom_tet ground (affine_field bottom_tet (fun _ => 0) pull_up) (fun _ => linear_elastic_stress 3) eq_refl eq_refl) as (t & Et & Hk).
  exists t. split; [reflexivity|]. split; [reflexivity|]. split; [exact Et|].
  destruct (bottom_normal 0%nat) as (A & B & C & D & N).
  assert (G : forall i d, (d < 3)%nat -> face_grad bottom_tet (affine_field bottom_tet (fun _ => 0) pull_up) (0, 0)%nat 0%nat i d = pull_up i d).
  { intros i d Hd. apply face_patch; [right; now right|apply tet_grads|cbn; lia|cbn; lia| |exact Hd]. change (dim bottom_tet) with 3%nat. lra. }
  assert (T : t 2%nat = linear_elastic_stress 3 (face_grad bottom_tet (affine_field bottom_tet (fun _ => 0) pull_up) (0, 0)%nat 0%nat) 2%nat 2%nat * / 2).
  { rewrite Hk, (proj2 tet_faces). cbn [sumR]. change (num_face_quads (f_ele bottom_tet)) with 1%nat. unfold sumN. cbn [seq sumR]. rewrite N. ring. }
  assert (S : linear_elastic_stress 3 (face_grad bottom_tet (affine_field bottom_tet (fun _ => 0) pull_up) (0, 0)%nat 0%nat) 2%nat 2%nat > 0).
  { unfold linear_elastic_stress, trace, sumN. cbn [seq sumR]. rewrite !G by lia. unfold pull_up, diagonal, eye. cbn. lra. }
  split; [rewrite T; lra|]. unfold surface_force. rewrite (proj2 tet_faces). cbn [sumR]. change (num_face_quads (f_ele bottom_tet)) with 1%nat. change (dim bottom_tet) with 3%nat.
  unfold sumN at 1 2. cbn [seq sumR]. rewrite A, B, C, N, T. ring.
Qed.
Print Assumptions traction_is_force_refuted.
Example traction_case : tensor_map top_tet <> None /\ dim top_tet = 3%nat /\ face_grads_sum_zero top_tet
  /\ (forall s p, In s (boundary_inds top_tet ground) -> (p < 1)%nat -> unit_normal top_tet s p 2%nat = 1 /\ det 3 (face_jacobian top_tet s p) = 1)
  /\ area top_tet ground = / 2.
Proof.
  split; [discriminate|]. split; [reflexivity|]. split; [apply tet_grads|]. split.
  - intros s p Hs _. rewrite (proj1 tet_faces) in Hs. destruct Hs as [<-|[]]. destruct (top_normal p) as (_ & _ & C & D & _). now split.
  - unfold area. rewrite (proj1 tet_faces). cbn [sumR]. change (num_face_quads (f_ele top_tet)) with 1%nat. unfold sumN. cbn [seq sumR].
    destruct (top_normal 0%nat) as (_ & _ & _ & _ & ->). ring.
Qed.

(** ** C101 error norms *)
Theorem l2_error_is_a_norm : forall V (F : fem V), positive_weights F -> forall sol u,
  compute_l2_norm_error F sol u = sqrt (l2_sq F (fun c q i => at_quad F sol c q i - u (physical_quad_point F c q) i))
  /\ (compute_l2_norm_error F sol u = 0 <->
        forall c q i, (c < num_cells F)%nat -> (q < num_quads (f_ele F))%nat -> (i < vec F)%nat -> at_quad F sol c q i = u (physical_quad_point F c q) i)
  /\ (forall a, compute_l2_norm_error F (fun n k => a * sol n k) (fun x i => a * u x i) = Rabs a * compute_l2_norm_error F sol u)
  /\ forall sol', compute_l2_norm_error F sol u <= compute_l2_norm_error F sol' u + compute_l2_norm_error F (fun n k => sol n k - sol' n k) (fun _ _ => 0).
Proof.
  intros V F Hw sol u. split; [now apply l2_form|]. split; [now apply l2_error_zero|]. split; [intros a; now apply l2_error_scale|]. intros sol'. now apply l2_error_triangle.
Qed.
Print Assumptions l2_error_is_a_norm.
(** The H1 error is the sum of the two norms, not the root of the sum of squares: equivalent to it. *)
Theorem h1_error_equivalent : forall V (F : fem V), positive_weights F -> forall sol u g,
  let h1 := sqrt (l2_sq F (fun c q i => at_quad F sol c q i - u (physical_quad_point F c q) i)
                  + h1_sq F (fun c q i d => sol_to_grad F sol c q i d - g (physical_quad_point F c q) i d)) in
  h1 <= compute_h1_norm_error F sol u g /\ compute_h1_norm_error F sol u g <= sqrt 2 * h1
  /\ compute_l2_norm_error F sol u <= compute_h1_norm_error F sol u g.
Proof. intros V F Hw sol u g. cbv zeta. destruct (h1_equivalent F Hw sol u g) as (A & B). split; [exact A|]. split; [exact B|]. now apply h1_ge_l2. Qed.
Print Assumptions h1_error_equivalent.
Theorem affine_fields_have_no_error : forall V (F : fem V) b G, positive_weights F -> fem_tables F ->
  compute_l2_norm_error F (affine_field F b G) (fun x i => b i + sumN (dim F) (fun m => G i m * x m)) = 0
  /\ compute_h1_norm_error F (affine_field F b G) (fun x i => b i + sumN (dim F) (fun m => G i m * x m)) (fun _ => G) = 0.
Proof. intros V F b G Hw (Hs & Hg & Hv & _ & Hi). now apply errors_affine. Qed.
Print Assumptions affine_fields_have_no_error.
Example error_case : positive_weights elastic_fem /\ fem_tables elastic_fem
  /\ compute_l2_norm_error elastic_fem (fun _ _ => 0) (fun _ i => if Nat.eqb i 0 then 3 else 0) = 3.
Proof.
  split; [apply sq_positive|]. split; [apply sq_tables|]. rewrite l2_form by apply sq_positive. unfold l2_sq. change (num_cells elastic_fem) with 2%nat.
  change (num_quads (f_ele elastic_fem)) with 1%nat. change (vec elastic_fem) with 2%nat. unfold sumN. cbn [seq sumR Nat.eqb]. unfold elastic_fem. rewrite !sq_weights by lia.
  assert (Z : forall c i, at_quad elastic_fem (fun _ _ => 0) c 0%nat i = 0) by (intros c i; unfold at_quad, convert_from_dof_to_quad; apply sumN_zero; intros; ring).
  unfold elastic_fem in Z. rewrite !Z. transitivity (sqrt (3 ^ 2)); [f_equal; lra|apply sqrt_pow2; lra].
Qed.

(** ** C67 phases *)
Theorem phase_transitions : forall V (F : fem V) s T dT c q, (t_phase s c q <= 2)%nat ->
  let s' := update_dT_and_phase F dT T s in
  (t_phase s' c q = t_phase s c q
   \/ (t_phase s c q = POWDER /\ t_phase s' c q = LIQUID /\ 1623 < at_quad F T c q 0%nat)
   \/ (t_phase s c q = LIQUID /\ t_phase s' c q = SOLID /\ at_quad F T c q 0%nat < 1623))
  /\ (t_phase s c q = POWDER -> 1623 < at_quad F T c q 0%nat -> t_phase s' c q = LIQUID)
  /\ (t_phase s c q = LIQUID -> at_quad F T c q 0%nat < 1623 -> t_phase s' c q = SOLID)
  /\ (t_phase s c q <= t_phase s' c q <= 2)%nat /\ t_sigmas s' = t_sigmas s /\ t_epsilons s' = t_epsilons s
  /\ t_dT s' c q = at_quad F dT c q 0%nat.
Proof.
  intros V F s T dT c q Hp. cbv zeta. destruct (phase_only F s T dT c q Hp) as (A & B & C & D & E1 & E2).
  split; [exact A|]. split; [exact B|]. split; [exact C|]. split; [exact D|]. split; [exact E1|]. split; [exact E2|reflexivity].
Qed.
Print Assumptions phase_transitions.
Theorem phase_follows_history : forall V (F : fem V) T0 h c q,
  let p := t_phase (fst (thermo_run F T0 h)) c q in
  (p = POWDER <-> ~ was_molten (temps F h c q))
  /\ (p = LIQUID <-> was_molten (temps F h c q) /\ ~ has_solidified (temps F h c q))
  /\ (p = SOLID <-> has_solidified (temps F h c q)).
Proof.
  intros V F T0 h c q. cbv zeta. pose proof (solid_molten (temps F h c q)) as Hm.
  destruct (phase_history F T0 h c q) as [(-> & A)|[(-> & A & B)|(-> & A)]]; unfold POWDER, LIQUID, SOLID; repeat split; try tauto; try discriminate; try (intros; exfalso; tauto).
Qed.
Print Assumptions phase_follows_history.
Example phase_case : was_molten [300; 1700; 1000] /\ has_solidified [300; 1700; 1000] /\ ~ has_solidified [300; 1700].
Proof.
  split; [exists 1700; cbn; split; [tauto|lra]|]. split.
  - exists 1%nat, 2%nat, 1700, 1000. cbn. repeat split; try lia; lra.
  - intros (i & j & x & y & Hij & Hi & Hj & Hx & Hy). destruct j as [|[|j]]; [lia| |].
    + cbn in Hj. injection Hj as <-. lra.
    + cbn in Hj. destruct j; discriminate.
Qed.

(** ** C102 thermo-mechanical stresses *)
Theorem thermo_stress_update : forall d G so eo dT ph, (0 < d)%nat ->
  let E := if Nat.eqb ph 2 then 70 * 10 ^ 9 else 70 * 10 ^ 7 in let al := if Nat.eqb ph 2 then / 10 ^ 5 else 0 in
  let D := fun i j => / 2 * (G i j + G j i) - eo i j - al * dT * identity i j in
  let T := fun i j => so i j + E * (3 / 10) / ((1 + 3 / 10) * (1 - 2 * (3 / 10))) * sumN d (fun k => D k k) * identity i j + 2 * (E / (2 * (1 + 3 / 10))) * D i j in
  let Z := fst (stress_return_maps d G so eo dT ph) in
  von_mises d Z = Rmin (von_mises d T) (250 * 10 ^ 6) /\ pressure d Z = pressure d T
  /\ (von_mises d T <= 250 * 10 ^ 6 -> forall i j, Z i j = T i j)
  /\ snd (stress_return_maps d G so eo dT ph) = (Rmax 0 (von_mises d T - 250 * 10 ^ 6), Z 0%nat 0%nat).
Proof.
  intros d G so eo dT ph Hd. cbv zeta. set (T := fun i j => so i j + _ + _).
  assert (ET : forall i j, thermo_trial d G so eo dT ph i j = T i j).
  { intros i j. unfold thermo_trial, T, iso_stress, strain, lmbda_of, mu_of, nu, trace, eye, identity. destruct (Nat.eqb ph 2); field. }
  assert (EM : meq d (thermo_trial d G so eo dT ph) T) by (intros i j _ _; apply ET).
  destruct (thermo_law d G so eo dT ph Hd) as (A & B & C & D). rewrite (von_mises_ext d _ _ EM) in A, C, D.
  split; [exact A|]. split; [rewrite B, !pressure_trace; now rewrite (trace_ext d _ _ EM)|]. split; [|exact D].
  intros Hv i j. rewrite <- ET. now apply C.
Qed.
Print Assumptions thermo_stress_update.
Theorem thermo_histories_admissible : forall V (F : fem V) T0 h c q, (0 < dim F)%nat ->
  von_mises (dim F) (t_sigmas (fst (thermo_run F T0 h)) c q) <= 250 * 10 ^ 6
  /\ msym (dim F) (t_sigmas (fst (thermo_run F T0 h)) c q) /\ msym (dim F) (t_epsilons (fst (thermo_run F T0 h)) c q)
  /\ forall Tu, t_dT (fst (thermo_run F T0 (h ++ [Tu]))) c q = at_quad F (fst Tu) c q 0%nat - at_quad F (last (map fst h) T0) c q 0%nat
     /\ t_sigmas (fst (thermo_run F T0 (h ++ [Tu]))) c q
        = fst (stress_return_maps (dim F) (sol_to_grad F (snd Tu) c q) (t_sigmas (fst (thermo_run F T0 h)) c q) (t_epsilons (fst (thermo_run F T0 h)) c q)
                 (t_dT (fst (thermo_run F T0 (h ++ [Tu]))) c q) (t_phase (fst (thermo_run F T0 (h ++ [Tu]))) c q)).
Proof.
  intros V F T0 h c q Hd. destruct (thermo_invariant F Hd T0 h c q) as (A & B & C). split; [exact A|]. split; [exact B|]. split; [exact C|]. intros Tu. split.
  - apply run_dT.
  - rewrite thermo_app. unfold thermo_step. destruct (thermo_run F T0 h) as (s, Told), Tu as (T, u). reflexivity.
Qed.
Print Assumptions thermo_histories_admissible.
(** solid material that expands freely with the temperature keeps its stress *)
Theorem free_thermal_expansion : forall V (F : fem V) T0 h T u c q, (0 < dim F)%nat ->
  let s := fst (thermo_run F T0 h) in let s' := fst (thermo_run F T0 (h ++ [(T, u)])) in
  t_phase s' c q = SOLID ->
  (forall i j, (i < dim F)%nat -> (j < dim F)%nat ->
     / 2 * (sol_to_grad F u c q i j + sol_to_grad F u c q j i) = t_epsilons s c q i j + / 10 ^ 5 * t_dT s' c q * identity i j) ->
  meq (dim F) (t_sigmas s' c q) (t_sigmas s c q).
Proof. intros V F T0 h T u c q Hd. cbv zeta. intros Hs He. now apply free_expansion. Qed.
Print Assumptions free_thermal_expansion.
Example thermo_case : let T := fun T : R => (fun _ _ => T) : nodal in
  t_phase (fst (thermo_run heat_fem (T 300) [(T 1700, T 0); (T 1000, T 0)])) 0%nat 0%nat = SOLID
  /\ t_dT (fst (thermo_run heat_fem (T 300) [(T 1700, T 0); (T 1000, T 0)])) 0%nat 0%nat = -700.
Proof.
  cbv zeta. assert (Q : forall x, at_quad heat_fem (fun _ _ => x) 0%nat 0%nat 0%nat = x).
  { intros x. unfold at_quad, convert_from_dof_to_quad.
    pose proof (proj1 (proj2 (proj2 (@sq_tables (nat -> R) 1 (Some thermal_tensor_map) (Some (thermal_mass_map (/ 10))) (Some [neumann_walls])))) 0%nat ltac:(cbn; lia)) as H. fold heat_fem in H.
    transitivity (x * sumN (num_nodes (f_ele heat_fem)) (fun a => shape_vals (f_ele heat_fem) 0 a)); [now rewrite <- sumN_scal|]. transitivity (x * 1); [f_equal; exact H|ring]. }
  split.
  - apply (phase_follows_history _ heat_fem). unfold temps. cbn [map fst]. rewrite !Q. exists 0%nat, 1%nat, 1700, 1000. cbn. repeat split; try lia; lra.
  - change [(fun _ _ : nat => 1700, fun _ _ : nat => 0); (fun _ _ : nat => 1000, fun _ _ : nat => 0)] with ([(fun _ _ : nat => 1700, fun _ _ : nat => 0)] ++ [(fun _ _ : nat => 1000, fun _ _ : nat => 0)]).
    rewrite run_dT. cbn [map fst last]. rewrite !Q. lra.
Qed.

(** ** C103 heat *)
Theorem heat_is_balanced : forall F dt T_old inds nv sol, heat_problem F dt inds -> fem_tables F -> dt <> 0 ->
  exists r, compute_residual_vars F inds sol (mkIv [map T_old (seq 0 (num_cells F))] [] None nv) = Ok r /\
  sumN (num_cells F) (fun c => sumN (num_quads (f_ele F)) (fun q => JxW F c q * (8440 * 588 * (at_quad F sol c q 0%nat - T_old c q 0%nat))))
  = dt * (sumN (num_total_nodes F) (fun n => r n 0%nat)
          + sumR (indexed inds) (fun isel => sumR (indexed (snd isel)) (fun js => sumN (num_face_quads (f_ele F)) (fun p =>
              nanson_scale F (snd js) p * traction F (mkIv [map T_old (seq 0 (num_cells F))] [] None nv) (fst isel) (fst js) (snd js) p 0%nat)))).
Proof.
  intros F dt T_old inds nv sol (Hwf & Hc & Hv & Ht & Hm & Hs & Hca & Hn & Hf) (_ & Hg & Hva & Hfv & _) Hdt. rewrite Forall_forall in Hf.
  apply heat_balance; assumption.
Qed.
Print Assumptions heat_is_balanced.
Theorem surface_heat_flux : forall x T, 0 <= T 0%nat ->
  (neumann_walls x [T] 0%nat = 0 <-> T 0%nat = 300) /\ (0 < neumann_walls x [T] 0%nat <-> T 0%nat < 300) /\ (neumann_walls x [T] 0%nat < 0 <-> 300 < T 0%nat)
  /\ (forall T', T 0%nat < T' 0%nat -> neumann_walls x [T'] 0%nat < neumann_walls x [T] 0%nat)
  /\ forall lc sw, 0 <= sw <= 1 ->
     neumann_walls x [T] 0%nat <= neumann_top lc sw x [T] 0%nat <= neumann_walls x [T] 0%nat + 2 * (25 / 100) * 50 / (PI * (5 / 10 ^ 5) ^ 2)
     /\ (x 0%nat = lc 0%nat -> x 1%nat = lc 1%nat -> neumann_top lc 1 x [T] 0%nat = neumann_walls x [T] 0%nat + 2 * (25 / 100) * 50 / (PI * (5 / 10 ^ 5) ^ 2))
     /\ neumann_top lc 0 x [T] 0%nat = neumann_walls x [T] 0%nat.
Proof.
  intros x T HT. destruct (wall_flux x T HT) as (A & B & C). split; [exact A|]. split; [exact B|]. split; [exact C|]. split.
  - intros T'. now apply wall_flux_decreasing.
  - intros lc sw. apply top_flux.
Qed.
Print Assumptions surface_heat_flux.
Example heat_case : heat_problem heat_fem (/ 10) [bottom_face] /\ fem_tables heat_fem.
Proof. split; [exact ex_heat|apply sq_tables]. Qed.

(** ** C104 material interpolation *)
Theorem simp_interpolates : forall Emin Emax p, Emin < Emax -> 0 < p ->
  simp Emin Emax 1 p = Emax /\ (forall t, 0 < t <= 1 -> Emin < simp Emin Emax t p <= Emax)
  /\ forall t t', 0 < t -> t < t' -> simp Emin Emax t p < simp Emin Emax t' p.
Proof. intros Emin Emax p HE Hp. split; [apply simp_full|]. split; [intros t Ht; now apply simp_range|]. intros t t' Ht Htt. now apply simp_increasing. Qed.
Print Assumptions simp_interpolates.
(** the two-material law exceeds its maximum modulus: 70070 at full density, not 70000 *)
Theorem multi_material_interpolates : multi_material_E 1 1 = 70070
  /\ (forall t1 t2, 0 < t1 <= 1 -> 0 < t2 <= 1 -> 70 + Rpower t1 3 * 14000 < multi_material_E t1 t2 <= 70 + Rpower t1 3 * 70000)
  /\ forall t1 t2 t1' t2', 0 < t1 <= t1' -> t1' <= 1 -> 0 < t2 <= t2' -> t2' <= 1 -> multi_material_E t1 t2 <= multi_material_E t1' t2'.
Proof. split; [exact multi_corners|]. split; [exact multi_range|exact multi_increasing]. Qed.
Print Assumptions multi_material_interpolates.
(** plane stress is the 3-D law with the thickness strain that makes the out-of-plane stress vanish *)
Theorem plane_stress_is_three_dimensional : forall Emax p t G, exists e33, forall i j, (i < 3)%nat -> (j < 3)%nat ->
  iso_stress 3 (simp (/ 1000 * Emax) Emax t p)
    (fun i j => if Nat.ltb i 2 && Nat.ltb j 2 then / 2 * (G i j + G j i) else if Nat.eqb i 2 && Nat.eqb j 2 then e33 else 0) i j
  = if Nat.ltb i 2 && Nat.ltb j 2 then plane_stress Emax p t G i j else 0.
Proof. intros Emax p t G. eexists. intros i j Hi Hj. rewrite <- (plane_is_3d Emax p t G i j Hi Hj). reflexivity. Qed.
Print Assumptions plane_stress_is_three_dimensional.
Theorem design_variables_are_placed : forall X (one : X) n flex params, NoDup flex -> length flex = length params ->
  exists full, set_params one n flex params = Ok full /\ length full = n
  /\ (forall j c x, nth_error flex j = Some c -> nth_error params j = Some x -> (c < n)%nat -> nth_error full c = Some x)
  /\ (forall c, (c < n)%nat -> ~ In c flex -> nth_error full c = Some one).
Proof. exact @set_params_ok. Qed.
Print Assumptions design_variables_are_placed.
Example design_case : set_params 1 4 [2; 0]%nat [/ 2; / 3] = Ok [/ 3; 1; / 2; 1].
Proof. reflexivity. Qed.

(** ** C105 compliance *)
Theorem compliance_is_strain_energy : forall F law sel load theta fixed u, topopt_problem F law sel load -> equilibrium F sel theta fixed u ->
  compute_compliance F sel load u = sumN (num_cells F) (fun c => sumN (num_quads (f_ele F)) (fun q =>
     JxW F c q * ddot (dim F) (stress F (design_vars (num_cells F) theta) u c q) (sol_to_grad F u c q)))
  /\ (positive_weights F -> (forall c, (c < num_cells F)%nat -> in_design law (theta c)) -> 0 <= compute_compliance F sel load u).
Proof. intros F law sel load theta fixed u Hp. exact (top_compliance F law sel load Hp theta fixed u). Qed.
Print Assumptions compliance_is_strain_energy.
Theorem more_material_less_compliance : forall F law sel load theta theta' fixed u u', topopt_problem F law sel load -> positive_weights F ->
  (forall c, (c < num_cells F)%nat -> in_design law (theta c) /\ in_design law (theta' c) /\ Forall2 Rle (theta c) (theta' c)) ->
  equilibrium F sel theta fixed u -> equilibrium F sel theta' fixed u' ->
  compute_compliance F sel load u' <= compute_compliance F sel load u.
Proof. intros F law sel load theta theta' fixed u u' Hp. exact (top_more_material F law sel load Hp theta theta' fixed u u'). Qed.
Print Assumptions more_material_less_compliance.
(** half-dense and full plate, loaded at a corner *)
Definition plate_modulus (t : R) : R := law_modulus (PlaneStress 3) [t].
Lemma plate_equilibrium E t : 0 < t <= 1 -> equilibrium (plate_fem (plate_load E)) bottom_face (fun _ => [t]) all_but_corner (fun n k => E / plate_modulus t * corner n k).
Proof.
  intros Ht r Hr. set (F := plate_fem (plate_load E)). set (u := fun n k => E / plate_modulus t * corner n k).
  pose proof (ex_plate (plate_load E)) as Hp. assert (Hp' := Hp). destruct Hp' as (Hwf & Hc & Hv & Htm & Hm & Hs & Hca & Hn & Hsel & Hd).
  assert (HM : 0 < plate_modulus t).
  { unfold plate_modulus, law_modulus. pose proof (simp_range (/ 1000 * (70 * 10 ^ 9)) (70 * 10 ^ 9) t 3 ltac:(lra) Ht ltac:(lra)). lra. }
  destruct (equilibrium_work F (law_unit (PlaneStress 3) (dim F)) (vars_modulus (PlaneStress 3)) (unit_lin F _ bottom_face (plate_load E) Hp) (unit_ext F _ bottom_face (plate_load E) Hp)
    (unit_sym F _ bottom_face (plate_load E) Hp) (unit_pos F _ bottom_face (plate_load E) Hp) (unit_tm F _ bottom_face (plate_load E) Hp) Hwf Hc Hv Hm Hs Hca bottom_face (plate_load E) Hsel Hn
    [map (fun c (_ : nat) => [t]) (seq 0 (num_cells F))] u (lap_sized F (fun _ => [t]))) as (r' & Hr' & He).
  assert (Er : Ok r' = Ok r) by exact (eq_trans (eq_sym Hr') Hr). injection Er as ->.
  intros n k Hnn Hk. unfold all_but_corner. destruct (Nat.eqb n 0 && Nat.eqb k 1) eqn:E0; cbn [negb].
  - apply andb_prop in E0. destruct E0 as (A & B). apply Nat.eqb_eq in A, B. subst n k.
    rewrite <- (power_point F r 0%nat 1%nat) by assumption. change (fun m l => if Nat.eqb m 0 && Nat.eqb l 1 then 1 else 0) with corner. rewrite He.
    assert (CC : compute_compliance F bottom_face (plate_load E) corner = E * corner_stiffness * corner 0%nat 1%nat) by (apply corner_compliance; intros; change (corner 0%nat 1%nat) with 1; ring).
    rewrite CC.
    assert (EN : energy F (law_unit (PlaneStress 3) (dim F)) (vars_modulus (PlaneStress 3)) [map (fun c (_ : nat) => [t]) (seq 0 (num_cells F))] u corner
      = plate_modulus t * sumN 2 (fun c => sumN 1 (fun q => JxW F c q * ddot 2 (plane_unit (sol_to_grad F u c q)) (sol_to_grad F corner c q)))).
    { unfold energy. change (num_cells F) with 2%nat at 1. change (num_quads (f_ele F)) with 1%nat. change (dim F) with 2%nat. cbn [law_unit]. rewrite <- sumN_scal. apply sumN_ext. intros c Hcc.
      rewrite <- sumN_scal. apply sumN_ext. intros q _. rewrite (lap_modulus F (PlaneStress 3) (fun _ => [t]) c q Hcc). unfold plate_modulus. ring. }
    rewrite EN. unfold F. rewrite corner_energy by (intros; unfold u, corner; cbn [Nat.eqb andb]; ring). unfold u, corner. cbn [Nat.eqb andb]. field. lra.
  - unfold u, corner. rewrite E0. ring.
Qed.
Example compliance_case : equilibrium (plate_fem (plate_load 7)) bottom_face (fun _ => [/ 2]) all_but_corner (fun n k => 7 / plate_modulus (/ 2) * corner n k)
  /\ equilibrium (plate_fem (plate_load 7)) bottom_face (fun _ => [1]) all_but_corner (fun n k => 7 / plate_modulus 1 * corner n k)
  /\ topopt_problem (plate_fem (plate_load 7)) (PlaneStress 3) bottom_face (plate_load 7) /\ positive_weights (plate_fem (plate_load 7)).
Proof. split; [apply plate_equilibrium; lra|]. split; [apply plate_equilibrium; lra|]. split; [apply ex_plate|apply sq_positive]. Qed.

(** ** C106 reported von Mises stress *)
Theorem von_mises_reported : forall flag d theta G, (flag = "freecad" \/ flag = "box" \/ flag = "multi_material")%string -> d = 3%nat ->
  forall law s, case_init flag = Ok law -> case_stress law d theta G = Ok s -> msym 3 s /\
  vm_stress_fn flag d theta G = Ok (sqrt (/ 2 * ((s 0%nat 0%nat - s 1%nat 1%nat) ^ 2 + (s 1%nat 1%nat - s 2%nat 2%nat) ^ 2 + (s 2%nat 2%nat - s 0%nat 0%nat) ^ 2)
                        + 3 * (s 0%nat 1%nat ^ 2 + s 1%nat 2%nat ^ 2 + s 2%nat 0%nat ^ 2))).
Proof.
  intros flag d theta G Hf -> law s Hl Hs.
  assert (Hsym : msym 3 s).
  { destruct Hf as [-> | [-> | ->]]; cbn in Hl; injection Hl as <-; destruct theta as [|t1 [|t2 [|t3 r]]]; cbn [case_stress] in Hs; try discriminate; injection Hs as <-;
      unfold simp_stress; apply iso_sym, strain_msym. }
  split; [exact Hsym|]. rewrite <- von_mises_classical by exact Hsym. rewrite <- vm_stress_von_mises. unfold vm_stress_fn.
  destruct Hf as [-> | [-> | ->]]; cbn in Hl; injection Hl as <-; cbn [case_init String.eqb Ascii.eqb Bool.eqb bind orb]; rewrite Hs; reflexivity.
Qed.
Print Assumptions von_mises_reported.
Theorem von_mises_outcomes : forall d theta G,
  (forall t r, theta = t :: r -> vm_stress_fn "eigen" d theta G = Err TypeError)
  /\ (forall flag, ~ In flag ["freecad"; "box"; "multi_material"; "plate"; "L_shape"; "eigen"]%string -> vm_stress_fn flag d theta G = Err ValueError)
  /\ (d <> 3%nat -> theta <> [] -> vm_stress_fn "freecad" d theta G = Err TypeError).
Proof.
  intros d theta G. split; [|split].
  - intros t r ->. reflexivity.
  - intros flag Hf. unfold vm_stress_fn, case_init.
    destruct (String.eqb_spec flag "freecad") as [->|N1]; [exfalso; apply Hf; cbn; tauto|].
    destruct (String.eqb_spec flag "box") as [->|N2]; [exfalso; apply Hf; cbn; tauto|].
    destruct (String.eqb_spec flag "multi_material") as [->|N3]; [exfalso; apply Hf; cbn; tauto|].
    destruct (String.eqb_spec flag "plate") as [->|N4]; [exfalso; apply Hf; cbn; tauto|].
    destruct (String.eqb_spec flag "L_shape") as [->|N5]; [exfalso; apply Hf; cbn; tauto|].
    destruct (String.eqb_spec flag "eigen") as [->|N6]; [exfalso; apply Hf; cbn; tauto|]. reflexivity.
  - intros Hd Ht. destruct theta as [|t r]; [congruence|]. unfold vm_stress_fn. cbn [case_init String.eqb Ascii.eqb Bool.eqb bind orb case_stress].
    now rewrite (proj2 (Nat.eqb_neq _ _) Hd).
Qed.
Print Assumptions von_mises_outcomes.
(** For the plate the value reported is not the von Mises stress of the stress the solver used. *)
Theorem plate_von_mises_refuted : let G := fun i j : nat => if Nat.eqb i 0 && Nat.eqb j 0 then 1 else 0 in
  exists s, case_init "plate" = Ok (PlaneStress 3) /\ case_stress (PlaneStress 3) 2 [1] G = Ok s
  /\ vm_stress_fn "plate" 2 [1] G <> Ok (von_mises 3 (pad_stress s)).
Proof.
  cbv zeta. set (G := fun i j : nat => if Nat.eqb i 0 && Nat.eqb j 0 then 1 else 0). exists (plane_stress (70 * 10 ^ 9) 3 1 G).
  split; [reflexivity|]. split; [reflexivity|]. unfold vm_stress_fn. cbn [case_init String.eqb Ascii.eqb Bool.eqb bind orb]. rewrite vm_stress_von_mises, Rpower_one. intros H. assert (Inj : forall a b : R, Ok a = Ok b -> a = b) by congruence. apply Inj in H.
  set (A := pad_stress (iso_stress 2 (1 * (70 * 10 ^ 9)) (strain G))) in *. set (B := pad_stress (plane_stress (70 * 10 ^ 9) 3 1 G)) in *.
  assert (H2 : von_mises 3 A * von_mises 3 A = von_mises 3 B * von_mises 3 B) by (now rewrite H). rewrite !von_mises_sqr in H2.
  assert (P : forall X, ddot 3 (dev 3 (pad_stress X)) (dev 3 (pad_stress X)) = 2 / 3 * (X 0%nat 0%nat ^ 2 + X 1%nat 1%nat ^ 2 - X 0%nat 0%nat * X 1%nat 1%nat) + X 0%nat 1%nat ^ 2 + X 1%nat 0%nat ^ 2).
  { intros X. unfold ddot, dev, pressure, identity, sumN. cbn [seq sumR INR Nat.eqb pad_stress]. field. }
  unfold A, B in H2. rewrite !P in H2. unfold plane_stress, iso_stress, lmbda_of, mu_of, nu, trace, strain, eye, G, simp, sumN in H2. rewrite Rpower_one in H2. cbn in H2. lra.
Qed.
Print Assumptions plate_von_mises_refuted.
Theorem cell_average_between : forall V (F : fem V) v c lo hi, (0 < num_quads (f_ele F))%nat -> (c < num_cells F)%nat -> positive_weights F ->
  (forall q, (q < num_quads (f_ele F))%nat -> lo <= v c q <= hi) -> lo <= cell_average F v c <= hi.
Proof. intros V F. apply cell_average_range. Qed.
Print Assumptions cell_average_between.
Example von_mises_case : exists s, case_stress Freecad 3 [1] (stretch 1) = Ok s /\ case_init "freecad" = Ok Freecad.
Proof. eexists. split; reflexivity. Qed.

(** ** C107 fracture *)
Theorem energy_is_split : forall d eig x l V, eigen_of d x l V -> eig x = map l (seq 0 d) ->
  psi_plus d eig x + psi_minus d eig x
    = / 2 * (210 * (3 / 10) / ((1 + 3 / 10) * (1 - 2 * (3 / 10))) * trace d x ^ 2 + 2 * (210 / (2 * (1 + 3 / 10))) * ddot d x x)
  /\ 0 <= psi_plus d eig x /\ 0 <= psi_minus d eig x
  /\ ((forall b, (b < d)%nat -> l b <= 0) -> psi_plus d eig x = 0)
  /\ ((forall b, (b < d)%nat -> 0 <= l b) -> psi_minus d eig x = 0).
Proof.
  intros d eig x l V Hx El. destruct (energy_split d eig x l V Hx El) as (A & B & C & _). split; [|split; [exact B|split; [exact C|split]]].
  - rewrite A, iso_work. unfold lmbda_of, mu_of, nu. field.
  - intros Hl. now apply (compression_no_drive d eig x l V).
  - intros Hl. unfold psi_minus. rewrite El, (eigen_trace d x l V Hx).
    assert (Hp : forall y, 0 <= y -> safe_minus y = 0) by (intros y Hy; unfold safe_minus, Rabs; destruct (Rcase_abs y); lra).
    rewrite Hp by (apply sumN_nonneg; exact Hl). rewrite sumR_map, sumR_zero; [ring|]. intros b Hb. apply in_seq in Hb. rewrite Hp; [ring|apply Hl; lia].
Qed.
Print Assumptions energy_is_split.
Theorem stiffness_degradation : forall d1 d2, 0 <= d1 0%nat -> d1 0%nat <= d2 0%nat -> d2 0%nat <= 1 ->
  / 1000 <= degrade d2 <= degrade d1 /\ degrade d1 <= 1 + / 1000 /\ (d1 0%nat = 0 -> degrade d1 = 1 + / 1000) /\ (d2 0%nat = 1 -> degrade d2 = / 1000).
Proof.
  intros d1 d2 H0 H1 H2. pose proof (degrade_range d1 ltac:(lra)). pose proof (degrade_range d2 ltac:(lra)). pose proof (degrade_decreasing d1 d2 H0 H1 H2).
  split; [lra|]. split; [lra|]. unfold degrade. split; intros ->; ring.
Qed.
Print Assumptions stiffness_degradation.
Theorem fracture_is_irreversible : forall V (F : fem V) eig x steps,
  (forall c q, let h := fst (fracture_run F eig x steps) c q in
     fst x c q <= h /\ (forall s, In s steps -> psi_plus (dim F) eig (strain (sol_to_grad F (fst s) c q)) <= h)
     /\ (h = fst x c q \/ exists s, In s steps /\ h = psi_plus (dim F) eig (strain (sol_to_grad F (fst s) c q))))
  /\ (forall n k, let dm := snd (fracture_run F eig x steps) n k in
     snd x n k <= dm /\ (forall s, In s steps -> snd s n k <= dm) /\ (dm = snd x n k \/ exists s, In s steps /\ dm = snd s n k))
  /\ forall more, (forall c q, fst (fracture_run F eig x steps) c q <= fst (fracture_run F eig x (steps ++ more)) c q)
     /\ (forall n k, snd (fracture_run F eig x steps) n k <= snd (fracture_run F eig x (steps ++ more)) n k).
Proof.
  intros V F eig x steps. split; [intros c q; apply history_is_max|]. split; [intros n k; apply damage_is_max|]. intros more. apply irreversible.
Qed.
Print Assumptions fracture_is_irreversible.
(** the damage that satisfies the local balance *)
Theorem local_damage_law : forall H dm, 0 <= H -> (phase_mass_map H dm 0%nat = 0 <-> dm 0%nat = 2 * H / (27 / 10 ^ 4 / (2 / 100) + 2 * H))
  /\ 0 <= 2 * H / (27 / 10 ^ 4 / (2 / 100) + 2 * H) < 1
  /\ forall H', H <= H' -> 2 * H / (27 / 10 ^ 4 / (2 / 100) + 2 * H) <= 2 * H' / (27 / 10 ^ 4 / (2 / 100) + 2 * H').
Proof.
  intros H dm H0. split; [apply (local_damage H dm H0)|]. split; [apply (local_damage_range H H H0); lra|]. intros H' HH. apply (local_damage_range H H' H0 HH).
Qed.
Print Assumptions local_damage_law.
Theorem damage_problem_unique : forall F history inds u w, damage_problem F inds -> positive_weights F -> (forall c q, 0 <= history c q) ->
  let iv := mkIv [map history (seq 0 (num_cells F))] [] None (fun _ => []) in
  (forall r, compute_residual_vars F inds u iv = Ok r -> forall n, (n < num_total_nodes F)%nat -> r n 0%nat = 0) ->
  (forall r, compute_residual_vars F inds w iv = Ok r -> forall n, (n < num_total_nodes F)%nat -> r n 0%nat = 0) ->
  (exists r, compute_residual_vars F inds u iv = Ok r)
  /\ forall c q, (c < num_cells F)%nat -> (q < num_quads (f_ele F))%nat -> at_quad F u c q 0%nat = at_quad F w c q 0%nat.
Proof.
  intros F history inds u w (Hwf & Hc & Hv & Ht & Hm & Hca & Hn & Hf) Hw Hh. cbv zeta. rewrite Forall_forall in Hf. intros Hu0 Hw0. split.
  - destruct (damage_monotone F history Hwf Hc Hv Ht Hm Hca inds Hn Hf u w) as (ru & _ & E & _). exists ru. exact E.
  - exact (damage_unique F history Hwf Hc Hv Ht Hm Hca Hw Hh inds Hn Hf u w Hu0 Hw0).
Qed.
Print Assumptions damage_problem_unique.
Example fracture_case : eigen_of 3 (diagonal 2 (-1) 0) (pick [2; -1; 0]) identity
  /\ damage_problem damage_fem [] /\ positive_weights damage_fem
  /\ psi_plus 3 (fun x => [x 0%nat 0%nat; x 1%nat 1%nat; x 2%nat 2%nat]) (diagonal 2 (-1) 0) > 0.
Proof.
  split; [apply diagonal_eigen|]. split; [exact ex_damage|]. split; [apply sq_positive|].
  unfold psi_plus, trace, diagonal, safe_plus, sumN, fr_lmbda, fr_mu, nu. cbn [seq sumR]. rewrite (Rabs_right (2 + (-1 + (0 + 0)))), (Rabs_right 2), (Rabs_right 0), (Rabs_left (-1)) by lra. lra.
Qed.

(** ** C108 functions of symmetric tensors *)
Theorem tensor_function_well_defined : forall d fn grad_fn x l V m W v i j, msym d x -> eigen_of d x l V -> eigen_of d x m W -> (i < d)%nat -> (j < d)%nat ->
  eigen_f d fn l V i j = eigen_f d fn m W i j /\ eigen_jvp d fn grad_fn l V v i j = eigen_jvp d fn grad_fn m W v i j.
Proof.
  intros d fn grad_fn x l V m W v i j Hs HV HW Hi Hj. split.
  - rewrite !eigen_f_form. now apply (spectral_unique d fn x l V m W).
  - rewrite !jvp_form. now apply (dk_unique d _ x l V m W).
Qed.
Print Assumptions tensor_function_well_defined.
(** polynomials of a tensor in the sense of products of tensors *)
Theorem tensor_function_polynomial : forall d p x l V v i j, eigen_of d x l V -> msym d v -> (i < d)%nat -> (j < d)%nat ->
  eigen_f d (peval p) l V i j = mat_poly d p x i j
  /\ derivable_pt_lim (fun t => mat_poly d p (fun i j => x i j + t * v i j) i j) 0 (eigen_jvp d (peval p) (pderiv p) l V v i j).
Proof. intros d p x l V v i j Hx. now apply jvp_polynomial. Qed.
Print Assumptions tensor_function_polynomial.
(** the rule is the derivative of any function that is differentiable at the eigenvalues, in every
    symmetric direction and also at repeated eigenvalues; eigh returns l t and V t, which need not
    depend continuously on t *)
Theorem tensor_function_derivative : forall d fn grad_fn x v (l : R -> nat -> R) (V : R -> mat) i j, msym d v -> (forall t, eigen_of d (fun i j => x i j + t * v i j) (l t) (V t)) ->
  (forall b, (b < d)%nat -> derivable_pt_lim fn (l 0 b) (grad_fn (l 0 b))) -> (i < d)%nat -> (j < d)%nat ->
  derivable_pt_lim (fun t => eigen_f d fn (l t) (V t) i j) 0 (eigen_jvp d fn grad_fn (l 0) (V 0) v i j).
Proof. exact jvp_differentiable. Qed.
Print Assumptions tensor_function_derivative.
(** exp of diag (1, -1) in the direction that turns the axes *)
Example tensor_function_derivative_case : derivable_pt_lim (fun t => eigen_f 2 exp (turn_l t) (turn_V t) 0 1) 0 ((exp 1 - exp (-1)) / 2).
Proof.
  pose proof (tensor_function_derivative 2 exp exp turn_x turn_v turn_l turn_V 0 1 ltac:(intros [|[|i]] [|[|j]] Hi Hj; reflexivity || lia) turn_eigen ltac:(intros; apply derivable_pt_lim_exp) ltac:(lia) ltac:(lia)) as H.
  assert (E : eigen_jvp 2 exp exp (turn_l 0) (turn_V 0) turn_v 0 1 = (exp 1 - exp (-1)) / 2); [|now rewrite <- E].
  assert (Hs : turn_s 0 = 1) by (unfold turn_s; rewrite pow_i, Rplus_0_r by lia; apply sqrt_1).
  assert (Hn : sqrt (2 * 1 * (1 + 1)) = 2) by (replace (2 * 1 * (1 + 1)) with (2 ^ 2) by ring; apply sqrt_pow2; lra).
  rewrite jvp_form. unfold dk, pick_theta, turn_l, turn_V, turn_v, strain, transpose, sumN. cbn [seq sumR]. rewrite Hs, Hn.
  assert (R1 : Reqb (1 - - (1)) 0 = false) by (unfold Reqb; destruct (Req_EM_T (1 - - (1)) 0); [lra|reflexivity]). rewrite R1.
  assert (R2 : Reqb (- (1) - 1) 0 = false) by (unfold Reqb; destruct (Req_EM_T (- (1) - 1) 0); [lra|reflexivity]). rewrite R2. change (-1) with (- (1)). field.
Qed.
(** any differentiable function, in directions with the same eigenvectors *)
Theorem tensor_function_derivative_coaxial : forall d fn grad_fn x l V s v i j, eigen_of d x l V -> (i < d)%nat -> (j < d)%nat ->
  meq d v (fun i j => sumN d (fun b => s b * (V b i * V b j))) -> (forall b, (b < d)%nat -> derivable_pt_lim fn (l b) (grad_fn (l b))) ->
  (forall t, eigen_of d (fun i j => x i j + t * v i j) (fun b => l b + t * s b) V)
  /\ derivable_pt_lim (fun t => eigen_f d fn (fun b => l b + t * s b) V i j) 0 (eigen_jvp d fn grad_fn l V v i j).
Proof. intros d fn grad_fn x l V s v i j Hx. now apply jvp_commuting. Qed.
Print Assumptions tensor_function_derivative_coaxial.
Example tensor_function_case : eigen_of 3 (diagonal 2 2 5) (pick [2; 2; 5]) identity /\ pderiv [1; 0; 3] 2 = 12.
Proof. split; [apply diagonal_eigen|]. cbn. ring. Qed.
Close Scope R_scope.
