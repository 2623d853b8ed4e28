(** * Theorems about the multi-scale example (applications/fem/multi_scale). *)
From Coq Require Import String Lra Lia Permutation FunctionalExtensionality.
From Verif Require Import Prelude PreludeFacts FemModel FemFacts FemSpec FemGeoProofs SolverModel SolverSpec SolverLmProofs SolverFemProofs SolverExamples SolverProps MatModel MatSpec MatProofs MatHyperProofs BasisModel BasisSpec BasisProofs BasisQuadProofs BasisMeshProofs BasisExamples CrysModel CrysSpec CrysDiffProofs CrysFemProofs CrysExamples RveModel RveSpec RveProofs RveMeanProofs RveDataProofs RveSolveProofs RveExamples.
From Verif Require MeshModel MeshProofs.
Open Scope R_scope.
Open Scope list_scope.

(** ** C120 periodic conditions and mean deformation *)
Theorem rve_pairs_opposite_sides : forall V (F : fem V) N len, let m := MeshModel.box_mesh N N N len len len in
  (0 < N)%nat -> 0 < len -> has_mesh3 F (MeshModel.points m) (MeshModel.cells m) -> num_total_nodes F = List.length (MeshModel.points m) -> dim F = 3%nat ->
  / 100000 * (1 + len) < len / INR N ->
  exists l, periodic_boundary_conditions F (rve_periodic len) = Ok l /\ List.length l = 9%nat /\
  forall d v, (d < 3)%nat -> (v < 3)%nat -> exists la lb, nth_error l (3 * d + v) = Some (la, lb, map (fun _ => v) la) /\
  List.length la = List.length lb /\ NoDup la /\
  (forall n, In n la <-> exists p r, (p <= N)%nat /\ (r <= N)%nat /\ n = side N d 0 p r) /\
  (forall j p r, (p <= N)%nat -> (r <= N)%nat -> nth_error la j = Some (side N d 0 p r) -> nth_error lb j = Some (side N d N p r)).
Proof. intros V F N len m HN Hl Hm Hn Hd Hf. exact (conditions_found F N len HN Hl Hm Hn Hd Hf). Qed.
Print Assumptions rve_pairs_opposite_sides.
Theorem rve_constraints_exact : forall F g info inds jac cjac len eps P N, let m := MeshModel.box_mesh N N N len len len in
  dim F = 3%nat -> fem_problem F inds (moduli_vars F g info) jac cjac (Some rve_dirichlet) (Some (rve_periodic len)) eps = Ok P ->
  (0 < N)%nat -> 0 < len -> has_mesh3 F (MeshModel.points m) (MeshModel.cells m) -> num_total_nodes F = List.length (MeshModel.points m) ->
  / 100000 * (1 + len) < len / INR N ->
  forall u, constraints_hold P u <-> periodic N u /\ forall k, (k < 3)%nat -> u 0%nat k = 0.
Proof. intros F g info inds jac cjac len eps P N m Hd HF HN Hl Hm Hn Hf u. eapply constraints_iff; eassumption. Qed.
Print Assumptions rve_constraints_exact.
Theorem rve_mean_deformation : forall V (F : fem V) B N len H u, let m := MeshModel.box_mesh N N N len len len in
  documented_basix B -> exact_rule B hexahedron 2 -> (0 < N)%nat -> 0 < len ->
  has_mesh3 F (MeshModel.points m) (MeshModel.cells m) -> element_tables B "HEX8" = Ok (f_ele F) -> periodic N u ->
  forall i d, (i < 3)%nat -> (d < 3)%nat ->
  sumN (num_cells F) (fun c => sumN (num_quads (f_ele F)) (fun q => JxW F c q * sol_to_grad F (fluc_to_disp F H u) c q i d)) = len ^ 3 * H i d /\
  sumN (num_cells F) (fun c => sumN (num_quads (f_ele F)) (fun q => JxW F c q * total F H u c q i d)) = len ^ 3 * (eye i d + H i d).
Proof. intros V F B N len H u m HB Hr HN Hl Hm HE Hp i d Hi Hd. exact (mean_deformation B HB Hr F N len HN Hl Hm HE H u i d Hp Hi Hd). Qed.
Print Assumptions rve_mean_deformation.
Theorem rve_displacement_jumps : forall V (F : fem V) N len H u, let m := MeshModel.box_mesh N N N len len len in
  (0 < N)%nat -> 0 < len -> has_mesh3 F (MeshModel.points m) (MeshModel.cells m) -> periodic N u ->
  forall d p r i, (d < 3)%nat -> (p <= N)%nat -> (r <= N)%nat -> (i < 3)%nat ->
  fluc_to_disp F H u (side N d N p r) i - fluc_to_disp F H u (side N d 0 p r) i = H i d * len.
Proof. intros V F N len H u m HN Hl Hm Hp d p r i H1 H2 H3 H4. eapply disp_jump; eassumption. Qed.
Print Assumptions rve_displacement_jumps.
(** a cube of eight elements with a fluctuation of the centre node *)
Example rve_cube_case : let F := cell_fem (stretch (/ 10)) in let u : nodal := fun n k => if Nat.eqb n 13 then INR (S k) else 0 in
  let m := MeshModel.box_mesh 2 2 2 1 1 1 in
  has_mesh3 F (MeshModel.points m) (MeshModel.cells m) /\ num_total_nodes F = List.length (MeshModel.points m) /\ dim F = 3%nat /\ / 100000 * (1 + 1) < 1 / INR 2 /\
  element_tables ex_basix "HEX8" = Ok (f_ele F) /\ periodic 2 u /\ u 13%nat 2%nat = 3 /\
  (exists P, fem_problem F [] (moduli_vars F (default_args 1 1 1) NoInfo) jac0 cjac0 (Some rve_dirichlet) (Some (rve_periodic 1)) None = Ok P) /\
  fluc_to_disp F (stretch (/ 10)) u (side 2 0 2 1 1) 0%nat - fluc_to_disp F (stretch (/ 10)) u (side 2 0 0 1 1) 0%nat = / 10.
Proof.
  intros F u m. split; [exact (cube_mesh 2 1 _)|]. split; [reflexivity|]. split; [exact (proj1 (cube_shape 2 1 _))|]. split; [exact cube_fine|]. split; [exact hex_E_ok|].
  assert (Hp : periodic 2 u).
  { intros d p r i Hd Hpp Hr Hi. unfold u. assert (E : forall s, (s = 0 \/ s = 2)%nat -> Nat.eqb (side 2 d s p r) 13 = false).
    { intros s Hs. apply Nat.eqb_neq. destruct d as [|[|[|d]]]; try lia; cbn [side]; unfold box_node; lia. }
    rewrite !E by auto. reflexivity. }
  split; [exact Hp|]. split; [unfold u; cbn; lra|]. split; [apply cell_problem|].
  rewrite (rve_displacement_jumps R F 2 1 (stretch (/ 10)) u ltac:(lia) ltac:(lra) (cube_mesh 2 1 _) Hp) by lia. unfold stretch. cbn [Nat.eqb andb]. lra.
Qed.

(** ** C121 energy of the cell *)
(** equilibrium found with multipliers is equilibrium in the sense of virtual work *)
Theorem multipliers_do_no_work : forall P u, bc_ok P -> periodic_ok P -> in_constrained_equilibrium P u -> balanced P u.
Proof. intros P u H1 H2. exact (virtual_work P H1 H2 u). Qed.
Print Assumptions multipliers_do_no_work.
Example multipliers_case : exists u, bc_ok (per 4) /\ periodic_ok (per 4) /\ in_constrained_equilibrium (per 4) u /\ u 0%nat 0%nat = 2.
Proof.
  destruct exact_env_ok as [Hex _].
  destruct (linear_lm_solution (per 4) (per_bc_ok 4) (per_periodic_ok 4) dgrad (per_grad 4) exact_env (per_matrix_ok 4) Hex (per_affine 4) 0 ltac:(cbn; lra) (per_solvable 4)) as (u & Hu & Hc & He).
  exists u. split; [apply per_bc_ok|]. split; [apply per_periodic_ok|]. split; [exact He|].
  destruct periodic_solved as (w & Hw & Hv & _). unfold solver in Hw. cbn [has_periodic per] in Hw. assert (w = u) as <- by congruence. rewrite Hv. lra.
Qed.
Theorem rve_solution_is_stationary : forall F g info P_fn inds jac cjac len eps P H u v, psi_contract P_fn ->
  wf_mesh F -> dim F = 3%nat -> vec F = 3%nat -> (0 < num_cells F)%nat -> only_internal F (moduli_vars F g info) -> (forall s, In s inds -> faces_ok F s) ->
  fem_problem F inds (moduli_vars F g info) jac cjac (Some rve_dirichlet) (Some (rve_periodic len)) eps = Ok P ->
  tensor_map F = Some (rve_tensor_map P_fn H) -> orientation F H u -> balanced P u -> admissible P v ->
  derivable_pt_lim (fun t => compute_energy_rve F g info H (add_step u t v)) 0 0.
Proof. intros F g info P_fn inds jac cjac len eps P H u v H1 H2 H3 H4 H5 H6 H7 H8. eapply solved_stationary; eassumption. Qed.
Print Assumptions rve_solution_is_stationary.
(** the mean stress is the derivative of the energy with respect to the macroscopic gradient *)
Theorem rve_mean_stress : forall F g info P_fn inds jac cjac len eps P H H' u u', psi_contract P_fn ->
  wf_mesh F -> dim F = 3%nat -> vec F = 3%nat -> (0 < num_cells F)%nat -> only_internal F (moduli_vars F g info) -> (forall s, In s inds -> faces_ok F s) ->
  fem_problem F inds (moduli_vars F g info) jac cjac (Some rve_dirichlet) (Some (rve_periodic len)) eps = Ok P ->
  tensor_map F = Some (rve_tensor_map P_fn (H 0)) -> path H H' -> nodal_path u u' -> orientation F (H 0) (u 0) ->
  (forall t, constraints_hold P (u t)) -> balanced P (u 0) ->
  derivable_pt_lim (fun t => compute_energy_rve F g info (H t) (u t)) 0 (ddot 3 (total_stress F (rve_P F g info P_fn (H 0) (u 0))) H').
Proof. intros F g info P_fn inds jac cjac len eps P H H' u u' H1 H2 H3 H4 H5 H6 H7 H8. eapply solved_hill_mandel; eassumption. Qed.
Print Assumptions rve_mean_stress.
Theorem rve_uniform_material : forall F g info P_fn inds jac cjac len eps P N B H E nu, let m := MeshModel.box_mesh N N N len len len in
  wf_mesh F -> dim F = 3%nat -> vec F = 3%nat -> (0 < num_cells F)%nat -> only_internal F (moduli_vars F g info) -> (forall s, In s inds -> faces_ok F s) ->
  fem_problem F inds (moduli_vars F g info) jac cjac (Some rve_dirichlet) (Some (rve_periodic len)) eps = Ok P ->
  (0 < N)%nat -> 0 < len -> has_mesh3 F (MeshModel.points m) (MeshModel.cells m) -> num_total_nodes F = List.length (MeshModel.points m) -> / 100000 * (1 + len) < len / INR N ->
  documented_basix B -> exact_rule B hexahedron 2 -> element_tables B "HEX8" = Ok (f_ele F) ->
  tensor_map F = Some (rve_tensor_map P_fn H) ->
  (forall c q, (c < num_cells F)%nat -> (q < num_quads (f_ele F))%nat -> moduli_at F g info c q = (E, nu)) ->
  balanced P zeros /\ constraints_hold P zeros /\ compute_energy_rve F g info H zeros = len ^ 3 * psi_E E nu (fun i j => eye i j + H i j).
Proof.
  intros F g info P_fn inds jac cjac len eps P N B H E nu m H2 H3 H4 H5 H6 H7 H8 HN Hl Hm Hn Hf HB Hr HE Ht Hmod. split; [|split].
  - eapply uniform_balanced; eassumption.
  - eapply constraints_iff; try eassumption. split; [intros d p r i _ _ _ _; reflexivity|intros; reflexivity].
  - destruct (brick_volume B HB F N N N len len len HN HN HN Hm HE) as [_ Hv]. replace (len ^ 3) with (len * len * len) by ring. rewrite <- Hv. rewrite <- sumN_scal_r. apply sumN_ext. intros c Hc. rewrite <- sumN_scal_r. apply sumN_ext. intros q Hq.
    rewrite (Hmod c q Hc Hq). cbn [fst snd]. rewrite Rmult_comm. f_equal. f_equal. extensionality i. extensionality j. unfold sol_to_grad, zeros. rewrite sumN_zero by (intros; ring). ring.
Qed.
Print Assumptions rve_uniform_material.
Theorem rve_energy_frame_indifferent : forall (F : fem R) g info Q H u, rotation 3 Q ->
  compute_energy_rve F g info (rotate_H Q H) (rotate_field Q u) = compute_energy_rve F g info H u.
Proof. intros F g info Q H u. exact (energy_frame F g info Q H u). Qed.
Print Assumptions rve_energy_frame_indifferent.
Theorem rve_energy_sign : forall (F : fem R) g info H u, moduli_physical g -> orientation F H u ->
  (forall c q, (c < num_cells F)%nat -> (q < num_quads (f_ele F))%nat -> 0 <= JxW F c q) ->
  0 <= compute_energy_rve F g info H u /\ compute_energy_rve F g info mzero zeros = 0.
Proof. intros F g info H u H1 H2 H3. split; [now apply energy_nonneg|apply energy_rest]. Qed.
Print Assumptions rve_energy_sign.
(** stretching the unit cube filled with matrix material: all hypotheses of the mean stress theorem hold *)
Example rve_energy_case : forall s, 0 < 1 + s -> exists P, let F := cell_fem (stretch (s + 0)) in let g := default_args 1 1 1 in
  psi_contract P_ex /\ wf_mesh F /\ dim F = 3%nat /\ (0 < num_cells F)%nat /\ only_internal F (moduli_vars F g AllOut) /\
  fem_problem F [] (moduli_vars F g AllOut) jac0 cjac0 (Some rve_dirichlet) (Some (rve_periodic 1)) None = Ok P /\
  path (fun t => stretch (s + t)) (stretch 1) /\ orientation F (stretch (s + 0)) zeros /\ constraints_hold P zeros /\ balanced P zeros /\ moduli_physical g /\
  derivable_pt_lim (fun t => compute_energy_rve F g AllOut (stretch (s + t)) zeros) 0 (total_stress F (rve_P F g AllOut P_ex (stretch (s + 0)) zeros) 0%nat 0%nat).
Proof.
  intros s Hs. destruct (cell_problem (default_args 1 1 1) AllOut (stretch (s + 0))) as (P & HP). exists P. intros F g.
  assert (Hwf : wf_mesh F) by apply cube_wf. assert (Hd : dim F = 3%nat) by exact (proj1 (cube_shape 2 1 _)). assert (Hc : (0 < num_cells F)%nat) by (unfold F, cell_fem; rewrite cube_count; lia).
  assert (Hor : orientation F (stretch (s + 0)) zeros) by (intros c q _ _; apply stretch_oriented; lra).
  destruct (rve_uniform_material F g AllOut P_ex [] jac0 cjac0 1 None P 2 ex_basix (stretch (s + 0)) (E_out g) (nu_out g) Hwf Hd eq_refl Hc (cell_internal g AllOut (stretch (s + 0))) ltac:(intros ? []) HP ltac:(lia) ltac:(lra)
    (cube_mesh 2 1 _) eq_refl cube_fine ex_documented ex_exact_hex hex_E_ok eq_refl ltac:(reflexivity)) as (Hb & Hco & _).
  repeat (split; [first [exact P_ex_ok|exact Hwf|exact Hd|exact Hc|apply cell_internal|exact HP|apply stretch_path|exact Hor|exact Hco|exact Hb|unfold moduli_physical, g, default_args; cbn; lra]|]).
  eapply dl_eq.
  - apply (rve_mean_stress F g AllOut P_ex [] jac0 cjac0 1 None P (fun t => stretch (s + t)) (stretch 1) (fun _ => zeros) zeros P_ex_ok Hwf Hd eq_refl Hc (cell_internal g AllOut (stretch (s + 0))) ltac:(intros ? []) HP eq_refl
      (stretch_path s) ltac:(intros n k; apply dl_const) Hor (fun _ => Hco) Hb).
  - reflexivity.
  - unfold ddot, stretch, sumN. cbn [seq sumR Nat.eqb andb]. ring.
Qed.

(** ** C122 moduli *)
Theorem inclusion_is_union_of_cubes : forall g p,
  (inclusion g p = true <-> exists i j k, (i < num_units_x g)%nat /\ (j < num_units_y g)%nat /\ (k < num_units_z g)%nat /\
     forall d, (d < 3)%nat -> Rabs (p d - (INR (ix i j k d) + / 2) * L g) < L g * ratio g)
  /\ compute_moduli g NoInfo p = (if inclusion g p then (E_in g, nu_in g) else (E_out g, nu_out g)).
Proof. intros g p. split; [apply inclusion_iff|]. cbn [compute_moduli]. unfold moduli_map. now destruct (inclusion g p). Qed.
Print Assumptions inclusion_is_union_of_cubes.
Theorem sample_is_tiled_by_the_cell : forall g p i j k, 0 < L g -> ratio g <= / 2 -> (i < num_units_x g)%nat -> (j < num_units_y g)%nat -> (k < num_units_z g)%nat ->
  (forall d, (d < 3)%nat -> INR (ix i j k d) * L g <= p d <= (INR (ix i j k d) + 1) * L g) ->
  compute_moduli g NoInfo p = compute_moduli (one_unit g) NoInfo (fun d => p d - INR (ix i j k d) * L g).
Proof. intros g p i j k. exact (tiling g p i j k). Qed.
Print Assumptions sample_is_tiled_by_the_cell.
Theorem traction_uses_face_moduli_partial : forall g info p d, 0 < L g -> ratio g <= / 2 -> (d < 3)%nat -> p d = 0 \/ p d = INR (units g d) * L g ->
  traction_moduli g info = compute_moduli g info p.
Proof. intros g info p d. exact (traction_consistent g info p d). Qed.
Print Assumptions traction_uses_face_moduli_partial.
(** false for wide inclusions, which reach the faces *)
Theorem traction_uses_face_moduli_refuted : exists g p, 0 < L g /\ p 2%nat = 0 /\ traction_moduli g NoInfo <> compute_moduli g NoInfo p.
Proof.
  exists (mkMs 1 1000 100 (3 / 10) (4 / 10) (6 / 10) 1 1 1), (fun d => if Nat.eqb d 2 then 0 else / 2). cbn [L Nat.eqb]. split; [lra|]. split; [reflexivity|].
  cbn [compute_moduli traction_moduli E_out nu_out]. unfold moduli_map. rewrite (proj2 (inclusion_iff _ _)).
  - cbn [E_in nu_in]. intros E. injection E as E _. lra.
  - exists 0%nat, 0%nat, 0%nat. cbn [num_units_x num_units_y num_units_z L ratio]. repeat (split; [lia|]). intros d Hd. apply Rabs_def1; destruct d as [|[|[|d]]]; try lia; cbn [ix INR Nat.eqb]; lra.
Qed.
Print Assumptions traction_uses_face_moduli_refuted.
Example moduli_case : let g := default_args 10 2 10 in
  compute_moduli g NoInfo (fun d => match d with 0%nat => 71 / 10 + / 2 | 1%nat => 3 / 2 | _ => / 2 end) = (1000, 3 / 10) /\ compute_moduli g NoInfo (fun _ => 0) = (100, 4 / 10).
Proof.
  intros g. cbn [compute_moduli]. unfold moduli_map. split.
  - rewrite (proj2 (inclusion_iff _ _)); [reflexivity|]. exists 7%nat, 1%nat, 0%nat. cbn [g default_args num_units_x num_units_y num_units_z L ratio]. repeat (split; [lia|]).
    intros d Hd. apply Rabs_def1; destruct d as [|[|[|d]]]; try lia; cbn [ix INR]; lra.
  - rewrite (outer_face g (fun _ => 0) 0); [reflexivity|cbn; lra|cbn; lra|lia|now left].
Qed.

(** ** C123 the network surrogate *)
Theorem six_components_round_trip : (forall X n, (n < 6)%nat -> tensor_to_flat (flat_to_tensor X) n = X n) /\ (forall X, msym 3 (flat_to_tensor X))
  /\ (forall A, msym 3 A -> meq 3 (flat_to_tensor (tensor_to_flat A)) A).
Proof. split; [exact flat_round|]. split; [exact flat_sym|exact tensor_round]. Qed.
Print Assumptions six_components_round_trip.
Theorem surrogate_frame_indifferent : forall nn Q D, orthogonal 3 Q -> psi_nn nn (matmul 3 Q D) = psi_nn nn D.
Proof. exact nn_frame. Qed.
Print Assumptions surrogate_frame_indifferent.
Theorem surrogate_exerts_no_moment : forall V (F : fem V) nn dnn P_fn inds iv u i j, nn_grad nn dnn -> is_grad 3 (psi_nn nn) (fun _ => True) P_fn ->
  tensor_map F = Some (fun _ => nn_tensor_map P_fn) -> wf_mesh F -> dim F = 3%nat -> vec F = 3%nat -> grads_sum_zero F -> invertible_cells F ->
  iv_sized F iv -> (0 < num_cells F)%nat -> only_internal F iv -> (forall s, In s inds -> faces_ok F s) -> (i < 3)%nat -> (j < 3)%nat ->
  exists r, compute_residual_vars F inds u iv = Ok r /\
  sumN (num_total_nodes F) (fun n => (points F n i + u n i) * r n j - (points F n j + u n j) * r n i) = 0.
Proof.
  intros V F nn dnn P_fn inds iv u i j Hn HP Ht Hwf Hd Hv Hg Hi Hs Hc Ho Hf Hii Hjj.
  apply moment_free_deformed; try assumption; try (rewrite Hd; assumption); [rewrite Hd; unfold small_dim; auto|].
  intros c q _ _. rewrite Hd. unfold stress. rewrite Ht. exact (nn_moment nn dnn P_fn (F_of (sol_to_grad F u c q)) Hn HP).
Qed.
Print Assumptions surrogate_exerts_no_moment.
(** a network that reproduces the training data (energy of the cell over its volume) gives the energy of
    any brick of such cells under the same uniform gradient *)
Theorem surrogate_reproduces_cell_energy : forall V (F : fem V) B Nx Ny Nz Lx Ly Lz nn H len e, let m := MeshModel.box_mesh Nx Ny Nz Lx Ly Lz in
  documented_basix B -> (0 < Nx)%nat -> (0 < Ny)%nat -> (0 < Nz)%nat -> 0 < Lx -> 0 < Ly -> 0 < Lz ->
  has_mesh3 F (MeshModel.points m) (MeshModel.cells m) -> element_tables B "HEX8" = Ok (f_ele F) ->
  nn (fst (H_to_C H)) = e / len ^ 3 ->
  compute_energy_nn F nn (fluc_to_disp F (flat_to_tensor H) zeros) = Lx * Ly * Lz / len ^ 3 * e.
Proof.
  intros V F B Nx Ny Nz Lx Ly Lz nn H len e m HB Hx Hy Hz H1 H2 H3 Hm HE Hnn.
  rewrite (surrogate_energy B HB F Nx Ny Nz Lx Ly Lz Hx Hy Hz H1 H2 H3 Hm HE), nn_training, Hnn. unfold Rdiv. ring.
Qed.
Print Assumptions surrogate_reproduces_cell_energy.
Example surrogate_case : nn_grad nn_ex dnn_ex /\ is_grad 3 (psi_nn nn_ex) (fun _ => True) (fun D i j => 2 * matmul 3 D (half_sym (dnn_ex (tensor_to_flat (matmul 3 (transpose D) D)))) i j)
  /\ nn_ex (fst (H_to_C (fun n => if Nat.eqb n 0 then 1 else 0))) = 9 / 1 ^ 3
  /\ (let F := solid (fun _ : list R => nn_tensor_map (fun D i j => 2 * matmul 3 D (half_sym (dnn_ex (tensor_to_flat (matmul 3 (transpose D) D)))) i j)) in
      wf_mesh F /\ dim F = 3%nat /\ vec F = 3%nat /\ grads_sum_zero F /\ invertible_cells F /\ (0 < num_cells F)%nat).
Proof.
  split; [exact nn_ex_ok|]. split; [apply nn_has_grad, nn_ex_ok|]. split.
  - unfold nn_ex, H_to_C, matmul, transpose, sumN, eye. cbn. field.
  - intros F. repeat (split; [first [apply solid_wf|reflexivity|apply solid_grads|apply solid_invertible]|]). cbn. lia.
Qed.

(** ** C124 data collection *)
Theorem retry_rescues_a_sample_refuted : forall Sol (solve : mat -> Sol) energy isnan s,
  solve_rve_problem solve energy isnan s = (solve (flat_to_tensor s), energy (flat_to_tensor s) (solve (flat_to_tensor s)))
  /\ isnan (snd (solve_rve_problem solve energy isnan s)) = isnan (energy (flat_to_tensor s) (solve (flat_to_tensor s))).
Proof. intros Sol solve energy isnan s. rewrite (retry_same solve energy isnan s). split; reflexivity. Qed.
Print Assumptions retry_rescues_a_sample_refuted.
Theorem collection_ends_refuted : forall Sol (solve : mat -> Sol) energy isnan samples choose i fuel,
  (i < List.length samples)%nat -> isnan (energy (flat_to_tensor (nth i samples (fun _ => 0))) (solve (flat_to_tensor (nth i samples (fun _ => 0))))) = true ->
  collect_data solve energy isnan samples choose fuel [] = None.
Proof.
  intros Sol solve energy isnan samples choose i fuel Hi Hn. apply (collect_stuck solve energy isnan samples choose i); [exact Hi| |intros []].
  unfold run_one. rewrite retry_same. cbn [snd]. now rewrite Hn.
Qed.
Print Assumptions collection_ends_refuted.
(** with no failing sample one pass writes every file once *)
Theorem collection_complete_partial : forall Sol (solve : mat -> Sol) energy isnan samples choose fuel,
  (forall f l, l <> [] -> In (choose f l) l) ->
  (forall i, (i < List.length samples)%nat -> isnan (energy (flat_to_tensor (nth i samples (fun _ => 0))) (solve (flat_to_tensor (nth i samples (fun _ => 0))))) = false) ->
  (List.length samples <= fuel)%nat ->
  exists r, collect_data solve energy isnan samples choose fuel [] = Some r /\ NoDup r /\ forall i, In i r <-> (i < List.length samples)%nat.
Proof.
  intros Sol solve energy isnan samples choose fuel Hc Hall Hf. apply collect_ok; [exact Hc| |constructor|intros i []|cbn [List.length]; lia].
  intros i Hi. unfold run_one. rewrite retry_same. cbn [snd]. now rewrite Hall.
Qed.
Print Assumptions collection_complete_partial.
Theorem data_are_partitioned : forall X (d : X) data inds, Permutation inds (seq 0 (List.length data)) ->
  let '(train, validation, test) := shuffle_data d data inds in
  Permutation (train ++ validation ++ test) data /\
  List.length train = (8 * List.length data / 10)%nat /\ List.length validation = (9 * List.length data / 10 - 8 * List.length data / 10)%nat /\ List.length test = (List.length data - 9 * List.length data / 10)%nat.
Proof. intros X d data inds. exact (shuffle_partition d data inds). Qed.
Print Assumptions data_are_partitioned.
Example collection_case :
  collect_data (fun _ => tt) energy00 (fun x => Rltb x 0) samples3 choose_first 3 [] = Some [2; 1; 0]%nat
  /\ (forall f l, l <> [] -> In (choose_first f l) l)
  /\ (fun x => Reqb x 2) (energy00 (flat_to_tensor (nth 1 samples3 (fun _ => 0))) tt) = true
  /\ shuffle_data 0%nat [10; 11; 12; 13; 14; 15; 16; 17; 18; 19]%nat [3; 1; 2; 0; 9; 8; 7; 6; 5; 4]%nat = ([13; 11; 12; 10; 19; 18; 17; 16], [15], [14])%nat.
Proof.
  split; [|split; [|split]].
  - assert (E : forall i, (i < 3)%nat -> run_one (fun _ => tt) energy00 (fun x => Rltb x 0) samples3 i = true).
    { intros i Hi. unfold run_one. rewrite retry_same. cbn [snd]. apply negb_true_iff. unfold energy00, flat_to_tensor, samples3, Rltb. destruct i as [|[|[|i]]]; try lia; cbn [nth]; destruct (Rlt_dec _ _); try reflexivity; lra. }
    unfold collect_data, choose_first. change (List.length samples3) with 3%nat. cbn [seq filter existsb negb Nat.eqb orb hd]. rewrite E by lia. cbn [seq filter existsb negb Nat.eqb orb hd]. rewrite E by lia.
    cbn [seq filter existsb negb Nat.eqb orb hd]. rewrite E by lia. reflexivity.
  - intros f [|x l] H; [contradiction|now left].
  - unfold Reqb, energy00. cbn. destruct (Req_EM_T 2 2); [reflexivity|contradiction].
  - reflexivity.
Qed.

(** ** C125 error measures *)
Theorem scaled_training_values : forall l y, In y l -> minl l <> maxl l -> exists s, min_max_scale y l = Some s /\ 0 <= s <= 1.
Proof. intros l y Hy. apply scale_range; [|exact Hy]. intros ->. destruct Hy. Qed.
Print Assumptions scaled_training_values.
(** the reported percentage is the error relative to the distance from the smallest training value *)
Theorem percent_error_meaning_partial : forall l y pred, l <> [] -> minl l <> maxl l -> y <> minl l ->
  percent_error y pred l = Some (Rabs (y - pred) / Rabs (y - minl l)).
Proof. exact percent_finite. Qed.
Print Assumptions percent_error_meaning_partial.
Theorem percent_error_finite_refuted : forall l, l <> [] -> exists y, In y l /\ forall pred, percent_error y pred l = None.
Proof. intros l Hl. exists (minl l). split; [now apply min_ok|]. intros pred. now apply percent_min. Qed.
Print Assumptions percent_error_finite_refuted.
Example percent_case : percent_error 3 4 [1; 5; 3] = Some (/ 2) /\ percent_error 1 1 [1; 5; 3] = None /\ minl [1; 5; 3] = 1 /\ maxl [1; 5; 3] = 5.
Proof.
  assert (Hmin : minl [1; 5; 3] = 1) by (unfold minl; cbn [fold_left]; rewrite (Rmin_left 1 5), Rmin_left by lra; reflexivity).
  assert (Hmax : maxl [1; 5; 3] = 5) by (unfold maxl; cbn [fold_left]; rewrite (Rmax_right 1 5), Rmax_left by lra; reflexivity).
  split; [|split; [|split; assumption]].
  - rewrite percent_finite; [|discriminate|rewrite Hmin, Hmax; lra|rewrite Hmin; lra]. rewrite Hmin. f_equal.
    replace (3 - 4) with (- (1)) by ring. rewrite Rabs_Ropp, Rabs_R1, Rabs_pos_eq by lra. field.
  - rewrite <- Hmin at 1. apply percent_min. discriminate.
Qed.

(** ** C126 the polynomial ansatz *)
Theorem polynomial_ansatz_at_rest_refuted : poly_psi eye = [0; 0; 0; 0; 0; 0; 0; 0; 4; 16].
Proof. exact poly_rest. Qed.
Print Assumptions polynomial_ansatz_at_rest_refuted.
Example polynomial_case : List.length (poly_psi eye) = 10%nat /\ I3_fn (fun i j => 4 * eye i j) = 64.
Proof. split; [reflexivity|]. unfold I3_fn, det, eye. cbn [Nat.eqb]. ring. Qed.

(** ** C127 the recorded curve *)
Theorem tensile_curve : forall Sol (solve : R -> Sol) energy force sol0,
  tensile solve energy force sol0 = (0, (energy sol0, force sol0)) :: map (fun k => let r := INR k / 100 in (r, (energy (solve r), force (solve r)))) (seq 1 10).
Proof.
  intros Sol solve energy force sol0. unfold tensile.
  replace (linspace 0 (/ 10) 11) with (0 :: map (fun k => INR k / 100) (seq 1 10)); [reflexivity|].
  unfold linspace. cbn [seq map Nat.sub INR]. repeat (f_equal; [field|]). f_equal; field.
Qed.
Print Assumptions tensile_curve.
Example tensile_case : nth 5 (tensile (fun r => r) (fun x => x * x) (fun x => 2 * x) 0) (0, (0, 0)) = (5 / 100, (5 / 100 * (5 / 100), 2 * (5 / 100))).
Proof. rewrite tensile_curve. cbn [seq map nth INR]. replace (1 + 1 + 1 + 1 + 1) with 5 by ring. reflexivity. Qed.
(** ** C164: psi has the Young's modulus and the Poisson ratio it is given *)
Theorem rve_hooke : forall P_fn E nu, psi_contract P_fn -> 1 + nu <> 0 -> 1 - 2 * nu <> 0 ->
  (forall H i j, (i < 3)%nat -> (j < 3)%nat -> P_fn E nu identity i j = 0 /\
    derivable_pt_lim (fun t => P_fn E nu (near_rest H t) i j) 0 (E / (1 + nu) * ((H i j + H j i) / 2) + E * nu / ((1 + nu) * (1 - 2 * nu)) * trace 3 H * delta i j)) /\
  (forall i j, (i < 3)%nat -> (j < 3)%nat -> derivable_pt_lim (fun t => P_fn E nu (near_rest (fun a b => if Nat.eqb a b then if Nat.eqb a 0 then 1 else - nu else 0) t) i j) 0
    (if (Nat.eqb i 0 && Nat.eqb j 0)%bool then E else 0)).
Proof.
  intros P_fn E nu HP H1 H2. split; [intros H i j Hi Hj; exact (psi_hooke P_fn E nu H i j HP H1 H2 Hi Hj)|].
  intros i j Hi Hj. eapply dl_eq; [exact (proj2 (psi_hooke P_fn E nu (fun a b => if Nat.eqb a b then if Nat.eqb a 0 then 1 else - nu else 0) i j HP H1 H2 Hi Hj))|reflexivity|].
  unfold trace, sumN, delta. cbn [seq sumR]. destruct i as [|[|[|i]]]; [| | |lia]; destruct j as [|[|[|j]]]; try lia; cbn [Nat.eqb andb]; field; split; assumption.
Qed.
Print Assumptions rve_hooke.
(** modulus 1000 and ratio 0.3 of the example's matrix: stretching along x needs 1000 per unit strain, shear 1000 / 1.3 per unit of gradient in each of two entries *)
Example rve_hooke_case : derivable_pt_lim (fun t => P_ex 1000 (3 / 10) (near_rest (fun a b => if Nat.eqb a b then if Nat.eqb a 0 then 1 else - (3 / 10) else 0) t) 0%nat 0%nat) 0 1000
  /\ derivable_pt_lim (fun t => P_ex 1000 (3 / 10) (near_rest (fun a b => match a, b with 0%nat, 1%nat => 1 | _, _ => 0 end) t) 1%nat 0%nat) 0 (1000 / (26 / 10)).
Proof.
  destruct (rve_hooke P_ex 1000 (3 / 10) P_ex_ok ltac:(lra) ltac:(lra)) as [HA HB]. split; [exact (HB 0%nat 0%nat ltac:(lia) ltac:(lia))|].
  eapply dl_eq; [exact (proj2 (HA (fun a b => match a, b with 0%nat, 1%nat => 1 | _, _ => 0 end) 1%nat 0%nat ltac:(lia) ltac:(lia)))|reflexivity|]. unfold delta. cbn [Nat.eqb]. field.
Qed.
Close Scope R_scope.
