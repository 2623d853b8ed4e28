(** * Concrete crystal plasticity problems. *)
From Coq Require Import Lra Lia.
From Verif Require Import Prelude PreludeFacts FemModel FemFacts FemSpec FemGeoProofs FemExamples MatModel MatSpec MatProofs MatHyperProofs MatPostProofs CrysModel CrysSpec CrysTensorProofs CrysProofs CrysDiffProofs CrysFemProofs CrysHistProofs.
Open Scope R_scope.
(** one linear tetrahedron with one quadrature point *)
Definition tet4 : ele :=
  mkEle 3 1 4 1 (fun _ _ => / 4) (fun _ a j => pick2 [[-1; -1; -1]; [1; 0; 0]; [0; 1; 0]; [0; 0; 1]] a j) (fun _ => / 6) (fun _ _ _ => 0) (fun _ _ _ _ => 0)
    (fun _ _ => 0) (fun _ _ => 0) [].
Definition solid {V} (tm : list V -> mat -> mat) : fem V :=
  mkFem tet4 4 (pick2 [[0; 0; 0]; [2; 0; 0]; [0; 3; 0]; [0; 0; 1]]) [[0; 1; 2; 3]]%nat 3 (Some tm) None (fun u => u) None None None.
Lemma solid_wf {V} (tm : list V -> mat -> mat) : wf_mesh (solid tm).
Proof. repeat constructor. Qed.
Lemma solid_grads {V} (tm : list V -> mat -> mat) : grads_sum_zero (solid tm).
Proof. intros q j _ Hj. cbn in Hj. lt_cases j; cbn; unfold pick2, pick; cbn; ring. Qed.
Lemma solid_det {V} (tm : list V -> mat -> mat) c q : (c < 1)%nat -> jacobian_det (solid tm) c q = 6.
Proof. intros Hc. lt_cases c. unfold jacobian_det, jacobian_dx_deta, physical_coos, cell_node, sumN. cbn. unfold pick2, pick. cbn. ring. Qed.
Lemma solid_invertible {V} (tm : list V -> mat -> mat) : invertible_cells (solid tm).
Proof. intros c q Hc _. rewrite solid_det by exact Hc. lra. Qed.
(** a solution gradient equal to u in the tetrahedron *)
Lemma solid_grad {V} (tm : list V -> mat -> mat) u c q i d : (c < 1)%nat -> (q < 1)%nat -> (d < 3)%nat -> sol_to_grad (solid tm) (affine_field (solid tm) (fun _ => 0) u) c q i d = u i d.
Proof. intros Hc Hq Hd. apply patch_test; [unfold small_dim; cbn; lia|apply solid_grads|exact Hq|now apply solid_invertible|exact Hd]. Qed.
Lemma F_of_ext u w : meq 3 u w -> meq 3 (F_of u) (F_of w).
Proof. intros H i j Hi Hj. unfold F_of. now rewrite H. Qed.
Lemma solves_ext rows dt s u w S : meq 3 u w -> solves_local rows dt s u S -> solves_local rows dt s w S.
Proof.
  intros H HS i j Hi Hj. rewrite (HS i j Hi Hj). apply (f_equal (fun M : mat => M i j)). apply S_of_ext, green_ext. intros a b Ha Hb. unfold Fe_of. apply (matmul_ext 3); try assumption; [now apply F_of_ext|intros ? ? _ _; reflexivity].
Qed.
Definition crystal_solid (t : R) : fem crystal := solid (crystal_tensor_map three_slips 1 (fun _ _ => shear t)).
Lemma three_det s t dt : meq 3 (rot_mat s) eye -> 0 < t -> det 3 (Fp_inv_new three_slips dt s (shear t)) = det 3 (Fp_inv s).
Proof.
  intros HR Ht. apply (det_slip three_slips dt s (shear t) 0); [cbn; lia|apply three_ok| |now apply three_single].
  split; intros i j Hi Hj; unfold matmul, transpose; sums; rewrite !HR by lia; by3; unfold eye, identity; cbn [Nat.eqb]; ring.
Qed.
Lemma det_eye : det 3 eye = 1.
Proof. unfold det, eye. cbn [Nat.eqb]. ring. Qed.
Lemma fresh_det t dt : 0 < t -> det 3 (Fp_inv_new three_slips dt fresh (shear t)) = 1.
Proof. intros Ht. rewrite three_det by (apply fresh_meq || exact Ht). apply det_eye. Qed.
(** a sheared tetrahedron *)
Lemma crystal_solid_case : exists sol, forall c q, (c < num_cells (crystal_solid gss_initial))%nat -> (q < num_quads (f_ele (crystal_solid gss_initial)))%nat ->
  det 3 (F_of (sol_to_grad (crystal_solid gss_initial) sol c q)) <> 0 /\ solves_local three_slips 1 fresh (sol_to_grad (crystal_solid gss_initial) sol c q) (shear gss_initial).
Proof.
  destruct (shear_solvable three_slips 1 fresh gss_initial) as (u & Hu & Hd).
  - apply fresh_meq.
  - unfold gss_initial, C44. rewrite Rabs_right; lra.
  - rewrite fresh_det by (unfold gss_initial; lra). lra.
  - exists (affine_field (crystal_solid gss_initial) (fun _ => 0) u). intros c q Hc Hq.
    assert (E : meq 3 u (sol_to_grad (crystal_solid gss_initial) (affine_field (crystal_solid gss_initial) (fun _ => 0) u) c q)) by (intros i d _ Hdd; symmetry; now apply solid_grad). split.
    + rewrite <- (det_ext3 (F_of u)); [exact Hd|now apply F_of_ext].
    + now apply (solves_ext _ _ _ u).
Qed.
Close Scope R_scope.
