(** * A small concrete mesh (two triangles) meeting the hypotheses of the theorems. *)
From Coq Require Import Lra FunctionalExtensionality Sorted.
From Verif Require Import Prelude PreludeFacts GridFacts FemModel FemFacts FemSpec FemProofs FemAsmProofs FemMatProofs FemGeoProofs.
Open Scope R_scope.

Definition pick (l : list R) (i : nat) : R := nth i l 0.
Definition pick2 (l : list (list R)) (i j : nat) : R := pick (nth i l []) j.
Definition pick3 (l : list (list (list R))) (i j k : nat) : R := pick2 (nth i l []) j k.

(** three-node triangle, one quadrature point, one per edge *)
Definition tri3 : ele :=
  mkEle 2 1 3 1 (pick2 [[1/3; 1/3; 1/3]]) (pick3 [[[-1; -1]; [1; 0]; [0; 1]]]) (pick [1/2])
    (pick3 [[[0; 1/2; 1/2]]; [[1/2; 0; 1/2]]; [[1/2; 1/2; 0]]])
    (fun f p a j => pick3 [[[-1; -1]; [1; 0]; [0; 1]]] 0 a j)
    (pick2 [[sqrt 2]; [1]; [1]]) (pick2 [[/ sqrt 2; / sqrt 2]; [-1; 0]; [0; -1]])
    [[1; 2]; [0; 2]; [0; 1]]%nat.
Definition square_pts : nat -> point := pick2 [[0; 0]; [1; 0]; [1; 1]; [0; 1]].
Definition square_cells : list (list nat) := [[0; 1; 2]; [0; 2; 3]]%nat.
(** scalar problem: identity tensor map, mass map u, unit source, unit traction, Robin face *)
Definition bottom (x : point) : bool := Reqb (x 1%nat) 0.
Definition fem_scalar : fem unit :=
  mkFem tri3 4 square_pts square_cells 1 (Some (fun _ G => G)) (Some (fun _ u => u)) (fun u => u)
    (Some (fun _ _ => 1)) (Some [fun _ _ _ => 1]) (Some ([bottom], [fun u => u])).
(** elasticity-like problem: symmetric stress, nothing else *)
Definition fem_vector : fem unit :=
  mkFem tri3 4 square_pts square_cells 2 (Some (fun _ G i j => G i j + G j i)) None (fun u => u) None None None.
Definition no_vars : internal_vars unit := mkIv [] [] None (fun _ => []).
Definition bottom_inds {V} (F : fem V) := get_boundary_conditions_inds F [bottom].

Ltac lt_cases n := destruct n as [|[|[|[|n]]]]; try (exfalso; cbn in *; lia).
Ltac crunch := cbn; unfold sumN, jacobian_det, jacobian_dx_deta, physical_coos, cell_node, pick3, pick2, pick; cbn; lra.

Lemma ex_wf : wf_mesh fem_scalar /\ wf_mesh fem_vector.
Proof. split; repeat constructor. Qed.
Lemma ex_vals : vals_sum_one fem_scalar /\ vals_sum_one fem_vector.
Proof. split; intros q Hq; cbn in Hq; lt_cases q; crunch. Qed.
Lemma ex_face_vals : face_vals_sum_one fem_scalar /\ face_vals_sum_one fem_vector.
Proof. split; intros f p Hf Hp; cbn in Hf, Hp; lt_cases p; lt_cases f; crunch. Qed.
Lemma ex_grads : grads_sum_zero fem_scalar /\ grads_sum_zero fem_vector.
Proof. split; intros q j Hq Hj; cbn in Hq, Hj; lt_cases q; lt_cases j; crunch. Qed.
Lemma ex_inv : invertible_cells fem_scalar /\ invertible_cells fem_vector.
Proof. split; intros c q Hc Hq; cbn in Hc, Hq; lt_cases q; lt_cases c; crunch. Qed.
Lemma ex_faces_ok sel : In sel (bottom_inds fem_scalar) -> faces_ok fem_scalar sel.
Proof.
  unfold bottom_inds, get_boundary_conditions_inds. cbn [map In]. intros [<-|[]]. apply Forall_forall. intros s Hs.
  apply in_boundary_inds in Hs. tauto.
Qed.
(** the selected face: nodes 0 and 1 of cell 0 *)
Lemma ex_bottom : bottom_inds fem_scalar = [[(0, 2)]]%nat.
Proof.
  unfold bottom_inds, get_boundary_conditions_inds, boundary_inds. cbn -[Reqb].
  unfold boundary_flag, physical_coos, cell_node, bottom. cbn -[Reqb]. unfold square_pts, pick2, pick. cbn -[Reqb].
  assert (R0 : Reqb 0 0 = true) by now apply Reqb_true. assert (R1 : Reqb 1 0 = false) by (apply Reqb_false; lra).
  rewrite ?R0, ?R1. reflexivity.
Qed.
Lemma ex_invariants : iv_sized fem_scalar no_vars /\ (0 < num_cells fem_scalar)%nat /\ neumann_ok fem_scalar (bottom_inds fem_scalar).
Proof. repeat split; try constructor; cbn; lia. Qed.
Lemma ex_vec_inv : iv_sized fem_vector no_vars /\ (0 < num_cells fem_vector)%nat /\ only_internal fem_vector no_vars.
Proof. repeat split; try constructor; cbn; lia. Qed.
Lemma ex_symmetric sol c q k d : stress fem_vector no_vars sol c q k d = stress fem_vector no_vars sol c q d k.
Proof. unfold stress. cbn -[sol_to_grad]. ring. Qed.

(** the exact element Jacobians of the scalar problem *)
Definition ex_jac : nodal -> (nat -> nat -> nat -> R) -> (nat -> R) -> (nat -> nat -> nat -> R) -> list (nat -> unit) -> list (nat -> unit) -> jac4 :=
  fun _ g w vg _ _ a k b l => delta k l * (sumN 1 (fun q => sumN 2 (fun d => g q b d * vg q a d)) + sumN 1 (fun q => shape_vals tri3 q b * shape_vals tri3 q a * w q)).
Definition ex_cjac : ((nat -> R) -> nat -> R) -> nodal -> (nat -> nat -> R) -> (nat -> R) -> jac4 :=
  fun _ _ fsv sc a k b l => delta k l * sumN 1 (fun p => fsv p b * fsv p a * sc p).
Lemma ex_affine s t d g w vg a k : (k < 1)%nat ->
  kernel fem_scalar (add_step s t d) g w vg [] [] a k = kernel fem_scalar s g w vg [] [] a k + t * jac_mul fem_scalar (ex_jac s g w vg [] []) d a k.
Proof.
  intros Hk. assert (k = 0%nat) as -> by lia. unfold kernel, laplace_kernel, mass_kernel, jac_mul, ex_jac, add_step, delta. cbn. unfold sumN, dim. cbn. ring.
Qed.
Lemma ex_caffine s t d fsv sc a k : (k < 1)%nat ->
  cauchy_kernel fem_scalar (fun u => u) (add_step s t d) fsv sc a k
  = cauchy_kernel fem_scalar (fun u => u) s fsv sc a k + t * jac_mul fem_scalar (ex_cjac (fun u => u) s fsv sc) d a k.
Proof.
  intros Hk. assert (k = 0%nat) as -> by lia. unfold cauchy_kernel, jac_mul, ex_cjac, add_step, delta. cbn. unfold sumN. cbn. ring.
Qed.
Lemma ex_is_jacobian sol c : is_jacobian fem_scalar
  (fun s => kernel fem_scalar s (shape_grads fem_scalar c) (JxW fem_scalar c) (v_grads_JxW fem_scalar c) (vars_at (iv_mass no_vars) c) (vars_at (iv_laplace no_vars) c))
  (cells_sol fem_scalar sol c) (cell_jac fem_scalar ex_jac no_vars sol c).
Proof.
  intros d a k Ha Hk. eapply dl_eq; [apply (dl_line (kernel fem_scalar (cells_sol fem_scalar sol c) (shape_grads fem_scalar c) (JxW fem_scalar c) (v_grads_JxW fem_scalar c) [] [] a k))| |reflexivity].
  intros t. cbv beta. symmetry. apply ex_affine. exact Hk.
Qed.
Lemma ex_cauchy_snd x : In x (cauchy_faces fem_scalar) -> snd x = fun u => u.
Proof.
  unfold cauchy_faces. cbn [cauchy_bc_info fem_scalar]. unfold cauchy_selection. cbn [combine flat_map fst snd]. rewrite app_nil_r.
  intros H. apply in_map_iff in H. destruct H as (s & <- & _). reflexivity.
Qed.
Lemma ex_is_cjacobian sol x : In x (cauchy_faces fem_scalar) -> is_jacobian fem_scalar
  (fun s => cauchy_kernel fem_scalar (snd x) s (face_shape_vals (f_ele fem_scalar) (snd (fst x))) (nanson_scale fem_scalar (fst x)))
  (cells_sol fem_scalar sol (fst (fst x))) (cauchy_jac fem_scalar ex_cjac sol x).
Proof.
  intros Hx d a k Ha Hk. unfold cauchy_jac. rewrite (ex_cauchy_snd x Hx).
  eapply dl_eq; [apply (dl_line (cauchy_kernel fem_scalar (fun u => u) (cells_sol fem_scalar sol (fst (fst x))) (face_shape_vals (f_ele fem_scalar) (snd (fst x))) (nanson_scale fem_scalar (fst x)) a k))| |reflexivity].
  intros t. cbv beta. symmetry. apply ex_caffine. exact Hk.
Qed.
Lemma ex_cauchy_nonempty : cauchy_faces fem_scalar <> [].
Proof.
  pose proof ex_bottom as H. unfold bottom_inds, get_boundary_conditions_inds in H. cbn [map] in H. injection H as H.
  unfold cauchy_faces. cbn [cauchy_bc_info fem_scalar]. unfold cauchy_selection. cbn [combine flat_map fst snd]. rewrite H. discriminate.
Qed.

(** periodic pairing left -> right *)
Definition left_side (x : point) : bool := Reqb (x 0%nat) 0.
Definition right_side (x : point) : bool := Reqb (x 0%nat) 1.
Definition shift_x (x : point) : point := fun i => if Nat.eqb i 0 then x i + 1 else x i.
Lemma ex_periodic : periodic_pair fem_scalar left_side right_side shift_x = Ok ([0; 3], [1; 2])%nat.
Proof.
  assert (R0 : Reqb 0 0 = true) by now apply Reqb_true. assert (R1 : Reqb 1 0 = false) by (apply Reqb_false; lra).
  assert (R2 : Reqb 0 1 = false) by (apply Reqb_false; lra). assert (R3 : Reqb 1 1 = true) by now apply Reqb_true.
  unfold periodic_pair, left_side, right_side. cbn -[Reqb Rltb norm_dim]. unfold argwhere. cbn -[Reqb Rltb norm_dim].
  unfold square_pts, pick2, pick. cbn -[Reqb Rltb norm_dim]. rewrite ?R0, ?R1, ?R2, ?R3. cbn -[Reqb Rltb norm_dim].
  assert (N0 : forall f : nat -> R, f 0%nat = 0 -> f 1%nat = 0 -> Rltb (norm_dim 2 f) EPS = true).
  { intros f H0 H1. apply Rltb_true. unfold norm_dim, sumN. cbn. rewrite H0, H1. replace (0 * (0 * 1) + (0 * (0 * 1) + 0)) with 0 by ring.
    rewrite sqrt_0. unfold EPS. lra. }
  assert (N1 : forall f : nat -> R, f 0%nat = 0 -> (f 1%nat = 1 \/ f 1%nat = -1) -> Rltb (norm_dim 2 f) EPS = false).
  { intros f H0 H1. apply Rltb_false. unfold norm_dim, sumN. cbn. rewrite H0.
    replace (0 * (0 * 1) + (f 1%nat * (f 1%nat * 1) + 0)) with 1 by (destruct H1 as [-> | ->]; ring). rewrite sqrt_1. unfold EPS. lra. }
  unfold dim. cbn [e_dim f_ele fem_scalar tri3].
  rewrite N0 by (cbn; unfold square_pts, pick2, pick; cbn; ring).
  rewrite N1 by (cbn; unfold square_pts, pick2, pick; cbn; (ring || (right; ring))).
  rewrite N1 by (cbn; unfold square_pts, pick2, pick; cbn; (ring || (left; ring))).
  rewrite N0 by (cbn; unfold square_pts, pick2, pick; cbn; ring).
  reflexivity.
Qed.

(** A location function true everywhere selects the common edge of the two triangles. *)
Lemma interior_selected : In (0, 1)%nat (boundary_inds fem_scalar (fun _ => true)) /\ interior_face fem_scalar (0, 1)%nat.
Proof.
  split; [apply in_boundary_inds; cbn; repeat split; lia|].
  exists (1, 2)%nat. split; [discriminate|]. cbn. split; [lia|]. split; [lia|]. intros n. reflexivity.
Qed.

(** Nanson: the hypotheses at the bottom edge of cell 0 *)
Lemma ex_nanson2 : dim fem_scalar = 2%nat /\ 0 < det 2 (face_jacobian fem_scalar (0, 2)%nat 0%nat)
  /\ face_normals (f_ele fem_scalar) 2%nat 0%nat = (pick [1; 0]) 1%nat /\ face_normals (f_ele fem_scalar) 2%nat 1%nat = - (pick [1; 0]) 0%nat.
Proof. unfold face_jacobian, physical_coos, cell_node, sumN. cbn. unfold pick, square_pts, pick2. cbn. repeat split; unfold pick; cbn; lra. Qed.
Lemma ex_bottom_length : nanson_scale fem_scalar (0, 2)%nat 0%nat = 1.
Proof.
  destruct ex_nanson2 as (H1 & H2 & H3 & H4). rewrite (nanson2 _ _ _ (pick [1; 0]) H1 H2 H3 H4).
  unfold norm2, push, face_jacobian, physical_coos, cell_node, sumN. cbn. unfold pick, square_pts, pick2, pick. cbn.
  match goal with |- sqrt ?x * 1 = 1 => replace x with 1 by ring end. rewrite sqrt_1. ring.
Qed.
(** one trilinear-like 3-D face: the identity Jacobian *)
Definition tet_ele : ele :=
  mkEle 3 0 4 1 (fun _ _ => 0) (fun _ _ _ => 0) (fun _ => 0) (fun _ _ _ => 0)
    (fun f p a j => pick2 [[-1; -1; -1]; [1; 0; 0]; [0; 1; 0]; [0; 0; 1]] a j)
    (fun _ _ => 1/2) (pick2 [[0; 0; -1]]) [[0; 1; 2]]%nat.
Definition fem_tet : fem unit :=
  mkFem tet_ele 4 (pick2 [[0; 0; 0]; [2; 0; 0]; [0; 3; 0]; [0; 0; 1]]) [[0; 1; 2; 3]]%nat 1 None None (fun u => u) None None None.
Lemma ex_nanson3 : dim fem_tet = 3%nat /\ 0 < det 3 (face_jacobian fem_tet (0, 0)%nat 0%nat)
  /\ forall i, (i < 3)%nat -> face_normals (f_ele fem_tet) 0%nat i = cross (pick [0; 1; 0]) (pick [1; 0; 0]) i.
Proof.
  split; [reflexivity|]. split.
  - unfold face_jacobian, physical_coos, cell_node, sumN, pick2, pick. cbn. unfold pick2, pick. cbn. lra.
  - intros i Hi. lt_cases i; cbn; unfold pick2, pick; cbn; ring.
Qed.
Close Scope R_scope.
