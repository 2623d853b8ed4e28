(** * Properties of the assembly by explicit loops (jax_am/fem/experiments/numba_assembly.py). *)
From Coq Require Import Lra Lia.
From Verif Require Import Prelude PreludeFacts FemModel FemFacts FemSpec FemMatProofs MatModel WellSpec WellProofs ConnExamples NumModel NumSpec NumProofs NumExamples.
Open Scope R_scope.

(** ** C199: the loops append the triplets of newton_update, in the same order *)
Theorem numba_triplets : forall V (F : fem V) inds iv jac cjac sol, elastic_problem F -> wf_mesh F -> (0 < num_cells F)%nat -> loads_ok F inds iv -> exact_jacobians F iv jac ->
  exists r, compute_residual_vars F inds sol iv = Ok r /\
  compute_newton_vars F inds sol iv jac cjac = Ok (r, assemble (cells F) (shape_grads F) (JxW F) (num_nodes (f_ele F)) 3 (num_quads (f_ele F))).
Proof. intros V F inds iv jac cjac sol HF Hwf H0 Hl Hj. exact (num_newton F HF Hwf iv jac cjac Hj inds sol Hl H0). Qed.
Print Assumptions numba_triplets.
Theorem numba_triplet_count : forall cs g w nn vec nq, let ijv := assemble cs g w nn vec nq in let n := (length cs * (nn * vec * (nn * vec)))%nat in
  length (fst (fst ijv)) = n /\ length (snd (fst ijv)) = n /\ length (snd ijv) = n.
Proof. intros cs g w nn vec nq. exact (num_length cs g w nn vec nq). Qed.
Print Assumptions numba_triplet_count.
Example numba_triplets_case : (elastic_problem glued_solid /\ wf_mesh glued_solid /\ (0 < num_cells glued_solid)%nat /\ loads_ok glued_solid [] (mkIv [] [] None (fun _ => []))
  /\ exact_jacobians glued_solid (mkIv [] [] None (fun _ => [])) (unit_jac glued_solid)
  /\ length (snd (assemble (cells glued_solid) (shape_grads glued_solid) (JxW glued_solid) (num_nodes (f_ele glued_solid)) 3 (num_quads (f_ele glued_solid)))) = 288%nat)
  /\ assemble [[5%nat]] e0 (fun _ _ => 1) 1 3 1
  = ([15; 15; 15; 16; 16; 16; 17; 17; 17]%nat, [15; 16; 17; 15; 16; 17; 15; 16; 17]%nat, [1225000 / 13; 0; 0; 0; 350000 / 13; 0; 0; 0; 350000 / 13]).
Proof. exact (conj glued_num one_node). Qed.

(** ** C200: the residual made from the triplets is the residual of the core *)
Theorem numba_residual_agrees : forall V (F : fem V) inds jac sol, let iv := mkIv [] [] None (fun _ => []) in
  elastic_problem F -> wf_mesh F -> (0 < num_cells F)%nat -> loads_ok F inds iv -> exact_jacobians F iv jac ->
  exists r r', numba_residual F inds sol = Ok r' /\ compute_residual_vars F inds sol iv = Ok r /\ forall n k, (k < 3)%nat -> r' n k = r n k.
Proof. intros V F inds jac sol iv HF Hwf H0 Hl Hj. exact (num_residual_eq F HF Hwf iv jac (fun _ _ _ _ _ _ _ _ => 0) Hj inds sol eq_refl Hl H0). Qed.
Print Assumptions numba_residual_agrees.
Example numba_residual_case : forall sol, exists r r', numba_residual glued_solid [] sol = Ok r' /\ compute_residual_vars glued_solid [] sol (mkIv [] [] None (fun _ => [])) = Ok r /\ forall n k, (k < 3)%nat -> r' n k = r n k.
Proof. intros sol. destruct glued_num as (H1 & H2 & H3 & H4 & H5 & _). exact (numba_residual_agrees R glued_solid [] (unit_jac glued_solid) sol H1 H2 H3 H4 H5). Qed.

(** ** C201: the assembled matrix is the elastic energy of the gradients in the tables *)
Theorem numba_energy : forall cs g w nn nq N x y, nodes_below cs nn N ->
  sumN (3 * N) (fun r => y r * coo_mul (3 * N) (assemble cs g w nn 3 nq) x r)
  = sumN (length cs) (fun c => sumN nq (fun q =>
      let Gx := table_grad (nth c cs []) (g c q) nn (fun n k => x (3 * n + k)%nat) in
      let Gy := table_grad (nth c cs []) (g c q) nn (fun n k => y (3 * n + k)%nat) in
      w c q * sumN 3 (fun i => sumN 3 (fun j => Gy i j * linear_elastic_stress 3 Gx i j)))).
Proof. intros cs g w nn nq N x y. exact (num_form cs g w nn nq N x y). Qed.
Print Assumptions numba_energy.
Theorem numba_symmetric : forall cs g w nn nq r c, coo_entry (assemble cs g w nn 3 nq) r c = coo_entry (assemble cs g w nn 3 nq) c r.
Proof. exact num_symmetric. Qed.
Print Assumptions numba_symmetric.
Theorem numba_nonnegative : forall cs g w nn nq N x, nodes_below cs nn N -> (forall c q, (c < length cs)%nat -> (q < nq)%nat -> 0 <= w c q) ->
  0 <= sumN (3 * N) (fun r => x r * coo_mul (3 * N) (assemble cs g w nn 3 nq) x r).
Proof. intros cs g w nn nq N x HN. exact (num_psd cs g w nn nq N HN x). Qed.
Print Assumptions numba_nonnegative.
Theorem numba_translations : forall cs g w nn nq N e r, nodes_below cs nn N ->
  (forall c q d, (c < length cs)%nat -> (q < nq)%nat -> (d < 3)%nat -> sumN nn (fun a => g c q a d) = 0) -> (r < 3 * N)%nat ->
  coo_mul (3 * N) (assemble cs g w nn 3 nq) (fun i => e (i mod 3)%nat) r = 0.
Proof. intros cs g w nn nq N e r HN. exact (num_translation cs g w nn nq N HN e r). Qed.
Print Assumptions numba_translations.
Example numba_energy_case : nodes_below [[0; 1]; [1; 2]]%nat 2 3
  /\ (forall c q d, (c < 2)%nat -> (q < 1)%nat -> (d < 3)%nat -> sumN 2 (fun a => bar c q a d) = 0)
  /\ coo_entry (assemble [[0; 1]; [1; 2]]%nat bar (fun _ _ => 1) 2 3 1) 3 3 = 2450000 / 13 /\ coo_entry (assemble [[0; 1]; [1; 2]]%nat bar (fun _ _ => 1) 2 3 1) 3 6 = - 1225000 / 13.
Proof. exact (conj bar_below (conj bar_zero bar_entry)). Qed.
Close Scope R_scope.
