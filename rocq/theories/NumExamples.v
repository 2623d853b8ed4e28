From Coq Require Import Lra Lia.
From Verif Require Import Prelude PreludeFacts FemModel FemFacts FemSpec FemMatProofs MatModel WellSpec WellProofs ConnExamples NumModel NumSpec NumProofs.
Open Scope R_scope.

(** one node with gradient e_0 and unit weight *)
Definition e0 : nat -> nat -> nat -> nat -> R := fun _ _ _ d => if Nat.eqb d 0 then 1 else 0.
Lemma one_node : assemble [[5%nat]] e0 (fun _ _ => 1) 1 3 1
  = ([15; 15; 15; 16; 16; 16; 17; 17; 17]%nat, [15; 16; 17; 15; 16; 17; 15; 16; 17]%nat, [1225000 / 13; 0; 0; 0; 350000 / 13; 0; 0; 0; 350000 / 13]).
Proof.
  unfold assemble, for_range, append, to_dof_ind. cbn [fold_left seq length nth app Nat.mul Nat.add].
  apply (f_equal2 pair); [reflexivity|]. unfold sum33, num_stress, trace, construct_phi_grad, e0, eye, sumN. cbn [seq sumR Nat.eqb].
  repeat (apply (f_equal2 cons); [field|]). reflexivity.
Qed.
(** two nodes with opposite gradients *)
Definition bar : nat -> nat -> nat -> nat -> R := fun _ _ a d => if Nat.eqb d 0 then (if Nat.eqb a 0 then -1 else 1) else 0.
Lemma bar_below : nodes_below [[0; 1]; [1; 2]]%nat 2 3.
Proof. intros c a Hc Ha. destruct c as [|[|c]]; [| |cbn in Hc; lia]; (destruct a as [|[|a]]; [| |lia]); cbn; lia. Qed.
Lemma bar_zero : forall c q d, (c < 2)%nat -> (q < 1)%nat -> (d < 3)%nat -> sumN 2 (fun a => bar c q a d) = 0.
Proof. intros c q d _ _ Hd. unfold bar, sumN. cbn [seq sumR]. destruct d as [|d]; cbn [Nat.eqb]; ring. Qed.
Lemma bar_entry : coo_entry (assemble [[0; 1]; [1; 2]]%nat bar (fun _ _ => 1) 2 3 1) 3 3 = 2450000 / 13 /\ coo_entry (assemble [[0; 1]; [1; 2]]%nat bar (fun _ _ => 1) 2 3 1) 3 6 = - 1225000 / 13.
Proof.
  rewrite !entry_sum, !sum_entries. unfold num_jac, sum33, num_stress, trace, construct_phi_grad, bar, eye, sumN. cbn [seq sumR length nth Nat.mul Nat.add Nat.eqb andb fst snd]. split; field.
Qed.
(** two tetrahedra *)
Lemma glued_elastic : elastic_problem glued_solid.
Proof. split; [reflexivity|]. split; [reflexivity|]. split; [reflexivity|]. split; [reflexivity|]. exact (proj2 (tet_dim glued_solid eq_refl)). Qed.
Lemma glued_wf : wf_mesh glued_solid.
Proof. apply (glued_mesh 3 (fun _ => linear_elastic_stress 3) (None (A := list R -> (nat -> R) -> nat -> R))). Qed.
Lemma glued_num : elastic_problem glued_solid /\ wf_mesh glued_solid /\ (0 < num_cells glued_solid)%nat /\ loads_ok glued_solid [] (mkIv [] [] None (fun _ => []))
  /\ exact_jacobians glued_solid (mkIv [] [] None (fun _ => [])) (unit_jac glued_solid)
  /\ length (snd (assemble (cells glued_solid) (shape_grads glued_solid) (JxW glued_solid) (num_nodes (f_ele glued_solid)) 3 (num_quads (f_ele glued_solid)))) = 288%nat.
Proof.
  split; [exact glued_elastic|]. split; [exact glued_wf|]. split; [cbn; lia|]. split; [apply pair_loads|]. split; [apply pair_elastic_jac|].
  rewrite (proj2 (proj2 (num_length _ _ _ _ _ _))), (proj1 (tet_dim glued_solid eq_refl)). reflexivity.
Qed.
Close Scope R_scope.
