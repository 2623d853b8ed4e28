(** * Vocabulary for the statements about the beam design. *)
From Verif Require Import Prelude FemModel FemSpec WellSpec CurModel.
Open Scope R_scope.

(** the beam: plane elasticity with the stress of curve.py, no loads, and a mesh whose integration weights are not negative *)
Definition beam (F : fem (list R)) : Prop :=
  tensor_map F = Some cur_map /\ mass_map F = None /\ cauchy_bc_info F = None /\ neumann_bc_info F = None /\ source_info F = None
  /\ vec F = 2%nat /\ dim F = 2%nat /\ wf_mesh F /\ (0 < num_cells F)%nat
  /\ forall c q, (c < num_cells F)%nat -> (q < num_quads (f_ele F))%nat -> 0 <= JxW F c q.
(** one density per cell, between the bounds of the optimiser *)
Definition design (F : fem (list R)) (params : list R) : Prop := length params = num_cells F /\ Forall (fun r => 0 <= r <= 1) params.
(** work of the stress of u on its own gradient: twice the stored energy *)
Definition stored (F : fem (list R)) (params : list R) (u : nodal) : R := energy_form F (cur_vars F params) u u.
Close Scope R_scope.
