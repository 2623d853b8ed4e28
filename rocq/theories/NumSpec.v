(** * Vocabulary for the statements about assembly by explicit loops. *)
From Verif Require Import Prelude FemModel MatModel.
Open Scope R_scope.

(** a problem of linear elasticity in three dimensions without reaction terms *)
Definition elastic_problem {V : Type} (F : fem V) : Prop :=
  tensor_map F = Some (fun _ => linear_elastic_stress 3) /\ mass_map F = None /\ cauchy_bc_info F = None /\ vec F = 3%nat /\ dim F = 3%nat.
(** gradient of the field with values x (node, component), from tables of gradients of shape functions *)
Definition table_grad (conn : list nat) (g : nat -> nat -> R) (nn : nat) (x : nodal) : mat :=
  fun k d => sumN nn (fun a => x (nth a conn 0%nat) k * g a d).
(** every cell lists nodes below N *)
Definition nodes_below (cs : list (list nat)) (nn N : nat) : Prop := forall c a, (c < length cs)%nat -> (a < nn)%nat -> (nth a (nth c cs []) 0 < N)%nat.
Close Scope R_scope.
