(** * Vocabulary for meshes of any Lagrange element and their connected parts. Definitions only. *)
From Coq Require Import String.
From Verif Require Import Prelude FemModel FemSpec BasisModel BasisSpec BasisProofs SolverModel SolverSpec WellSpec MaxSpec.
Open Scope R_scope.

(** cells of the element type t with the tables of basis.py, none of them turned inside out *)
Definition lagrange_mesh {V : Type} (F : fem V) (B : basix) (t : string) : Prop :=
  documented_basix B /\ In t lagrange_types /\ exact_rule B (cell_of t) (gauss_of t) /\ nonneg_rule B (cell_of t) (gauss_of t)
  /\ element_tables B t = Ok (f_ele F) /\ wf_mesh F /\ (0 < num_cells F)%nat
  /\ forall c q, (c < num_cells F)%nat -> (q < num_quads (f_ele F))%nat -> 0 < jacobian_det F c q.
(** two nodes are linked if one gets from one to the other by steps between nodes of one cell *)
Inductive linked {V : Type} (F : fem V) (n : nat) : nat -> Prop :=
| linked_self : linked F n n
| linked_cell : forall c a b, (c < num_cells F)%nat -> (a < num_nodes (f_ele F))%nat -> (b < num_nodes (f_ele F))%nat ->
    linked F n (cell_node F c a) -> linked F n (cell_node F c b).
(** every node is linked to a node where component k is fixed *)
Definition held {V : Type} (F : fem V) (locs : list (point -> bool)) (vecs : list nat) (k : nat) : Prop :=
  forall n, (n < num_total_nodes F)%nat -> exists m, linked F n m /\ (m < num_total_nodes F)%nat /\ fixed F locs vecs m k.
(** on every cell u is a small rigid motion: a constant plus a skew matrix times the point *)
Definition rigid_cells {V : Type} (F : fem V) (u : nodal) : Prop :=
  forall c, (c < num_cells F)%nat -> exists (b : nat -> R) (G : mat), (forall i j, (i < dim F)%nat -> (j < dim F)%nat -> G i j = - G j i) /\
    forall a k, (a < num_nodes (f_ele F))%nat -> (k < dim F)%nat -> u (cell_node F c a) k = affine_field F b G (cell_node F c a) k.
(** the fixed components leave no motion that is rigid on every cell *)
Definition braced {V : Type} (F : fem V) (locs : list (point -> bool)) (vecs : list nat) : Prop :=
  forall u, admissible F locs vecs u -> rigid_cells F u -> same_field F u (fun _ _ => 0).
(** all components of node n are fixed *)
Definition clamped {V : Type} (F : fem V) (locs : list (point -> bool)) (vecs : list nat) (n : nat) : Prop :=
  forall k, (k < vec F)%nat -> fixed F locs vecs n k.
(** a node is secured if it is clamped, or if it belongs to a tetrahedron with three secured nodes *)
Inductive secured {V : Type} (F : fem V) (locs : list (point -> bool)) (vecs : list nat) : nat -> Prop :=
| secured_clamped : forall n, (n < num_total_nodes F)%nat -> clamped F locs vecs n -> secured F locs vecs n
| secured_cell : forall c a0 a1 a2 b, (c < num_cells F)%nat -> (a0 < 4)%nat -> (a1 < 4)%nat -> (a2 < 4)%nat -> (b < 4)%nat -> a0 <> a1 -> a0 <> a2 -> a1 <> a2 ->
    secured F locs vecs (cell_node F c a0) -> secured F locs vecs (cell_node F c a1) -> secured F locs vecs (cell_node F c a2) -> secured F locs vecs (cell_node F c b).
Close Scope R_scope.
