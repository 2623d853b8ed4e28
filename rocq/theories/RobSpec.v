(** * Vocabulary for Poisson problems with a flux law on the boundary (cauchy_bc_info). Definitions only. *)
From Coq Require Import String.
From Verif Require Import Prelude FemModel FemSpec BasisModel BasisSpec SolverModel SolverSpec FemMatProofs MatModel WellSpec ConnSpec RobModel.
Open Scope R_scope.
Open Scope list_scope.

Section RobSpec.
Context {V : Type}.
Variable F : fem V.
(** the surface weights of the Cauchy faces are not negative *)
Definition upright : Prop := forall x p, In x (cauchy_faces F) -> (p < num_face_quads (f_ele F))%nat -> 0 <= nanson_scale F (fst x) p.
(** the flux never falls when the temperature rises *)
Definition monotone_flux (cm : (nat -> R) -> nat -> R) : Prop := forall a b, 0 <= dot_vec F (fun k => cm a k - cm b k) (fun k => a k - b k).
(** ... and it tells different values of component k apart *)
Definition strict_flux (cm : (nat -> R) -> nat -> R) (k : nat) : Prop := forall a b, dot_vec F (fun l => cm a l - cm b l) (fun l => a l - b l) = 0 -> a k = b k.
(** node n belongs to a cell with a Cauchy face of positive weight, whose flux has the property Q *)
Definition exposed (Q : ((nat -> R) -> nat -> R) -> Prop) (n : nat) : Prop :=
  exists x a p, In x (cauchy_faces F) /\ Q (snd x) /\ (a < num_nodes (f_ele F))%nat /\ n = cell_node F (fst (fst x)) a /\ (p < num_face_quads (f_ele F))%nat /\ 0 < nanson_scale F (fst x) p.
(** every node is linked to a node where component k is fixed, or to an exposed one *)
Definition anchored (Q : ((nat -> R) -> nat -> R) -> Prop) (locs : list (point -> bool)) (vecs : list nat) (k : nat) : Prop :=
  forall n, (n < num_total_nodes F)%nat -> exists m, linked F n m /\ (m < num_total_nodes F)%nat /\ (fixed F locs vecs m k \/ exposed Q m).
(** heat exchange with coefficient h: the flux is h times the value, plus what flows at zero *)
Definition robin_flux (h : R) (cm : (nat -> R) -> nat -> R) : Prop := forall a k, (k < vec F)%nat -> cm a k = h * a k + cm (fun _ => 0) k.
Definition robin_faces : Prop := forall x, In x (cauchy_faces F) -> exists h, 0 <= h /\ robin_flux h (snd x).
Definition exchanging (cm : (nat -> R) -> nat -> R) : Prop := exists h, 0 < h /\ robin_flux h cm.
(** jax.jacfwd of the face function is its derivative *)
Definition exact_face_jacobians (cjac : ((nat -> R) -> nat -> R) -> nodal -> (nat -> nat -> R) -> (nat -> R) -> jac4) : Prop :=
  forall sol x, In x (cauchy_faces F) ->
  is_jacobian F (fun s => cauchy_kernel F (snd x) s (face_shape_vals (f_ele F) (snd (fst x))) (nanson_scale F (fst x)))
    (cells_sol F sol (fst (fst x))) (cauchy_jac F cjac sol x).
End RobSpec.

(** the problem of lines 98-99 on the three-node triangles that gmsh returns *)
Definition cb_class {V : Type} (F : fem V) : Prop :=
  vec F = 1%nat /\ dim F = 2%nat /\ tensor_map F = Some (fun _ => poisson_map) /\ mass_map F = None /\ source_info F = Some cb_force /\ neumann_bc_info F = None /\ cauchy_bc_info F = Some cb_cauchy.
Close Scope R_scope.
