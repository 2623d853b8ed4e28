(** * Vocabulary for problems with Lagrange multipliers. Definitions only. *)
From Coq Require Import String.
From Verif Require Import Prelude FemModel FemSpec SolverModel SolverSpec RveSpec WellSpec ConnSpec.
Open Scope R_scope.

(** no combination of the constraints vanishes: one coefficient per Dirichlet value and per pair *)
Definition independent_constraints (P : problem) : Prop :=
  forall lam : nat -> R,
  (forall n k, unknown P n k -> sumN (length (conditions P) + length (pairs P)) (fun j => nth j (constraint_row P n k) 0 * lam j) = 0) ->
  forall j, (j < length (conditions P) + length (pairs P))%nat -> lam j = 0.
(** some field meets all constraints *)
Definition consistent_constraints (P : problem) : Prop := exists u, constraints_hold P u.
(** the linear system of one step of the multiplier solver at the augmented vector [x] has a solution *)
Definition step_solvable (P : problem) (grad : (vector -> R) -> vector -> vector) (eps : R) (x : vector) : Prop :=
  exists r ijv d, newton_update P (reshape P x) = Ok (r, ijv) /\
  same (num_aug P) (coo_mul (num_aug P) (snd (aug_ijv P ijv eps)) d) (vopp (compute_residual_lm P grad (ravel P r) x eps)).
(** component k of node n carries a Dirichlet value *)
Definition conditioned (P : problem) (n k : nat) : Prop := exists x, List.In ((n, k), x) (conditions P).
(** two nodes are joined in component k if one gets from one to the other by steps between nodes of
    one cell and between the two nodes of a periodic pair *)
Inductive joined {V : Type} (F : fem V) (P : problem) (k n : nat) : nat -> Prop :=
| joined_self : joined F P k n n
| joined_cell : forall c a b, (c < num_cells F)%nat -> (a < num_nodes (f_ele F))%nat -> (b < num_nodes (f_ele F))%nat ->
    joined F P k n (cell_node F c a) -> joined F P k n (cell_node F c b)
| joined_pair : forall a b, List.In (a, b, k) (pairs P) -> joined F P k n a -> joined F P k n b
| joined_back : forall a b, List.In (a, b, k) (pairs P) -> joined F P k n b -> joined F P k n a.
(** every node is joined to a node with a Dirichlet value *)
Definition anchored {V : Type} (F : fem V) (P : problem) : Prop :=
  forall n k, (n < num_total_nodes F)%nat -> (k < vec F)%nat -> exists m, joined F P k n m /\ conditioned P m k.
(** no component has two Dirichlet values, and the first node of every pair is in no other constraint *)
Definition separate_constraints (P : problem) : Prop :=
  NoDup (map fst (conditions P)) /\ NoDup (map (fun t => (fst (fst t), snd t)) (pairs P)) /\
  forall a b k, List.In (a, b, k) (pairs P) -> ~ conditioned P a k /\ forall c d, List.In (c, d, k) (pairs P) -> d <> a.
(** the class of the demo with its source: LinearPoisson(vec=1, dim=2), example.py:101-102 *)
Definition demo_class {V : Type} (F : fem V) (force : point -> nat -> R) : Prop :=
  vec F = 1%nat /\ dim F = 2%nat /\ source_info F = Some force /\ mass_map F = None /\ cauchy_bc_info F = None.
Close Scope R_scope.
