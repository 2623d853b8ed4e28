(** * Vocabulary for the statements about crystal plasticity. *)
From Verif Require Import Prelude FemModel FemFacts FemSpec MatModel MatSpec CrysModel.
Open Scope R_scope.
(** quaternions *)
Definition qnorm2 (q : nat -> R) : R := q 0%nat ^ 2 + q 1%nat ^ 2 + q 2%nat ^ 2 + q 3%nat ^ 2.
Definition qmul (p q : nat -> R) (i : nat) : R :=
  match i with
  | 0%nat => p 0%nat * q 0%nat - p 1%nat * q 1%nat - p 2%nat * q 2%nat - p 3%nat * q 3%nat
  | 1%nat => p 0%nat * q 1%nat + p 1%nat * q 0%nat + p 2%nat * q 3%nat - p 3%nat * q 2%nat
  | 2%nat => p 0%nat * q 2%nat - p 1%nat * q 3%nat + p 2%nat * q 0%nat + p 3%nat * q 1%nat
  | 3%nat => p 0%nat * q 3%nat + p 1%nat * q 2%nat - p 2%nat * q 1%nat + p 3%nat * q 0%nat
  | _ => 0
  end.
(** Q A Q^T *)
Definition conj (Q A : mat) : mat := matmul 3 (matmul 3 Q A) (transpose Q).
(** the image of a vector *)
Definition apply3 (Q : mat) (v : point) : point := fun i => sumN 3 (fun j => Q i j * v j).
Definition dot3 (u v : point) : R := sumN 3 (fun i => u i * v i).
(** a slip system: direction in the plane, both nonzero *)
Definition slip_system (r : slip_row) : Prop := dot3 (fst r) (snd r) = 0 /\ 0 < dot3 (fst r) (fst r) /\ 0 < dot3 (snd r) (snd r).
(** double contraction with a fourth order tensor *)
Definition contract4 (T : tensor4) (E : mat) : mat := fun i j => sumN 3 (fun k => sumN 3 (fun l => T i j k l * E k l)).
Definition symmetric4 (T : tensor4) : Prop := forall i j k l, (i < 3)%nat -> (j < 3)%nat -> (k < 3)%nat -> (l < 3)%nat ->
  T i j k l = T j i k l /\ T i j k l = T i j l k /\ T i j k l = T k l i j.
(** Green strain *)
Definition green (F : mat) : mat := fun i j => / 2 * (matmul 3 (transpose F) F i j - identity i j).
(** a quadrature point on which only slip system a moves *)
Definition only_active (rows : list slip_row) (dt : R) (s : crystal) (S : mat) (a : nat) : Prop :=
  forall b, (b < length rows)%nat -> b <> a -> gamma_inc rows dt s S b = 0.
Definition uniform_resistance (n : nat) (s : crystal) : Prop := forall a b, (a < n)%nat -> (b < n)%nat -> slip_resistance s a = slip_resistance s b.
(** the exact local solution: its stress obeys the elastic law *)
Definition solves_local (rows : list slip_row) (dt : R) (s : crystal) (u_grad S : mat) : Prop :=
  meq 3 S (S_of s (Fe_of rows dt s u_grad S)).
(** contract of jax.jacfwd and of np.linalg.solve *)
Definition is_jac (jac : (mat -> mat) -> mat -> tensor4) (f : mat -> mat) (y : mat) : Prop :=
  forall d i j, (i < 3)%nat -> (j < 3)%nat -> derivable_pt_lim (fun t => f (axpy t d y) i j) 0 (contract4 (jac f y) d i j).
Definition solves4 (A : tensor4) (b x : mat) : Prop := meq 3 (contract4 A x) b.
(** a regular 9 x 9 system; an exact np.linalg.solve; an exact jax.jacfwd *)
Definition nonsingular4 (A : tensor4) : Prop := forall x, meq 3 (contract4 A x) mzero -> meq 3 x mzero.
Definition exact_solve (solve : tensor4 -> mat -> mat) : Prop := forall A b, nonsingular4 A -> solves4 A b (solve A b).
(** a differentiable path of tensors and its derivative at 0 *)
Definition path (A : R -> mat) (A' : mat) : Prop := forall i j, (i < 3)%nat -> (j < 3)%nat -> derivable_pt_lim (fun t => A t i j) 0 (A' i j).
(** the states of a quadrature point along a history of (time step, gradient, local stress) *)
Definition crystal_run (rows : list slip_row) (qm : nat -> nat -> R) (s0 : crystal) (steps : list (R * mat)) : crystal :=
  fold_left (fun s st => new_state rows qm (fst st) s (snd st)) steps s0.
Close Scope R_scope.
