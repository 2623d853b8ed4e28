(** * Vocabulary for dynamic relaxation. Definitions only. *)
From Verif Require Import Prelude FemModel SolverModel RlxModel.
Open Scope R_scope.
Open Scope list_scope.
(** linear forces K q - f on the free unknowns, none on the fixed ones; the stiffness matrix has the rows of
    the identity there *)
Definition linear_forces (N : nat) (fixed : nat -> bool) (K : mat) (f : vector) (asm_R : vector -> vector) (asm_K : vector -> mat) : Prop :=
  (forall q i, (i < N)%nat -> asm_R q i = if fixed i then 0 else sumN N (fun j => K i j * q j) - f i) /\
  (forall q i j, (i < N)%nat -> (j < N)%nat -> asm_K q i j = if fixed i then if Nat.eqb i j then 1 else 0 else K i j).
Definition form (N : nat) (K : mat) (x y : vector) : R := sumN N (fun i => sumN N (fun j => x i * K i j * y j)).
Definition supported (N : nat) (fixed : nat -> bool) (x : vector) : Prop := forall i, (i < N)%nat -> fixed i = true -> x i = 0.
(** symmetric and positive definite on the free unknowns *)
Definition free_spd (N : nat) (fixed : nat -> bool) (K : mat) : Prop :=
  (forall i j, (i < N)%nat -> (j < N)%nat -> fixed i = false -> fixed j = false -> K i j = K j i) /\
  (forall x, supported N fixed x -> (exists i, (i < N)%nat /\ x i <> 0) -> 0 < form N K x x).
Definition weighted (N : nat) (M x : vector) : R := sumN N (fun i => M i * x i ^ 2).
(** the states the loop goes through *)
Inductive reached (N : nat) (asm_R : vector -> vector) (asm_K : vector -> mat) (nKMat : nat) (u : vector) : nat -> rstate -> Prop :=
| reached_0 : reached N asm_R asm_K nKMat u 0 (relax_init N asm_R asm_K u)
| reached_S n st v : reached N asm_R asm_K nKMat u n st -> rs_qdot st = Some v -> reached N asm_R asm_K nKMat u (S n) (relax_step N asm_R asm_K nKMat st v).
(** equilibrium with the boundary values of u *)
Definition equilibrium (N : nat) (fixed : nat -> bool) (asm_R : vector -> vector) (u s : vector) : Prop :=
  (forall i, (i < N)%nat -> fixed i = true -> s i = u i) /\ forall i, (i < N)%nat -> asm_R s i = 0.
Close Scope R_scope.
