(** * Sparse Jacobians: vocabulary. *)
From Coq Require Export Permutation.
From Verif Require Import Prelude FemModel SjacModel.
Open Scope R_scope.
(** the positions of a pattern, each given once, inside the shape *)
Definition wf_pattern (s : bcoo) : Prop :=
  NoDup (map fst (entries s)) /\ Forall (fun e => (fst (fst e) < nrows s)%nat /\ (snd (fst e) < ncols s)%nat) (entries s).
Definition in_pattern (s : bcoo) (i j : nat) : Prop := In (i, j) (map fst (entries s)).
(** the pattern covers the matrix J *)
Definition covers (s : bcoo) (J : nat -> nat -> R) : Prop :=
  forall i j, (i < nrows s)%nat -> (j < ncols s)%nat -> J i j <> 0 -> in_pattern s i j.
Definition move (x : vect) (t : R) (d : vect) : vect := fun j => x j + t * d j.
Definition unit_vec (j : nat) : vect := fun l => if Nat.eqb l j then 1 else 0.
(** J is the derivative of fn (m outputs) at x (n inputs) *)
Definition derivative (n m : nat) (fn : vect -> vect) (x : vect) (J : nat -> nat -> R) : Prop :=
  forall d i, (i < m)%nat -> derivable_pt_lim (fun t => fn (move x t d) i) 0 (sumN n (fun j => J i j * d j)).
(** contracts of jax.jacrev and jax.jvp: for a differentiable function they return its derivative *)
Definition jac_contract (n : nat) (jac : (vect -> vect) -> vect -> nat -> nat -> R) : Prop :=
  forall f x i, (exists g, forall d, derivable_pt_lim (fun t => f (move x t d) i) 0 (sumN n (fun j => g j * d j))) ->
  forall j, (j < n)%nat -> derivable_pt_lim (fun t => f (move x t (unit_vec j)) i) 0 (jac f x i j).
Definition jvp_contract (jvp : (vect -> vect) -> vect -> vect -> vect) : Prop :=
  forall f x d i, (exists l, derivable_pt_lim (fun t => f (move x t d) i) 0 l) -> derivable_pt_lim (fun t => f (move x t d) i) 0 (jvp f x d i).
(** two outputs that depend on a common input have different colours; likewise for inputs *)
Definition proper_rows (s : bcoo) (coloring : nat -> nat) : Prop :=
  forall i k j, in_pattern s i j -> in_pattern s k j -> coloring i = coloring k -> i = k.
Definition proper_cols (s : bcoo) (coloring : nat -> nat) : Prop :=
  forall i j l, in_pattern s i j -> in_pattern s i l -> coloring j = coloring l -> j = l.
(** the stored values of the pattern are positive, as when it is made from ones *)
Definition positive (s : bcoo) : Prop := Forall (fun e => 0 < snd e) (entries s).
(** a row per point of each file that has fields, file by file, at the time of that file's step *)
Definition timed_rows (rnd : R -> R) (dt : R) (npts : nat) (files : list vtu) : list (nat * nat * R) :=
  flat_map (fun k => match nth_error files k with
                     | Some f => if Nat.eqb (num_fields f) 0 then [] else map (fun p => (k, p, rnd (INR (step_number f) * dt))) (seq 0 npts)
                     | None => [] end) (seq 0 (length files)).
(** the number of fields in the first k files, and the rows on a clock that ticks once per field *)
Definition fields_before (files : list vtu) (k : nat) : nat := list_sum (map num_fields (firstn k files)).
Definition clocked_rows (rnd : R -> R) (dt : R) (npts ss : nat) (files : list vtu) : list (nat * nat * R) :=
  flat_map (fun k => match nth_error files k with
                     | Some f => if Nat.eqb (num_fields f) 0 then [] else map (fun p => (k, p, rnd (INR (fields_before files k) * INR ss * dt))) (seq 0 npts)
                     | None => [] end) (seq 0 (length files)).
Definition same_pattern (s s' : bcoo) : Prop := nrows s = nrows s' /\ ncols s = ncols s' /\ map fst (entries s) = map fst (entries s').
Definition equals_matrix (s : bcoo) (J : nat -> nat -> R) : Prop := forall i j, (i < nrows s)%nat -> (j < ncols s)%nat -> todense s i j = J i j.
Close Scope R_scope.
