(** * Vocabulary for maximum principles. Definitions only. *)
From Coq Require Import String.
From Verif Require Import Prelude FemModel FemSpec BasisModel BasisSpec SolverModel SolverSpec BoxSpec WellSpec.
Open Scope R_scope.

(** the quadrature rule has no negative weights *)
Definition nonneg_rule (B : basix) (c : cell_type) (m : nat) : Prop := Forall (fun w => 0 <= w) (snd (make_quadrature B c m)).
(** the cells of a box mesh are cubes *)
Definition cubes (Nx Ny Nz : nat) (Lx Ly Lz : R) : Prop := Lx / INR Nx = Ly / INR Ny /\ Ly / INR Ny = Lz / INR Nz.
(** source and flux of component k have the sign s (or vanish) *)
Definition loads_sign {V} (F : fem V) (iv : internal_vars V) (s : R) (k : nat) : Prop :=
  (forall c q, 0 <= s * body_load F iv c q k) /\ forall i j f p, 0 <= s * traction F iv i j f p k.
(** the prescribed values of component k *)
Definition prescribed {V} (F : fem V) locs vecs (fns : list (point -> R)) (k : nat) (x : R) : Prop :=
  exists i n, (n < num_total_nodes F)%nat /\ last_applying F locs vecs i n k /\ x = nth i fns (fun _ => 0) (points F n).
Close Scope R_scope.
