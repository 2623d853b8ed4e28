(** * Vocabulary for manufactured solutions of LinearPoisson. Definitions only. *)
From Coq Require Import String.
From Verif Require Import Prelude FemModel FemSpec BasisModel BasisSpec SolverModel SolverSpec BoxSpec WellSpec.
From Verif Require MeshModel.
Open Scope R_scope.

(** a polynomial of degree at most 3 *)
Definition cubic (g : R -> R) : Prop := exists a b c d, forall x, g x = a + b * x + c * x ^ 2 + d * x ^ 3.
Definition derivative_of (g g1 : R -> R) : Prop := forall x, derivable_pt_lim g x (g1 x).
(** component k of the field is the sum over the directions d of a function of the coordinate x_d *)
Definition separable (g : nat -> nat -> R -> R) (p : point) (k : nat) : R := sumN 3 (fun d => g k d (p d)).
(** the sides where du/dn is prescribed, with location functions that pick their nodes and value functions that return du/dn on them *)
Definition natural_sides {V} (F : fem V) (Lx Ly Lz : R) (g1 : nat -> nat -> R -> R) (loads : list (nat * bool)) (locs : list (point -> bool)) (fns : list (point -> list V -> nat -> R)) : Prop :=
  NoDup loads /\ (forall s, In s loads -> (fst s < 3)%nat) /\
  Forall2 (fun s loc => picks_plane F loc (fst s) (side_coord Lx Ly Lz s)) loads locs /\
  Forall2 (fun s fn => forall p vars k, (k < vec F)%nat -> p (fst s) = side_coord Lx Ly Lz s -> fn p vars k = sumN 3 (fun d => g1 k d (p d) * outward s d)) loads fns /\
  match neumann_bc_info F with Some l => l = fns | None => loads = [] end.
(** every side a free component lies on is one of these, or du/dn = 0 there *)
Definition side_free {V} (F : fem V) (Lx Ly Lz : R) (g1 : nat -> nat -> R -> R) (loads : list (nat * bool)) (n k : nat) : Prop :=
  forall s, In s six_sides -> points F n (fst s) = side_coord Lx Ly Lz s -> In s loads \/ g1 k (fst s) (side_coord Lx Ly Lz s) = 0.
(** the points of the two-point Gauss rule in every direction *)
Definition gauss_points (B : basix) : Prop :=
  forall p d, In p (fst (make_quadrature B hexahedron 2)) -> (d < 3)%nat -> p d * (1 - p d) = / 6.
Close Scope R_scope.
