(** * Vocabulary for the statements about the solvers. *)
From Verif Require Import Prelude FemModel SolverModel.
Open Scope R_scope.

(** ** Dirichlet conditions as a list of ((node, component), value) in the order they are given *)
Definition conditions (P : problem) : list ((nat * nat) * R) :=
  flat_map (fun i => combine (combine (nth i (node_inds_list P) []) (nth i (vec_inds_list P) [])) (nth i (vals_list P) []))
           (seq 0 (length (node_inds_list P))).
(** the value of the last condition on (n,k), if there is one *)
Definition prescribed (P : problem) (n k : nat) : option R :=
  option_map snd (find (fun u => Nat.eqb n (fst (fst u)) && Nat.eqb k (snd (fst u))) (rev (conditions P))).
(** the three lists of a condition are equally long, address existing unknowns, none twice *)
Definition bc_ok (P : problem) : Prop :=
  forall i, (i < length (node_inds_list P))%nat ->
    let nodes := nth i (node_inds_list P) [] in let vecs := nth i (vec_inds_list P) [] in
    length vecs = length nodes /\ length (nth i (vals_list P) []) = length nodes /\ NoDup (combine nodes vecs) /\
    Forall (fun n => (n < num_nodes_p P)%nat) nodes /\ Forall (fun k => (k < pvec P)%nat) vecs.
Definition dof (P : problem) (n k : nat) : nat := (pvec P * n + k)%nat.
Definition unknown (P : problem) (n k : nat) : Prop := (n < num_nodes_p P)%nat /\ (k < pvec P)%nat.

(** the constrained residual of a solution u with physical residual r *)
Definition constrained (P : problem) (r u : nodal) (n k : nat) : R :=
  match prescribed P n k with Some v => u n k - v | None => r n k end.

Definition mat_vec (n : nat) (M : mat) (x : vector) (i : nat) : R := sumN n (fun j => M i j * x j).
Definition dotN (n : nat) (a b : vector) : R := sumN n (fun i => a i * b i).
Definition same (n : nat) (a b : vector) : Prop := forall i, (i < n)%nat -> a i = b i.
Definition unit_vec (j : nat) : vector := fun i => if Nat.eqb i j then 1 else 0.
Definition step (x : vector) (t : R) (d : vector) : vector := fun i => x i + t * d i.

(** the operator handed to the linear solver, whichever back end *)
Definition lop_apply (n : nat) (A : lop) (x : vector) : vector :=
  match A with Jop f => f x | Pmat M => mat_vec n M x end.

(** ** Contracts of the environment *)
(** a solvable system is solved exactly *)
Definition exact_solvers (ev : env) : Prop :=
  (forall n f b x0 pc, (exists x, same n (f x) b) -> same n (f (bicgstab ev n f b x0 pc)) b)
  /\ (forall n M b, (exists x, same n (mat_vec n M x) b) -> same n (mat_vec n M (ksp ev n M b)) b).
(** exact arithmetic: norms are numbers, everything is finite *)
Definition exact_floats (ev : env) : Prop :=
  (forall n v, fnorm ev n v = Fin (sqrt (dotN n v v))) /\ (forall n v, all_finite ev n v = true).

(** residual and matrix of an affine problem: at every solution the matrix gives the exact change
    of the residual *)
Definition affine_problem (P : problem) : Prop :=
  forall u d, exists r r1 ijv ijv1, newton_update P u = Ok (r, ijv)
  /\ newton_update P (fun n k => u n k + d n k) = Ok (r1, ijv1)
  /\ forall n k, unknown P n k -> r1 n k = r n k + coo_mul (num_total_dofs P) ijv (ravel P d) (dof P n k).
(** the constrained matrix at every solution is surjective *)
Definition solvable_problem (P : problem) (use_petsc : bool) : Prop :=
  forall u r ijv, newton_update P u = Ok (r, ijv) -> forall b, exists x,
    same (num_total_dofs P) (lop_apply (num_total_dofs P) (get_A_fn P ijv use_petsc) x) b.

(** what a solution of the discrete problem is *)
Definition meets_conditions (P : problem) (u : nodal) : Prop :=
  forall n k v, unknown P n k -> prescribed P n k = Some v -> u n k = v.
Definition in_equilibrium (P : problem) (u : nodal) : Prop :=
  exists r ijv, newton_update P u = Ok (r, ijv) /\ forall n k, unknown P n k -> prescribed P n k = None -> r n k = 0.
(** Dirichlet condition number [i] speaks about component k of node n *)
Definition applies {V} (F : fem V) (locs : list (point -> bool)) (vecs : list nat) (i n k : nat) : Prop :=
  (i < length locs)%nat /\ nth i vecs 0%nat = k /\ nth i locs (fun _ => false) (points F n) = true.
Definition last_applying {V} (F : fem V) locs vecs (i n k : nat) : Prop :=
  applies F locs vecs i n k /\ forall i', (i < i')%nat -> ~ applies F locs vecs i' n k.

(** ** Lagrange multipliers *)
(** the three periodic lists match *)
Definition periodic_ok (P : problem) : Prop :=
  length (p_node_inds_list_B P) = length (p_node_inds_list_A P) /\ length (p_vec_inds_list P) = length (p_node_inds_list_A P) /\
  forall i, (i < length (p_node_inds_list_A P))%nat ->
    let A := nth i (p_node_inds_list_A P) [] in let B := nth i (p_node_inds_list_B P) [] in let v := nth i (p_vec_inds_list P) [] in
    length B = length A /\ length v = length A /\ Forall (fun n => (n < num_nodes_p P)%nat) A /\
    Forall (fun n => (n < num_nodes_p P)%nat) B /\ Forall (fun k => (k < pvec P)%nat) v.
(** all periodic pairs (node a, node b, component) in order *)
Definition pairs (P : problem) : list (nat * nat * nat) :=
  flat_map (fun i => combine (combine (nth i (p_node_inds_list_A P) []) (nth i (p_node_inds_list_B P) [])) (nth i (p_vec_inds_list P) []))
           (seq 0 (length (p_node_inds_list_A P))).
(** one constraint function per multiplier: u(n,k) - value, then u(a,k) - u(b,k) *)
Definition constraint_values (P : problem) (u : nodal) : list R :=
  map (fun c => u (fst (fst c)) (snd (fst c)) - snd c) (conditions P)
  ++ map (fun t => u (fst (fst t)) (snd t) - u (snd (fst t)) (snd t)) (pairs P).
(** derivative of the j-th constraint with respect to the unknown (n,k) *)
Definition ind (b : bool) : R := if b then 1 else 0.
Definition constraint_row (P : problem) (n k : nat) : list R :=
  map (fun c => ind (Nat.eqb n (fst (fst c)) && Nat.eqb k (snd (fst c)))) (conditions P)
  ++ map (fun t => ind (Nat.eqb n (fst (fst t)) && Nat.eqb k (snd t)) - ind (Nat.eqb n (snd (fst t)) && Nat.eqb k (snd t))) (pairs P).
(** what the multipliers stored after the unknowns in [x] contribute to the equation of (n,k) *)
Definition multiplier_force (P : problem) (x : vector) (n k : nat) : R :=
  sumN (length (constraint_row P n k)) (fun j => nth j (constraint_row P n k) 0 * x (num_total_dofs P + j)%nat).
(** the triplets of newton_update address the unknowns *)
Definition ijv_ok (n : nat) (ijv : IJV) : Prop :=
  length (fst (fst ijv)) = length (snd (fst ijv)) /\ length (snd (fst ijv)) = length (snd ijv) /\
  Forall (fun i => (i < n)%nat) (fst (fst ijv)) /\ Forall (fun i => (i < n)%nat) (snd (fst ijv)).
Definition matrix_ok (P : problem) : Prop :=
  forall u r ijv, newton_update P u = Ok (r, ijv) -> ijv_ok (num_total_dofs P) ijv.
(** all Dirichlet conditions and all periodic pairs hold up to [e] *)
Definition constraints_within (P : problem) (e : R) (u : nodal) : Prop :=
  (forall n k v, In ((n, k), v) (conditions P) -> Rabs (u n k - v) <= e) /\
  (forall a b k, In (a, b, k) (pairs P) -> Rabs (u a k - u b k) <= e).
Definition constraints_hold (P : problem) (u : nodal) : Prop :=
  (forall n k v, In ((n, k), v) (conditions P) -> u n k = v) /\ (forall a b k, In (a, b, k) (pairs P) -> u a k = u b k).
(** the residual is balanced by forces acting on the constrained unknowns only *)
Definition in_constrained_equilibrium (P : problem) (u : nodal) : Prop :=
  exists r ijv lam, newton_update P u = Ok (r, ijv) /\ forall n k, unknown P n k -> r n k + multiplier_force P lam n k = 0.
(** the augmented matrix is surjective *)
Definition solvable_augmented (P : problem) (eps : R) : Prop :=
  forall u r ijv, newton_update P u = Ok (r, ijv) -> forall b, exists x,
    same (num_aug P) (coo_mul (num_aug P) (snd (aug_ijv P ijv eps)) x) b.
(** jax.grad: partial derivatives of a function of n variables *)
Definition is_grad (n : nat) (f : vector -> R) (g : vector -> vector) : Prop :=
  forall x i, (i < n)%nat -> derivable_pt_lim (fun t => f (step x t (unit_vec i))) 0 (g x i).

(** ** Implicit differentiation *)
Definition norm1 (n : nat) (x : vector) : R := sumN n (fun i => Rabs (x i)).
(** [f], a function of (u,p) with values in R^n, is differentiable at (u,p) with partial
    derivatives A (in u, of size n) and B (in p, of size m) *)
Definition differentiable (n m : nat) (f : vector -> vector -> vector) (u p : vector) (A B : vector -> vector) : Prop :=
  forall i, (i < n)%nat -> forall eps, 0 < eps -> exists del, 0 < del /\ forall du dp, norm1 n du + norm1 m dp < del ->
  Rabs (f (fun j => u j + du j) (fun j => p j + dp j) i - f u p i - A du i - B dp i) <= eps * (norm1 n du + norm1 m dp).
Definition linear_map (n m : nat) (A : vector -> vector) : Prop :=
  (forall i x y, (i < n)%nat -> A (fun j => x j + y j) i = A x i + A y i) /\ (forall i c x, (i < n)%nat -> A (fun j => c * x j) i = c * A x i)
  /\ (forall x y, same m x y -> same n (A x) (A y)).
(** jax.vjp and jax.jvp at x of a function from R^m to R^n with derivative D at x *)
Definition vjp_ok (n m : nat) (vjp : (vector -> vector) -> vector -> vector -> vector) (f : vector -> vector) (x : vector) (D : vector -> vector) : Prop :=
  forall w d, dotN m (vjp f x w) d = dotN n w (D d).
Definition jvp_ok (n : nat) (jvp : (vector -> vector) -> vector -> vector -> vector) (f : vector -> vector) (x : vector) (D : vector -> vector) : Prop :=
  forall d, same n (jvp f x d) (D d).
(** [u] is a path of solutions through [sol] along the parameter path p + t dp, with velocity du *)
Definition solution_path (n : nat) (c : vector -> vector -> vector) (sol p dp : vector) (u : R -> vector) (du : vector) : Prop :=
  (forall i, u 0 i = sol i)
  /\ (exists del, 0 < del /\ forall t, Rabs t < del -> forall i, (i < n)%nat -> c (u t) (step p t dp) i = 0)
  /\ forall i, (i < n)%nat -> derivable_pt_lim (fun t => u t i) 0 (du i).
Definition invertible (n : nat) (A : vector -> vector) : Prop :=
  exists M : mat, (forall x, same n (A (mat_vec n M x)) x) /\ (forall x, same n (mat_vec n M (A x)) x).
(** the same unknowns and the same Dirichlet values *)
Definition same_conditions (P Q : problem) : Prop :=
  num_nodes_p P = num_nodes_p Q /\ pvec P = pvec Q /\ forall n k, prescribed P n k = prescribed Q n k.
(** derivative of the constrained residual from that of the residual: conditions do not depend on p *)
Definition free_rows (P : problem) (B : vector -> vector) : vector -> vector :=
  fun d => ravel P (fun n k => match prescribed P n k with Some _ => 0 | None => B d (dof P n k) end).
Close Scope R_scope.
