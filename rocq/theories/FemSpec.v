(** * Vocabulary for the statements about the finite-element core. *)
From Verif Require Import Prelude FemModel.
Open Scope R_scope.

Section FemSpec.
Context {V : Type}.
Variable F : fem V.
Let E := f_ele F.
Let nn := num_nodes (f_ele F).

(** Connectivity refers to existing points; nothing is assumed about repeated nodes. *)
Definition wf_mesh : Prop :=
  Forall (fun c => length c = nn /\ Forall (fun n => (n < num_total_nodes F)%nat) c) (cells F).
Definition invertible_cells : Prop :=
  forall c q, (c < num_cells F)%nat -> (q < num_quads E)%nat -> jacobian_det F c q <> 0.
(** What the shape function tables satisfy: they sum to one (partition of unity), and hence their
    reference gradients to zero. *)
Definition grads_sum_zero : Prop :=
  forall q j, (q < num_quads E)%nat -> (j < e_dim E)%nat -> sumN nn (fun a => shape_grads_ref E q a j) = 0.
Definition vals_sum_one : Prop :=
  forall q, (q < num_quads E)%nat -> sumN nn (fun a => shape_vals E q a) = 1.
Definition face_vals_sum_one : Prop :=
  forall f p, (f < length (face_inds E))%nat -> (p < num_face_quads E)%nat -> sumN nn (fun a => face_shape_vals E f p a) = 1.

(** every internal variable has one entry per cell *)
Definition sized {X : Type} (leaves : list (list X)) : Prop := Forall (fun l => length l = num_cells F) leaves.
Definition iv_sized (iv : internal_vars V) : Prop := sized (iv_mass iv) /\ sized (iv_laplace iv).
(** the entries of cell c *)
Definition vars_at {X : Type} (leaves : list (list X)) (c : nat) : list X :=
  flat_map (fun l => match nth_error l c with Some v => [v] | None => [] end) leaves.
Definition inputs_sized (x : inputs V) : Prop :=
  length (in_sol x) = num_cells F /\ length (in_grads x) = num_cells F /\ length (in_JxW x) = num_cells F
  /\ length (in_vg x) = num_cells F /\ sized (in_mass x) /\ sized (in_lap x).
(** selected faces belong to existing cells and faces *)
Definition faces_ok (sel : list (nat * nat)) : Prop :=
  Forall (fun s => (fst s < num_cells F)%nat /\ (snd s < length (face_inds E))%nat) sel.

(** Sum, at every node, of the contributions g of the corners of the cells of l that carry it. *)
Definition corners {X : Type} (l : list X) (cell : X -> nat) (g : X -> nodal) : nodal :=
  fun n k => sumR l (fun x => sumN nn (fun a => if Nat.eqb (cell_node F (cell x) a) n then g x a k else 0)).
Definition all_cells : list nat := seq 0 (num_cells F).

(** element force of cell c *)
Definition cell_force (iv : internal_vars V) (sol : nodal) (c : nat) : nodal :=
  kernel F (cells_sol F sol c) (shape_grads F c) (JxW F c) (v_grads_JxW F c)
         (vars_at (iv_mass iv) c) (vars_at (iv_laplace iv) c).
Definition cauchy_faces : list ((nat * nat) * ((nat -> R) -> nat -> R)) :=
  match cauchy_bc_info F with None => [] | Some (locs, fns) => cauchy_selection F locs fns end.
Definition cauchy_force (sol : nodal) (x : (nat * nat) * ((nat -> R) -> nat -> R)) : nodal :=
  cauchy_values F sol (snd x) (fst x).

(** ** Virtual powers of a test field v *)
(** the test field at a quadrature point of a cell, and of a face *)
Definition at_quad (v : nodal) (c q k : nat) : R := convert_from_dof_to_quad F v c q k.
Definition at_face (v : nodal) (s : nat * nat) (p k : nat) : R := convert_neumann_from_dof F v s p k.
Definition stress (iv : internal_vars V) (sol : nodal) (c q : nat) : mat :=
  match tensor_map F with
  | Some tm => tm (map (fun f => f q) (vars_at (iv_laplace iv) c)) (sol_to_grad F sol c q)
  | None => fun _ _ => 0
  end.
Definition reaction (iv : internal_vars V) (sol : nodal) (c q : nat) : nat -> R :=
  match mass_map F with
  | Some mm => mm (map (fun f => f q) (vars_at (iv_mass iv) c)) (at_quad sol c q)
  | None => fun _ => 0
  end.
Definition dot_vec (a b : nat -> R) : R := sumN (vec F) (fun k => a k * b k).
Definition internal_power (iv : internal_vars V) (sol v : nodal) : R :=
  sumN (num_cells F) (fun c => sumN (num_quads E) (fun q => JxW F c q *
    (sumN (vec F) (fun k => sumN (dim F) (fun d => stress iv sol c q k d * sol_to_grad F v c q k d))
     + dot_vec (reaction iv sol c q) (at_quad v c q)))).
Definition cauchy_power (sol v : nodal) : R :=
  sumR cauchy_faces (fun x => sumN (num_face_quads E) (fun p =>
    nanson_scale F (fst x) p * dot_vec (snd x (at_face sol (fst x) p)) (at_face v (fst x) p))).
Definition body_load (iv : internal_vars V) (c q : nat) : nat -> R :=
  match iv_body iv with
  | Some b => body_map F (at_quad b c q)
  | None => match source_info F with Some fn => fn (physical_quad_point F c q) | None => fun _ => 0 end
  end.
Definition body_power (iv : internal_vars V) (v : nodal) : R :=
  sumN (num_cells F) (fun c => sumN (num_quads E) (fun q => JxW F c q * dot_vec (body_load iv c q) (at_quad v c q))).
Definition traction (iv : internal_vars V) (i j : nat) (s : nat * nat) (p : nat) : nat -> R :=
  match neumann_bc_info F with
  | Some fns => nth i fns (fun _ _ _ => 0) (surface_quad_point F s p) (map (fun f => f j p) (iv_neumann iv i))
  | None => fun _ => 0
  end.
Definition indexed {X : Type} (l : list X) : list (nat * X) := combine (seq 0 (length l)) l.
Definition neumann_power (inds : list (list (nat * nat))) (iv : internal_vars V) (v : nodal) : R :=
  sumR (indexed inds) (fun isel => sumR (indexed (snd isel)) (fun js => sumN (num_face_quads E) (fun p =>
    nanson_scale F (snd js) p * dot_vec (traction iv (fst isel) (fst js) (snd js) p) (at_face v (snd js) p)))).
(** every face set has its value function *)
Definition neumann_ok (inds : list (list (nat * nat))) : Prop :=
  match neumann_bc_info F with Some fns => (length inds <= length fns)%nat | None => True end.

(** ** Increments and matrices *)
Definition add_step (sol : nodal) (t : R) (d : nodal) : nodal := fun n k => sol n k + t * d n k.
Definition flatten (d : nodal) (i : nat) : R := d (i / vec F)%nat (i mod vec F)%nat.
(** the matrix j applied to an element increment *)
Definition jac_mul (j : jac4) (d : nodal) (a k : nat) : R :=
  sumN nn (fun b => sumN (vec F) (fun l => j a k b l * d b l)).
(** contract of jax.jacfwd for an element function: directional derivatives *)
Definition is_jacobian (f : nodal -> nodal) (s : nodal) (j : jac4) : Prop :=
  forall d a k, (a < nn)%nat -> (k < vec F)%nat ->
  derivable_pt_lim (fun t => f (add_step s t d) a k) 0 (jac_mul j d a k).
End FemSpec.
Close Scope R_scope.

(** ** Geometry, boundaries *)
Section GeoSpec.
Open Scope R_scope.
Context {V : Type}.
Variable F : fem V.
(** an affine nodal field: value c + G x at the point x *)
Definition affine_field (c : nat -> R) (G : mat) : nodal :=
  fun n i => c i + sumN (dim F) (fun m => G i m * points F n m).
(** the constant field with value one in component k *)
Definition unit_field (k : nat) : nodal := fun _ l => if Nat.eqb l k then 1 else 0.
(** only the tensor map acts *)
Definition only_internal (iv : internal_vars V) : Prop :=
  mass_map F = None /\ source_info F = None /\ neumann_bc_info F = None /\ cauchy_bc_info F = None /\ iv_body iv = None.
(** the image of the reference direction t under the face Jacobian *)
Definition push (J : mat) (d : nat) (t : nat -> R) (i : nat) : R := sumN d (fun j => J i j * t j).
Definition cross (a b : nat -> R) (i : nat) : R :=
  match i with
  | 0%nat => a 1%nat * b 2%nat - a 2%nat * b 1%nat
  | 1%nat => a 2%nat * b 0%nat - a 0%nat * b 2%nat
  | 2%nat => a 0%nat * b 1%nat - a 1%nat * b 0%nat
  | _ => 0
  end.
Definition norm3 (a : nat -> R) : R := sqrt (a 0%nat ^ 2 + a 1%nat ^ 2 + a 2%nat ^ 2).
Definition norm2 (a : nat -> R) : R := sqrt (a 0%nat ^ 2 + a 1%nat ^ 2).
(** lexicographic order of (cell, face) pairs *)
Definition lex (s t : nat * nat) : Prop := (fst s < fst t)%nat \/ (fst s = fst t /\ (snd s < snd t)%nat).
(** a face is interior when another (cell, face) has the same nodes *)
Definition face_nodes (s : nat * nat) : list nat := map (cell_node F (fst s)) (nth (snd s) (face_inds (f_ele F)) []).
Definition interior_face (s : nat * nat) : Prop :=
  exists t, t <> s /\ (fst t < num_cells F)%nat /\ (snd t < length (face_inds (f_ele F)))%nat /\
  (forall n, In n (face_nodes s) <-> In n (face_nodes t)).
Definition dist (d : nat) (x y : point) : R := norm_dim d (fun i => x i - y i).
End GeoSpec.
