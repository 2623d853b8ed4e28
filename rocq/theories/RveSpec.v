(** * Vocabulary for the statements about the representative volume element. *)
From Verif Require Import Prelude FemModel FemSpec SolverModel SolverSpec MatModel MatSpec CrysSpec RveModel.
Open Scope R_scope.

(** contract of jax.grad(psi), derivative with respect to the first argument *)
Definition psi_contract (P_fn : R -> R -> mat -> mat) : Prop :=
  forall E nu, is_grad 3 (psi_E E nu) (fun D => 0 < det 3 D) (P_fn E nu).
Section RveSpec.
Context {V : Type}.
Variable F : fem V.
(** the deformation gradient I + H + grad u *)
Definition total (H : mat) (u : nodal) (c q : nat) : mat := fun i j => sol_to_grad F u c q i j + eye i j + H i j.
(** no quadrature point is turned inside out *)
Definition orientation (H : mat) (u : nodal) : Prop :=
  forall c q, (c < num_cells F)%nat -> (q < num_quads (f_ele F))%nat -> 0 < det 3 (total H u c q).
(** a differentiable history of nodal fields and its rate at time 0 *)
Definition nodal_path (u : R -> nodal) (u' : nodal) : Prop :=
  forall n k, derivable_pt_lim (fun t => u t n k) 0 (u' n k).
(** the stress of the element with the moduli of [g] *)
Definition rve_P (g : ms_args) (info : dns) (P_fn : R -> R -> mat -> mat) (H : mat) (u : nodal) (c q : nat) : mat :=
  P_fn (fst (moduli_at F g info c q)) (snd (moduli_at F g info c q)) (total H u c q).
(** integral over the cell of one component of a stress *)
Definition total_stress (P : nat -> nat -> mat) (i j : nat) : R :=
  sumN (num_cells F) (fun c => sumN (num_quads (f_ele F)) (fun q => JxW F c q * P c q i j)).
(** the field obeys the conditions returned by periodic_boundary_conditions *)
Definition obeys_periodic (l : list (list nat * list nat * list nat)) (u : nodal) : Prop :=
  forall la lb lv m a b v, List.In (la, lb, lv) l -> nth_error la m = Some a -> nth_error lb m = Some b -> nth_error lv m = Some v -> u a v = u b v.
(** and those returned by Dirichlet_boundary_conditions *)
Definition obeys_dirichlet (nl vl : list (list nat)) (xl : list (list R)) (u : nodal) : Prop :=
  forall s nodes vs xs m n v x, nth_error nl s = Some nodes -> nth_error vl s = Some vs -> nth_error xl s = Some xs ->
  nth_error nodes m = Some n -> nth_error vs m = Some v -> nth_error xs m = Some x -> u n v = x.
End RveSpec.
(** a virtual displacement that keeps the constraints of a problem *)
Definition admissible (P : problem) (v : nodal) : Prop :=
  (forall n k x, List.In ((n, k), x) (conditions P) -> v n k = 0) /\ (forall a b k, List.In (a, b, k) (pairs P) -> v a k = v b k).
(** the residual does no work in any of them *)
Definition balanced (P : problem) (u : nodal) : Prop := exists r ijv, newton_update P u = Ok (r, ijv) /\
  forall v, admissible P v -> sumN (num_nodes_p P) (fun n => sumN (pvec P) (fun k => v n k * r n k)) = 0.
(** node (i, j, k) of the box mesh with N elements in every direction, and the nodes of two opposite sides *)
Definition box_node (N i j k : nat) : nat := (i * ((N + 1) * (N + 1)) + j * (N + 1) + k)%nat.
Definition side (N d s j k : nat) : nat :=
  match d with 0%nat => box_node N s j k | 1%nat => box_node N j s k | _ => box_node N j k s end.
(** equal values on the nodes of opposite sides *)
Definition periodic (N : nat) (u : nodal) : Prop :=
  forall d p r i, (d < 3)%nat -> (p <= N)%nat -> (r <= N)%nat -> (i < 3)%nat -> u (side N d 0 p r) i = u (side N d N p r) i.
(** a rotation of the macroscopic deformation and of the fluctuation *)
Definition rotate_H (Q H : mat) : mat := fun i j => matmul 3 Q (fun i j => H i j + eye i j) i j - eye i j.
Definition rotate_field (Q : mat) (u : nodal) : nodal := fun n i => sumN 3 (fun k => Q i k * u n k).
Definition moduli_physical (g : ms_args) : Prop := 0 <= E_in g /\ 0 <= E_out g /\ 0 <= nu_in g < / 2 /\ 0 <= nu_out g < / 2.
(** number of units in direction d, the d-th of three indices *)
Definition units (g : ms_args) (d : nat) : nat := match d with 0%nat => num_units_x g | 1%nat => num_units_y g | _ => num_units_z g end.
Definition ix (i j k d : nat) : nat := match d with 0%nat => i | 1%nat => j | _ => k end.
(** one unit of the same material *)
Definition one_unit (g : ms_args) : ms_args := mkMs (L g) (E_in g) (E_out g) (nu_in g) (nu_out g) (ratio g) 1 1 1.
(** the gradient of a differentiable network *)
Definition nn_grad (nn : (nat -> R) -> R) (dnn : (nat -> R) -> nat -> R) : Prop :=
  forall (X : R -> nat -> R) X', (forall n, (n < 6)%nat -> derivable_pt_lim (fun t => X t n) 0 (X' n)) ->
  derivable_pt_lim (fun t => nn (X t)) 0 (sumN 6 (fun n => dnn (X 0) n * X' n)).
Close Scope R_scope.
