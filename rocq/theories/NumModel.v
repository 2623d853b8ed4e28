(** * jax_am/fem/experiments/numba_assembly.py: assembly of linear elasticity by explicit loops. *)
From Verif Require Import Prelude FemModel MatModel.
Open Scope R_scope.

(** stress, numba_assembly.py:38-45 *)
Definition num_stress (u_grad : mat) : mat :=
  let E := 70000 in
  let nu := 3 / 10 in
  let mu := E / (2 * (1 + nu)) in
  let lmbda := E * nu / ((1 + nu) * (1 - 2 * nu)) in
  let epsilon := fun i j => / 2 * (u_grad i j + u_grad j i) in
  fun i j => lmbda * trace 3 epsilon * eye i j + 2 * mu * epsilon i j.
(** to_dof_ind, numba_assembly.py:49-50 *)
Definition to_dof_ind (i v vec : nat) : nat := (vec * i + v)%nat.
(** construct_phi_grad, numba_assembly.py:54-57: a 3 by 3 array of zeros whose row v is phi_grad *)
Definition construct_phi_grad (phi_grad : nat -> R) (v : nat) : mat := fun r d => if Nat.eqb r v then phi_grad d else 0.
(** onp.sum(A * B) for 3 by 3 arrays *)
Definition sum33 (A B : mat) : R := sumN 3 (fun r => sumN 3 (fun d => A r d * B r d)).

(** [for x in range(n): st = body x st] *)
Definition for_range {S : Type} (n : nat) (body : nat -> S -> S) (st : S) : S := fold_left (fun st x => body x st) (seq 0 n) st.
(** the three growing lists inds_I, inds_J, vals *)
Definition triplets : Type := (list nat * list nat * list R)%type.
Definition append (i j : nat) (v : R) (st : triplets) : triplets :=
  let '(Il, Jl, Vl) := st in (Il ++ [i], Jl ++ [j], Vl ++ [v]).
(** assemble, numba_assembly.py:61-87. cells[c, i] is an entry of the connectivity, shape_grads[c, q, i]
    a row and JxW[c, q] an entry of the tables; numba does not check indices. The printed messages
    are left out. *)
Definition assemble (cells : list (list nat)) (shape_grads : nat -> nat -> nat -> nat -> R) (JxW : nat -> nat -> R) (num_nodes vec num_quads : nat) : triplets :=
  for_range (length cells) (fun c =>
  for_range num_nodes (fun i =>
  for_range vec (fun v =>
    let index_I := to_dof_ind (nth i (nth c cells []) 0%nat) v vec in
    for_range num_nodes (fun j =>
    for_range vec (fun w =>
      let index_J := to_dof_ind (nth j (nth c cells []) 0%nat) w vec in
      let val := for_range num_quads (fun q val =>
        let phi_grad_i := construct_phi_grad (shape_grads c q i) v in
        let phi_grad_j := construct_phi_grad (shape_grads c q j) w in
        let physics_j := num_stress phi_grad_j in
        val + sum33 phi_grad_i physics_j * JxW c q) 0 in
      append index_I index_J val))))) ([], [], []).

(** weak_form.at[I].add(vals) on a vector, line 104 *)
Definition vec_at_add (x : nat -> R) (Il : list nat) (Vl : list R) : nat -> R :=
  fold_left (fun x u => fun r => if Nat.eqb r (fst u) then x r + snd u else x r) (combine Il Vl) x.
(** sol.reshape(-1) and back, lines 102 and 104 *)
Definition to_dofs (vec : nat) (sol : nodal) : nat -> R := fun r => sol (r / vec)%nat (r mod vec)%nat.
Definition of_dofs (vec : nat) (x : nat -> R) : nodal := fun n k => x (vec * n + k)%nat.
(** NumbdaLaplace.compute_residual, numba_assembly.py:101-106. compute_body_force (108-120) has the
    text of compute_body_force_by_fn, and compute_Neumann_integral (122-139) that of
    compute_Neumann_integral_vars without internal variables; the selection of faces and the
    tractions are those of the core. *)
Definition numba_residual {V : Type} (F : fem V) (inds : list (list (nat * nat))) (sol : nodal) : res nodal :=
  let '(Il, Jl, Vl) := assemble (cells F) (shape_grads F) (JxW F) (num_nodes (f_ele F)) (vec F) (num_quads (f_ele F)) in
  let dofs := to_dofs (vec F) sol in
  let weak_form := of_dofs (vec F) (vec_at_add (fun _ => 0) Il (map (fun jv => dofs (fst jv) * snd jv) (combine Jl Vl))) in
  let body_force := compute_body_force_by_fn F in
  bind (compute_Neumann_integral_vars F inds (fun _ => [])) (fun neumann =>
  Ok (fun n k => weak_form n k - body_force n k - neumann n k)).
Close Scope R_scope.
