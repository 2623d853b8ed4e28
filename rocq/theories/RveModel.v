(** * Model of applications/fem/multi_scale: fem_model.py, rve.py, utils.py, parts of trainer.py and
    deploy.py. Definitions only. The problem is three-dimensional (vec = dim = 3). The neural network is
    an argument. Random numbers, files and plots are arguments or left out. *)
From Verif Require Import Prelude FemModel MatModel.
Open Scope R_scope.

(** utils.py *)
Definition flat_to_tensor (X : nat -> R) : mat := fun i j =>
  match i, j with
  | 0%nat, 0%nat => X 0%nat | 0%nat, 1%nat => X 3%nat | 0%nat, 2%nat => X 4%nat
  | 1%nat, 0%nat => X 3%nat | 1%nat, 1%nat => X 1%nat | 1%nat, 2%nat => X 5%nat
  | 2%nat, 0%nat => X 4%nat | 2%nat, 1%nat => X 5%nat | 2%nat, 2%nat => X 2%nat
  | _, _ => 0
  end.
Definition tensor_to_flat (X : mat) : nat -> R := fun n =>
  match n with
  | 0%nat => X 0%nat 0%nat | 1%nat => X 1%nat 1%nat | 2%nat => X 2%nat 2%nat
  | 3%nat => X 0%nat 1%nat | 4%nat => X 0%nat 2%nat | 5%nat => X 1%nat 2%nat
  | _ => 0
  end.
(** arguments.py; num_units is set by rve_problem (1, 1, 1) and homogenization_problem (10, 2, 10) *)
Record ms_args : Type := mkMs
  { L : R; E_in : R; E_out : R; nu_in : R; nu_out : R; ratio : R;
    num_units_x : nat; num_units_y : nat; num_units_z : nat }.
Definition default_args (nx ny nz : nat) : ms_args := mkMs 1 1000 100 (3 / 10) (4 / 10) (3 / 10) nx ny nz.

(** ** compute_moduli, fem_model.py:133-160 *)
Definition max_abs3 (x : point) : R := Rmax (Rmax (Rabs (x 0%nat)) (Rabs (x 1%nat))) (Rabs (x 2%nat)).
Definition center (g : ms_args) (i j k : nat) : point := fun d =>
  match d with
  | 0%nat => (INR i + / 2) * L g | 1%nat => (INR j + / 2) * L g | 2%nat => (INR k + / 2) * L g | _ => 0
  end.
Definition inclusion (g : ms_args) (p : point) : bool :=
  fold_left (fun acc i => fold_left (fun acc j => fold_left (fun acc k =>
      orb acc (Rltb (max_abs3 (fun d => p d - center g i j k d)) (L g * ratio g)))
    (seq 0 (num_units_z g)) acc) (seq 0 (num_units_y g)) acc) (seq 0 (num_units_x g)) false.
Definition moduli_map (g : ms_args) (p : point) : R * R :=
  (if inclusion g p then E_in g else E_out g, if inclusion g p then nu_in g else nu_out g).
Inductive dns : Type := NoInfo | AllIn | AllOut.
Definition compute_moduli (g : ms_args) (dns_info : dns) (p : point) : R * R :=
  match dns_info with NoInfo => moduli_map g p | AllIn => (E_in g, nu_in g) | AllOut => (E_out g, nu_out g) end.

(** ** maps_rve, maps_dns, 67-99: the same energy; jax.grad(psi) is the argument [P_fn E nu] *)
Definition psi_E (E nu : R) (F : mat) : R := psi_mod 3 (E / (2 * (1 + nu))) (E / (3 * (1 - 2 * nu))) F.
Definition rve_tensor_map (P_fn : R -> R -> mat -> mat) (H_bar : mat) (vars : list R) (u_grad : mat) : mat :=
  match vars with [E; nu] => P_fn E nu (fun i j => u_grad i j + eye i j + H_bar i j) | _ => fun _ _ => 0 end.
Definition dns_tensor_map (P_fn : R -> R -> mat -> mat) (vars : list R) (u_grad : mat) : mat :=
  match vars with [E; nu] => P_fn E nu (fun i j => u_grad i j + eye i j) | _ => fun _ _ => 0 end.
(** maps_nn, 101-115 *)
Definition psi_nn (nn : (nat -> R) -> R) (F : mat) : R := nn (tensor_to_flat (matmul 3 (transpose F) F)).
Definition nn_tensor_map (P_fn : mat -> mat) (u_grad : mat) : mat := P_fn (fun i j => u_grad i j + eye i j).
Section Rve.
Context {V : Type}.
Variable F : fem V.
Let nq := num_quads (f_ele F).
Variables (g : ms_args) (info : dns).
Definition moduli_at (c q : nat) : R * R := compute_moduli g info (physical_quad_point F c q).
(** internal_vars['laplace'] = [E, nu], custom_init, 19-28 *)
Definition moduli_vars : internal_vars R :=
  mkIv [] [map (fun c q => fst (moduli_at c q)) (seq 0 (num_cells F));
           map (fun c q => snd (moduli_at c q)) (seq 0 (num_cells F))] None (fun _ => []).
(** compute_energy, 117-126; u_grads as in core.py. In mode 'rve' stress_strain_fns adds H_bar. *)
Definition compute_energy_rve (H_bar : mat) (sol : nodal) : R :=
  sumN (num_cells F) (fun c => sumN nq (fun q =>
    psi_E (fst (moduli_at c q)) (snd (moduli_at c q)) (fun i j => sol_to_grad F sol c q i j + eye i j + H_bar i j) * JxW F c q)).
Definition compute_energy_dns (sol : nodal) : R :=
  sumN (num_cells F) (fun c => sumN nq (fun q =>
    psi_E (fst (moduli_at c q)) (snd (moduli_at c q)) (fun i j => sol_to_grad F sol c q i j + eye i j) * JxW F c q)).
Definition compute_energy_nn (nn : (nat -> R) -> R) (sol : nodal) : R :=
  sumN (num_cells F) (fun c => sumN nq (fun q => psi_nn nn (fun i j => sol_to_grad F sol c q i j + eye i j) * JxW F c q)).
(** fluc_to_disp, 128-130 *)
Definition fluc_to_disp (H_bar : mat) (sol_fluc : nodal) : nodal :=
  fun n i => sumN 3 (fun j => H_bar i j * points F n j) + sol_fluc n i.
End Rve.
(** compute_traction, 162-185: the moduli used on the faces in mode 'dns' *)
Definition traction_moduli (g : ms_args) (dns_info : dns) : R * R :=
  match dns_info with AllIn => (E_in g, nu_in g) | _ => (E_out g, nu_out g) end.
Definition dns_traction {V : Type} (F : fem V) (g : ms_args) (dns_info : dns) (P_fn : R -> R -> mat -> mat)
    (location_fn : point -> bool) (sol : nodal) : nat -> R :=
  let stress := dns_tensor_map P_fn [fst (traction_moduli g dns_info); snd (traction_moduli g dns_info)] in
  surface_integral F location_fn (fun u_grads j p k => stress (u_grads j p) k 2%nat) sol.

(** ** rve_problem, rve.py:21-87: np.isclose(a, b, atol=1e-5) with the default rtol = 1e-5 *)
Definition isclose (a b : R) : bool := Rleb (Rabs (a - b)) (/ 100000 + / 100000 * Rabs b).
Definition on_plane (d : nat) (x : R) (p : point) : bool := isclose (p d) x.
Definition corner (p : point) : bool := isclose (norm_dim 3 p) 0.
Definition mapping (d : nat) (len : R) (p : point) : point := fun k => if Nat.eqb k d then p k + len else p k.
Definition rve_dirichlet : list (point -> bool) * list nat * list (point -> R) :=
  ([corner; corner; corner], [0; 1; 2]%nat, [fun _ => 0; fun _ => 0; fun _ => 0]).
Definition rve_periodic (len : R) : list ((point -> bool) * (point -> bool) * (point -> point) * nat) :=
  flat_map (fun d => map (fun v => (on_plane d 0, on_plane d len, mapping d len, v)) [0; 1; 2]%nat) [0; 1; 2]%nat.

(** ** solve_rve_problem, 133-147. [solve H_bar] is solver(problem) with problem.H_bar = H_bar (the solver
    starts from zero and keeps no state), [energy] is compute_energy, [isnan] the test of its result. *)
Section Collect.
Context {Sol : Type}.
Variables (solve : mat -> Sol) (energy : mat -> Sol -> R) (isnan : R -> bool).
Definition ratios : list R := [/ 4; / 2; 3 / 4; 9 / 10; 1].
Definition solve_rve_problem (sample_H_bar : nat -> R) : Sol * R :=
  let base := flat_to_tensor sample_H_bar in
  let sol_fluc := solve base in
  let e := energy base sol_fluc in
  if isnan e then
    let '(H_bar, sol_fluc) := fold_left (fun _ r => let H := fun i j => r * base i j in (H, solve H)) ratios (base, sol_fluc) in
    (sol_fluc, energy H_bar sol_fluc)
  else (sol_fluc, e).
(** collect_data, 162-200, in a directory that holds only the result files: [done] are the samples with
    a .npy file. [choose todo] is onp.random.choice. None: still running. Result: the files written,
    newest first. *)
Variables (samples : list (nat -> R)) (choose : nat -> list nat -> nat).
Definition run_one (i : nat) : bool := negb (isnan (snd (solve_rve_problem (nth i samples (fun _ => 0))))).
Fixpoint collect_data (fuel : nat) (finished : list nat) : option (list nat) :=
  let todo := filter (fun i => negb (existsb (Nat.eqb i) finished)) (seq 0 (length samples)) in
  match todo with
  | [] => Some finished
  | _ => match fuel with
         | 0%nat => None
         | S fuel => let i := choose fuel todo in collect_data fuel (if run_one i then i :: finished else finished)
         end
  end.
End Collect.

(** ** trainer.py *)
(** H_to_C, 22-27 *)
Definition H_to_C (H_flat : nat -> R) : (nat -> R) * mat :=
  let Fd := fun i j => flat_to_tensor H_flat i j + eye i j in
  let C := matmul 3 (transpose Fd) Fd in
  (tensor_to_flat C, C).
(** shuffle_data, 79-92; int(0.8*n) is the integer part (of the exact product here); [inds] is the
    random permutation *)
Definition cut (num den n : nat) : nat := (num * n / den)%nat.
Definition shuffle_data {X : Type} (d : X) (data : list X) (inds : list nat) : list X * list X * list X :=
  let n1 := cut 8 10 (length data) in
  let n2 := cut 9 10 (length data) in
  let take l := map (fun i => nth i data d) l in
  (take (firstn n1 inds), take (firstn (n2 - n1) (skipn n1 inds)), take (skipn n2 inds)).
(** min_max_scale, 95-96; None stands for inf or nan *)
Definition minl (l : list R) : R := match l with [] => 0 | x :: r => fold_left Rmin r x end.
Definition maxl (l : list R) : R := match l with [] => 0 | x :: r => fold_left Rmax r x end.
Definition div_finite (x y : R) : option R := if Reqb y 0 then None else Some (x / y).
Definition min_max_scale (x : R) (train_y : list R) : option R := div_finite (x - minl train_y) (maxl train_y - minl train_y).
(** the percent error of one sample in evaluate_errors, 99-110 *)
Definition percent_error (true_val pred : R) (train_y : list R) : option R :=
  match min_max_scale true_val train_y, min_max_scale pred train_y with
  | Some t, Some p => option_map Rabs (div_finite (Rabs (t - p)) t)
  | _, _ => None
  end.
(** poly_psi, 125-160: the terms of the ansatz *)
Definition I1_fn (C : mat) : R := trace 3 C.
Definition I2_fn (C : mat) : R := / 2 * (trace 3 C ^ 2 - trace 3 (matmul 3 C C)).
Definition I3_fn (C : mat) : R := det 3 C.
Definition I1_bar_fn (C : mat) : R := Rpower (I3_fn C) (- 1 / 3) * I1_fn C.
Definition I2_bar_fn (C : mat) : R := Rpower (I3_fn C) (- 2 / 3) * I2_fn C.
Definition poly_psi (C : mat) : list R :=
  tl (flat2 3 3 (fun i j => (I2_bar_fn C - 3) ^ i * (I1_bar_fn C - 3) ^ j)
      ++ map (fun k => (sqrt (I3_fn C) - 3) ^ (2 * k)) (seq 1 2)).
(** ** homogenization_problem, deploy.py:53-124: bottom and top held, the top moved by rel * height, where
    height = num_units_z * L *)
Definition tensile_dirichlet (height rel : R) : list (point -> bool) * list nat * list (point -> R) :=
  ([on_plane 2 0; on_plane 2 0; on_plane 2 0; on_plane 2 height; on_plane 2 height; on_plane 2 height],
   [0; 1; 2; 0; 1; 2]%nat,
   [fun _ => 0; fun _ => 0; fun _ => 0; fun _ => 0; fun _ => 0; fun _ => rel * height]).
(** the recorded curve. [solve] is solver after
    update_Dirichlet_boundary_conditions with the displacement rel * num_units_z * L of the top. *)
Definition tensile {Sol : Type} (solve : R -> Sol) (energy : Sol -> R) (force : Sol -> R) (sol0 : Sol) : list (R * (R * R)) :=
  let rel_disps := linspace 0 (/ 10) 11 in
  let energies := energy sol0 :: map (fun r => energy (solve r)) (tl rel_disps) in
  let forces := force sol0 :: map (fun r => force (solve r)) (tl rel_disps) in
  combine rel_disps (combine energies forces).
Close Scope R_scope.
