(** * Model of jax_am/fem/core.py (class FEM). Definitions only.
    Reals for floats. Arrays are functions of their indices (only indices within the shape matter),
    except where the code concatenates, slices or scatters: there they are lists. A point is a
    function of the coordinate number; a nodal solution is a function of (node, component).
    [V] is the type of the values of internal variables at a quadrature point. *)
From Verif Require Import Prelude.
Open Scope R_scope.

(** np.sum along an axis of length n *)
Definition sumN (n : nat) (f : nat -> R) : R := sumR (seq 0 n) f.
Definition point : Type := nat -> R.
Definition mat : Type := nat -> nat -> R.
Definition nodal : Type := nat -> nat -> R.

(** numpy.linalg.det / inv of a d x d matrix, d = 1, 2, 3 (the dimensions an element type of
    basis.py can have are 2 and 3): cofactor formulas. numpy's inv raises LinAlgError when the
    matrix is singular; that test is made in [get_shape_grads]. *)
Definition det (d : nat) (M : mat) : R :=
  match d with
  | 1%nat => M 0%nat 0%nat
  | 2%nat => M 0%nat 0%nat * M 1%nat 1%nat - M 0%nat 1%nat * M 1%nat 0%nat
  | 3%nat => M 0%nat 0%nat * (M 1%nat 1%nat * M 2%nat 2%nat - M 1%nat 2%nat * M 2%nat 1%nat)
         - M 0%nat 1%nat * (M 1%nat 0%nat * M 2%nat 2%nat - M 1%nat 2%nat * M 2%nat 0%nat)
         + M 0%nat 2%nat * (M 1%nat 0%nat * M 2%nat 1%nat - M 1%nat 1%nat * M 2%nat 0%nat)
  | _ => 0
  end.
Definition adj (d : nat) (M : mat) (i j : nat) : R :=
  match d with
  | 1%nat => 1
  | 2%nat => match i, j with
         | 0%nat, 0%nat => M 1%nat 1%nat | 0%nat, 1%nat => - M 0%nat 1%nat | 1%nat, 0%nat => - M 1%nat 0%nat | 1%nat, 1%nat => M 0%nat 0%nat | _, _ => 0
         end
  | 3%nat => match i, j with
         | 0%nat, 0%nat => M 1%nat 1%nat * M 2%nat 2%nat - M 1%nat 2%nat * M 2%nat 1%nat
         | 0%nat, 1%nat => M 0%nat 2%nat * M 2%nat 1%nat - M 0%nat 1%nat * M 2%nat 2%nat
         | 0%nat, 2%nat => M 0%nat 1%nat * M 1%nat 2%nat - M 0%nat 2%nat * M 1%nat 1%nat
         | 1%nat, 0%nat => M 1%nat 2%nat * M 2%nat 0%nat - M 1%nat 0%nat * M 2%nat 2%nat
         | 1%nat, 1%nat => M 0%nat 0%nat * M 2%nat 2%nat - M 0%nat 2%nat * M 2%nat 0%nat
         | 1%nat, 2%nat => M 0%nat 2%nat * M 1%nat 0%nat - M 0%nat 0%nat * M 1%nat 2%nat
         | 2%nat, 0%nat => M 1%nat 0%nat * M 2%nat 1%nat - M 1%nat 1%nat * M 2%nat 0%nat
         | 2%nat, 1%nat => M 0%nat 1%nat * M 2%nat 0%nat - M 0%nat 0%nat * M 2%nat 1%nat
         | 2%nat, 2%nat => M 0%nat 0%nat * M 1%nat 1%nat - M 0%nat 1%nat * M 1%nat 0%nat
         | _, _ => 0
         end
  | _ => 0
  end.
Definition inv (d : nat) (M : mat) (i j : nat) : R := adj d M i j / det d M.

(** The tables returned by basis.get_shape_vals_and_grads and get_face_shape_vals_and_grads
    (basix is external); shapes as documented in basis.py:107-115 and 129-141. *)
Record ele : Type := mkEle
  { e_dim : nat; num_quads : nat; num_nodes : nat; num_face_quads : nat;
    shape_vals : nat -> nat -> R;                        (* quad, node *)
    shape_grads_ref : nat -> nat -> nat -> R;            (* quad, node, dim *)
    quad_weights : nat -> R;
    face_shape_vals : nat -> nat -> nat -> R;            (* face, face quad, node *)
    face_shape_grads_ref : nat -> nat -> nat -> nat -> R; (* face, face quad, node, dim *)
    face_quad_weights : nat -> nat -> R;
    face_normals : nat -> nat -> R;
    face_inds : list (list nat) }.                       (* face -> local nodes *)

Section Fem.
Context {V : Type}.

(** The fields of class FEM (core.py:83-92) used here. [tensor_map]/[mass_map]: None means that the
    subclass has no get_tensor_map / get_mass_map (hasattr tests, lines 579 and 586). Internal
    variables come first: in the code they are the trailing arguments. *)
Record fem : Type := mkFem
  { f_ele : ele; num_total_nodes : nat; points : nat -> point; cells : list (list nat); vec : nat;
    tensor_map : option (list V -> mat -> mat);
    mass_map : option (list V -> (nat -> R) -> nat -> R);
    body_map : (nat -> R) -> nat -> R;
    source_info : option (point -> nat -> R);
    neumann_bc_info : option (list (point -> list V -> nat -> R));
    cauchy_bc_info : option (list (point -> bool) * list ((nat -> R) -> nat -> R)) }.

Variable F : fem.
Let E := f_ele F.
Definition dim : nat := e_dim E.
Definition num_cells : nat := length (cells F).
(** self.cells[c, a] *)
Definition cell_node (c a : nat) : nat := nth a (nth c (cells F) []) 0%nat.

(** onp.take(self.points, self.cells, axis=0), core.py:156 *)
Definition physical_coos (c a : nat) : point := points F (cell_node c a).

(** ** get_shape_grads, core.py:141-171. The assertion of line 154 is about table shapes. *)
Definition jacobian_dx_deta (c q i j : nat) : R :=
  sumN (num_nodes E) (fun a => physical_coos c a i * shape_grads_ref E q a j).
Definition jacobian_det (c q : nat) : R := det dim (jacobian_dx_deta c q).
Definition jacobian_deta_dx (c q : nat) : mat := inv dim (jacobian_dx_deta c q).
Definition shape_grads (c q a j : nat) : R :=
  sumN dim (fun i => shape_grads_ref E q a i * jacobian_deta_dx c q i j).
Definition JxW (c q : nat) : R := jacobian_det c q * quad_weights E q.
Definition get_shape_grads : res ((nat -> nat -> nat -> nat -> R) * (nat -> nat -> R)) :=
  if existsb (fun c => existsb (fun q => Reqb (jacobian_det c q) 0) (seq 0 (num_quads E))) (seq 0 num_cells)
  then Err LinAlgError else Ok (shape_grads, JxW).
(** core.py:119-121 *)
Definition v_grads_JxW (c q a d : nat) : R := shape_grads c q a d * JxW c q.

(** ** get_face_shape_grads, core.py:173-226; one selected face (cell, local face). *)
Definition face_jacobian (s : nat * nat) (p i j : nat) : R :=
  sumN (num_nodes E) (fun a => physical_coos (fst s) a i * face_shape_grads_ref E (snd s) p a j).
Definition face_shape_grads (s : nat * nat) (p a j : nat) : R :=
  sumN dim (fun i => face_shape_grads_ref E (snd s) p a i * inv dim (face_jacobian s p) i j).
Definition nanson_scale (s : nat * nat) (p : nat) : R :=
  sqrt (sumN dim (fun j => (sumN dim (fun i => face_normals E (snd s) i * inv dim (face_jacobian s p) i j)) ^ 2))
  * det dim (face_jacobian s p) * face_quad_weights E (snd s) p.

(** get_physical_quad_points, core.py:228-241, and on the surface, 243-267 *)
Definition physical_quad_point (c q : nat) : point :=
  fun d => sumN (num_nodes E) (fun a => shape_vals E q a * physical_coos c a d).
Definition surface_quad_point (s : nat * nat) (p : nat) : point :=
  fun d => sumN (num_nodes E) (fun a => face_shape_vals E (snd s) p a * physical_coos (fst s) a d).

(** ** Dirichlet_boundary_conditions, core.py:269-302. dirichlet_bc_info = (location_fns, vecs,
    value_fns) or None; lists of different lengths fail the assertion. *)
Definition Dirichlet_boundary_conditions
    (info : option (list (point -> bool) * list nat * list (point -> R)))
    : res (list (list nat) * list (list nat) * list (list R)) :=
  match info with
  | None => Ok ([], [], [])
  | Some (location_fns, vecs, value_fns) =>
    if Nat.eqb (length location_fns) (length value_fns) && Nat.eqb (length value_fns) (length vecs) then
      let node_inds i := argwhere (nth i location_fns (fun _ => false)) (map (points F) (seq 0 (num_total_nodes F))) in
      let r := seq 0 (length location_fns) in
      Ok (map node_inds r,
          map (fun i => map (fun _ => nth i vecs 0%nat) (node_inds i)) r,
          map (fun i => map (fun n => nth i value_fns (fun _ => 0) (points F n)) (node_inds i)) r)
    else Err AssertionError
  end.

(** ** periodic_boundary_conditions, core.py:315-350. Lists of unequal lengths are not modelled
    (an IndexError or ignored entries). onp.array of a ragged list raises ValueError (numpy >= 1.24). *)
Definition norm_dim (d : nat) (x : point) : R := sqrt (sumN d (fun i => x i ^ 2)).
Definition EPS : R := / 100000.
Definition periodic_pair (A B : point -> bool) (mapping : point -> point) : res (list nat * list nat) :=
  let pts := map (points F) (seq 0 (num_total_nodes F)) in
  let node_inds_A := argwhere A pts in
  let node_inds_B := argwhere B pts in
  let ordered := map (fun node_ind =>
       filter (fun b => Rltb (norm_dim dim (fun i => mapping (points F node_ind) i - points F b i)) EPS) node_inds_B)
     node_inds_A in
  if forallb (fun l => Nat.eqb (length l) (length (hd [] ordered))) ordered then
    let node_inds_B_ordered := concat ordered in
    if Nat.eqb (length node_inds_A) (length node_inds_B_ordered) then Ok (node_inds_A, node_inds_B_ordered)
    else Err AssertionError
  else Err ValueError.
Definition periodic_boundary_conditions (info : list ((point -> bool) * (point -> bool) * (point -> point) * nat))
    : res (list (list nat * list nat * list nat)) :=
  mapM (fun t => let '(A, B, mapping, v) := t in
     bind (periodic_pair A B mapping) (fun ab => Ok (fst ab, snd ab, map (fun _ => v) (fst ab)))) info.

(** ** get_boundary_conditions_inds, core.py:352-386, for one location function; also
    generate_mesh.Mesh.count_selected_faces, generate_mesh.py:25-54. argwhere on a 2-D array lists
    the true positions in lexicographic order. *)
Definition boundary_flag (location_fn : point -> bool) (c f : nat) : bool :=
  forallb (fun a => location_fn (physical_coos c a)) (nth f (face_inds E) []).
Definition boundary_inds (location_fn : point -> bool) : list (nat * nat) :=
  filter (fun s => boundary_flag location_fn (fst s) (snd s))
         (flat2 num_cells (length (face_inds E)) (fun c f => (c, f))).
Definition get_boundary_conditions_inds (location_fns : list (point -> bool)) : list (list (nat * nat)) :=
  map boundary_inds location_fns.
Definition count_selected_faces (location_fn : point -> bool) : nat := length (boundary_inds location_fn).

(** ** Scatter-add: a.at[idx].add(rows). Rows are functions of the component. Out-of-range indices
    are never read (JAX drops them). *)
Definition zeros : nodal := fun _ _ => 0.
Definition scatter_add (a : nodal) (upd : list (nat * (nat -> R))) : nodal :=
  fold_left (fun a u => fun n k => if Nat.eqb n (fst u) then a n k + snd u k else a n k) upd a.
(** x.reshape(-1, vec) of per-cell (num_nodes, vec) blocks *)
Definition rows (blocks : list nodal) : list (nat -> R) := flat_map (fun b => map b (seq 0 (num_nodes E))) blocks.

(** ** compute_body_force_by_fn, core.py:439-466 *)
Definition compute_body_force_by_fn : nodal :=
  match source_info F with
  | None => zeros
  | Some fn =>
    let rhs_vals c a k := sumN (num_quads E) (fun q =>
          shape_vals E q a * fn (physical_quad_point c q) k * JxW c q) in
    scatter_add zeros (combine (concat (cells F)) (rows (map rhs_vals (seq 0 num_cells))))
  end.

(** ** compute_Neumann_integral_vars, core.py:388-428. [inds] is self.neumann_boundary_inds_list;
    int_vars i is internal_vars['neumann'][i] (a list of arrays indexed by selected face and face
    quadrature point), [] when the key is absent. A missing value function is an IndexError. *)
Definition neumann_one (fn : point -> list V -> nat -> R) (vars : list (nat -> nat -> V)) (sel : list (nat * nat)) : list (nat * (nat -> R)) :=
  let int_vals (js : nat * (nat * nat)) (a k : nat) := sumN (num_face_quads E) (fun p =>
        face_shape_vals E (snd (snd js)) p a
        * fn (surface_quad_point (snd js) p) (map (fun v => v (fst js) p) vars) k
        * nanson_scale (snd js) p) in
  combine (concat (map (fun s => nth (fst s) (cells F) []) sel))
          (rows (map int_vals (combine (seq 0 (length sel)) sel))).
Fixpoint neumann_loop (fns : list (point -> list V -> nat -> R)) (vars : nat -> list (nat -> nat -> V)) (i : nat)
    (inds : list (list (nat * nat))) (integral : nodal) : res nodal :=
  match inds with
  | [] => Ok integral
  | sel :: r =>
    match nth_error fns i with
    | None => Err IndexError
    | Some fn => neumann_loop fns vars (S i) r (scatter_add integral (neumann_one fn (vars i) sel))
    end
  end.
Definition compute_Neumann_integral_vars (inds : list (list (nat * nat))) (vars : nat -> list (nat -> nat -> V)) : res nodal :=
  match neumann_bc_info F with
  | None => Ok zeros
  | Some fns => neumann_loop fns vars 0 inds zeros
  end.

(** ** Kernels *)
(** get_laplace_kernel, core.py:492-510 *)
Definition laplace_kernel (tm : list V -> mat -> mat) (cell_sol : nodal) (cell_shape_grads cell_v_grads_JxW : nat -> nat -> nat -> R)
    (vars : list (nat -> V)) : nodal :=
  let u_grads q i d := sumN (num_nodes E) (fun a => cell_sol a i * cell_shape_grads q a d) in
  let u_physics q := tm (map (fun v => v q) vars) (u_grads q) in
  fun a i => sumN (num_quads E) (fun q => sumN dim (fun d => u_physics q i d * cell_v_grads_JxW q a d)).
(** get_mass_kernel, core.py:512-525 *)
Definition mass_kernel (mm : list V -> (nat -> R) -> nat -> R) (cell_sol : nodal) (cell_JxW : nat -> R) (vars : list (nat -> V)) : nodal :=
  let u q i := sumN (num_nodes E) (fun a => cell_sol a i * shape_vals E q a) in
  let u_physics q := mm (map (fun v => v q) vars) (u q) in
  fun a i => sumN (num_quads E) (fun q => u_physics q i * shape_vals E q a * cell_JxW q).
(** get_cauchy_kernel, core.py:527-540 *)
Definition cauchy_kernel (cm : (nat -> R) -> nat -> R) (cell_sol : nodal) (fsv : nat -> nat -> R) (scale : nat -> R) : nodal :=
  let u p i := sumN (num_nodes E) (fun a => cell_sol a i * fsv p a) in
  fun a i => sumN (num_face_quads E) (fun p => cm (u p) i * fsv p a * scale p).
(** the kernel of get_kernel_fn_cell, core.py:577-595 *)
Definition kernel (cell_sol : nodal) (g : nat -> nat -> nat -> R) (w : nat -> R) (vg : nat -> nat -> nat -> R)
    (mass_vars lap_vars : list (nat -> V)) : nodal :=
  fun a i => (match tensor_map F with Some tm => laplace_kernel tm cell_sol g vg lap_vars a i | None => 0 end)
           + (match mass_map F with Some mm => mass_kernel mm cell_sol w mass_vars a i | None => 0 end).

(** ** split_and_compute_cell, core.py:555-665. The input collection is sliced leaf by leaf; every
    leaf has one entry per cell. jax.vmap raises ValueError when the leading sizes differ. *)
Record inputs : Type := mkInputs
  { in_sol : list nodal; in_grads : list (nat -> nat -> nat -> R); in_JxW : list (nat -> R);
    in_vg : list (nat -> nat -> nat -> R); in_mass : list (list (nat -> V)); in_lap : list (list (nat -> V)) }.
Definition tree_map (f : forall X, list X -> list X) (x : inputs) : inputs :=
  mkInputs (f _ (in_sol x)) (f _ (in_grads x)) (f _ (in_JxW x)) (f _ (in_vg x))
           (map (f _) (in_mass x)) (map (f _) (in_lap x)).
(** jax.vmap(fn)( *inputs ) *)
Definition vmap_fn {B : Type} (fn : nodal -> (nat -> nat -> nat -> R) -> (nat -> R) -> (nat -> nat -> nat -> R) -> list (nat -> V) -> list (nat -> V) -> B)
    (x : inputs) : res (list B) :=
  let n := length (in_sol x) in
  let same {X} (l : list X) := Nat.eqb (length l) n in
  if same (in_grads x) && same (in_JxW x) && same (in_vg x)
     && forallb (fun l => same l) (in_mass x) && forallb (fun l => same l) (in_lap x)
  then mapM (fun i =>
         match nth_error (in_sol x) i, nth_error (in_grads x) i, nth_error (in_JxW x) i, nth_error (in_vg x) i,
               mapM (fun l => match nth_error l i with Some v => Ok v | None => Err IndexError end) (in_mass x),
               mapM (fun l => match nth_error l i with Some v => Ok v | None => Err IndexError end) (in_lap x) with
         | Some s, Some g, Some w, Some vg, Ok mv, Ok lv => Ok (fn s g w vg mv lv)
         | _, _, _, _, _, _ => Err IndexError
         end) (seq 0 n)
  else Err ValueError.
(** lines 609-612 and the two loops 621-638 / 653-664; x[i*b:(i+1)*b] and x[i*b:]; the results of
    the batches are stacked. With the Jacobian flag fn returns a pair and the two components are
    stacked separately. No cell at all: division by zero in line 612. *)
Definition split_and_compute_cell {B : Type} fn (x : inputs) : res (list B) :=
  let num_cuts := if Nat.ltb num_cells 20 then num_cells else 20%nat in
  if Nat.eqb num_cuts 0 then Err ZeroDivisionError else
  let batch_size := (num_cells / num_cuts)%nat in
  bind (mapM (fun i =>
          vmap_fn fn (tree_map (if Nat.ltb i (num_cuts - 1)
                                then fun _ l => firstn ((i + 1) * batch_size - i * batch_size) (skipn (i * batch_size) l)
                                else fun _ l => skipn (i * batch_size) l) x))
        (seq 0 num_cuts))
       (fun values => Ok (concat values)).
Definition split_and_compute_cell_jac {B C : Type} fn (x : inputs) : res (list B * list C) :=
  bind (split_and_compute_cell fn x) (fun l => Ok (map fst l, map snd l)).

(** sol[self.cells], and the input collection of lines 613-616 *)
Definition cells_sol (sol : nodal) (c : nat) : nodal := fun a k => sol (cell_node c a) k.
Definition the_inputs (sol : nodal) (mass_vars lap_vars : list (list (nat -> V))) : inputs :=
  let r := seq 0 num_cells in
  mkInputs (map (cells_sol sol) r) (map shape_grads r) (map JxW r) (map v_grads_JxW r) mass_vars lap_vars.

(** ** compute_face, core.py:667-708 *)
Definition cauchy_values (sol : nodal) (cm : (nat -> R) -> nat -> R) (s : nat * nat) : nodal :=
  cauchy_kernel cm (cells_sol sol (fst s)) (face_shape_vals E (snd s)) (nanson_scale s).
(** pairs (selected faces of one condition, its value function) *)
Definition cauchy_selection (locs : list (point -> bool)) (fns : list ((nat -> R) -> nat -> R)) : list ((nat * nat) * ((nat -> R) -> nat -> R)) :=
  flat_map (fun lf => map (fun s => (s, snd lf)) (boundary_inds (fst lf))) (combine locs fns).
Definition compute_face (sol : nodal) (locs : list (point -> bool)) (fns : list ((nat -> R) -> nat -> R)) : list nodal * list (list nat) :=
  let sel := cauchy_selection locs fns in
  (map (fun x => cauchy_values sol (snd x) (fst x)) sel, map (fun x => nth (fst (fst x)) (cells F) []) sel).

(** ** compute_body_force_by_sol, core.py:468-490 *)
Definition compute_body_force_by_sol (sol : nodal) : nodal :=
  scatter_add zeros (combine (concat (cells F))
    (rows (map (fun c => mass_kernel (fun _ => body_map F) (cells_sol sol c) (JxW c) []) (seq 0 num_cells)))).

(** internal_vars: the four reserved keys (absent 'mass'/'laplace' are [()]: no variable). *)
Record internal_vars : Type := mkIv
  { iv_mass : list (list (nat -> V)); iv_laplace : list (list (nat -> V)); iv_body : option nodal;
    iv_neumann : nat -> list (nat -> nat -> V) }.

(** ** compute_residual_vars_helper, core.py:779-801 *)
Definition add_cauchy (sol : nodal) (r : nodal) : nodal :=
  match cauchy_bc_info F with
  | None => r
  | Some (locs, fns) => let '(values, selected) := compute_face sol locs fns in
                        scatter_add r (combine (concat selected) (rows values))
  end.
Definition compute_residual_vars_helper (inds : list (list (nat * nat))) (sol : nodal) (weak_form : list nodal) (iv : internal_vars) : res nodal :=
  let r := scatter_add zeros (combine (concat (cells F)) (rows weak_form)) in
  let r := add_cauchy sol r in
  let body_force := match iv_body iv with
                    | Some b => compute_body_force_by_sol b
                    | None => compute_body_force_by_fn
                    end in
  bind (compute_Neumann_integral_vars inds (iv_neumann iv)) (fun neumann =>
  Ok (fun n k => r n k - body_force n k - neumann n k)).
(** compute_residual_vars, core.py:803-810 *)
Definition compute_residual_vars (inds : list (list (nat * nat))) (sol : nodal) (iv : internal_vars) : res nodal :=
  bind (split_and_compute_cell kernel (the_inputs sol (iv_mass iv) (iv_laplace iv))) (fun weak_form =>
  compute_residual_vars_helper inds sol weak_form iv).

(** ** compute_newton_vars, core.py:812-848. [jac] is what jax.jacfwd returns for the cell kernel
    and [cjac] for the face kernel: arrays indexed by (node, component, node, component). *)
Definition jac4 : Type := nat -> nat -> nat -> nat -> R.
Definition inds_of (conn : list nat) : list nat := flat_map (fun n => map (fun i => (vec F * n + i)%nat) (seq 0 (vec F))) conn.
Definition block_I (conn : list nat) : list nat :=
  flat_map (fun i => repeat i (num_nodes E * vec F)) (inds_of conn).
Definition block_J (conn : list nat) : list nat :=
  concat (repeat (inds_of conn) (num_nodes E * vec F)).
Definition block_V (j : jac4) : list R :=
  flat_map (fun a => flat_map (fun i => flat_map (fun b => map (fun l => j a i b l) (seq 0 (vec F))) (seq 0 (num_nodes E))) (seq 0 (vec F))) (seq 0 (num_nodes E)).
Definition newton_IJV (cells_jac : list jac4) (sel : list (list nat)) (face_jacs : list jac4) : list nat * list nat * list R :=
  (flat_map block_I (cells F) ++ flat_map block_I sel,
   flat_map block_J (cells F) ++ flat_map block_J sel,
   flat_map block_V cells_jac ++ flat_map block_V face_jacs).
Definition compute_newton_vars (inds : list (list (nat * nat))) (sol : nodal) (iv : internal_vars)
    (jac : nodal -> (nat -> nat -> nat -> R) -> (nat -> R) -> (nat -> nat -> nat -> R) -> list (nat -> V) -> list (nat -> V) -> jac4)
    (cjac : ((nat -> R) -> nat -> R) -> nodal -> (nat -> nat -> R) -> (nat -> R) -> jac4)
    : res (nodal * (list nat * list nat * list R)) :=
  bind (split_and_compute_cell_jac (fun s g w vg mv lv => (kernel s g w vg mv lv, jac s g w vg mv lv))
          (the_inputs sol (iv_mass iv) (iv_laplace iv))) (fun wj =>
  let face := match cauchy_bc_info F with
              | None => ([], [])
              | Some (locs, fns) =>
                let sel := cauchy_selection locs fns in
                (map (fun x => nth (fst (fst x)) (cells F) []) sel,
                 map (fun x => cjac (snd x) (cells_sol sol (fst (fst x))) (face_shape_vals E (snd (fst x))) (nanson_scale (fst x))) sel)
              end in
  bind (compute_residual_vars_helper inds sol (fst wj) iv) (fun r =>
  Ok (r, newton_IJV (snd wj) (fst face) (snd face)))).

(** sol_to_grad, core.py:758-777; convert_from_dof_to_quad, 710-729 *)
Definition sol_to_grad (sol : nodal) (c q i d : nat) : R :=
  sumN (num_nodes E) (fun a => sol (cell_node c a) i * shape_grads c q a d).
Definition convert_from_dof_to_quad (sol : nodal) (c q i : nat) : R :=
  sumN (num_nodes E) (fun a => sol (cell_node c a) i * shape_vals E q a).
(** convert_neumann_from_dof, core.py:731-756, for the selected face s *)
Definition convert_neumann_from_dof (sol : nodal) (s : nat * nat) (p i : nat) : R :=
  sumN (num_nodes E) (fun a => sol (cell_node (fst s) a) i * face_shape_vals E (snd s) p a).
End Fem.

Arguments fem V : clear implicits.
Arguments internal_vars V : clear implicits.
Arguments inputs V : clear implicits.

(** scipy.sparse.csr_array((V, (I, J)), shape): repeated positions add up; solver.py:306-308 *)
Definition coo_entry (IJV : list nat * list nat * list R) (r c : nat) : R :=
  let '(Ii, Jj, Vv) := IJV in
  sumR (combine (combine Ii Jj) Vv) (fun t => if Nat.eqb (fst (fst t)) r && Nat.eqb (snd (fst t)) c then snd t else 0).
(** A_sp @ x *)
Definition coo_mul (n : nat) (IJV : list nat * list nat * list R) (x : nat -> R) (r : nat) : R :=
  sumN n (fun c => coo_entry IJV r c * x c).
Close Scope R_scope.
