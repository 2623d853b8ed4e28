(** * Model of applications/fem/thermal: models.py, the loops of thin_wall.py and bare_plate.py.
    Definitions only. Index arrays are lists of naturals (no entry is negative), boolean tables
    lists of booleans. A face is a pair (cell, local face). *)
From Verif Require Import Prelude FemModel.
Open Scope R_scope.

Definition face : Type := (nat * nat)%type.
Definition face_dec (s t : face) : {s = t} + {s <> t}.
Proof. decide equality; apply Nat.eq_dec. Defined.
Definition face_eqb (s t : face) : bool := Nat.eqb (fst s) (fst t) && Nat.eqb (snd s) (snd t).
(** onp.sort of a row *)
Fixpoint insert_nat (x : nat) (l : list nat) : list nat :=
  match l with [] => [x] | y :: r => if Nat.leb x y then x :: y :: r else y :: insert_nat x r end.
Fixpoint sort_nat (l : list nat) : list nat :=
  match l with [] => [] | x :: r => insert_nat x (sort_nat r) end.
(** a[idx] and a[idx] = vals of numpy: an index past the end raises IndexError; of repeated indices
    the last assignment wins *)
Definition take {X : Type} (l : list X) (idx : list nat) : res (list X) :=
  mapM (fun i => match nth_error l i with Some x => Ok x | None => Err IndexError end) idx.
Definition set_at {X : Type} (l : list X) (i : nat) (x : X) : list X := firstn i l ++ x :: skipn (S i) l.
Definition put {X : Type} (l : list X) (idx : list nat) (vals : list X) : res (list X) :=
  if forallb (fun i => Nat.ltb i (length l)) idx then
    Ok (fold_left (fun a u => set_at a (fst u) (snd u)) (combine idx vals) l)
  else Err IndexError.

(** ** The face table. hash_map is an association list (at most one entry per key). *)
Record tables : Type := mkTables
  { hash_map : list (list nat * face); inner_faces : list face; all_faces : list face }.
Fixpoint lookup (key : list nat) (m : list (list nat * face)) : option face :=
  match m with
  | [] => None
  | (k, s) :: r => if list_eq_dec Nat.eq_dec key k then Some s else lookup key r
  end.
(** one turn of the inner loop, models.py:76-83 *)
Definition add_face (t : tables) (ks : list nat * face) : tables :=
  match lookup (fst ks) (hash_map t) with
  | Some s0 => mkTables (hash_map t) (inner_faces t ++ [s0; snd ks]) (all_faces t ++ [snd ks])
  | None => mkTables (hash_map t ++ [ks]) (inner_faces t) (all_faces t ++ [snd ks])
  end.
Definition keyed (cell_id : nat) (keys : list (list nat)) : list (list nat * face) :=
  combine keys (map (fun f => (cell_id, f)) (seq 0 (length keys))).
(** the outer loop, 74-75 *)
Fixpoint add_cells (tab : list bool) (cells_face : list (list (list nat))) (t : tables) (cell_inds : list nat) : res tables :=
  match cell_inds with
  | [] => Ok t
  | c :: r =>
    match nth_error tab c with
    | None => Err IndexError
    | Some false => add_cells tab cells_face t r
    | Some true =>
      match nth_error cells_face c with
      | None => Err IndexError
      | Some keys => add_cells tab cells_face (fold_left add_face (keyed c keys) t) r
      end
    end
  end.
(** set(all_faces) - set(inner_faces), line 84 *)
Definition face_diff (l m : list face) : list face :=
  filter (fun s => negb (existsb (face_eqb s) m)) (nodup face_dec l).
(** hash_map_for_faces, 71-85. [order] is the order in which Python iterates over the set. *)
Definition hash_map_for_faces (order : list face -> list face) (tab : list bool) (cells_face : list (list (list nat)))
    (t : tables) (cell_inds : list nat) : res (list face * tables) :=
  bind (add_cells tab cells_face t cell_inds) (fun t =>
  Ok (order (face_diff (all_faces t) (inner_faces t)), t)).
(** external_faces[:, 0] = cells_map_full[external_faces[:, 0]], lines 99 and 107: an empty array
    has one axis only and raises IndexError *)
Definition renumber (cells_map_full : list nat) (external_faces : list face) : res (list face) :=
  match external_faces with
  | [] => Err IndexError
  | _ => bind (take cells_map_full (map fst external_faces)) (fun col => Ok (combine col (map snd external_faces)))
  end.
(** full_mesh.cells[:, face_inds], sorted, 92-93 *)
Definition get_cells_face (face_inds : list (list nat)) (cells : list (list nat)) : res (list (list (list nat))) :=
  mapM (fun cell => mapM (fun f => bind (take cell f) (fun l => Ok (sort_nat l))) face_inds) cells.
(** initialize_hash_map, 88-100 *)
Definition initialize_hash_map (order : list face -> list face) (face_inds cells : list (list nat)) (tab : list bool) (cells_map_full : list nat)
    : res (list face * list (list (list nat)) * tables) :=
  bind (get_cells_face face_inds cells) (fun cells_face =>
  bind (hash_map_for_faces order tab cells_face (mkTables [] [] []) (seq 0 (length cells_face))) (fun et =>
  bind (renumber cells_map_full (fst et)) (fun ext => Ok (ext, cells_face, snd et)))).
(** argwhere(old != new), 105, for tables of equal length *)
Definition new_born (old new : list bool) : list nat := argwhere (fun p => negb (Bool.eqb (fst p) (snd p))) (combine old new).
(** update_hash_map, 103-108 *)
Definition update_hash_map (order : list face -> list face) (tab_old tab_new : list bool) (cells_map_full : list nat)
    (cells_face : list (list (list nat))) (t : tables) : res (list face * tables) :=
  bind (hash_map_for_faces order tab_new cells_face t (new_born tab_old tab_new)) (fun et =>
  bind (renumber cells_map_full (fst et)) (fun ext => Ok (ext, snd et))).

(** ** get_active_mesh, 111-125. P is the type of points. *)
Record mesh (P : Type) : Type := mkMesh { m_points : list P; m_cells : list (list nat) }.
Arguments mkMesh {P}. Arguments m_points {P}. Arguments m_cells {P}.
Definition get_active_mesh {P : Type} (m : mesh P) (tab : list bool) : res (mesh P * list nat * list nat) :=
  let active_cell_inds := argwhere (fun b => b) tab in
  let cell_map_active := sort_nat active_cell_inds in
  bind (take (m_cells m) cell_map_active) (fun active_cells =>
  bind (put (repeat 0%nat (length (m_cells m))) cell_map_active (seq 0 (length cell_map_active))) (fun cells_map_full =>
  let flat := concat active_cells in
  bind (put (repeat false (length (m_points m))) flat (repeat true (length flat))) (fun truth =>
  let points_map_active := argwhere (fun b => b) truth in
  bind (put (repeat 0%nat (length (m_points m))) points_map_active (seq 0 (length points_map_active))) (fun points_map_full =>
  bind (mapM (take points_map_full) active_cells) (fun active_cells =>
  let active_points := map snd (filter (fun bp => fst bp) (combine truth (m_points m))) in
  Ok (mkMesh active_points active_cells, points_map_active, cells_map_full)))))).

(** ** thin_wall.py, the laser-on steps 111-139. [keep sol] is the solve (lines 125-133): it gets the
    active mesh, the external faces and the nodal values sol, and returns the new nodal values. *)
Definition centroid_near (rb : R) (laser c : point) : bool :=
  (Rltb (c 2%nat) (laser 2%nat)) && negb (Rltb (rb ^ 2) ((c 0%nat - laser 0%nat) ^ 2 + (c 1%nat - laser 1%nat) ^ 2)).
Definition activate (rb : R) (centroids : list point) (laser : point) (tab : list bool) : list bool :=
  map (fun bc => fst bc || centroid_near rb laser (snd bc)) (combine tab centroids).
Record wall : Type := mkWall { w_tab : list bool; w_tables : tables; w_sol : list R; w_faces : list face }.
Definition wall_step (order : list face -> list face) (rb : R) (full : mesh point) (centroids : list point) (cells_face : list (list (list nat)))
    (solve : mesh point -> list face -> list R -> list R) (w : wall) (laser : point) : res wall :=
  let tab := activate rb centroids laser (w_tab w) in
  bind (get_active_mesh full tab) (fun mpc => let '(active_mesh, points_map_active, cells_map_full) := mpc in
  bind (take (w_sol w) points_map_active) (fun sol =>
  bind (update_hash_map order (w_tab w) tab cells_map_full cells_face (w_tables w)) (fun et =>
  bind (put (w_sol w) points_map_active (solve active_mesh (fst et) sol)) (fun full_sol =>
  Ok (mkWall tab (snd et) full_sol (fst et)))))).
(** lines 49-60 and 81 *)
Definition wall_start (order : list face -> list face) (face_inds : list (list nat)) (full : mesh point) (tab : list bool) : res (wall * list (list (list nat))) :=
  bind (get_active_mesh full tab) (fun mpc => let '(_, _, cells_map_full) := mpc in
  bind (initialize_hash_map order face_inds (m_cells full) tab cells_map_full) (fun r => let '(ext, cells_face, t) := r in
  Ok (mkWall tab t (repeat 300 (length (m_points full))) ext, cells_face))).
Fixpoint wall_steps order rb full centroids cells_face (solves : list (mesh point -> list face -> list R -> list R)) (w : wall) (lasers : list point) : res wall :=
  match lasers, solves with
  | laser :: r, solve :: s => bind (wall_step order rb full centroids cells_face solve w laser) (fun w => wall_steps order rb full centroids cells_face s w r)
  | _, _ => Ok w
  end.

(** ** class Thermal, models.py:11-68 *)
Definition th_tensor_map (vars : list (nat -> R)) (u_grad : mat) : mat := fun i d => 15 * u_grad i d.
Definition th_mass_map (rho Cp dt : R) (T : nat -> R) : nat -> R := fun i => rho * Cp * T i / dt.
Section Thermal.
Context {V : Type}.
Variable F : fem V.
(** np.isclose(z, 0, atol=1e-5) is |z| <= 1e-5 *)
Definition is_top (face_points : list point) : bool :=
  match face_points with
  | [] => true
  | p0 :: _ => forallb (fun p => negb (Rltb (/ 100000) (Rabs (p 2%nat - p0 2%nat)))) face_points && Rltb 0 (p0 2%nat)
  end.
Definition face_points (s : face) : list point :=
  map (fun a => physical_coos F (fst s) a) (nth (snd s) (face_inds (f_ele F)) []).
(** update_Neumann_boundary_inds, 43-68, for n value functions: all external faces for the first, the
    top ones for every other *)
Definition update_Neumann_boundary_inds (external_faces : list face) (n : nat) : list (list face) :=
  map (fun i => if Nat.eqb i 0 then external_faces else filter (fun s => is_top (face_points s)) external_faces) (seq 0 n).
(** update_int_vars, 37-41: the values for the two lists are looked up unconditionally *)
Definition update_int_vars (inds : list (list face)) (old_sol : nodal) : res (internal_vars (nat -> R)) :=
  match nth_error inds 0, nth_error inds 1 with
  | Some top, Some walls =>
    let at_faces sel j p := fun i => convert_neumann_from_dof F old_sol (nth j sel (0, 0)%nat) p i in
    Ok (mkIv [] [] (Some old_sol) (fun i => match i with
       | 0%nat => [at_faces top] | 1%nat => [at_faces walls] | _ => [] end))
  | _, _ => Err IndexError
  end.
End Thermal.
(** custom_init, 12-19: the boundary lists, then the internal variables *)
Definition thermal_init {V : Type} (F : fem V) (external_faces : list face) (old_sol : nodal) : res (list (list face) * internal_vars (nat -> R)) :=
  match neumann_bc_info F with
  | None => Err AttributeError
  | Some fns =>
    let inds := update_Neumann_boundary_inds F external_faces (length fns) in
    bind (update_int_vars F inds old_sol) (fun iv => Ok (inds, iv))
  end.
(** the fluxes of thin_wall.py:65-76 and bare_plate.py:51-62 *)
Definition laser_flux (laser : point) (x : point) (vars : list (nat -> R)) : nat -> R := fun _ =>
  let d2 := (x 0%nat - laser 0%nat) ^ 2 + (x 1%nat - laser 1%nat) ^ 2 in
  2 * (4 / 10) * 500 / (PI * (/ 1000) ^ 2) * exp (- 2 * d2 / (/ 1000) ^ 2).
Definition wall_flux (x : point) (vars : list (nat -> R)) : nat -> R := fun _ =>
  match vars with [old_T] => 50 * (300 - old_T 0%nat) | _ => 0 end.
(** neumann_bc_info of thin_wall.py:78, 79 and of bare_plate.py:64 *)
Definition thin_wall_laser_on (laser : point) := [wall_flux; laser_flux laser].
Definition thin_wall_laser_off : list (point -> list (nat -> R) -> nat -> R) := [wall_flux].
Definition bare_plate_fluxes (laser : point) := [laser_flux laser; wall_flux].
Close Scope R_scope.
