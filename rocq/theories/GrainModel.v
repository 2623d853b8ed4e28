(** * Model of jax_am/phase_field/utils.py (grain segmentation and layered meshes).
    Definitions only. *)
From Verif Require Import Prelude.

(** ** compute_edges_in_order, utils.py:217-233 *)
(** cell_inds = arange(Nx*Ny*Nz).reshape(Nz, Ny, Nx), lines 219-220 *)
Definition cell_ind (Ny Nx : nat) (k j i : nat) : nat := k * (Ny * Nx) + j * Nx + i.

(** lines 221-224: edges_x, edges_y, edges_z stacked on the last axis, flattened
    in C order and concatenated. *)
Definition grid_edges (Nx Ny Nz : nat) : list (nat * nat) :=
  let c := cell_ind Ny Nx in
  flat3 Nz Ny (Nx - 1) (fun k j i => (c k j i, c k j (i + 1))) ++
  flat3 Nz (Ny - 1) Nx (fun k j i => (c k j i, c k (j + 1) i)) ++
  flat3 (Nz - 1) Ny Nx (fun k j i => (c k j i, c (k + 1) j i)).

(** edges_in_order[node].append(x): IndexError when node is out of range. *)
Definition append_at (ll : list (list nat)) (node x : nat) : res (list (list nat)) :=
  match nth_error ll node with
  | Some l => Ok (upd ll node (l ++ [x]))
  | None => Err IndexError
  end.

(** lines 226-232 *)
Fixpoint add_edges (edges : list (nat * nat)) (ll : list (list nat)) : res (list (list nat)) :=
  match edges with
  | [] => Ok ll
  | (node1, node2) :: r =>
      bind (append_at ll node1 node2) (fun ll1 =>
      bind (append_at ll1 node2 node1) (fun ll2 => add_edges r ll2))
  end.
Definition compute_edges_in_order (Nx Ny Nz : nat) : res (list (list nat)) :=
  add_edges (grid_edges Nx Ny Nz) (repeat [] (Nx * Ny * Nz)).

(** ** BFS, utils.py:236-265 *)
(** [visited] is an array of 0/1 values, modelled by booleans. [solid] is nonliquid. *)
Section Bfs.
Variables (edges : list (list nat)) (solid : list bool) (ori : list nat) (num_oris : nat).

(** lines 251-254: the inner loop over connected nodes. *)
Fixpoint scan (o : nat) (cns : list nat) (queue : list nat) (visited : list bool) : res (list nat * list bool) :=
  match cns with
  | [] => Ok (queue, visited)
  | cn :: r =>
      match nth_error visited cn, nth_error ori cn, nth_error solid cn with
      | Some v, Some oc, Some sc =>
          if negb v && Nat.eqb oc o && sc
          then scan o r (queue ++ [cn]) (upd visited cn true)
          else scan o r queue visited
      | _, _, _ => Err IndexError
      end
  end.

(** lines 247-254: the while loop; [None] when the fuel runs out. *)
Fixpoint flood (fuel : nat) (o : nat) (queue group : list nat) (visited : list bool) : option (res (list nat * list bool)) :=
  match queue with
  | [] => Some (Ok (group, visited))
  | s :: queue' =>
      match fuel with
      | O => None
      | S fuel' =>
          match nth_error edges s with
          | None => Some (Err IndexError)
          | Some cns =>
              match scan o cns queue' visited with
              | Err e => Some (Err e)
              | Ok (q, v) => flood fuel' o q (group ++ [s]) v
              end
          end
      end
  end.

(** lines 241-254: the outer loop over all cells; grains[o] collects the groups
    of orientation o. The fuel of the inner loop is the number of cells. *)
Fixpoint bfs_outer (idx : list nat) (visited : list bool) (grains : list (list (list nat)))
    : option (res (list (list (list nat)))) :=
  match idx with
  | [] => Some (Ok grains)
  | i :: r =>
      match nth_error visited i, nth_error solid i with
      | Some v, Some s =>
          if negb v && s then
            match nth_error ori i with
            | None => Some (Err IndexError)
            | Some o =>
                match nth_error grains o with
                | None => Some (Err IndexError)
                | Some gs =>
                    match flood (length solid) o [i] [] (upd visited i true) with
                    | None => None
                    | Some (Err e) => Some (Err e)
                    | Some (Ok (group, visited')) => bfs_outer r visited' (upd grains o (gs ++ [group]))
                    end
                end
            end
          else bfs_outer r visited grains
      | _, _ => Some (Err IndexError)
      end
  end.

Definition BFS_grains : option (res (list (list (list nat)))) :=
  bfs_outer (seq 0 (length solid)) (repeat false (length solid)) (repeat [] num_oris).

(** lines 256-262: combined = True *)
Definition BFS : option (res (list (list nat))) :=
  match BFS_grains with
  | None => None
  | Some (Err e) => Some (Err e)
  | Some (Ok grains) => Some (Ok (concat grains))
  end.
End Bfs.

(** ** get_aspect_ratio_inputs and compute_aspect_ratios_and_vols, utils.py:268-310 *)
Open Scope R_scope.
Definition pt3 : Type := (R * R * R)%type.
(** lines 271-276: [volumes[g] for g in grain] and onp.take(centroids, grain). The
    shape assertion at line 275 always holds for lists of the same grain. *)
Definition lookup_all {A} (l : list A) (grain : list nat) : res (list A) :=
  mapM (fun g => match nth_error l g with Some x => Ok x | None => Err IndexError end) grain.
Definition get_aspect_ratio_inputs (grains : list (list nat)) (volumes : list R) (centroids : list pt3)
  : res (list (list R) * list (list pt3)) :=
  bind (mapM (lookup_all volumes) grains) (fun vs =>
  bind (mapM (lookup_all centroids) grains) (fun cs => Ok (vs, cs))).

(** lines 282-310; [pca_ratio] stands for the PCA based aspect ratio of the
    volume-weighted centroids (sklearn, external). *)
Definition aspect_ratios_and_vols (pca_ratio : list pt3 -> R) (vols : list (list R)) (cents : list (list pt3))
  : list R * list R :=
  (map sum_list vols,
   map (fun vc => let '(v, c) := vc in
          if Nat.ltb (length v) 5 then 1
          else pca_ratio (map (fun dv => let '((x, y, z), w) := dv in (x * w, y * w, z * w)) (combine c v)))
       (combine vols cents)).

(** process_eta, utils.py:181-214: from the temperature and orientation fields of
    an output file to the volume list. [centroids] are the cell centroids. *)
Definition process_eta (pca_ratio : list pt3 -> R) (Nx Ny Nz : nat) (num_oris : nat)
    (T : list R) (T_liquidus : R) (ori : list nat) (domain_vol : R) (centroids : list pt3)
    : option (res (list R * list R)) :=
  let nonliquid := map (fun t => Rltb t T_liquidus) T in
  match compute_edges_in_order Nx Ny Nz with
  | Err e => Some (Err e)
  | Ok edges =>
      match BFS edges nonliquid ori num_oris with
      | None => None
      | Some (Err e) => Some (Err e)
      | Some (Ok grains) =>
          let n := length centroids in
          let volumes := repeat (domain_vol / INR n) n in
          Some (bind (get_aspect_ratio_inputs grains volumes centroids) (fun vc =>
                Ok (aspect_ratios_and_vols pca_ratio (fst vc) (snd vc))))
      end
  end.

(** ** generate_new_mesh, utils.py:151-179 (layers) and process_neper_mesh 28-50 *)
Record poly := mkPoly
  { p_points : list pt3; p_cells : list (list nat); p_phys : list nat; p_geo : list nat; p_grain : list nat;
    p_ori : list nat; p_cent : list pt3 }.
(** [next] is the freshly read layer (the Field constructor); [prev] is the
    stack so far; note that the node offset is layer times the node count of
    the *new* layer. *)
Definition shift_z (dz : R) (p : pt3) : pt3 := let '(x, y, z) := p in (x, y, z + dz).
Definition generate_new_mesh (domain_z : R) (next prev : poly) (layer : nat) : poly :=
  let dz := domain_z * INR layer in
  let off := (length (p_points next) * layer)%nat in
  mkPoly (p_points prev ++ map (shift_z dz) (p_points next))
         (p_cells prev ++ map (map (fun n => (n + off)%nat)) (p_cells next))
         (p_phys prev ++ p_phys next)
         (p_geo prev ++ p_geo next)
         (p_grain prev ++ p_grain next)
         (p_ori prev ++ p_ori next)
         (p_cent prev ++ map (shift_z dz) (p_cent next)).

(** Repeated stacking: layers 1, 2, ... on top of the first. *)
Fixpoint stack_layers (domain_z : R) (prev : poly) (layer : nat) (nexts : list poly) : poly :=
  match nexts with
  | [] => prev
  | next :: r => stack_layers domain_z (generate_new_mesh domain_z next prev layer) (S layer) r
  end.

(** utils.py:35-40: grain number of each cell (gmsh:physical - 1), the assertion on the
    number of grains, and the orientation of each cell. [grain_oris] is the
    random assignment drawn at line 39 (external).  An empty cell list makes
    onp.max raise ValueError. Physical tags are at least 1 in a Gmsh file, so the
    truncated subtraction is exact. *)
Definition list_max_opt (l : list nat) : option nat :=
  match l with [] => None | x :: r => Some (fold_left Nat.max r x) end.
Definition cell_orientations (num_grains : nat) (phys : list nat) (grain_oris : list nat) : res (list nat) :=
  let grain_inds := map (fun p => p - 1)%nat phys in
  match list_max_opt grain_inds with
  | None => Err ValueError
  | Some m => if Nat.eqb num_grains (m + 1)
              then lookup_all grain_oris grain_inds
              else Err AssertionError
  end.

(** ini_cond, allen_cahn.py:145-153: zeros, then [.at[arange, ori].set(1)]; JAX drops
    updates whose column is out of range. *)
Definition ini_cond (num_oris : nat) (ori : list nat) : list (list R) :=
  map (fun o => upd (repeat 0 num_oris) o 1) ori.
Close Scope R_scope.
