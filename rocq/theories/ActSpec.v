(** * The active part of a growing mesh: what is meant by its exterior. *)
From Coq Require Export Permutation.
From Verif Require Import Prelude FemModel ActModel.
Open Scope R_scope.

Definition active (tab : list bool) (c : nat) : Prop := nth_error tab c = Some true.
(** the nodes of a local face of a cell, in the element's order *)
Definition nodes_of_face (cells face_inds : list (list nat)) (s : face) : list nat :=
  map (fun a => nth a (nth (fst s) cells []) 0%nat) (nth (snd s) face_inds []).
(** a face of an active cell with whose nodes no other face of an active cell is spanned *)
Definition exterior (cells face_inds : list (list nat)) (tab : list bool) (s : face) : Prop :=
  active tab (fst s) /\ (snd s < length face_inds)%nat /\
  forall s', active tab (fst s') -> (snd s' < length face_inds)%nat ->
    Permutation (nodes_of_face cells face_inds s) (nodes_of_face cells face_inds s') -> s' = s.
(** the number of active cells before c *)
Definition rank (tab : list bool) (c : nat) : nat := length (filter (fun b => b) (firstn c tab)).
(** cells of nn nodes numbered below np; the local faces name existing local nodes *)
Definition wf_cells (np nn : nat) (face_inds cells : list (list nat)) : Prop :=
  Forall (fun cell => length cell = nn /\ Forall (fun n => (n < np)%nat) cell) cells
  /\ Forall (Forall (fun a => (a < nn)%nat)) face_inds.
Definition growing (old new : list bool) : Prop := length old = length new /\ forall c, active old c -> active new c.
(** Python lists the members of a set in some order *)
Definition set_order (order : list face -> list face) : Prop := forall l, Permutation (order l) l.
(** the faces reported for the active mesh, numbered as in the active mesh *)
Definition reports (cells face_inds : list (list nat)) (tab : list bool) (ext : list face) : Prop :=
  NoDup ext /\ forall k f, In (k, f) ext <-> exists c, exterior cells face_inds tab (c, f) /\ k = rank tab c.
(** successive updates of the table, starting from its initialisation *)
Inductive face_history (order : list face -> list face) (face_inds cells : list (list nat)) : list bool -> list (list (list nat)) -> tables -> list face -> Prop :=
| fh_init tab P (m : mesh P) am pm cm ext cf t : length tab = length cells -> m_cells m = cells -> get_active_mesh m tab = Ok (am, pm, cm) -> initialize_hash_map order face_inds cells tab cm = Ok (ext, cf, t) ->
    face_history order face_inds cells tab cf t ext
| fh_update tab cf t ext tab' P (m : mesh P) am pm cm ext' t' : face_history order face_inds cells tab cf t ext -> growing tab tab' ->
    m_cells m = cells -> get_active_mesh m tab' = Ok (am, pm, cm) -> update_hash_map order tab tab' cm cf t = Ok (ext', t') ->
    face_history order face_inds cells tab' cf t' ext'.
Close Scope R_scope.

Section ThermalSpec.
Open Scope R_scope.
(** a face is horizontal up to 1e-5, above the plane z = 0 *)
Definition horizontal (pts : list point) : Prop :=
  forall p0, hd_error pts = Some p0 -> 0 < p0 2%nat /\ forall p, In p pts -> Rabs (p 2%nat - p0 2%nat) <= / 100000.
(** a one-step conduction problem with the given flux functions *)
Definition conduction (F : fem (nat -> R)) (rho Cp dt : R) (fluxes : list (point -> list (nat -> R) -> nat -> R)) : Prop :=
  vec F = 1%nat /\ tensor_map F = Some th_tensor_map /\ mass_map F = Some (fun _ => th_mass_map rho Cp dt)
  /\ body_map F = th_mass_map rho Cp dt /\ neumann_bc_info F = Some fluxes /\ cauchy_bc_info F = None.
(** a flux density integrated over a list of faces *)
Definition through {V} (F : fem V) (l : list face) (q : face -> nat -> R) : R :=
  sumR l (fun s => sumN (num_face_quads (f_ele F)) (fun p => nanson_scale F s p * q s p)).
End ThermalSpec.
