(** * Specification vocabulary for grain segmentation (C18 - C21, C24). *)
From Verif Require Import Prelude.
From Coq Require Import Relations.

(** Cells of a grid, numbered x fastest, and face neighbours. *)
Definition cell_no (Nx Ny : nat) (i j k : nat) : nat := i + Nx * (j + Ny * k).
Definition dist1 (a b : nat) : nat := (a - b) + (b - a).
Definition face_neighbours (Nx Ny Nz : nat) (n m : nat) : Prop :=
  exists i j k i' j' k',
    i < Nx /\ j < Ny /\ k < Nz /\ i' < Nx /\ j' < Ny /\ k' < Nz /\
    n = cell_no Nx Ny i j k /\ m = cell_no Nx Ny i' j' k' /\
    dist1 i i' + dist1 j j' + dist1 k k' = 1.

(** Cell [n] is solid / has orientation [o]. *)
Definition is_solid (solid : list bool) (n : nat) : Prop := nth_error solid n = Some true.
Definition same_grain_step (adj : nat -> nat -> Prop) (solid : list bool) (ori : list nat) (n m : nat) : Prop :=
  adj n m /\ is_solid solid n /\ is_solid solid m /\ nth_error ori n = nth_error ori m.
(** Joined by a path of neighbouring solid cells of one orientation. *)
Definition connected (adj : nat -> nat -> Prop) (solid : list bool) (ori : list nat) : nat -> nat -> Prop :=
  clos_refl_trans nat (same_grain_step adj solid ori).
Definition count_true (l : list bool) : nat := length (filter (fun b => b) l).

(** Reference description of a stack of [k] copies of a mesh with node coordinates [P] and
    connectivity [C]: layer l is moved up by l * h and its nodes are numbered after those of the
    layers below. *)
Definition layer_point (h : R) (l : nat) (p : R * R * R) : R * R * R :=
  let '(x, y, z) := p in (x, y, (z + h * INR l)%R).
(** Number of nodes/cells of [k] layers, and the position of an item of layer [l]. *)
Definition in_layer (size l n : nat) : nat := l * size + n.
Definition one_hot (M : nat) (row : list R) (o : nat) : Prop :=
  length row = M /\ forall p, p < M -> nth p row 0%R = (if Nat.eqb p o then 1 else 0)%R.
