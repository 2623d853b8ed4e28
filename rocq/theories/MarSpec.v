(** * Vocabulary for the statements about the surface tension at the melt pool. *)
From Verif Require Import Prelude CfdMeshModel CfdModel CfdSpec.
Open Scope R_scope.

(** temperature of the surface cells of the window *)
Definition surface_T (a : amargs) (T : arr) (i j : nat) : R := T i j (mNz (a_local a) - 1)%nat.
(** central difference of n values along an axis of width h, the end values repeated *)
Definition central (n : nat) (h : R) (f : nat -> R) (i : nat) : R := (f (Nat.min (i + 1) (n - 1)) - f (i - 1)%nat) / (2 * h).
(** gradient of the surface temperature along axis c *)
Definition surface_grad (a : amargs) (T : arr) (c i j : nat) : R :=
  match c with
  | O => central (mNx (a_local a)) (dXx (a_local a)) (fun i => surface_T a T i j) i
  | S O => central (mNy (a_local a)) (dXy (a_local a)) (fun j => surface_T a T i j) j
  | _ => 0
  end.
(** value of component c on side s, and shear stress at the surface, from the ghost cells *)
Definition wall_value (a : amargs) (T : arr) (vel : nat -> arr) (s c p q : nat) : R :=
  let l := a_local a in (get_GC (grid_of l) (vel_BCs a T) c (vel c) s p q + edge_value (mNx l) (mNy l) (mNz l) (vel c) s p q) / 2.
Definition surface_shear (a : amargs) (T : arr) (vel : nat -> arr) (c p q : nat) : R :=
  let l := a_local a in a_visco a * ((get_GC (grid_of l) (vel_BCs a T) c (vel c) 5 p q - vel c p q (mNz l - 1)%nat) / dXz l).
Close Scope R_scope.
