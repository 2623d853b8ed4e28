(** * Specification vocabulary for LBM heat, path, units, outputs. *)
From Verif Require Import Prelude LbmModel LbmSpec.
Open Scope R_scope.

(** Enthalpy held by liquid and interface cells. *)
Definition system_enthalpy (d : dims) (phase : field phase_t) (h : field dist) : R :=
  sumR (grid d) (fun c => if fluid (phase c) then density (h c) else 0).

(** The neighbour of [c] in lattice direction [q]. *)
Definition neighbour (c : cell) (q : nat) : cell := cadd c (vx q, vy q, vz q).

(** Straight-line sampling: sample [j] of [k] between [a] and [b]. *)
Definition sample (a b : R) (k j : nat) : R :=
  if Nat.leb k 1 then a else a + (INR j / INR (k - 1)) * (b - a).

(** Time at which way-point [i] is reached when moving at constant speed. *)
Definition dist2 (x0 y0 x1 y1 : R) : R := sqrt ((x1 - x0) ^ 2 + (y1 - y0) ^ 2).
Definition seg_time (xc yc : list R) (vel : R) (i : nat) : R :=
  dist2 (nth i xc 0) (nth i yc 0) (nth (S i) xc 0) (nth (S i) yc 0) / vel.
Definition arrival (xc yc : list R) (vel : R) (i : nat) : R := sumR (seq 0 i) (seg_time xc yc vel).

(** [is_ceil x k]: k is the least integer not below x. *)
Definition is_ceil (x : R) (k : nat) : Prop := x <= INR k < x + 1.
(** Position of sample [j] of segment [i] in the concatenated lists. *)
Definition offset (ks : list nat) (i : nat) : nat := list_sum (firstn i ks).
Close Scope R_scope.
