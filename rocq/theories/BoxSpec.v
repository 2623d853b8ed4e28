(** * Vocabulary for integrals over the sides of a box mesh. Definitions only. *)
From Verif Require Import Prelude FemModel FemSpec.
Open Scope R_scope.

(** the entry of direction d *)
Definition along {A : Type} (x y z : A) (d : nat) : A := match d with 0%nat => x | 1%nat => y | _ => z end.
Section BoxSpec.
Context {V : Type}.
Variable F : fem V.
(** among the mesh nodes, the location function picks those of the plane x_d = x *)
Definition picks_plane (loc : point -> bool) (d : nat) (x : R) : Prop :=
  forall n, (n < num_total_nodes F)%nat -> (loc (points F n) = true <-> points F n d = x).
(** integrals over the volume and over the selected faces, as the code computes them *)
Definition volume_integral (f : nat -> nat -> R) : R :=
  sumN (num_cells F) (fun c => sumN (num_quads (f_ele F)) (fun q => JxW F c q * f c q)).
Definition face_integral (loc : point -> bool) (f : nat * nat -> nat -> R) : R :=
  sumR (boundary_inds F loc) (fun s => sumN (num_face_quads (f_ele F)) (fun p => nanson_scale F s p * f s p)).
End BoxSpec.
(** the two sides in direction d; true is the far side *)
Definition side_coord (Lx Ly Lz : R) (s : nat * bool) : R := if snd s then along Lx Ly Lz (fst s) else 0.
Definition outward (s : nat * bool) (d : nat) : R := if Nat.eqb d (fst s) then if snd s then 1 else -1 else 0.
Definition six_sides : list (nat * bool) := [(0, false); (0, true); (1, false); (1, true); (2, false); (2, true)]%nat.
Close Scope R_scope.
