(** * Vocabulary for the statements about finite-strain plasticity *)
From Verif Require Import Prelude FemModel FemSpec MatModel MatSpec CrysSpec FormModel.
Open Scope R_scope.

(** symmetric positive definite *)
Definition spd (A : mat) : Prop := msym 3 A /\ forall v : nat -> R, (exists i, (i < 3)%nat /\ v i <> 0) ->
  0 < sumN 3 (fun i => sumN 3 (fun j => v i * A i j * v j)).
(** the states that occur: regular old gradient, positive definite elastic part, hardening variable not negative *)
Definition admissible (s : fstate) : Prop := 0 < det 3 (F_old s) /\ spd (be_bar_old s) /\ 0 <= alpha_old s.
(** size of the deviatoric Kirchhoff stress and the yield radius *)
Definition shear_size (tau : mat) : R := sqrt (ddot 3 (dev 3 tau) (dev 3 tau)).
Definition yield_radius (alpha : R) : R := sqrt (2 / 3) * (400 + 18 * alpha).
(** Kirchhoff stress that belongs to a first Piola-Kirchhoff stress *)
Definition kirchhoff (P F : mat) : mat := matmul 3 P (transpose F).
Definition grad_of (F : mat) : mat := fun i j => F i j - identity i j.
(** the states after a list of deformation gradients, from the initial state *)
Definition history (s : fstate) (Fs : list mat) : fstate := fold_left (fun s F => update_state s (grad_of F)) Fs s.
(** the stress of the last step of a history *)
Definition last_stress (s : fstate) (Fs : list mat) (F : mat) : mat := PK_stress (history s Fs) (grad_of F).
(** no step of the history hardens *)
Definition never_yields (s : fstate) (Fs : list mat) : Prop := forall pre F post, Fs = pre ++ F :: post ->
  alpha_old (history s (pre ++ [F])) = alpha_old (history s pre).
Close Scope R_scope.
