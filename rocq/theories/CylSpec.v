(** * Vocabulary for the flow past a cylinder. Definitions only. *)
From Verif Require Import Prelude FemModel CylModel.
Open Scope R_scope.
Open Scope list_scope.

Section CylSpec.
Variables (Ny Nx : nat).
Definition over_cells (f : nat -> nat -> R) : R := sumN Ny (fun y => sumN Nx (f y)).
(** what all populations weigh, and their momentum *)
Definition total_mass (F : grid) : R := over_cells (fun y x => sumN 9 (F y x)).
Definition momentum (c : list Z) (F : grid) : R := over_cells (fun y x => sumN 9 (fun i => F y x i * IZR (nth i c 0%Z))).
Definition momentum_in (mask : nat -> nat -> bool) (c : list Z) (F : grid) : R :=
  over_cells (fun y x => if mask y x then sumN 9 (fun i => F y x i * IZR (nth i c 0%Z)) else 0).
(** the cell reached from j after a move by s on a ring of n cells *)
Definition moved (n : nat) (j : nat) (s : Z) : nat := Z.to_nat ((Z.of_nat j + s) mod Z.of_nat n).
(** equal on the cells of the grid *)
Definition same_grid (F G : grid) : Prop := forall y x i, (y < Ny)%nat -> (x < Nx)%nat -> (i < 9)%nat -> F y x i = G y x i.
(** the picture upside down: row y becomes row Ny - y, row 0 stays, and directions are turned over *)
Definition turned9 : list nat := [0; 5; 4; 3; 2; 1; 8; 7; 6]%nat.
Definition upside (y : nat) : nat := ((Ny - y) mod Ny)%nat.
Definition mirrored (F : grid) : grid := fun y x i => F (upside y) x (nth i turned9 0%nat).
Definition mirror_mask (mask : nat -> nat -> bool) : Prop := forall y x, (y < Ny)%nat -> (x < Nx)%nat -> mask (upside y) x = mask y x.
Definition nonnegative (F : grid) : Prop := forall y x i, (y < Ny)%nat -> (x < Nx)%nat -> (i < 9)%nat -> 0 <= F y x i.
End CylSpec.
Close Scope R_scope.
