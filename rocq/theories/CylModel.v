(** * Flow past a cylinder (jax_am/lbm/experiments/cylinder.py). Definitions only.
    Arrays F[y, x, i] are functions of row, column and direction. Plotting and printing are left out. The sizes Nx, Ny, the density rho0,
    the relaxation time tau and the random numbers are arguments; the script uses 400, 100, 100, 0.6 and np.random.randn after seed 42. *)
From Verif Require Import Prelude FemModel.
Open Scope R_scope.
Open Scope list_scope.

Definition grid : Type := nat -> nat -> nat -> R.
(** cxs, cys, weights, lines 27-29 *)
Definition cxs : list Z := [0; 0; 1; 1; 1; 0; -1; -1; -1]%Z.
Definition cys : list Z := [0; 1; 1; 0; -1; -1; -1; 0; 1]%Z.
Definition weights9 : list R := [4/9; 1/9; 1/36; 1/9; 1/36; 1/9; 1/36; 1/9; 1/36].
(** np.roll(f, s) of an array of length n: entry j comes from j - s, taken modulo n *)
Definition roll (n : nat) (s : Z) (f : nat -> R) : nat -> R := fun j => f (Z.to_nat ((Z.of_nat j - s) mod Z.of_nat n)).
(** F[:,:,i] = S *)
Definition set_slice (F : grid) (i : nat) (S : nat -> nat -> R) : grid := fun y x k => if Nat.eqb k i then S y x else F y x k.

Section Cyl.
Variables (Ny Nx : nat).
(** Drift, lines 52-55 *)
Definition drift (F : grid) : grid :=
  fold_left (fun F t => let '(i, (a, b)) := t in
    let F := set_slice F i (fun y => roll Nx a (fun x => F y x i)) in
    set_slice F i (fun y x => roll Ny b (fun y => F y x i) y))
    (combine (seq 0 9) (combine cxs cys)) F.
(** the columns taken in line 60 *)
Definition rev9 : list nat := [0; 5; 6; 7; 8; 1; 2; 3; 4]%nat.
Definition reflected (F : grid) : grid := fun y x i => F y x (nth i rev9 0%nat).
(** rho, ux, uy, lines 62-65 *)
Definition rho (F : grid) (y x : nat) : R := sumN 9 (F y x).
Definition ux (F : grid) (y x : nat) : R := sumN 9 (fun i => F y x i * IZR (nth i cxs 0%Z)) / rho F y x.
Definition uy (F : grid) (y x : nat) : R := sumN 9 (fun i => F y x i * IZR (nth i cys 0%Z)) / rho F y x.
(** Feq, lines 69-71 *)
Definition feq (r u v : R) (i : nat) : R :=
  let c := IZR (nth i cxs 0%Z) * u + IZR (nth i cys 0%Z) * v in
  r * nth i weights9 0 * (1 + 3 * c + 9 * c ^ 2 / 2 - 3 * (u ^ 2 + v ^ 2) / 2).
Variable tau : R.
Variable mask : nat -> nat -> bool.
(** line 73 *)
Definition collide (F : grid) : grid := fun y x i => F y x i + - (1 / tau) * (F y x i - feq (rho F y x) (ux F y x) (uy F y x) i).
(** one pass of the loop, lines 52-76. Without mass in a cell outside the cylinder the division gives nan, which stays: None.
    (The values computed in the cells of the cylinder are overwritten in line 76.) *)
Definition step (F : grid) : option grid :=
  let F := drift F in
  let bndryF := reflected F in
  if forallb (fun y => forallb (fun x => mask y x || negb (Reqb (rho F y x) 0)) (seq 0 Nx)) (seq 0 Ny)
  then Some (fun y x i => if mask y x then bndryF y x i else collide F y x i) else None.
Fixpoint run (n : nat) (F : grid) : option grid := match n with O => Some F | S n => match step F with Some F => run n F | None => None end end.

(** the initial state, lines 32-39; noise is np.random.randn(Ny, Nx, NL) *)
Definition raw (noise : grid) : grid := fun y x i =>
  1 + 1 / 100 * noise y x i + (if Nat.eqb i 3 then 2 * (1 + 2 / 10 * cos (2 * PI * INR x / INR Nx * 4)) else 0).
Definition initial (rho0 : R) (noise : grid) : grid := fun y x i => raw noise y x i * (rho0 / rho (raw noise) y x).
(** lines 42-43 *)
Definition cylinder (y x : nat) : bool := Rltb ((INR x - INR Nx / 4) ^ 2 + (INR y - INR Ny / 2) ^ 2) ((INR Ny / 4) ^ 2).
End Cyl.
Close Scope R_scope.
