(** * Specification vocabulary for the phase field (C22, C23, C25, C26, C72, C73). *)
From Verif Require Import Prelude PfModel.
Open Scope R_scope.

Definition at_cell (Nx Ny : nat) (i j k : nat) : nat := (i + Nx * (j + Ny * k))%nat.
Definition field : Type := nat -> nat -> R.

(** [v] with the entry of cell n and orientation o replaced by t. *)
Definition set_entry (v : field) (n o : nat) (t : R) : field :=
  fun n' o' => if Nat.eqb n' n && Nat.eqb o' o then t else v n' o'.
Definition partial_derivative (F : field -> R) (v : field) (n o : nat) (d : R) : Prop :=
  derivable_pt_lim (fun t => F (set_entry v n o t)) (v n o) d.

(** Discrete free energy of a polycrystal: in every cell a double-well per
    orientation, a penalty for every ordered pair of different
    orientations, a penalty for order in the melt; on every inner face the squared
    difference quotient. *)
Definition chemical_energy (N M : nat) (mg : R) (v : field) (z : nat -> R) : R :=
  sumR (seq 0 N) (fun n =>
    mg * (sumR (seq 0 M) (fun p => v n p ^ 4 / 4 - v n p ^ 2 / 2)
          + sumR (seq 0 M) (fun p => sumR (seq 0 M) (fun q => if Nat.eqb p q then 0 else (v n p * v n q) ^ 2))
          + (1 - z n) ^ 2 * sumR (seq 0 M) (fun p => v n p ^ 2))).
Definition interface_energy (Nx Ny Nz M : nat) (hx hy hz kappa : R) (v : field) : R :=
  let c := at_cell Nx Ny in
  kappa / 2 * sumR (seq 0 M) (fun o =>
    sumR (seq 0 Nz) (fun k => sumR (seq 0 Ny) (fun j => sumR (seq 0 (Nx - 1)) (fun i =>
      ((v (c (i + 1)%nat j k) o - v (c i j k) o) / hx) ^ 2)))
    + sumR (seq 0 Nz) (fun k => sumR (seq 0 Nx) (fun i => sumR (seq 0 (Ny - 1)) (fun j =>
      ((v (c i (j + 1)%nat k) o - v (c i j k) o) / hy) ^ 2)))
    + sumR (seq 0 Ny) (fun j => sumR (seq 0 Nx) (fun i => sumR (seq 0 (Nz - 1)) (fun k =>
      ((v (c i j (k + 1)%nat) o - v (c i j k) o) / hz) ^ 2)))).

(** Taylor polynomial of the exponential. *)
Definition exp_taylor (p : nat) (z : R) : R := sumR (seq 0 (p + 1)) (fun i => z ^ i / INR (fact i)).
(** Polynomials in time and their exact integrals from t0 to t1. *)
Definition poly (c : nat -> R) (d : nat) (t : R) : R := sumR (seq 0 (d + 1)) (fun i => c i * t ^ i).
Definition poly_integral (c : nat -> R) (d : nat) (t0 t1 : R) : R :=
  sumR (seq 0 (d + 1)) (fun i => c i * (t1 ^ (i + 1) - t0 ^ (i + 1)) / INR (i + 1)).
Definition in_unit (N M : nat) (v : field) : Prop :=
  forall n o, (n < N)%nat -> (o < M)%nat -> 0 <= v n o <= 1.
Definition between (x a b : R) : Prop := Rmin a b <= x <= Rmax a b.

(** Sign conditions on the material and mesh parameters. *)
Record physical (a : pfargs) : Prop := mkPhys
  { ph_L0 : 0 < L0 a; ph_Qg : 0 <= Qg a; ph_R : 0 < gas_const a; ph_m : 0 <= m_g a; ph_k : 0 <= kappa_g a;
    ph_ad : 0 < ad_hoc a; ph_an : 0 <= anisotropy a; ph_hx : 0 < h_x a; ph_hy : 0 < h_y a; ph_hz : 0 < h_z a }.
(** Largest relaxation rate of the explicit scheme, per unit mobility. *)
Definition rate (a : pfargs) : R := kappa_g a * ad_hoc a * (1 + anisotropy a) * (2 / h_x a ^ 2 + 2 / h_y a ^ 2 + 2 / h_z a ^ 2)
  + m_g a / ad_hoc a * (2 + 4 * (INR (num_oris a) - 1)).
(** Times along a run, with the largest step. *)
Fixpoint steps_ok (a : pfargs) (hmax : R) (t0 : R) (steps : list ((nat -> R) * R)) : Prop :=
  match steps with
  | [] => True
  | (T, t) :: r => (forall n, (n < num_cells a)%nat -> 0 < T n) /\ 0 <= t - t0 <= hmax /\ steps_ok a hmax t r
  end.
(** Phase-field times advance by at most one CFD step. *)
Fixpoint times_ok (dt t0 : R) (ts : list R) : Prop :=
  match ts with [] => True | t :: r => t0 <= t <= t0 + dt /\ times_ok dt t r end.
Close Scope R_scope.
