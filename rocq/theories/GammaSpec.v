(** * Specification vocabulary for the finite-difference heat solver (C39, C81). *)
From Verif Require Import Prelude GammaModel.
Open Scope R_scope.

Definition in_range (n1 n2 n3 i j l : nat) : Prop := (i < n1 /\ j < n2 /\ l < n3)%nat.
Definition interior (n1 n2 n3 i j l : nat) : Prop := (1 <= i < n1 - 1 /\ 1 <= j < n2 - 1 /\ 1 <= l < n3 - 1)%nat.
Definition on_face (n1 n2 n3 i j l : nat) : Prop :=
  in_range n1 n2 n3 i j l /\
  (((i = 0 \/ i = n1 - 1) /\ 1 <= j < n2 - 1 /\ 1 <= l < n3 - 1)
   \/ (1 <= i < n1 - 1 /\ (j = 0 \/ j = n2 - 1) /\ 1 <= l < n3 - 1)
   \/ (1 <= i < n1 - 1 /\ 1 <= j < n2 - 1 /\ (l = 0 \/ l = n3 - 1)))%nat.
(** The point itself and its six neighbours. *)
Definition star (i j l : nat) : list (nat * nat * nat) :=
  [(i, j, l); (i - 1, j, l); (i + 1, j, l); (i, j - 1, l); (i, j + 1, l); (i, j, l - 1); (i, j, l + 1)]%nat.

(** Physically meaningful parameters. *)
Record gphys (a : gargs) : Prop := mkGphys
  { gp_melt : g_Ts a < g_Tl a; gp_Tl : 300 <= g_Tl a; gp_L : 0 <= g_L a; gp_h : 0 <= g_h a; gp_T0 : 0 <= g_T0 a;
    gp_SB : 0 <= g_SB a; gp_eps : 0 <= g_eps a; gp_eta : 0 <= g_eta a; gp_r : 0 < g_r a; gp_rho : 0 < g_rho a }.
Definition k_min : R := 163 / 10000 * 300 + 45847 / 10000.
Definition k_max (a : gargs) : R := 163 / 10000 * g_Tl a + 45847 / 10000.
Definition cp_min : R := 2441 / 10000 * 300 + 33839 / 100.
(** The usual bound on an explicit step of the heat equation. *)
Definition stable_step (a : gargs) (dx dy dz dt : R) : Prop :=
  0 < dx /\ 0 < dy /\ 0 < dz /\ 0 <= dt /\
  dt * (k_max a / (g_rho a * cp_min)) * (2 / dx ^ 2 + 2 / dy ^ 2 + 2 / dz ^ 2) <= 1.
(** Surface losses per degree, for temperatures within M of ambient, are resolved by the width d. *)
Definition resolved_losses (a : gargs) (M d : R) : Prop :=
  d * (g_h a + g_SB a * g_eps a * ((g_T0 a + M) ^ 2 + g_T0 a ^ 2) * (2 * g_T0 a + M)) <= 2 * k_min.
(** Heat per area and time entering through a surface at temperature Tf: convection and radiation
    against ambient, and absorbed laser light on the top. *)
Definition surface_heat (a : gargs) (Tf : R) : R :=
  g_h a * (g_T0 a - Tf) + g_SB a * g_eps a * (g_T0 a ^ 4 - Tf ^ 4).
Definition laser_heat (a : gargs) (P r2 : R) : R := 2 * P * g_eta a / (PI * g_r a ^ 2) * exp (- (2 * r2 / g_r a ^ 2)).
Definition sum_inner (n : nat) (f : nat -> R) : R := sumR (seq 1 (n - 2)) f.
(** Sum over the boundary of area times the given heat flux function of (surface temperature,
    adjacent cell), plus the laser term. *)
Definition boundary_sum (a : gargs) (n1 n2 n3 : nat) (dx dy dz : R) (xs ys : nat -> nat -> R) (xl yl P : R) (T : garr)
    (w : nat -> nat -> nat -> R) : R :=
  sum_inner n2 (fun j => sum_inner n3 (fun l =>
    (surface_heat a ((T 0%nat j l + T 1%nat j l) / 2) * w 1%nat j l
     + surface_heat a ((T (n1 - 2)%nat j l + T (n1 - 1)%nat j l) / 2) * w (n1 - 2)%nat j l) * (dy * dz)))
  + sum_inner n1 (fun i => sum_inner n3 (fun l =>
    (surface_heat a ((T i 0%nat l + T i 1%nat l) / 2) * w i 1%nat l
     + surface_heat a ((T i (n2 - 2)%nat l + T i (n2 - 1)%nat l) / 2) * w i (n2 - 2)%nat l) * (dx * dz)))
  + sum_inner n1 (fun i => sum_inner n2 (fun j =>
    (surface_heat a ((T i j 0%nat + T i j 1%nat) / 2) * w i j 1%nat
     + (surface_heat a ((T i j (n3 - 2)%nat + T i j (n3 - 1)%nat) / 2)
        + laser_heat a P ((xs (i - 1)%nat (j - 1)%nat - xl) ^ 2 + (ys (i - 1)%nat (j - 1)%nat - yl) ^ 2)) * w i j (n3 - 2)%nat) * (dx * dy))).
(** Heat taken up by the plate between two fields, with the heat capacity of the first. *)
Definition heat_gain (a : gargs) (n1 n2 n3 : nat) (dx dy dz : R) (T T' : garr) (w : nat -> nat -> nat -> R) : R :=
  sum_inner n1 (fun i => sum_inner n2 (fun j => sum_inner n3 (fun l =>
    g_rho a * mat_cp a (T i j l) * (T' i j l - T i j l) * w i j l * (dx * dy * dz)))).
