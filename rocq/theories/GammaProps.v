(** * Properties C39, C81, C82: the finite-difference heat solver of jax_am/cfd/gamma.py *)
From Verif Require Import Prelude PreludeFacts GammaModel GammaSpec GammaProofs.
From Coq Require Import Lra.
Open Scope R_scope.

(** C39 *)
Theorem gamma_ambient_equilibrium :
  forall a n1 n2 n3 dx dy dz dt xs ys, (3 <= n1)%nat -> (3 <= n2)%nat -> (3 <= n3)%nat ->
  forall path T, (forall s, In s path -> snd s = 0) ->
  (forall i j l, in_range n1 n2 n3 i j l -> T i j l = g_T0 a) ->
  forall i j l, in_range n1 n2 n3 i j l -> gamma_run a n1 n2 n3 dx dy dz dt xs ys path T i j l = g_T0 a.
Proof. exact ambient_run. Qed.
Print Assumptions gamma_ambient_equilibrium.

Theorem gamma_maximum_principle :
  forall a n1 n2 n3 dx dy dz dt xs ys, gphys a -> stable_step a dx dy dz dt ->
  forall xl yl P T i j l lo hi, interior n1 n2 n3 i j l ->
  (forall p q r, In (p, q, r) (star i j l) ->
     lo <= BC_thermal a n1 n2 n3 dx dy dz xs ys xl yl P T (fun i j k => mat_k a (T i j k)) p q r <= hi) ->
  lo <= update_T a n1 n2 n3 dx dy dz dt xs ys xl yl P T i j l <= hi.
Proof. intros. now apply update_interior. Qed.
Print Assumptions gamma_maximum_principle.

(** With the laser off the largest deviation from ambient never grows, over any number of steps. *)
Theorem gamma_deviation_never_grows :
  forall a n1 n2 n3 dx dy dz dt xs ys, (3 <= n1)%nat -> (3 <= n2)%nat -> (3 <= n3)%nat ->
  gphys a -> stable_step a dx dy dz dt ->
  forall M path T, resolved_losses a M dx -> resolved_losses a M dy -> resolved_losses a M dz ->
  0 <= M -> M <= 2 * g_T0 a -> (forall s, In s path -> snd s = 0) ->
  (forall i j l, in_range n1 n2 n3 i j l -> g_T0 a - M <= T i j l <= g_T0 a + M) ->
  forall i j l, in_range n1 n2 n3 i j l ->
  g_T0 a - M <= gamma_run a n1 n2 n3 dx dy dz dt xs ys path T i j l <= g_T0 a + M.
Proof. intros a n1 n2 n3 dx dy dz dt xs ys A B C D E. exact (run_within a n1 n2 n3 dx dy dz dt xs ys A B C D E). Qed.
Print Assumptions gamma_deviation_never_grows.

Theorem gamma_laser_only_heats :
  forall a n1 n2 n3 dx dy dz dt xs ys, (3 <= n1)%nat -> (3 <= n2)%nat -> (3 <= n3)%nat ->
  gphys a -> stable_step a dx dy dz dt ->
  forall P xl yl T i j l, 0 <= P -> in_range n1 n2 n3 i j l ->
  update_T a n1 n2 n3 dx dy dz dt xs ys xl yl 0 T i j l <= update_T a n1 n2 n3 dx dy dz dt xs ys xl yl P T i j l.
Proof. intros a n1 n2 n3 dx dy dz dt xs ys A B C D E. exact (laser_heats a n1 n2 n3 dx dy dz dt xs ys A B C D E). Qed.
Print Assumptions gamma_laser_only_heats.

Theorem gamma_liquid_fraction_unit :
  forall a T, g_Ts a < g_Tl a ->
  0 <= mat_fl a T <= 1 /\ (T <= g_Ts a -> mat_fl a T = 0) /\ (g_Tl a <= T -> mat_fl a T = 1).
Proof.
  intros a T H. split; [now apply fl_unit|]. unfold mat_fl, clipR, Rmin, Rmax.
  split; intros; destruct (Rle_dec T (g_Ts a)); destruct (Rle_dec _ (g_Tl a)); try lra;
  try (replace (g_Ts a - g_Ts a) with 0 by ring; unfold Rdiv; ring); try (field; lra).
  replace T with (g_Tl a) by lra. field. lra.
Qed.
Print Assumptions gamma_liquid_fraction_unit.

(** The hypotheses are met by a physical case that is not in equilibrium. *)
Definition g_example : gargs := mkGargs 1500 1600 0 10 300 0 1 (1 / 2) 1 10.
Example gamma_example_phys : gphys g_example.
Proof. constructor; cbn; lra. Qed.
Example gamma_example_stable : stable_step g_example 1 1 1 1 /\ resolved_losses g_example 100 1.
Proof. unfold stable_step, resolved_losses, k_max, k_min, cp_min; cbn [g_example g_Tl g_rho g_h g_SB g_eps g_T0]. split; [|lra]. repeat split; lra. Qed.

(** C81 *)
Theorem gamma_heat_balance_weighted :
  forall a n1 n2 n3 dx dy dz dt xs ys xl yl P T, (3 <= n1)%nat -> (3 <= n2)%nat -> (3 <= n3)%nat ->
  gphys a -> 0 < dx -> 0 < dy -> 0 < dz ->
  heat_gain a n1 n2 n3 dx dy dz T (update_T a n1 n2 n3 dx dy dz dt xs ys xl yl P T) (fun i j l => / mat_k a (T i j l))
  = dt * boundary_sum a n1 n2 n3 dx dy dz xs ys xl yl P T (fun i j l => / mat_k a (T i j l)).
Proof. exact heat_balance. Qed.
Print Assumptions gamma_heat_balance_weighted.

(** Full statement: the heat taken up in a step is the heat that entered through the surface, for
    every field. It holds when the conductivity is uniform; the scheme k * laplace(T) is not in
    divergence form and gains or loses heat otherwise. *)
Theorem gamma_heat_balance_partial :
  forall a n1 n2 n3 dx dy dz dt xs ys xl yl P T, (3 <= n1)%nat -> (3 <= n2)%nat -> (3 <= n3)%nat ->
  gphys a -> 0 < dx -> 0 < dy -> 0 < dz ->
  forall kappa, (forall i j l, interior n1 n2 n3 i j l -> mat_k a (T i j l) = kappa) ->
  heat_gain a n1 n2 n3 dx dy dz T (update_T a n1 n2 n3 dx dy dz dt xs ys xl yl P T) (fun _ _ _ => 1)
  = dt * boundary_sum a n1 n2 n3 dx dy dz xs ys xl yl P T (fun _ _ _ => 1).
Proof. exact heat_balance_uniform. Qed.
Print Assumptions gamma_heat_balance_partial.

Theorem gamma_heat_balance_refuted :
  exists a n1 n2 n3 dx dy dz dt xs ys xl yl P T,
  gphys a /\ (3 <= n1)%nat /\ (3 <= n2)%nat /\ (3 <= n3)%nat /\ 0 < dx /\ 0 < dy /\ 0 < dz /\
  heat_gain a n1 n2 n3 dx dy dz T (update_T a n1 n2 n3 dx dy dz dt xs ys xl yl P T) (fun _ _ _ => 1)
  <> dt * boundary_sum a n1 n2 n3 dx dy dz xs ys xl yl P T (fun _ _ _ => 1).
Proof.
  exists g_insulated, 4%nat, 3%nat, 3%nat, 1, 1, 1, 1, (fun _ _ => 0), (fun _ _ => 0), 0, 0, 0, T_jump.
  destruct heat_not_conserved as (E & N). rewrite E, Rmult_0_r.
  split; [apply g_insulated_phys|]. repeat (split; [first [lra|lia]|]). exact N.
Qed.
Print Assumptions gamma_heat_balance_refuted.

(** C82. Full statement: every segment of positive length gets the unit vector along it. *)
Theorem scan_direction_unit_partial :
  forall x0 y0 x1 y1, (x0, y0) <> (x1, y1) -> x0 = x1 \/ y0 = y1 ->
  exists u v, scan_direction (x0, y0) (x1, y1) = Some (u, v) /\ u ^ 2 + v ^ 2 = 1 /\ u * (y1 - y0) = v * (x1 - x0).
Proof. exact axis_direction_unit. Qed.
Print Assumptions scan_direction_unit_partial.

Theorem scan_direction_unit_refuted :
  exists p q, p <> q /\ exists u v, scan_direction p q = Some (u, v) /\ u ^ 2 + v ^ 2 <> 1 /\
    u * (snd q - snd p) <> v * (fst q - fst p).
Proof.
  exists (0, 0), (3, 4). split; [intros E; apply pair_equal_spec in E; lra|].
  destruct oblique_direction_not_unit as (u & v & A & B & C). exists u, v. cbn [fst snd]. rewrite !Rminus_0_r. auto.
Qed.
Print Assumptions scan_direction_unit_refuted.

Theorem scan_direction_dwell_is_nan : forall x y, scan_direction (x, y) (x, y) = None.
Proof. exact stand_still_direction. Qed.
Print Assumptions scan_direction_dwell_is_nan.
