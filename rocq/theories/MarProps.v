(** * Properties of the boundary conditions of the melt pool flow (get_vel_bc_fn of jax_am/cfd/cfd_am.py). *)
From Coq Require Import Lra Lia.
From Verif Require Import Prelude PreludeFacts CfdMeshModel CfdModel CfdSpec FemModel FemFacts MarSpec MarProofs MarExamples.
Open Scope R_scope.
Open Scope list_scope.

(** ** C202: walls at rest, and a surface whose shear balances the surface tension *)
Theorem melt_pool_walls : forall a T vel s c p q, (s < 5)%nat \/ (s = 5%nat /\ (2 <= c)%nat) -> wall_value a T vel s c p q = 0.
Proof. exact wall_zero. Qed.
Print Assumptions melt_pool_walls.
Theorem thermocapillary_balance : forall a T vel c i j, let l := a_local a in (c < 2)%nat -> (i < mNx l)%nat -> (j < mNy l)%nat ->
  a_visco a <> 0 -> dXx l <> 0 -> dXy l <> 0 -> dXz l <> 0 ->
  surface_shear a T vel c i j = a_marangoni a * surface_grad a T c i j * fluid_frac a (surface_T a T i j).
Proof. intros a T vel c i j l. exact (shear_eq a T vel c i j). Qed.
Print Assumptions thermocapillary_balance.
Theorem velocity_bc_forms_agree : forall a T c, exists top,
  vel_bc_scalar a T c = map (fun n => (0%nat, repeat 0 n)) (firstn 5 (surf_set_num (a_local a))) ++ [((if Nat.ltb c 2 then 1 else 0)%nat, top)]
  /\ length top = (mNx (a_local a) * mNy (a_local a))%nat
  /\ forall i j, (i < mNx (a_local a))%nat -> (j < mNy (a_local a))%nat -> nth (i * mNy (a_local a) + j) top 0 = bval (vel_BCs a T) 5 c i j * a_visco a.
Proof. exact scalar_form. Qed.
Print Assumptions velocity_bc_forms_agree.
Example melt_pool_case : (a_visco am3 <> 0 /\ dXx (a_local am3) <> 0 /\ dXy (a_local am3) <> 0 /\ dXz (a_local am3) <> 0 /\ a_Ts am3 < a_Tl am3)
  /\ forall vel, surface_shear am3 hot_right vel 0 0 0 = -50 /\ surface_shear am3 hot_right vel 0 1 0 = -100 /\ surface_shear am3 hot_right vel 0 2 0 = -50.
Proof. exact (conj am3_ok hot_shear). Qed.

(** ** C203: force on a row of liquid surface cells, no force on solid ones, and its direction *)
Theorem surface_force : forall a T vel, let l := a_local a in a_visco a <> 0 -> dXx l <> 0 -> dXy l <> 0 -> dXz l <> 0 -> a_Ts a < a_Tl a ->
  (forall j, (0 < mNx l)%nat -> (j < mNy l)%nat -> (forall i, (i < mNx l)%nat -> a_Tl a <= surface_T a T i j) ->
     sumN (mNx l) (fun i => surface_shear a T vel 0 i j * dXx l) = a_marangoni a * (surface_T a T (mNx l - 1) j - surface_T a T 0 j))
  /\ (forall i, (i < mNx l)%nat -> (0 < mNy l)%nat -> (forall j, (j < mNy l)%nat -> a_Tl a <= surface_T a T i j) ->
     sumN (mNy l) (fun j => surface_shear a T vel 1 i j * dXy l) = a_marangoni a * (surface_T a T i (mNy l - 1) - surface_T a T i 0)).
Proof. intros a T vel l H1 H2 H3 H4 H5. split; intros; [apply row_force|apply column_force]; assumption. Qed.
Print Assumptions surface_force.
Theorem surface_shear_direction : forall a T vel c i j, let l := a_local a in (c < 2)%nat -> (i < mNx l)%nat -> (j < mNy l)%nat ->
  a_visco a <> 0 -> dXx l <> 0 -> dXy l <> 0 -> dXz l <> 0 -> a_Ts a < a_Tl a ->
  (surface_T a T i j <= a_Ts a -> surface_shear a T vel c i j = 0)
  /\ (a_marangoni a <= 0 -> surface_shear a T vel c i j * surface_grad a T c i j <= 0)
  /\ Rabs (surface_shear a T vel c i j) <= Rabs (a_marangoni a) * Rabs (surface_grad a T c i j).
Proof.
  intros a T vel c i j l Hc Hi Hj H1 H2 H3 H4 H5. rewrite (shear_eq a T vel c i j) by assumption. pose proof (frac_nonneg a (surface_T a T i j) H5) as Hf. split; [|split].
  - intros HT. rewrite solid_zero by assumption. ring.
  - intros Hm. set (g := surface_grad a T c i j). set (f := fluid_frac a (surface_T a T i j)) in *.
    replace (a_marangoni a * g * f * g) with (- (- a_marangoni a * f * (g * g))) by ring. pose proof (Rmult_le_pos (- a_marangoni a * f) (g * g) ltac:(apply Rmult_le_pos; lra) (Rle_0_sqr g)). lra.
  - rewrite !Rabs_mult, (Rabs_right (fluid_frac _ _)) by lra. rewrite <- (Rmult_1_r (Rabs (a_marangoni a) * Rabs (surface_grad a T c i j))) at 2.
    apply Rmult_le_compat_l; [apply Rmult_le_pos; apply Rabs_pos|lra].
Qed.
Print Assumptions surface_shear_direction.
Example surface_force_case : (forall i j, a_Tl am3 <= surface_T am3 hot_right i j) /\ forall vel, sumN 3 (fun i => surface_shear am3 hot_right vel 0 i 0 * dXx (a_local am3)) = -200.
Proof. split; [exact hot_liquid|]. intros vel. destruct (hot_shear vel) as (H0 & H1 & H2). unfold sumN. cbn [seq sumR]. rewrite H0, H1, H2, am3_dx. lra. Qed.

(** ** C204: a uniform temperature gradient pulls evenly (false at the rim of the window) *)
Theorem uniform_gradient_inner : forall a T vel t0 s, let l := a_local a in (forall i j, (i < mNx l)%nat -> (j < mNy l)%nat -> surface_T a T i j = t0 + s * (INR i * dXx l)) ->
  a_visco a <> 0 -> dXx l <> 0 -> dXy l <> 0 -> dXz l <> 0 -> a_Ts a < a_Tl a ->
  forall i j, (1 <= i)%nat -> (i + 1 < mNx l)%nat -> (j < mNy l)%nat -> a_Tl a <= surface_T a T i j -> surface_shear a T vel 0 i j = a_marangoni a * s.
Proof. intros a T vel t0 s l HT H1 H2 H3 H4 H5 i j. exact (linear_inner a T t0 s HT H1 H2 H3 H4 H5 vel i j). Qed.
Print Assumptions uniform_gradient_inner.
Theorem uniform_gradient_rim : forall a T vel t0 s, let l := a_local a in (forall i j, (i < mNx l)%nat -> (j < mNy l)%nat -> surface_T a T i j = t0 + s * (INR i * dXx l)) ->
  a_visco a <> 0 -> dXx l <> 0 -> dXy l <> 0 -> dXz l <> 0 -> a_Ts a < a_Tl a -> (1 < mNx l)%nat ->
  forall i j, i = 0%nat \/ i = (mNx l - 1)%nat -> (j < mNy l)%nat -> a_Tl a <= surface_T a T i j -> surface_shear a T vel 0 i j = a_marangoni a * s / 2.
Proof.
  intros a T vel t0 s l HT H1 H2 H3 H4 H5 Hn i j [-> | ->].
  - exact (linear_first a T t0 s HT H1 H2 H3 H4 H5 vel j Hn).
  - exact (linear_last a T t0 s HT H1 H2 H3 H4 H5 vel j Hn).
Qed.
Print Assumptions uniform_gradient_rim.
Theorem uniform_gradient_refuted : exists a T t0 s, (a_visco a <> 0 /\ dXx (a_local a) <> 0 /\ dXy (a_local a) <> 0 /\ dXz (a_local a) <> 0 /\ a_Ts a < a_Tl a)
  /\ (forall i j, surface_T a T i j = t0 + s * (INR i * dXx (a_local a))) /\ (forall i j, a_Tl a <= surface_T a T i j)
  /\ forall vel, surface_shear a T vel 0 0 0 <> a_marangoni a * s /\ surface_shear a T vel 0 1 0 = a_marangoni a * s.
Proof.
  exists am3, hot_right, 2000, 100. split; [exact am3_ok|]. split; [exact hot_linear|]. split; [exact hot_liquid|].
  intros vel. destruct (hot_shear vel) as (H0 & H1 & _). rewrite H0, H1. cbn. lra.
Qed.
Print Assumptions uniform_gradient_refuted.
Close Scope R_scope.
