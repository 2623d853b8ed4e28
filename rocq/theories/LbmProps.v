(** * Properties C04 (kernel storage) and C05 - C15 of the lattice Boltzmann solver

    Statements use the model functions under study and [LbmSpec]. *)
From Verif Require Import Prelude PreludeFacts MeshModel LbmModel LbmSpec LbmProofs LbmMassProofs LbmPhaseProofs LbmQuietProofs LbmStepProofs.
From Coq Require Import Lra.
Open Scope R_scope.

(** C04: a per-lattice kernel, computed from decoded coordinates and reshaped,
    is the field "value computed for (x,y,z), stored at [x,y,z]". *)
Theorem vmapped_lattice_kernel :
  forall (A : Type) (dflt : A) Nx Ny Nz (k : nat * nat * nat -> A) x y z,
  (x < Nx)%nat -> (y < Ny)%nat -> (z < Nz)%nat ->
  at3 (shape_wrapper_vmap dflt Nx Ny Nz (fun id => k (to_id_xyz Ny Nz id))) x y z = k (x, y, z).
Proof. exact vmapped_lattice_kernel_L. Qed.
Print Assumptions vmapped_lattice_kernel.
Example vmapped_lattice_kernel_case :
  at3 (shape_wrapper_vmap (9,9,9)%nat 2 3 4 (fun id => to_id_xyz 3 4 id)) 1 2 3 = (1, 2, 3)%nat.
Proof. reflexivity. Qed.

(** C05 *)
Theorem d3q19_velocity_set :
  NoDup (map (fun q => (vx q, vy q, vz q)) (seq 0 19)) /\
  (forall e : cell, (exists q, (q < 19)%nat /\ (vx q, vy q, vz q) = e) <-> d3q19_offset e) /\
  (forall q, (q < 19)%nat -> (rev q < 19)%nat /\ rev (rev q) = q /\
     velR (rev q) = vneg (velR q) /\ 0 < weight q /\ weight (rev q) = weight q) /\
  (vx 0, vy 0, vz 0) = (0, 0, 0)%Z.
Proof. exact d3q19_tables. Qed.
Print Assumptions d3q19_velocity_set.

Theorem d3q19_isotropy :
  sumR (seq 0 19) weight = 1 /\
  (forall g : vec3 -> R, (forall e, g (vneg e) = - g e) -> sumR (seq 0 19) (fun q => weight q * g (velR q)) = 0) /\
  (forall a b, sumR (seq 0 19) (fun q => weight q * (comp a (velR q) * comp b (velR q))) = 1/3 * delta a b) /\
  (forall a b c e, sumR (seq 0 19) (fun q => weight q * (comp a (velR q) * comp b (velR q) * comp c (velR q) * comp e (velR q)))
     = 1/9 * (delta a b * delta c e + delta a c * delta b e + delta a e * delta b c)).
Proof. exact d3q19_moments. Qed.
Print Assumptions d3q19_isotropy.
Example d3q19_case : (vx 9, vy 9, vz 9) = (1, -1, 0)%Z /\ rev 9 = 10%nat /\ weight 9 = 1/36 /\
  (let g (e : vec3) := comp AX e * comp AY e * comp AY e in forall e, g (vneg e) = - g e).
Proof. split; [reflexivity|]. split; [reflexivity|]. split; [reflexivity|]. intros g [[x y] z]; unfold g; cbn; ring. Qed.

(** C06 *)
Theorem equilibrium_f_moments : forall rho u,
  sumR (seq 0 19) (fun q => equilibrium_f q rho u) = rho /\
  (forall a, sumR (seq 0 19) (fun q => equilibrium_f q rho u * comp a (velR q)) = rho * comp a u) /\
  (forall a b, sumR (seq 0 19) (fun q => equilibrium_f q rho u * (comp a (velR q) * comp b (velR q)))
     = rho * (1/3 * delta a b + comp a u * comp b u)).
Proof. exact equilibrium_f_moments_L. Qed.
Print Assumptions equilibrium_f_moments.

Theorem equilibrium_h_moments : forall p e T u,
  sumR (seq 0 19) (fun q => equilibrium_h p q e T u) = e /\
  (forall a, sumR (seq 0 19) (fun q => equilibrium_h p q e T u * comp a (velR q)) = heat_capacity p * T * comp a u).
Proof. exact equilibrium_h_moments_L. Qed.
Print Assumptions equilibrium_h_moments.
Example equilibrium_case : equilibrium_f 1 1 (1/10, 0, 0) = 1/18 * (1 + 3/10 + 9/200 - 3/200).
Proof. cbv [equilibrium_f dot velR vx vy vz weight nth vels_x vels_y vels_z weights_tab cs_sq]. field. Qed.

(** C07 *)
Theorem collision_balance :
  forall p d f T src phase c, in_grid d c -> tau_nu p <> 0 ->
  phase c = LIQUID \/ phase c = LG ->
  let rho := compute_rho f in
  let u := compute_u p f rho T src in
  let f' := collide_f p d f rho T u phase src c in
  density f' = density (f c) /\
  (T_solidus p <= T c -> density (f c) <> 0 -> forall a,
     sumR (seq 0 19) (fun q => f' q * comp a (velR q))
     = sumR (seq 0 19) (fun q => f c q * comp a (velR q)) + comp a (src c)) /\
  (T c < T_solidus p -> forall a, sumR (seq 0 19) (fun q => f' q * comp a (velR q)) = 0).
Proof. exact collide_f_balance. Qed.
Print Assumptions collision_balance.

Theorem collision_gas_wall_zero :
  forall p d f rho T u phase src c, in_grid d c ->
  phase c = GAS \/ phase c = WALL -> forall q, collide_f p d f rho T u phase src c q = 0.
Proof. exact collide_f_gas. Qed.
Print Assumptions collision_gas_wall_zero.
Example collision_balance_case :
  in_grid (mkDims 3 3 3) (1, 1, 1)%Z /\ tau_nu p_cold <> 0 /\ T_solidus p_cold <= 5 /\ density (init_f (1,1,1)%Z) <> 0.
Proof.
  split; [cbn; lia|]. split; [cbn; lra|]. split; [cbn; lra|].
  change (density (init_f (1,1,1)%Z)) with (compute_rho init_f (1,1,1)%Z). rewrite init_rho. lra.
Qed.

(** C08 *)
Theorem thermal_collision_balance :
  forall p d h T rho u phase src c, in_grid d c ->
  phase c = LIQUID \/ phase c = LG -> rho c <> 0 ->
  let h' := collide_h p d h (compute_enthalpy h) T rho u phase src c in
  density h' = density (h c) + src c / rho c.
Proof. exact collide_h_balance. Qed.
Print Assumptions thermal_collision_balance.
Theorem thermal_collision_gas_wall_zero :
  forall p d h e T rho u phase src c, in_grid d c ->
  phase c = GAS \/ phase c = WALL -> forall q, collide_h p d h e T rho u phase src c q = 0.
Proof. exact collide_h_gas. Qed.
Print Assumptions thermal_collision_gas_wall_zero.
Example thermal_collision_case : in_grid (mkDims 3 3 3) (1, 1, 1)%Z /\ compute_rho init_f (1,1,1)%Z <> 0.
Proof. split; [cbn; lia|]. rewrite init_rho. lra. Qed.

(** C09 *)
Theorem streaming_conserves_mass :
  forall d f rho u phase mass vof h, closed d phase -> no_liquid_gas_contact d phase ->
  let r := update_f d f rho u phase mass vof in
  system_mass d (mkL (fun c => fst (r c)) h phase (fun c => snd (r c))) = system_mass d (mkL f h phase mass).
Proof. exact streaming_mass. Qed.
Print Assumptions streaming_conserves_mass.
Theorem collision_and_streaming_conserve_mass :
  forall p d src s, tau_nu p <> 0 -> closed d (lphase s) -> no_liquid_gas_contact d (lphase s) ->
  system_mass d (fst (physics p d src s)) = system_mass d s.
Proof. exact physics_mass. Qed.
Print Assumptions collision_and_streaming_conserve_mass.
Example streaming_case : closed (row_dims 3) (row_phase [LIQUID; LG; GAS]) /\
  no_liquid_gas_contact (row_dims 3) (row_phase [LIQUID; LG; GAS]).
Proof. exact row_LG_LIQUID_ok. Qed.

(** C10 *)
Theorem total_mass_restored :
  forall p d fo ph0 srcs,
  let s := st (simulate p d fo ph0 srcs) in
  (exists c, in_grid d c /\ lphase s c = LG) ->
  system_mass d s = system_mass d (init_state p d ph0).
Proof. exact simulate_mass. Qed.
Print Assumptions total_mass_restored.
(** Finding: without interface cells the mass is not restored (closed box, any source). *)
Theorem total_mass_restored_refuted :
  exists p d ph0, forall src,
  closed d ph0 /\
  system_mass d (init_state p d ph0) = 3/2 /\
  system_mass d (st (simulate p d false ph0 [src])) = 2.
Proof. exact mass_refuted. Qed.
Print Assumptions total_mass_restored_refuted.
Example total_mass_case : exists c, in_grid (row_dims 3) c /\
  lphase (st (simulate p_cold (row_dims 3) false (row_phase [LIQUID; LG; GAS]) [])) c = LG.
Proof. exists (2, 1, 1)%Z. split; [cbn; lia|]. vm_compute. reflexivity. Qed.

(** C11 *)
Theorem walls_never_change :
  forall p d fo ph0 srcs c, in_grid d c ->
  lphase (st (simulate p d fo ph0 srcs)) c = WALL <-> ph0 c = WALL.
Proof. exact simulate_walls. Qed.
Print Assumptions walls_never_change.
Theorem gas_and_wall_hold_nothing :
  forall p d fo ph0 srcs c, srcs <> [] ->
  let s := st (simulate p d fo ph0 srcs) in
  lphase s c = GAS \/ lphase s c = WALL ->
  (forall q, lf s c q = 0 /\ lh s c q = 0) /\ lmass s c = 0.
Proof. exact simulate_zero. Qed.
Print Assumptions gas_and_wall_hold_nothing.
Example walls_case : forall src : sources, [src] <> [] /\ in_grid (row_dims 3) (0, 1, 1)%Z /\
  row_phase [LIQUID; LG; GAS] (0, 1, 1)%Z = WALL.
Proof. intros; split; [discriminate|]. split; [cbn; lia|reflexivity]. Qed.

(** C12: holds for the map produced by the fill-level rules of every step, before the
    final clean-up; ... *)
Theorem liquid_gas_separated_before_cleanup_partial :
  forall p d src fo target x, closed d (lphase (st x)) ->
  exists mid, no_liquid_gas_contact d mid /\
    lphase (st (step p d src fo target x)) = adhoc_step d mid.
Proof. exact mid_exists. Qed.
Print Assumptions liquid_gas_separated_before_cleanup_partial.
(** ... and fails after it (finding): the clean-up turns neighbouring interface
    cells into liquid and gas in the same sweep. *)
Theorem liquid_gas_separated_refuted :
  exists p d ph0, forall src,
  closed d ph0 /\ no_liquid_gas_contact d ph0 /\
  ~ no_liquid_gas_contact d (lphase (st (simulate p d false ph0 [src]))).
Proof. exact contact_refuted. Qed.
Print Assumptions liquid_gas_separated_refuted.
Example separated_case : closed (row_dims 3) (lphase (st (init_sim p_cold (row_dims 3) (row_phase [LIQUID; LG; GAS])))).
Proof.
  apply (closed_ext _ _ _ (proj1 row_LG_LIQUID_ok)). intros c Hc. apply init_wall; exact Hc.
Qed.

(** C13 *)
Theorem phase_transition_rules :
  forall p d src fo target x, closed d (lphase (st x)) ->
  let s := fst (physics p d src (pre p fo (st x))) in
  let final := lphase (st (step p d src fo target x)) in
  exists mid : field phase_t, no_liquid_gas_contact d mid /\
  forall c, in_grid d c ->
   ((mid c = WALL <-> lphase (st x) c = WALL) /\
    (lphase (st x) c = LIQUID \/ filled s c ->
       mid c = LIQUID \/ (mid c = LG /\ exists n, adjacent c n /\ mid n = GAS)) /\
    (mid c = LIQUID -> lphase (st x) c = LIQUID \/ filled s c) /\
    (lphase (st x) c = LG -> ~ filled s c -> (emptied s c -> mid c = GAS) /\ (~ emptied s c -> mid c = LG)) /\
    (lphase (st x) c = GAS -> (mid c = GAS \/ mid c = LG) /\
       (mid c = LG -> exists n, adjacent c n /\ (lphase (st x) n = LIQUID \/ filled s n)) /\
       ((exists n, adjacent c n /\ (lphase (st x) n = LIQUID \/ filled s n)) ->
          (forall n, 0 <= density (lf (st x) n)) -> mid c = LG))) /\
   ((mid c <> LG -> final c = mid c) /\
    (mid c = LG ->
      ((forall n, adjacent c n -> mid n <> LIQUID) -> final c = GAS) /\
      ((exists n, adjacent c n /\ mid n = LIQUID) ->
        ((forall n, adjacent c n -> mid n <> GAS) -> final c = LIQUID) /\
        ((exists n, adjacent c n /\ mid n = GAS) -> final c = LG)))).
Proof. exact step_transitions. Qed.
Print Assumptions phase_transition_rules.
Theorem bulk_cells_stay :
  forall p d src fo target x c, closed d (lphase (st x)) -> in_grid d c ->
  let ph := lphase (st x) in let ph' := lphase (st (step p d src fo target x)) in
  (ph c = LIQUID -> (forall n, adjacent c n -> ph n = LIQUID \/ ph n = WALL) -> ph' c = LIQUID) /\
  (ph c = GAS -> (forall n, adjacent c n -> ph n = GAS \/ ph n = WALL) -> ph' c = GAS).
Proof. exact bulk_stays. Qed.
Print Assumptions bulk_cells_stay.
Example phase_rules_case : closed (row_dims 3) (row_phase [LIQUID; LG; GAS]) /\ in_grid (row_dims 3) (2, 1, 1)%Z.
Proof. split; [apply row_LG_LIQUID_ok | cbn; lia]. Qed.

(** C14 *)
Theorem melt_history_exact :
  forall p d fo ph0 srcs c,
  (melted (simulate p d fo ph0 srcs) c = 1 /\
    exists k, (k < length srcs)%nat /\
      T_solidus p < T_of p (pre p fo (st (simulate p d fo ph0 (firstn k srcs)))) c) \/
  (melted (simulate p d fo ph0 srcs) c = 0 /\
    forall k, (k < length srcs)%nat ->
      T_of p (pre p fo (st (simulate p d fo ph0 (firstn k srcs)))) c <= T_solidus p).
Proof. exact melted_run. Qed.
Print Assumptions melt_history_exact.
Example melt_history_case : forall src,
  melted (simulate (mkParams 1 1 1 1 (1/2) 3 (1/2) 3) (row_dims 1) false (row_phase [LIQUID]) [src]) (1,1,1)%Z = 1.
Proof.
  intros src. destruct (melted_run (mkParams 1 1 1 1 (1/2) 3 (1/2) 3) (row_dims 1) false (row_phase [LIQUID]) [src] (1,1,1)%Z) as [[H _]|[_ H]]; [exact H|].
  exfalso. specialize (H 0%nat (le_n 1)). cbn [firstn simulate run fold_left init_sim st pre] in H.
  unfold T_of, compute_T, compute_T1 in H. cbn [enthalpy_s enthalpy_l heat_capacity T_solidus T_liquidus] in H.
  assert (E : compute_enthalpy (lh (init_state (mkParams 1 1 1 1 (1/2) 3 (1/2) 3) (row_dims 1) (row_phase [LIQUID]))) (1,1,1)%Z = 1).
  { transitivity (compute_enthalpy (init_h (mkParams 1 1 1 1 (1/2) 3 (1/2) 3)) (1,1,1)%Z); [|apply init_enthalpy]. unfold compute_enthalpy, init_state. cbn [lh reini_gas_to_lg lphase].
    assert (Eg : gas_to_lg_flag (row_dims 1) (row_phase [LIQUID]) (1,1,1)%Z = false) by reflexivity.
    rewrite Eg. reflexivity. }
  rewrite E in H.
  rewrite (proj2 (Rltb_false 1 (1/2))), (proj2 (Rltb_true 1 3)) in H by lra. lra.
Qed.

(** C15 *)
Theorem temperature_recovery :
  forall p, consistent p ->
  compute_T1 p (enthalpy_s p) = T_solidus p /\
  compute_T1 p (enthalpy_l p) = T_liquidus p /\
  (forall e, e <= enthalpy_s p -> compute_T1 p e = e / heat_capacity p) /\
  (forall a b, a < b -> compute_T1 p a < compute_T1 p b) /\
  (exists K, 0 < K /\ forall a b, Rabs (compute_T1 p a - compute_T1 p b) <= K * Rabs (a - b)).
Proof. exact compute_T_curve. Qed.
Print Assumptions temperature_recovery.
Example temperature_recovery_case : consistent (mkParams 1 1 1 2 3 4 6 10).
Proof. unfold consistent; cbn. lra. Qed.
Close Scope R_scope.
