(** * Properties C15 (refutation), C16, C17, C68 - C71: units, sources, laser path, outputs of the LBM solver *)
From Verif Require Import Prelude PreludeFacts LbmModel LbmAuxModel LbmSpec LbmAuxSpec LbmProofs LbmMassProofs LbmPhaseProofs LbmQuietProofs LbmStepProofs LbmAuxProofs.
From Coq Require Import Lra.
Open Scope R_scope.

(** A parameter set with the shipped Inconel numbers
    (applications/lbm/pbf/lbm_params.json). *)
Definition inconel : lbm_args :=
  mkArgs (6/1000000) (2/10000000) 8440 300 (614/10000) (98/10) (7/1000) (188/100) (-43/100000) (54/100)
    200 (50/1000000) (35/100) (58823/100) (5769/1000000000) (1885/1000000000) (1/10) 10 6090000
    1623 1563 3186 919403 1210397.

(** C15, finding: with the shipped numbers the recovered temperature jumps at the solidus. *)
Theorem temperature_continuous_refuted :
  exists a, inconel_like a /\
  let p := derive_params a in
  exists eps, 0 < eps /\ forall e, e < enthalpy_s p ->
    compute_T1 p (enthalpy_s p) - compute_T1 p e >= eps.
Proof.
  exists inconel. assert (H : inconel_like inconel) by (unfold inconel_like, physical, inconel; cbn; lra).
  split; [exact H|]. exact (inconel_jump inconel H).
Qed.
Print Assumptions temperature_continuous_refuted.

(** C16 *)
Theorem read_path_follows_way_points :
  forall xc yc sw vel dtv, 0 < vel -> 0 < dtv ->
  (2 <= length xc)%nat -> (length xc <= length yc)%nat -> (length xc <= length sw)%nat ->
  exists ts xs ys ps ks, read_path xc yc sw vel dtv = Ok (ts, xs, ys, ps) /\
    length ks = (length xc - 1)%nat /\
    length ts = list_sum ks /\ length xs = list_sum ks /\ length ys = list_sum ks /\ length ps = list_sum ks /\
    forall i k, nth_error ks i = Some k ->
      is_ceil ((seg_time xc yc vel i + 1/10000000000) / dtv) k /\
      forall j, (j < k)%nat ->
        nth_error ts (offset ks i + j) = Some (arrival xc yc vel i + INR j * dtv) /\
        nth_error xs (offset ks i + j) = Some (sample (nth i xc 0) (nth (S i) xc 0) k j) /\
        nth_error ys (offset ks i + j) = Some (sample (nth i yc 0) (nth (S i) yc 0) k j) /\
        nth_error ps (offset ks i + j) = Some (nth i sw 0).
Proof. exact read_path_ok. Qed.
Print Assumptions read_path_follows_way_points.
Theorem read_path_rejects_single_point :
  forall xc yc sw vel dtv, (length xc < 2)%nat -> read_path xc yc sw vel dtv = Err ValueError.
Proof. exact read_path_too_short. Qed.
Print Assumptions read_path_rejects_single_point.
Example read_path_case : seg_time [0; 3] [0; 4] 5 0 = 1 /\ is_ceil ((1 + 1/10000000000) / (1/2)) 3 /\ sample 0 3 3 1 = 3/2.
Proof.
  split; [|split].
  - unfold seg_time, dist2. cbn [nth]. replace ((3 - 0) ^ 2 + (4 - 0) ^ 2) with (5 * 5) by ring.
    rewrite sqrt_square by lra. field.
  - unfold is_ceil. cbn. lra.
  - unfold sample. cbn. field.
Qed.

(** C68: one sample more than time steps per segment, so a path with corners takes
    one extra time step per interior corner. *)
Theorem laser_path_step_count :
  forall xc yc sw vel dtv (N : nat -> nat), 0 < vel -> 1/10000000000 <= dtv ->
  (2 <= length xc)%nat -> (length xc <= length yc)%nat -> (length xc <= length sw)%nat ->
  (forall i, (i < length xc - 1)%nat -> seg_time xc yc vel i = INR (N i) * dtv) ->
  exists r, read_path xc yc sw vel dtv = Ok r /\
    total_time_steps r = (list_sum (map N (seq 0 (length xc - 1))) + (length xc - 2))%nat.
Proof. exact path_step_count. Qed.
Print Assumptions laser_path_step_count.
(** Finding: the number of steps is not the travel time divided by the step. *)
Theorem steps_equal_travel_time_refuted :
  exists xc yc sw vel dtv (N : nat), 0 < vel /\ 1/10000000000 <= dtv /\
    arrival xc yc vel (length xc - 1) = INR N * dtv /\
    exists r, read_path xc yc sw vel dtv = Ok r /\ total_time_steps r <> N.
Proof.
  exists [0; 1; 1], [0; 0; 1], [1; 1; 1], 1, 1, 2%nat.
  assert (H : forall i, (i < 2)%nat -> seg_time [0; 1; 1] [0; 0; 1] 1 i = 1).
  { intros i Hi. destruct i as [|[|]]; [| |lia]; unfold seg_time, dist2; cbn [nth].
    - replace ((1 - 0) ^ 2 + (0 - 0) ^ 2) with (1 * 1) by ring. rewrite sqrt_square by lra. field.
    - replace ((1 - 1) ^ 2 + (1 - 0) ^ 2) with (1 * 1) by ring. rewrite sqrt_square by lra. field. }
  split; [lra|]. split; [lra|]. split.
  { unfold arrival. cbn [length Nat.sub seq sumR]. rewrite !H by lia. cbn. ring. }
  destruct (path_step_count [0;1;1] [0;0;1] [1;1;1] 1 1 (fun _ => 1%nat)) as (r & E & Er); cbn [length]; try lra; try lia.
  { intros i Hi. rewrite H by lia. cbn. ring. }
  exists r. split; [exact E|]. rewrite Er. cbn. lia.
Qed.
Print Assumptions steps_equal_travel_time_refuted.

(** C17 *)
Theorem outputs_are_consecutive :
  forall steps itv, (0 < itv)%nat ->
  lbm_outputs steps itv = Ok (map (fun k => (k * itv, k))%nat (seq 0 (steps / itv + 1))) /\
  driver_outputs steps itv = Ok (map (fun k => (k * itv, k))%nat (seq 0 (steps / itv + 1))).
Proof. exact outputs_ok. Qed.
Print Assumptions outputs_are_consecutive.
Example outputs_case : lbm_outputs 7 3 = Ok [(0, 0); (3, 1); (6, 2)]%nat.
Proof. reflexivity. Qed.

(** C69 *)
Theorem unit_conversion_consistent :
  forall a, physical a ->
  let p := derive_params a in
  (tau_nu p - 1/2) / 3 * (a_h a ^ 2 / a_dt a) = a_mu a / a_rho0 a /\
  (tau_l p - 1/2) / 3 * (a_h a ^ 2 / a_dt a) = a_diff_l a /\
  (tau_s p - 1/2) / 3 * (a_h a ^ 2 / a_dt a) = a_diff_s a /\
  T_solidus p * a_T0 a = a_Ts a /\ T_liquidus p * a_T0 a = a_Tl a /\
  (heat_capacity p * T_solidus p = enthalpy_s p <-> a_cp a * a_Ts a = a_es a) /\
  (enthalpy_l p - enthalpy_s p) / heat_capacity p * (a_cp a) = (if Reqb (a_cp a) 0 then 0 else (a_el a - a_es a) / a_T0 a).
Proof. exact unit_conversion. Qed.
Print Assumptions unit_conversion_consistent.
Example unit_conversion_case : physical inconel.
Proof. unfold physical, inconel; cbn; lra. Qed.

(** C70 *)
Theorem enthalpy_streaming_balance :
  forall p d h u phase, closed d phase ->
  system_enthalpy d phase (update_h p d h u phase) =
  system_enthalpy d phase h +
  sumR (grid d) (fun c => if fluid (phase c) then
     sumR (seq 0 19) (fun q => if phase_eqb (phase (neighbour c q)) WALL
                               then weight q * heat_capacity p * T0 - h c q else 0) else 0).
Proof. exact enthalpy_streaming. Qed.
Print Assumptions enthalpy_streaming_balance.
Example enthalpy_streaming_case : closed (row_dims 3) (row_phase [LIQUID; LG; GAS]) /\
  fluid (row_phase [LIQUID; LG; GAS] (1,1,1)%Z) = true /\ row_phase [LIQUID; LG; GAS] (neighbour (1,1,1)%Z 3) = WALL.
Proof. split; [apply row_LG_LIQUID_ok|split; reflexivity]. Qed.

(** C71 *)
Theorem bulk_force_is_gravity : forall a rho vof k T Tg,
  f_source a rho vof (0,0,0) k T Tg = (0, 0, - (rho * gravity a)).
Proof. exact f_source_bulk. Qed.
Print Assumptions bulk_force_is_gravity.
Theorem marangoni_is_tangential : forall a vof phi Tg, dot (marangoni a vof phi Tg) phi = 0.
Proof. exact marangoni_tangent. Qed.
Print Assumptions marangoni_is_tangential.
Theorem heat_source_rules : forall a T vof phi x y lx ly sw,
  (phi = (0,0,0) -> h_source a T vof phi x y lx ly sw = 0) /\
  (0 <= snd phi -> h_source a T vof phi x y lx ly sw =
     norm3 phi * (h_conv a * (T0 - T) + SB_const a * emissivity a * (T0^4 - T^4)) * 2 * vof) /\
  (0 <= sw -> 0 <= laser_power a -> 0 <= absorbed_fraction a -> beam_size a <> 0 -> 0 <= vof -> T = T0 ->
     0 <= h_source a T vof phi x y lx ly sw).
Proof. exact h_source_facts. Qed.
Print Assumptions heat_source_rules.
Theorem flat_interface_has_no_curvature : forall a d vof c (g : Z -> R) rho T Tg,
  (forall c', vof c' = g (snd c')) ->
  let phi := get_phi d vof c in
  phi = (0, 0, comp AZ phi) /\
  (comp AZ phi <> 0 -> kappa d vof c = 0 /\
     comp AX (f_source a rho (vof c) phi (kappa d vof c) T Tg) = comp AX (marangoni a (vof c) phi Tg) /\
     dot (marangoni a (vof c) phi Tg) (0,0,1) = 0).
Proof. exact flat_interface. Qed.
Print Assumptions flat_interface_has_no_curvature.
Theorem temperature_gradient_ignores_gas_and_wall : forall d T T' phase c,
  (forall n, is_gas_or_wall (phase n) = false -> T n = T' n) ->
  T (wrap d c (0,0,0)%Z) = T' (wrap d c (0,0,0)%Z) ->
  T_grad d T phase c = T_grad d T' phase c.
Proof. exact T_grad_adiabatic. Qed.
Print Assumptions temperature_gradient_ignores_gas_and_wall.
Example sources_case :
  let vof : field R := fun c => if Z.ltb (snd c) 2 then 1 else 0 in
  comp AZ (get_phi (mkDims 3 3 5) vof (1, 1, 2)%Z) = - (1/2).
Proof. cbn. field. Qed.
Close Scope R_scope.
