(** * Properties of the velocity update of the CFD solver: prediction and pressure correction (C185-C189). *)
From Coq Require Import Lra Lia Psatz.
From Verif Require Import Prelude PreludeFacts GridFacts CfdMeshModel CfdMeshSpec CfdMeshProofs CfdModel CfdSpec CfdProofs CfdOpProofs CfdEqProofs CfdSolveProofs CfdRestProofs ProjSpec ProjProofs ProjPredProofs ProjExamples.
Open Scope R_scope.

(** ** C185: the velocity after the correction is free of divergence (false of the code) *)
(** The divergence that the correction leaves behind is dt/rho times the fourth differences of the pressure:
    the pressure equation uses the compact Laplacian, the correction the central gradient. *)
Theorem correction_leaves : forall a T vel p, good_mesh (a_local a) -> 0 < a_dt a -> 0 < a_rho a -> pressure_solution a T vel p ->
  forall i j k, in_box (a_local a) i j k -> divergence a T (corrected a vel p) i j k = - (a_dt a / a_rho a) * roughness (a_local a) p i j k.
Proof. intros a T vel p W D Rh. exact (remaining a T W D Rh vel p). Qed.
Print Assumptions correction_leaves.
Example correction_leaves_case : pressure_solution am2 T2 v2 p2 /\ divergence am2 T2 (corrected am2 v2 p2) 0%nat 0%nat 0%nat = - (1 / 1) * roughness l2 p2 0 0 0 /\ roughness l2 p2 0 0 0 = - 1 / 4.
Proof.
  destruct dt2 as (D1 & D2 & _). split; [exact p2_solves|]. pose proof (correction_leaves am2 T2 v2 p2 good2 D1 D2 p2_solves 0 0 0 (in2 0 ltac:(lia))) as E.
  split; [exact E|]. destruct after2 as (_ & _ & _ & E'). rewrite E' in E. change (a_dt am2) with 1 in E. change (a_rho am2) with 1 in E. lra.
Qed.
(** The corrected velocity is free of divergence only if the predicted one was; then the correction does nothing. *)
Theorem correction_free_iff : forall a T vel p, good_mesh (a_local a) -> 0 < a_dt a -> 0 < a_rho a -> pressure_solution a T vel p ->
  ((forall i j k, in_box (a_local a) i j k -> divergence a T (corrected a vel p) i j k = 0) <-> (forall i j k, in_box (a_local a) i j k -> divergence a T vel i j k = 0)) /\
  ((forall i j k, in_box (a_local a) i j k -> divergence a T vel i j k = 0) -> forall c i j k, (c < 3)%nat -> in_box (a_local a) i j k -> corrected a vel p c i j k = vel c i j k).
Proof.
  intros a T vel p W D Rh Hp. pose proof (free_kept a T W vel p Hp) as K. split; [split|].
  - exact (never_free a T W D Rh vel p Hp).
  - intros H i j k Hb. pose proof Hb as (Hi & Hj & Hk). rewrite (divergence_axes a T) by exact Hb. rewrite <- (H i j k Hb), (divergence_axes a T) by exact Hb.
    f_equal; [f_equal|]; (f_equal; apply dv_ext; [assumption|intros i' Hi'; apply K; [exact H|repeat split; assumption|lia]]).
  - intros H c i j k Hc Hb. now apply K.
Qed.
Print Assumptions correction_free_iff.
Example correction_free_iff_case : divergence am2 T2 v2 0%nat 0%nat 0%nat = 1 / 2 /\ divergence am2 T2 (corrected am2 v2 p2) 0%nat 0%nat 0%nat = 1 / 4 /\ corrected am2 v2 p2 0%nat 1%nat 0%nat 0%nat = - 1 / 4 /\
  (let w := fun c i (j k : nat) => if Nat.eqb c 0 then (if Nat.eqb i 0 then 1 else -1) else 0 in pressure_solution am2 T2 w (fun _ => 7) /\ corrected am2 w (fun _ => 7) 0%nat 0%nat 0%nat 0%nat = 1).
Proof.
  destruct after2 as (_ & E1 & E2 & E3). repeat split; try assumption.
  - apply pressure2. cbn. field.
  - rewrite corrected2 by lia. cbn. field.
Qed.
Theorem correction_free_refuted : exists a T vel p, good_mesh (a_local a) /\ 0 < a_dt a /\ 0 < a_rho a /\ pressure_solution a T vel p /\ ~ (forall i j k, in_box (a_local a) i j k -> divergence a T (corrected a vel p) i j k = 0).
Proof.
  exists am2, T2, v2, p2. destruct dt2 as (D1 & D2 & _). repeat (split; [first [exact good2|assumption|exact p2_solves]|]). intros H. specialize (H 0%nat 0%nat 0%nat (in2 0 ltac:(lia))). destruct after2 as (_ & _ & _ & E). lra.
Qed.
Print Assumptions correction_free_refuted.

(** ** C186: the pressure correction never adds kinetic energy *)
Theorem correction_energy : forall a T vel p, good_mesh (a_local a) -> 0 < a_dt a -> 0 < a_rho a -> pressure_solution a T vel p ->
  kinetic (a_local a) (corrected a vel p) <= kinetic (a_local a) vel - (a_dt a / a_rho a) ^ 2 * face_energy (a_local a) p /\ 0 <= face_energy (a_local a) p /\
  (kinetic (a_local a) (corrected a vel p) = kinetic (a_local a) vel <-> forall i j k, in_box (a_local a) i j k -> divergence a T vel i j k = 0).
Proof.
  intros a T vel p W D Rh Hp. pose proof (kinetic_correction a T W D Rh vel p Hp) as K. pose proof (grd_energy a W p) as Gp. pose proof (face_energy_nonneg a p) as F0.
  assert (Ht : 0 < a_dt a / a_rho a) by (apply Rdiv_lt_0_compat; assumption). pose proof (pow_lt _ 2 Ht) as Q.
  assert (B : kinetic (a_local a) (corrected a vel p) <= kinetic (a_local a) vel - (a_dt a / a_rho a) ^ 2 * face_energy (a_local a) p) by nra.
  split; [exact B|]. split; [exact F0|]. split.
  - intros E i j k Hb. assert (F : face_energy (a_local a) p = 0) by nra. pose proof (face_energy_zero a T W p F) as Z. pose proof Hb as (Hi & Hj & Hk).
    assert (C : compact a p i j k = 0).
    { assert (Zp : forall i' j' k', (i' < mNx (a_local a))%nat -> (j' < mNy (a_local a))%nat -> (k' < mNz (a_local a))%nat -> P3 a p i' j' k' = p 0%nat)
        by (intros; apply Z; [apply idx_lt; assumption|destruct W as (? & ? & ? & _); unfold cell_num; nia]).
      unfold compact, cmp. rewrite (Zp i j k), (Zp (Nat.min (i + 1) (mNx (a_local a) - 1)) j k), (Zp (i - 1)%nat j k), (Zp i (Nat.min (j + 1) (mNy (a_local a) - 1)) k), (Zp i (j - 1)%nat k), (Zp i j (Nat.min (k + 1) (mNz (a_local a) - 1))), (Zp i j (k - 1)%nat) by lia. unfold Rdiv. ring. }
    rewrite (proj1 (pressure_iff a T W vel p) Hp i j k Hb) in C. unfold Rdiv in C. apply Rmult_integral in C as [C|C]; [|lra]. apply Rmult_integral in C as [C|C]; [exact C|]. pose proof (Rinv_0_lt_compat _ D). lra.
  - intros H. unfold kinetic. apply sumR_ext. intros c Hc. apply in_seq in Hc. apply (box_ext a). intros i j k Hb. rewrite (free_kept a T W vel p Hp H i j k c Hb) by lia. reflexivity.
Qed.
Print Assumptions correction_energy.
Example correction_energy_case : kinetic l2 v2 = 1 /\ face_energy l2 p2 = 1 / 4 /\ kinetic l2 (corrected am2 v2 p2) = 10 / 16 /\ 10 / 16 <= 1 - (1 / 1) ^ 2 * (1 / 4).
Proof.
  destruct energy2 as (E1 & E2). repeat split; [exact E1|exact E2| |lra]. rewrite kinetic2. destruct after2 as (A0 & A1 & _ & _). cbn [seq sumR]. rewrite A0, A1.
  rewrite !(corrected_cell am2 good2) by (try lia; apply in2; lia). unfold v2, cen, P3, p2. destruct widths2 as (_ & -> & ->). cbn. field.
Qed.

(** ** C187: the pressure solve is well posed up to a constant, which the update does not see *)
Theorem pressure_well_posed : forall a T vel, good_mesh (a_local a) -> 0 < a_dt a -> 0 < a_rho a ->
  (exists p, pressure_solution a T vel p) /\
  (forall p q, pressure_solution a T vel p -> pressure_solution a T vel q -> exists c, forall n, (n < cell_num (a_local a))%nat -> q n = p n + c) /\
  (forall p q gradp0 c i j k, pressure_solution a T vel p -> pressure_solution a T vel q -> (c < 3)%nat -> in_box (a_local a) i j k ->
     corrected a vel q c i j k = corrected a vel p c i j k /\
     correct_gradp a gradp0 (unflat (a_local a) q) c i j k = correct_gradp a gradp0 (unflat (a_local a) p) c i j k).
Proof.
  intros a T vel W D Rh. split; [exact (press_exists a T vel W)|]. split; [exact (solutions_differ a T W vel)|].
  intros p q g0 c i j k Hp Hq Hc Hb. destruct (solutions_differ a T W vel p q Hp Hq) as (d & Hd). pose proof (gradient_shift a W p q d Hd c i j k Hc Hb) as E.
  unfold corrected, correct_vel, correct_gradp. change (unflat (a_local a) q) with (P3 a q). change (unflat (a_local a) p) with (P3 a p). rewrite E. split; reflexivity.
Qed.
Print Assumptions pressure_well_posed.
Example pressure_well_posed_case : (forall p, pressure_solution am2 T2 v2 p <-> p 1%nat - p 0%nat = 1 / 2) /\ pressure_solution am2 T2 v2 (fun n => p2 n + 9) /\ corrected am2 v2 (fun n => p2 n + 9) 0%nat 0%nat 0%nat 0%nat = 3 / 4.
Proof.
  assert (P : forall p, pressure_solution am2 T2 v2 p <-> p 1%nat - p 0%nat = 1 / 2) by (intros p; rewrite pressure2; unfold v2; cbn; split; lra).
  split; [exact P|]. split; [apply P; unfold p2; cbn; lra|]. rewrite corrected2 by lia. unfold v2, p2. cbn. field.
Qed.
(** With an exact linear solver the solve of the code returns such a pressure. *)
Theorem pressure_solve_exact : forall a T vel bicg, good_mesh (a_local a) -> exact_bicg (a_local a) bicg ->
  pressure_solution a T vel (p_solve a bicg (flat (a_local a) (div_vel a (vel_BCs a T) vel))).
Proof. intros a T vel bicg W. exact (press_solved a T vel W bicg). Qed.
Print Assumptions pressure_solve_exact.
Example pressure_solve_exact_case : exists bicg, exact_bicg l2 bicg /\ (let p := p_solve am2 bicg (flat l2 (div_vel am2 (vel_BCs am2 T2) v2)) in p 1%nat - p 0%nat = 1 / 2).
Proof.
  exists (ideal_bicg l2). split; [apply ideal_exact|]. intros p. apply (proj1 (proj1 pressure_well_posed_case p)). exact (pressure_solve_exact am2 T2 v2 _ good2 (ideal_exact l2)).
Qed.

(** ** C188: the prediction is well posed and gains energy only from surface tension *)
Theorem prediction_well_posed : forall a T c u0 conv gradp fl, good_mesh (a_local a) -> 0 < a_dt a -> 0 < a_rho a -> 0 < a_visco a ->
  (forall n, (n < cell_num (a_local a))%nat -> 0 <= fl n) ->
  (exists u, vel_solution a T c u0 conv gradp fl u) /\
  (forall u w, vel_solution a T c u0 conv gradp fl u -> vel_solution a T c u0 conv gradp fl w -> forall n, (n < cell_num (a_local a))%nat -> u n = w n) /\
  (forall bicg, exact_bicg (a_local a) bicg -> vel_solution a T c u0 conv gradp fl (vel_solve a bicg c u0 conv gradp fl (vel_bc_scalar a T c))).
Proof.
  intros a T c u0 conv gradp fl W D Rh Mu Hf. split; [exact (vel_exists a T c u0 conv gradp fl W D Rh Mu Hf)|]. split; [exact (vel_unique a T c u0 conv gradp fl W D Rh Mu Hf)|exact (vel_solved a T c u0 conv gradp fl W D Rh Mu Hf)].
Qed.
Print Assumptions prediction_well_posed.
(** beside a solid cell the liquid cell of the example keeps a tenth of its velocity *)
Example prediction_well_posed_case : exists u, vel_solution am2 T2 0 (flat l2 (v2 0%nat)) (flat l2 (none3 0%nat)) (flat l2 (none3 0%nat)) (flat l2 liq2) u /\ 10 * u 0%nat - u 1%nat = 1 /\ (10 ^ 12 + 10) * u 1%nat = u 0%nat.
Proof.
  destruct dt2 as (D1 & D2 & D3). destruct (vel_exists am2 T2 0 (flat l2 (v2 0%nat)) (flat l2 (none3 0%nat)) (flat l2 (none3 0%nat)) (flat l2 liq2) good2 D1 D2 D3) as (u & Hu).
  - intros n _. unfold flat, liq2. destruct (Nat.eqb _ 0); lra.
  - exists u. split; [exact Hu|exact (predicted2 u Hu)].
Qed.
Theorem prediction_energy : forall a T c u0 conv gradp fl u, good_mesh (a_local a) -> 0 < a_dt a -> 0 < a_rho a -> 0 < a_visco a ->
  (forall n, (n < cell_num (a_local a))%nat -> 0 <= fl n) -> vel_solution a T c u0 conv gradp fl u ->
  sumsq (a_local a) u + 2 * (a_dt a / a_rho a) * sumR (seq 0 (cell_num (a_local a))) (fun n => resistance a (fl n) * u n ^ 2)
  <= sumsq (a_local a) (pushed a u0 conv gradp) + 2 * a_dt a / (a_rho a * dXz (a_local a)) * top_power a T c u.
Proof. intros a T c u0 conv gradp fl u W D Rh Mu Hf. exact (vel_energy a T c u0 conv gradp fl W D Rh Mu Hf u). Qed.
Print Assumptions prediction_energy.
(** the vertical component has no surface tension; a solid cell (liquid fraction 0) is slowed by the factor 1 + 2 10^12 dt *)
Theorem prediction_solid : forall a T c u0 conv gradp fl u n, good_mesh (a_local a) -> 0 < a_dt a -> 0 < a_rho a -> 0 < a_visco a ->
  (forall n, (n < cell_num (a_local a))%nat -> 0 <= fl n) -> vel_solution a T c u0 conv gradp fl u ->
  c = 2%nat \/ (forall i j, marangoni_effect a (fun i j => T i j (mNz (a_local a) - 1)%nat) c i j = 0) ->
  (n < cell_num (a_local a))%nat -> fl n = 0 -> (1 + 2 * 10 ^ 12 * a_dt a) * u n ^ 2 <= sumsq (a_local a) (pushed a u0 conv gradp).
Proof.
  intros a T c u0 conv gradp fl u n W D Rh Mu Hf Hu Hm Hn H0. pose proof (prediction_energy a T c u0 conv gradp fl u W D Rh Mu Hf Hu) as E.
  assert (Z : top_power a T c u = 0).
  { unfold top_power. apply sumR_zero. intros i _. apply sumR_zero. intros j _. destruct Hm as [-> |Hm]; [cbn [marangoni_effect]; ring|rewrite Hm; ring]. }
  rewrite Z, Rmult_0_r, Rplus_0_r in E. eapply Rle_trans; [|exact E]. clear E.
  assert (Q : forall (w : fld), (forall m, (m < cell_num (a_local a))%nat -> 0 <= w m) -> w n <= sumR (seq 0 (cell_num (a_local a))) w).
  { clear - Hn. induction (cell_num (a_local a)) as [|k IH]; [lia|]. intros w Hw. rewrite sumR_seq_S. destruct (Nat.eq_dec n k) as [-> |].
    - assert (0 <= sumR (seq 0 k) w) by (apply sumR_nonneg; intros m Hm; apply in_seq in Hm; apply Hw; lia). lra.
    - pose proof (Hw k ltac:(lia)). pose proof (IH ltac:(lia) w ltac:(intros; apply Hw; lia)). lra. }
  pose proof (Q (fun m => u m ^ 2) ltac:(intros; apply pow2_ge_0)) as Q1. cbv beta in Q1. fold (sumsq (a_local a) u) in Q1.
  pose proof (Q (fun m => resistance a (fl m) * u m ^ 2) ltac:(intros m Hm'; apply Rmult_le_pos; [exact (resistance_nonneg a fl Rh Hf m Hm')|apply pow2_ge_0])) as Q2. cbv beta in Q2.
  assert (ER : resistance a (fl n) = 10 ^ 12 * a_rho a) by (unfold resistance; rewrite H0; field). rewrite ER in Q2.
  assert (Ht : 0 < a_dt a / a_rho a) by (apply Rdiv_lt_0_compat; assumption).
  assert (2 * (a_dt a / a_rho a) * (10 ^ 12 * a_rho a * u n ^ 2) <= 2 * (a_dt a / a_rho a) * sumR (seq 0 (cell_num (a_local a))) (fun m => resistance a (fl m) * u m ^ 2)) by (apply Rmult_le_compat_l; lra).
  replace (2 * (a_dt a / a_rho a) * (10 ^ 12 * a_rho a * u n ^ 2)) with (2 * 10 ^ 12 * a_dt a * u n ^ 2) in H by (field; lra). lra.
Qed.
Print Assumptions prediction_solid.
Example prediction_solid_case : exists u, vel_solution am2 T2 0 (flat l2 (v2 0%nat)) (flat l2 (none3 0%nat)) (flat l2 (none3 0%nat)) (flat l2 liq2) u /\ flat l2 liq2 1%nat = 0 /\
  (1 + 2 * 10 ^ 12 * 1) * u 1%nat ^ 2 <= 1 /\ 0 < u 1%nat.
Proof.
  destruct prediction_well_posed_case as (u & Hu & H0 & H1). exists u. destruct dt2 as (D1 & D2 & D3). split; [exact Hu|]. split; [reflexivity|].
  split; [|simpl pow in H1; lra].
  pose proof (prediction_solid am2 T2 0 (flat l2 (v2 0%nat)) (flat l2 (none3 0%nat)) (flat l2 (none3 0%nat)) (flat l2 liq2) u 1 good2 D1 D2 D3 ltac:(intros n _; unfold flat, liq2; destruct (Nat.eqb _ 0); lra) Hu (or_intror (still_top 0)) ltac:(cbn; lia) eq_refl) as E.
  change (a_dt am2) with 1 in E. eapply Rle_trans; [exact E|]. unfold sumsq. change (cell_num l2) with 2%nat. cbn [seq sumR]. unfold pushed, flat, v2, none3. cbn. lra.
Qed.
(** The whole update with exact solves. *)
Theorem velocity_update_energy : forall a bicg (vel0 conv0 gradp0 : nat -> arr) (fl T : arr), let l := a_local a in
  good_mesh l -> 0 < a_dt a -> 0 < a_rho a -> 0 < a_visco a -> (forall i j k, in_box l i j k -> 0 <= fl i j k) -> exact_bicg l bicg ->
  let u := fun c => vel_solve a bicg c (flat l (vel0 c)) (flat l (conv0 c)) (flat l (gradp0 c)) (flat l fl) (vel_bc_scalar a T c) in
  let '(vel, _, _) := vel_update a (vel_solve a bicg) (p_solve a bicg) vel0 conv0 gradp0 fl T in
  kinetic l vel <= sumR (seq 0 3) (fun c => sumsq l (pushed a (flat l (vel0 c)) (flat l (conv0 c)) (flat l (gradp0 c))) + 2 * a_dt a / (a_rho a * dXz l) * top_power a T c (u c)).
Proof. exact update_energy. Qed.
Print Assumptions velocity_update_energy.
(** without convection, pressure and surface tension the kinetic energy of the window does not grow *)
Example velocity_update_energy_case : let '(vel, _, _) := vel_update am2 (vel_solve am2 (ideal_bicg l2)) (p_solve am2 (ideal_bicg l2)) v2 none3 none3 liq2 T2 in kinetic l2 vel <= 1.
Proof.
  destruct dt2 as (D1 & D2 & D3). pose proof (velocity_update_energy am2 (ideal_bicg l2) v2 none3 none3 liq2 T2 good2 D1 D2 D3 (fun i j k Hb => proj1 (liq2_range i j k Hb)) (ideal_exact l2)) as E.
  destruct (vel_update _ _ _ _ _ _ _ _) as [[vel B] g]. eapply Rle_trans; [exact E|]. clear E.
  assert (Z : forall c u, top_power am2 T2 c u = 0) by (intros; unfold top_power; apply sumR_zero; intros i _; apply sumR_zero; intros j _; rewrite still_top; ring).
  cbn [seq sumR]. rewrite !Z. unfold sumsq. change (cell_num l2) with 2%nat. cbn [seq sumR]. unfold pushed, flat, v2, none3. cbn. lra.
Qed.

(** ** C189: solid cells of the window stay at rest (false of the code) *)
(** The predicted velocity of the solid cell is below 10^-13, but the correction moves it backwards with a quarter of
    the velocity of the liquid cell beside it. *)
Theorem solid_at_rest_refuted : exists a vel0 conv0 gradp0 fl T, good_mesh (a_local a) /\ 0 < a_dt a /\ 0 < a_rho a /\ 0 < a_visco a /\
  (forall i j k, in_box (a_local a) i j k -> 0 <= fl i j k <= 1) /\ in_box (a_local a) 1 0 0 /\ fl 1%nat 0%nat 0%nat = 0 /\
  (forall c i j k, conv0 c i j k = 0 /\ gradp0 c i j k = 0) /\ (forall c, vel0 c 1%nat 0%nat 0%nat = 0) /\
  (exists bicg, exact_bicg (a_local a) bicg) /\
  forall bicg, exact_bicg (a_local a) bicg ->
  let '(vel, _, _) := vel_update a (vel_solve a bicg) (p_solve a bicg) vel0 conv0 gradp0 fl T in vel 0%nat 1%nat 0%nat 0%nat < - 1 / 50.
Proof.
  exists am2, v2, none3, none3, liq2, T2. destruct dt2 as (D1 & D2 & D3). split; [exact good2|]. do 3 (split; [assumption|]). split; [exact liq2_range|]. split; [apply in2; lia|]. split; [reflexivity|].
  split; [intros; split; reflexivity|]. split; [intros c; unfold v2; destruct (Nat.eqb c 0); reflexivity|]. split; [exists (ideal_bicg l2); apply ideal_exact|]. exact solid_after.
Qed.
Print Assumptions solid_at_rest_refuted.
Close Scope R_scope.
