(** * Crystal plasticity: histories of a quadrature point, repeated simulations, concrete points. *)
From Coq Require Import Lra Lia FunctionalExtensionality.
From Verif Require Import Prelude PreludeFacts FemModel FemFacts FemSpec MatModel MatSpec MatProofs MatHyperProofs CrysModel CrysSpec CrysTensorProofs CrysProofs CrysDiffProofs.
Open Scope R_scope.

(** ** histories *)
Lemma run_rot rows qm steps : forall s, rot_mat (crystal_run rows qm s steps) = rot_mat s.
Proof. induction steps as [|x r IH]; intros s; [reflexivity|]. exact (IH _). Qed.
Lemma run_uniform rows qm steps : (forall a a' b, (a < length rows)%nat -> (a' < length rows)%nat -> (b < length rows)%nat -> qm a b = qm a' b) -> forall s,
  uniform_resistance (length rows) s -> uniform_resistance (length rows) (crystal_run rows qm s steps).
Proof. intros Hq. induction steps as [|x r IH]; intros s Hu; [exact Hu|]. apply IH. now apply resistance_uniform. Qed.
(** the slips of a step are small enough *)
Definition gentle (rows : list slip_row) (s : crystal) (st : R * mat) : Prop := sumN (length rows) (fun b => h_hard * Rabs (gamma_inc rows (fst st) s (snd st) b)) <= t_sat.
Fixpoint gentle_run (rows : list slip_row) (qm : nat -> nat -> R) (s : crystal) (steps : list (R * mat)) : Prop :=
  match steps with [] => True | st :: r => gentle rows s st /\ gentle_run rows qm (new_state rows qm (fst st) s (snd st)) r end.
Lemma run_bounds rows qm : (forall a b, (a < length rows)%nat -> (b < length rows)%nat -> qm a b = 1) -> (forall a b, 0 <= qm a b) -> forall steps s,
  uniform_resistance (length rows) s -> (forall b, (b < length rows)%nat -> 0 <= slip_resistance s b <= t_sat) -> gentle_run rows qm s steps ->
  forall a, (a < length rows)%nat -> slip_resistance s a <= slip_resistance (crystal_run rows qm s steps) a <= t_sat.
Proof.
  intros Hq Hp. induction steps as [|x r IH]; intros s Hu Hb Hg a Ha; [cbn; specialize (Hb a Ha); lra|]. cbn [gentle_run] in Hg. destruct Hg as (Hg & Hr).
  set (s1 := new_state rows qm (fst x) s (snd x)) in *. assert (G : forall b, (b < length rows)%nat -> slip_resistance s b <= slip_resistance s1 b <= t_sat).
  { intros b Hbb. split; [now apply resistance_grows|apply resistance_saturates; auto]. }
  assert (Hu1 : uniform_resistance (length rows) s1) by (apply resistance_uniform; [exact Hu|intros; now rewrite !Hq]).
  assert (B1 : forall b, (b < length rows)%nat -> 0 <= slip_resistance s1 b <= t_sat) by (intros b Hbb; specialize (Hb b Hbb); specialize (G b Hbb); lra).
  specialize (IH s1 Hu1 B1 Hr a Ha). specialize (G a Ha). change (crystal_run rows qm s (x :: r)) with (crystal_run rows qm s1 r). lra.
Qed.
(** one system at a time: no change of plastic volume *)
Fixpoint single_slips (rows : list slip_row) (qm : nat -> nat -> R) (s : crystal) (steps : list (R * mat)) : Prop :=
  match steps with
  | [] => True
  | st :: r => (exists a, (a < length rows)%nat /\ only_active rows (fst st) s (snd st) a) /\ single_slips rows qm (new_state rows qm (fst st) s (snd st)) r
  end.
Lemma run_volume rows qm : Forall slip_system rows -> forall steps s, orthogonal 3 (rot_mat s) -> single_slips rows qm s steps ->
  det 3 (Fp_inv (crystal_run rows qm s steps)) = det 3 (Fp_inv s).
Proof.
  intros Hr. induction steps as [|x r IH]; intros s HQ H; [reflexivity|]. cbn [single_slips] in H. destruct H as ((a & Ha & Ho) & H).
  change (crystal_run rows qm s (x :: r)) with (crystal_run rows qm (new_state rows qm (fst x) s (snd x)) r). rewrite IH; [|exact HQ|exact H]. cbn [new_state Fp_inv]. now apply (det_slip rows (fst x) s (snd x) a).
Qed.

(** ** repeated simulations *)
Section Sim.
Context {P Sol Load Out : Type}.
Variables (fwd : Load -> P -> Sol) (upd : Sol -> P -> P) (out : Sol -> P -> Out).
Lemma sim_stored loads : forall params stored last, loads <> [] ->
  snd (sim_loop fwd upd out loads params stored last) = fold_left (fun p ld => upd (fwd ld p) p) (removelast loads) params.
Proof.
  induction loads as [|x r IH]; intros params stored last H; [contradiction|]. cbn [sim_loop]. destruct r as [|y r]; [reflexivity|]. rewrite IH by discriminate. reflexivity.
Qed.
Lemma sim_app l1 l2 : forall params stored last, l2 <> [] ->
  fst (sim_loop fwd upd out (l1 ++ l2) params stored last) = fst (sim_loop fwd upd out l2 (fold_left (fun p ld => upd (fwd ld p) p) l1 params) (fold_left (fun p ld => upd (fwd ld p) p) l1 params) None).
Proof.
  induction l1 as [|x r IH]; intros params stored last H; [|exact (IH _ _ _ H)]. cbn [app fold_left]. destruct l2 as [|y l2]; [contradiction|]. reflexivity.
Qed.
End Sim.

(** ** a point in pure shear *)
Definition axis (k : nat) : point := fun i => if Nat.eqb i k then 1 else 0.
Definition shear (t : R) : mat := fun i j => match i, j with 0%nat, 1%nat | 1%nat, 0%nat => t | _, _ => 0 end.
Definition unit_quat : nat -> R := fun i => match i with 0%nat => 1 | _ => 0 end.
Definition fresh : crystal := crystal_init [unit_quat] (fun _ => 0%nat) 0 0.
Definition three_slips : list slip_row := [(axis 1, axis 0); (axis 2, axis 0); (axis 2, axis 1)].
Definition crossed_slips : list slip_row := [(axis 1, axis 0); (axis 0, axis 1); (axis 2, axis 0)].
Lemma fresh_rot i j : (i < 3)%nat -> (j < 3)%nat -> rot_mat fresh i j = eye i j.
Proof. intros Hi Hj. by3; cbn; ring. Qed.
Lemma fresh_orth : orthogonal 3 (rot_mat fresh).
Proof. split; intros i j Hi Hj; unfold matmul, transpose; sums; rewrite !fresh_rot by lia; by3; unfold eye, identity; cbn [Nat.eqb]; ring. Qed.
Lemma len_axis k : (k < 3)%nat -> len3 (axis k) = 1.
Proof. intros H. unfold len3. replace (sumN 3 (fun i => axis k i ^ 2)) with 1; [apply sqrt_1|]. by3; sums; unfold axis; cbn [Nat.eqb]; ring. Qed.
Lemma axis_slip a b : (a < 3)%nat -> (b < 3)%nat -> a <> b -> slip_system (axis a, axis b).
Proof. intros Ha Hb Hn. by3; try (now destruct Hn); unfold slip_system, dot3; sums; cbn [fst snd]; unfold axis; cbn [Nat.eqb]; lra. Qed.
Lemma three_ok : Forall slip_system three_slips.
Proof. repeat constructor; apply axis_slip; lia. Qed.
Lemma crossed_ok : Forall slip_system crossed_slips.
Proof. repeat constructor; apply axis_slip; lia. Qed.
Lemma axis_tensor rows s k a b i j : meq 3 (rot_mat s) eye -> @nth slip_row k rows (fun _ => 0, fun _ => 0) = (axis a, axis b) -> (a < 3)%nat -> (b < 3)%nat -> (i < 3)%nat -> (j < 3)%nat ->
  slip_tensor rows s k i j = axis b i * axis a j.
Proof.
  intros HR E Ha Hb Hi Hj. unfold slip_tensor. rewrite E. unfold rotate2, schmid. cbn [fst snd]. rewrite !len_axis by assumption. sums. rewrite !HR by lia. by3; unfold eye, axis; cbn [Nat.eqb]; field.
Qed.
Lemma shear_tau rows s k a b t : meq 3 (rot_mat s) eye -> @nth slip_row k rows (fun _ => 0, fun _ => 0) = (axis a, axis b) -> (a < 3)%nat -> (b < 3)%nat ->
  tau rows s (shear t) k = shear t b a.
Proof.
  intros HR E Ha Hb. unfold tau, ddot. sums. rewrite !(axis_tensor rows s k a b) by (assumption || lia). by3; unfold axis, shear; cbn [Nat.eqb]; ring.
Qed.
(** any moderate shear stress is the exact local solution for some deformation *)
Lemma shear_solvable rows dt s t : meq 3 (rot_mat s) eye -> Rabs t < C44 -> det 3 (Fp_inv_new rows dt s (shear t)) <> 0 ->
  exists u, solves_local rows dt s u (shear t) /\ det 3 (F_of u) <> 0.
Proof.
  intros HR Ht HG. set (G := Fp_inv_new rows dt s (shear t)) in *. set (g := t / C44). set (c := sqrt (1 - g ^ 2)).
  assert (Hc44 : 0 < C44) by (unfold C44; lra). assert (Hg : Rabs g < 1).
  { unfold g, Rdiv. rewrite Rabs_mult, (Rabs_right (/ C44)) by (apply Rle_ge; left; now apply Rinv_0_lt_compat). apply Rmult_lt_reg_r with C44; [exact Hc44|]. rewrite Rmult_assoc, Rinv_l by lra. lra. }
  assert (Hg2 : 0 < 1 - g ^ 2) by (apply Rabs_def2 in Hg; nra). assert (Hcc : c * c = 1 - g ^ 2) by (apply sqrt_sqrt; lra). assert (Hc0 : 0 < c) by (apply sqrt_lt_R0; exact Hg2).
  set (M := fun i j : nat => match i, j with 0%nat, 0%nat => 1 | 0%nat, 1%nat => g | 1%nat, 1%nat => c | 2%nat, 2%nat => 1 | _, _ => 0 end).
  set (D := matmul 3 M (inv 3 G)). exists (fun i j => D i j - eye i j). assert (EF : F_of (fun i j => D i j - eye i j) = D) by (extensionality i; extensionality j; unfold F_of; ring).
  assert (EE : meq 3 (Fe_of rows dt s (fun i j => D i j - eye i j) (shear t)) M).
  { intros i j Hi Hj. unfold Fe_of. rewrite EF. unfold D. fold G. rewrite matmul_assoc. transitivity (matmul 3 M identity i j); [|now apply matmul_identity_r].
    unfold matmul at 1 3. apply sumN_ext. intros k Hk. f_equal. now apply (matmul_inv G HG). }
  split.
  - intros i j Hi Hj. rewrite (S_of_ext s _ M (green_ext _ _ EE)). rewrite S_of_form. unfold rotate2 at 1. sums. rewrite !HR by lia. unfold cubic, trace, rotate2. sums. unfold transpose. rewrite !HR by lia.
    unfold green, matmul, transpose. sums. unfold M. assert (Et : t = C44 * g) by (unfold g; field; lra). by3; unfold eye, identity, shear; cbn [Nat.eqb]; rewrite ?Et; unfold C11, C12, C44; try nra.
  - rewrite EF. unfold D. rewrite det_matmul by (unfold small_dim; auto). assert (det 3 M = c) by (unfold det, M; ring). assert (HI : det 3 (inv 3 G) * det 3 G = 1).
    { rewrite <- det_matmul by (unfold small_dim; auto). rewrite (det_ext3 _ identity); [unfold det, identity; cbn [Nat.eqb]; ring|]. exact (proj2 (matmul_inv G HG)). }
    intros HZ. apply Rmult_integral in HZ. destruct HZ as [HZ|HZ]; [lra|]. rewrite HZ in HI. lra.
Qed.
Lemma gamma_shear rows s k a b t dt : meq 3 (rot_mat s) eye -> @nth slip_row k rows (fun _ => 0, fun _ => 0) = (axis a, axis b) -> (a < 3)%nat -> (b < 3)%nat ->
  gamma_inc rows dt s (shear t) k = ao * dt * (/ slip_resistance s k) ^ 10 * (shear t b a ^ 10 * sgn (shear t b a)).
Proof. intros HR E Ha Hb. now rewrite gamma_form, (shear_tau rows s k a b) by assumption. Qed.
Lemma fresh_meq : meq 3 (rot_mat fresh) eye.
Proof. intros i j Hi Hj. now apply fresh_rot. Qed.
Lemma crossed_volume : det 3 (Fp_inv_new crossed_slips 1 fresh (shear gss_initial)) = 1 - / 1000000.
Proof.
  unfold Fp_inv_new. rewrite det_matmul by (unfold small_dim; auto). replace (det 3 (Fp_inv fresh)) with 1 by (unfold det, fresh, crystal_init, eye; cbn [Fp_inv Nat.eqb]; ring). rewrite Rmult_1_l.
  assert (G0 : gamma_inc crossed_slips 1 fresh (shear gss_initial) 0 = / 1000).
  { rewrite (gamma_shear _ _ 0 1 0) by (apply fresh_meq || reflexivity || lia). cbn [shear]. rewrite sgn_pos by (unfold gss_initial; lra). unfold fresh, crystal_init. cbn [slip_resistance]. unfold ao, gss_initial. field. }
  assert (G1 : gamma_inc crossed_slips 1 fresh (shear gss_initial) 1 = / 1000).
  { rewrite (gamma_shear _ _ 1 0 1) by (apply fresh_meq || reflexivity || lia). cbn [shear]. rewrite sgn_pos by (unfold gss_initial; lra). unfold fresh, crystal_init. cbn [slip_resistance]. unfold ao, gss_initial. field. }
  assert (G2 : gamma_inc crossed_slips 1 fresh (shear gss_initial) 2 = 0).
  { rewrite (gamma_shear _ _ 2 2 0) by (apply fresh_meq || reflexivity || lia). cbn [shear]. rewrite sgn_zero. ring. }
  rewrite (det_ext3 _ (fun i j => eye i j - / 1000 * (axis 0 i * axis 1 j + axis 1 i * axis 0 j))).
  - unfold det, eye, axis. cbn [Nat.eqb]. field.
  - intros i j Hi Hj. f_equal. unfold L_plastic_inc. change (length crossed_slips) with 3%nat. sums. rewrite G0, G1, G2.
    rewrite (axis_tensor crossed_slips fresh 0 1 0), (axis_tensor crossed_slips fresh 1 0 1) by (apply fresh_meq || reflexivity || lia). ring.
Qed.
(** a shear of t on the first of three systems *)
Lemma three_gamma s t dt : meq 3 (rot_mat s) eye -> 0 < t -> gamma_inc three_slips dt s (shear t) 0 = ao * dt * (t / slip_resistance s 0) ^ 10
  /\ gamma_inc three_slips dt s (shear t) 1 = 0 /\ gamma_inc three_slips dt s (shear t) 2 = 0.
Proof.
  intros HR Ht. rewrite (gamma_shear _ _ 0 1 0), (gamma_shear _ _ 1 2 0), (gamma_shear _ _ 2 2 1) by (assumption || reflexivity || lia). cbn [shear]. rewrite sgn_zero, (sgn_pos t Ht). unfold Rdiv. rewrite Rpow_mult_distr. repeat split; ring.
Qed.
Lemma three_single s t dt : meq 3 (rot_mat s) eye -> 0 < t -> only_active three_slips dt s (shear t) 0.
Proof. intros HR Ht b Hb Hne. destruct (three_gamma s t dt HR Ht) as (_ & G1 & G2). cbn in Hb. destruct b as [|[|[|b]]]; [contradiction|assumption|assumption|lia]. Qed.
Lemma Rpower_cube x : 0 < x < 1 -> x ^ 3 <= Rpower x gss_a.
Proof.
  intros (H0 & H1). rewrite <- (Rpower_pow 3 x H0). unfold Rpower. assert (ln x < 0) by (rewrite <- ln_1; apply ln_increasing; lra). left. apply exp_increasing. rewrite INR_IZR_INZ. cbn [Z.of_nat Pos.of_succ_nat Pos.succ]. unfold gss_a. nra.
Qed.
Lemma three_overshoot qm : (forall a b, (a < 3)%nat -> (b < 3)%nat -> qm a b = 1) -> t_sat < slip_resistance_new three_slips qm 1 fresh (shear (4 * gss_initial)) 0.
Proof.
  intros Hq. destruct (three_gamma fresh (4 * gss_initial) 1 fresh_meq) as (G0 & G1 & G2); [unfold gss_initial; lra|]. unfold slip_resistance_new, g_inc. change (length three_slips) with 3%nat. sums. rewrite G0, G1, G2, Rabs_R0, !Hq by lia.
  unfold fresh, crystal_init. cbn [slip_resistance]. set (x := 1 - gss_initial / t_sat). assert (Ex : x = 490 / 1098) by (unfold x, gss_initial, t_sat; field).
  rewrite (abspow_pos x) by (rewrite Ex; lra). rewrite (sgn_pos x) by (rewrite Ex; lra). replace (ao * 1 * (4 * gss_initial / gss_initial) ^ 10) with (1048576 / 1000) by (unfold ao, gss_initial; field). rewrite (Rabs_right (1048576 / 1000)) by lra.
  pose proof (Rpower_cube x ltac:(rewrite Ex; lra)) as Hp. rewrite Ex in Hp at 1. unfold h_hard, t_sat, gss_initial. lra.
Qed.
Lemma fresh_gentle : gentle three_slips fresh (1, shear gss_initial).
Proof.
  unfold gentle. cbn [fst snd]. change (length three_slips) with 3%nat. sums.
  destruct (three_gamma fresh gss_initial 1 fresh_meq) as (-> & -> & ->); [unfold gss_initial; lra|]. cbn [slip_resistance fresh crystal_init]. rewrite Rabs_R0.
  replace (ao * 1 * (gss_initial / gss_initial) ^ 10) with (/ 1000) by (unfold ao, gss_initial; field). rewrite Rabs_right by lra. unfold h_hard, t_sat. lra.
Qed.
Lemma fresh_uniform n : uniform_resistance n fresh.
Proof. intros a b _ _. reflexivity. Qed.
Lemma fresh_range b : 0 <= slip_resistance fresh b <= t_sat.
Proof. cbn. unfold gss_initial, t_sat. lra. Qed.
(** the state after two such steps still resists *)
Lemma two_steps : let s1 := new_state three_slips (fun _ _ => 1) 1 fresh (shear gss_initial) in let s2 := new_state three_slips (fun _ _ => 1) 1 s1 (shear gss_initial) in
  0 < slip_resistance s1 0 /\ 0 < slip_resistance s2 0.
Proof.
  intros s1 s2. assert (B : forall b, (b < 3)%nat -> gss_initial <= slip_resistance s1 b <= t_sat).
  { intros b Hb. split; [apply (resistance_grows three_slips (fun _ _ => 1) 1 fresh); [intros; apply fresh_range|intros; lra]|].
    apply resistance_saturates; [apply fresh_uniform|intros; apply fresh_range|exact Hb|reflexivity|exact fresh_gentle]. }
  assert (G : slip_resistance s1 0 <= slip_resistance s2 0) by (apply (resistance_grows three_slips (fun _ _ => 1) 1 s1); [intros b Hb; specialize (B b Hb); unfold gss_initial in B; lra|intros; lra]).
  specialize (B 0%nat ltac:(lia)). unfold gss_initial in B. lra.
Qed.
Close Scope R_scope.
