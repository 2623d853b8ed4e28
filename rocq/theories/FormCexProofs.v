(** * Finite-strain plasticity: what the missing volume normalisation of the relative gradient does. *)
From Coq Require Import FunctionalExtensionality Lra Lia Setoid Morphisms.
From Verif Require Import Prelude PreludeFacts FemModel FemFacts FemSpec MatModel MatSpec MatProofs MatHyperProofs CrysModel CrysSpec CrysTensorProofs CrysProofs FormModel FormSpec FormProofs FormHistProofs.
Open Scope R_scope.

(** ** steps that only change the volume *)
Lemma scal_matmul c A B : meq 3 (matmul 3 (mscal c A) B) (mscal c (matmul 3 A B)).
Proof. intros i j _ _. unfold matmul, mscal. sums. ring. Qed.
Lemma dilation_trial s c : det 3 (F_old s) <> 0 -> meq 3 (be_bar_trial s (grad_of (mscal c (F_old s)))) (mscal (c ^ 2) (be_bar_old s)).
Proof.
  intros Hd. unfold be_bar_trial. rewrite grad_of_F_eq.
  assert (Ef : meq 3 (matmul 3 (mscal c (F_old s)) (inv 3 (F_old s))) (mscal c identity)).
  { rewrite scal_matmul. intros i j Hi Hj. unfold mscal. now rewrite (inv_r _ Hd i j Hi Hj). }
  rewrite Ef. intros i j Hi Hj. by3; unfold matmul, mscal, transpose, identity; sums; cbn [Nat.eqb]; ring.
Qed.
Lemma det_scal c A : det 3 (mscal c A) = c ^ 3 * det 3 A.
Proof. unfold det, mscal. ring. Qed.
Lemma fro_dev_pos A : ~ meq 3 (dev 3 A) mzero -> 0 < fro (dev 3 A).
Proof.
  intros H. destruct (Rle_lt_or_eq_dec 0 (fro (dev 3 A)) (fro_nonneg _)) as [|E]; [assumption|]. exfalso. apply H. apply (CrysTensorProofs.ddot_zero).
  apply Req_le. apply sqrt_eq_0; [apply ddot_nonneg|]. symmetry. exact E.
Qed.
Lemma dilation_shear s c : admissible s -> fro (s_trial s (grad_of (mscal c (F_old s)))) = c ^ 2 * (80000 * fro (dev 3 (be_bar_old s))).
Proof.
  intros Ha. rewrite r_form. rewrite (fro_ext _ (fun i j => c ^ 2 * dev 3 (be_bar_old s) i j)).
  - rewrite fro_scal by (apply pow2_ge_0). unfold shear_G. ring.
  - intros i j Hi Hj. rewrite (dev_ext 3 _ _ (dilation_trial s c ltac:(pose proof (proj1 Ha); lra)) i j Hi Hj).
    transitivity (dev 3 (fun i j => c ^ 2 * be_bar_old s i j + 0 * eye i j) i j); [apply dev_ext; auto; intros a b _ _; unfold mscal; ring|]. now apply dev_lin.
Qed.
Lemma expansion_yields s : admissible s -> ~ meq 3 (dev 3 (be_bar_old s)) mzero -> exists c, 1 < c /\ alpha_old s < alpha_old (update_state s (grad_of (mscal c (F_old s)))).
Proof.
  intros Ha Hn. assert (Hp := fro_dev_pos _ Hn). assert (HY := radius_pos (alpha_old s) (proj2 (proj2 Ha))). set (x := 80000 * fro (dev 3 (be_bar_old s))). assert (Hx : 0 < x) by (unfold x; lra).
  set (c := 1 + yield_radius (alpha_old s) / x). assert (Hq : 0 < yield_radius (alpha_old s) / x) by (apply Rdiv_lt_0_compat; assumption).
  assert (Hc : 1 < c) by (unfold c; lra). exists c. split; [exact Hc|].
  assert (Hdet : 0 < det 3 (grad_to_F (grad_of (mscal c (F_old s))))) by (rewrite grad_of_F_eq, det_scal; apply Rmult_lt_0_compat; [apply pow_lt; lra|apply Ha]).
  destruct (new_shear s (grad_of (mscal c (F_old s))) Ha Hdet) as (t & dg & _ & Hdg & _ & -> & Hcase). rewrite (dilation_shear s c Ha) in Hcase. fold x in Hcase.
  assert (Hbig : yield_radius (alpha_old s) < c ^ 2 * x).
  { assert (c * x = x + yield_radius (alpha_old s)) by (unfold c; field; lra). nra. }
  destruct Hcase as [(H & _)|(_ & _ & E)]; [lra|].
  assert (HB := trial_spd s _ Ha (Rgt_not_eq _ _ Hdet)). assert (0 < dg).
  { rewrite E. apply Rdiv_lt_0_compat; [lra|]. pose proof (spd_trace _ HB). pose proof G_pos. assert (0 < trace 3 (be_bar_trial s (grad_of (mscal c (F_old s)))) / 3 * shear_G) by (apply Rmult_lt_0_compat; lra). lra. }
  pose proof (sqrt_lt_R0 (2 / 3) ltac:(lra)). nra.
Qed.
(** with the volume part taken out of the relative gradient (line 67 computes f_bar) *)
Definition isochoric_trial (s : fstate) (F : mat) : mat :=
  let f := matmul 3 F (inv 3 (F_old s)) in
  let f_bar := mscal (Rpower (det 3 f) (- 1 / 3)) f in matmul 3 (matmul 3 f_bar (be_bar_old s)) (transpose f_bar).
Lemma isochoric_form s F : 0 < det 3 F -> 0 < det 3 (F_old s) ->
  meq 3 (isochoric_trial s F) (mscal (Rpower (det 3 F / det 3 (F_old s)) (- 2 / 3)) (be_bar_trial s (grad_of F))).
Proof.
  intros HF Hd. unfold isochoric_trial, be_bar_trial. rewrite grad_of_F_eq. set (f := matmul 3 F (inv 3 (F_old s))).
  assert (Ed : det 3 f = det 3 F / det 3 (F_old s)) by (unfold f; rewrite det_matmul, det_inv_val by (unfold small_dim; auto; lra); reflexivity).
  rewrite Ed. set (x := det 3 F / det 3 (F_old s)). assert (E : Rpower x (- 2 / 3) = Rpower x (- 1 / 3) * Rpower x (- 1 / 3)) by (rewrite <- Rpower_plus; f_equal; field).
  intros i j _ _. unfold mscal. rewrite E. unfold matmul, transpose. sums. ring.
Qed.

(** ** the elastic response has no potential *)
Definition diag3 (a b : R) : mat := fun i j => match i, j with 0%nat, 0%nat => a | 1%nat, 1%nat => b | 2%nat, 2%nat => 1 | _, _ => 0 end.
Definition elastic_range_of (F : mat) : Prop := 0 < det 3 F /\ 80000 * fro (dev 3 (left_cauchy F)) < yield_radius 0.
Lemma diag_det a b : det 3 (diag3 a b) = a * b. Proof. unfold det, diag3. ring. Qed.
Lemma diag_dev a b : ddot 3 (dev 3 (left_cauchy (diag3 a b))) (dev 3 (left_cauchy (diag3 a b)))
  = 2 / 3 * ((a ^ 2 - 1) ^ 2 + (b ^ 2 - 1) ^ 2 - (a ^ 2 - 1) * (b ^ 2 - 1)).
Proof. unfold ddot, dev, pressure, left_cauchy, matmul, transpose, identity, diag3. rewrite INR3. sums. cbn [Nat.eqb]. field. Qed.
Lemma diag_in a b : 1 <= a <= 1001 / 1000 -> 9999 / 10000 <= b <= 10001 / 10000 -> elastic_range_of (diag3 a b).
Proof.
  intros Ha Hb. split; [rewrite diag_det; nra|]. unfold fro, yield_radius. rewrite diag_dev.
  set (z := (a ^ 2 - 1) ^ 2 + (b ^ 2 - 1) ^ 2 - (a ^ 2 - 1) * (b ^ 2 - 1)).
  assert (Hx : 0 <= a ^ 2 - 1 <= 3 / 1000) by (replace (a ^ 2 - 1) with ((a - 1) * (a - 1) + 2 * (a - 1)) by ring; nra).
  assert (Hy : - 3 / 10000 <= b ^ 2 - 1 <= 3 / 10000) by (replace (b ^ 2 - 1) with ((b - 1) * (b - 1) + 2 * (b - 1)) by ring; split; nra).
  assert (Hz : z < 25 / 1000000 /\ 0 <= z).
  { unfold z. set (x := a ^ 2 - 1) in *. set (y := b ^ 2 - 1) in *. replace (x ^ 2 + y ^ 2 - x * y) with (x * x + y * y - x * y) by ring.
    assert (x * x <= 9 / 1000000) by nra. assert (y * y <= 9 / 100000000) by nra. assert (- (x * y) <= 9 / 10000000) by nra.
    split; [lra|]. pose proof (Rle_0_sqr (x - y)). pose proof (Rle_0_sqr x). pose proof (Rle_0_sqr y). unfold Rsqr in *. lra. }
  destruct Hz as (Hz & Hz0).
  rewrite sqrt_mult by lra. assert (Hs : sqrt z < 5 / 1000).
  { rewrite <- (sqrt_square (5 / 1000)) by lra. apply sqrt_lt_1; lra. }
  pose proof (sqrt_lt_R0 (2 / 3) ltac:(lra)). nra.
Qed.
Lemma diag_stress a b : elastic_range_of (diag3 a b) ->
  PK_stress fstate_init (grad_of (diag3 a b)) 0%nat 0%nat * a = 82000 * (a ^ 2 * b ^ 2 - 1) + 80000 * (a ^ 2 - (a ^ 2 + b ^ 2 + 1) / 3)
  /\ PK_stress fstate_init (grad_of (diag3 a b)) 1%nat 1%nat * b = 82000 * (a ^ 2 * b ^ 2 - 1) + 80000 * (b ^ 2 - (a ^ 2 + b ^ 2 + 1) / 3).
Proof.
  intros (Hd & Hy). assert (HF : Forall (fun F => 0 < det 3 F) ([] ++ [diag3 a b])) by (constructor; [exact Hd|constructor]).
  assert (Hn : never_yields fstate_init ([] ++ [diag3 a b])) by (apply elastic_range; constructor; [split; lra|constructor]).
  pose proof (elastic_stress [] (diag3 a b) HF Hn) as E. unfold last_stress in E. cbn [history fold_left] in E. set (P := PK_stress fstate_init (grad_of (diag3 a b))) in *. split.
  - transitivity (kirchhoff P (diag3 a b) 0%nat 0%nat); [unfold kirchhoff, matmul, transpose, diag3; sums; ring|]. rewrite E by lia. rewrite diag_det.
    unfold dev, pressure, left_cauchy, matmul, transpose, identity, diag3. rewrite INR3. sums. cbn [Nat.eqb]. field.
  - transitivity (kirchhoff P (diag3 a b) 1%nat 1%nat); [unfold kirchhoff, matmul, transpose, diag3; sums; ring|]. rewrite E by lia. rewrite diag_det.
    unfold dev, pressure, left_cauchy, matmul, transpose, identity, diag3. rewrite INR3. sums. cbn [Nat.eqb]. field.
Qed.
Lemma bump_a a b t : bump (diag3 a b) 0 0 t = diag3 (a + t) b.
Proof. extensionality i. extensionality j. unfold bump, diag3. destruct i as [|[|[|i]]]; destruct j as [|[|[|j]]]; reflexivity. Qed.
Lemma bump_b a b t : bump (diag3 a b) 1 1 t = diag3 a (b + t).
Proof. extensionality i. extensionality j. unfold bump, diag3. destruct i as [|[|[|i]]]; destruct j as [|[|[|j]]]; reflexivity. Qed.
(** the antiderivative in the first stretch *)
Definition work_a (a b : R) : R := 82000 * (a ^ 2 * b ^ 2 / 2 - ln a) + 80000 * (a ^ 2 / 2 - (a ^ 2 / 2 + (b ^ 2 + 1) * ln a) / 3).
Lemma dl_shift f x l : derivable_pt_lim (fun t => f (x + t)) 0 l -> derivable_pt_lim f x l.
Proof. intros H e He. destruct (H e He) as (d & Hd). exists d. intros h Hh Hl. specialize (Hd h Hh Hl). rewrite !Rplus_0_l, Rplus_0_r in Hd. exact Hd. Qed.
Lemma dl_sq x : derivable_pt_lim (fun a => a ^ 2) x (2 * x).
Proof. replace (2 * x) with (INR 2 * x ^ Nat.pred 2) by (cbn [INR Nat.pred pow]; ring). apply derivable_pt_lim_pow. Qed.
Lemma work_da a b : 0 < a -> derivable_pt_lim (fun a => work_a a b) a (82000 * (a * b ^ 2 - / a) + 80000 * (a - (a + (b ^ 2 + 1) * / a) / 3)).
Proof.
  intros Ha. unfold work_a.
  replace (82000 * (a * b ^ 2 - / a) + 80000 * (a - (a + (b ^ 2 + 1) * / a) / 3))
    with ((82000 * (b ^ 2 / 2) + 80000 / 3) * (2 * a) + (- 82000 - 80000 * (b ^ 2 + 1) / 3) * / a) by (field; lra).
  apply (dl_eq (fun a => (82000 * (b ^ 2 / 2) + 80000 / 3) * a ^ 2 + (- 82000 - 80000 * (b ^ 2 + 1) / 3) * ln a) _ _ ((82000 * (b ^ 2 / 2) + 80000 / 3) * (2 * a) + (- 82000 - 80000 * (b ^ 2 + 1) / 3) * / a)); [|intros x; field|reflexivity].
  apply dl_add; apply dl_scal; [apply dl_sq|apply derivable_pt_lim_ln; exact Ha].
Qed.
Lemma work_db a b : derivable_pt_lim (fun b => work_a a b) b (82000 * (a ^ 2 * b) - 80000 * (2 / 3 * b * ln a)).
Proof.
  unfold work_a.
  replace (82000 * (a ^ 2 * b) - 80000 * (2 / 3 * b * ln a)) with ((82000 * (a ^ 2 / 2) - 80000 / 3 * ln a) * (2 * b) + 0) by field.
  apply (dl_eq (fun b => (82000 * (a ^ 2 / 2) - 80000 / 3 * ln a) * b ^ 2 + (82000 * - ln a + 80000 * (a ^ 2 / 2 - (a ^ 2 / 2 + ln a) / 3))) _ _ ((82000 * (a ^ 2 / 2) - 80000 / 3 * ln a) * (2 * b) + 0)); [|intros x; field|reflexivity].
  apply dl_add; [apply dl_scal; apply dl_sq|apply dl_const].
Qed.
Lemma no_potential W : ~ is_grad 3 W elastic_range_of (fun F => PK_stress fstate_init (grad_of F)).
Proof.
  intros HW. set (w := fun a b => W (diag3 a b)).
  assert (Wa : forall a b, elastic_range_of (diag3 a b) -> derivable_pt_lim (fun a => w a b) a (PK_stress fstate_init (grad_of (diag3 a b)) 0%nat 0%nat)).
  { intros a b H. apply dl_shift. eapply dl_eq; [apply (HW (diag3 a b) 0%nat 0%nat H); lia|intros t; cbv beta; unfold w; now rewrite bump_a|reflexivity]. }
  assert (Wb : forall a b, elastic_range_of (diag3 a b) -> derivable_pt_lim (fun b => w a b) b (PK_stress fstate_init (grad_of (diag3 a b)) 1%nat 1%nat)).
  { intros a b H. apply dl_shift. eapply dl_eq; [apply (HW (diag3 a b) 1%nat 1%nat H); lia|intros t; cbv beta; unfold w; now rewrite bump_b|reflexivity]. }
  set (a1 := 1001 / 1000).
  assert (Hconst : forall b, 9999 / 10000 <= b <= 10001 / 10000 -> w a1 b - work_a a1 b = w 1 b - work_a 1 b).
  { intros b Hb. destruct (MVT_cor2 (fun a => w a b - work_a a b) (fun _ => 0) 1 a1) as (x & Hx & _); [unfold a1; lra| |cbv beta in Hx; lra].
    intros a Ha. unfold a1 in Ha. assert (Hin := diag_in a b Ha Hb). destruct (diag_stress a b Hin) as (E & _).
    replace 0 with (PK_stress fstate_init (grad_of (diag3 a b)) 0%nat 0%nat - (82000 * (a * b ^ 2 - / a) + 80000 * (a - (a + (b ^ 2 + 1) * / a) / 3))).
    - apply dl_sub; [now apply Wa|apply work_da; lra].
    - apply (Rmult_eq_reg_r a); [|lra]. rewrite Rmult_0_l, Rmult_minus_distr_r, E. field. lra. }
  assert (H1 : elastic_range_of (diag3 a1 1)) by (apply diag_in; unfold a1; lra). assert (H0 : elastic_range_of (diag3 1 1)) by (apply diag_in; lra).
  assert (D1 : derivable_pt_lim (fun b => (w a1 b - work_a a1 b) - (w 1 b - work_a 1 b)) 1
    ((PK_stress fstate_init (grad_of (diag3 a1 1)) 1%nat 1%nat - (82000 * (a1 ^ 2 * 1) - 80000 * (2 / 3 * 1 * ln a1)))
     - (PK_stress fstate_init (grad_of (diag3 1 1)) 1%nat 1%nat - (82000 * (1 ^ 2 * 1) - 80000 * (2 / 3 * 1 * ln 1))))).
  { apply dl_sub; apply dl_sub; try (now apply Wb); apply work_db. }
  assert (D0 : derivable_pt_lim (fun b => (w a1 b - work_a a1 b) - (w 1 b - work_a 1 b)) 1 0).
  { apply (dl_local (fun _ => 0)); [|apply dl_const]. exists (1 / 10000). split; [lra|]. intros t Ht. rewrite Hconst; [ring|]. unfold Rabs in Ht. destruct (Rcase_abs (t - 1)); lra. }
  pose proof (dl_unique _ _ _ _ D1 D0) as E. destruct (diag_stress a1 1 H1) as (_ & E1). destruct (diag_stress 1 1 H0) as (_ & E0).
  rewrite Rmult_1_r in E1, E0. rewrite E1, E0, ln_1 in E.
  assert (Hln : ln a1 < a1 - 1).
  { pose proof (exp_ineq1 (a1 - 1) ltac:(unfold a1; lra)) as He. replace (a1 - 1) with (ln (exp (a1 - 1))) by apply ln_exp. apply ln_increasing; [unfold a1; lra|lra]. }
  unfold a1 in *. lra.
Qed.
Close Scope R_scope.
