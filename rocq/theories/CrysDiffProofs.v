(** * Crystal plasticity: the local residual is differentiable; its derivative; the implicit rule. *)
From Coq Require Import Lra Lia FunctionalExtensionality.
From Verif Require Import Prelude PreludeFacts FemModel FemFacts FemSpec MatModel MatSpec MatProofs MatHyperProofs CrysModel CrysSpec CrysTensorProofs CrysProofs.
Open Scope R_scope.

Lemma pow_abs_even x k : Rabs x ^ (2 * k) = x ^ (2 * k).
Proof. rewrite !pow_mult. f_equal. rewrite RPow_abs, Rabs_right; [reflexivity|]. apply Rle_ge. replace (x ^ 2) with (x * x) by ring. apply Rle_0_sqr. Qed.
(** 1 / xm = 10 *)
Lemma abspow_ten x : abspow x (1 / xm) = x ^ 10.
Proof.
  destruct (Req_dec x 0) as [->|H]; [rewrite abspow_zero; ring|]. unfold abspow. replace (Reqb x 0) with false by (symmetry; now apply Reqb_false).
  replace (1 / xm) with (INR 10) by (unfold xm; rewrite INR_IZR_INZ; cbn [Z.of_nat]; cbn; field). rewrite Rpower_pow by now apply Rabs_pos_lt. exact (pow_abs_even x 5).
Qed.
Lemma sgn_pow_deriv x : derivable_pt_lim (fun x => x ^ 10 * sgn x) x (10 * x ^ 9 * sgn x).
Proof.
  destruct (Rtotal_order x 0) as [H|[->|H]].
  - rewrite (sgn_neg x H). apply dl_local with (fun x => x ^ 10 * -1).
    + exists (- x). split; [lra|]. intros t Ht. rewrite (sgn_neg t); [reflexivity|]. apply Rabs_def2 in Ht. lra.
    + apply (dl_eq (fun t => -1 * t ^ 10) _ _ (-1 * (INR 10 * x ^ pred 10))); [apply dl_scal, derivable_pt_lim_pow|intros; ring|]. rewrite INR_IZR_INZ. cbn [Z.of_nat pred]. simpl (IZR _). ring.
  - rewrite sgn_zero, Rmult_0_r. intros eps Heps. assert (Hd : 0 < Rmin eps 1) by (apply Rmin_pos; lra). exists (mkposreal _ Hd). intros h Hh Hlt. cbn [pos] in Hlt. rewrite Rplus_0_l, sgn_zero, Rmult_0_r, !Rminus_0_r.
    replace (h ^ 10 * sgn h / h) with (h ^ 8 * (h * sgn h)) by (field; exact Hh). rewrite sgn_mul, Rabs_mult, Rabs_Rabsolu.
    pose proof (Rmin_l eps 1). pose proof (Rmin_r eps 1). pose proof (Rabs_pos h). rewrite <- RPow_abs.
    assert (Rabs h ^ 8 <= 1) by (rewrite <- (pow1 8); apply pow_incr; lra). assert (0 <= Rabs h ^ 8) by (apply pow_le; lra).
    apply Rle_lt_trans with (1 * Rabs h); [apply Rmult_le_compat_r; lra|lra].
  - rewrite (sgn_pos x H). apply dl_local with (fun x => x ^ 10 * 1).
    + exists x. split; [lra|]. intros t Ht. rewrite (sgn_pos t); [reflexivity|]. apply Rabs_def2 in Ht. lra.
    + apply (dl_eq (fun t => 1 * t ^ 10) _ _ (1 * (INR 10 * x ^ pred 10))); [apply dl_scal, derivable_pt_lim_pow|intros; ring|]. rewrite INR_IZR_INZ. cbn [Z.of_nat pred]. simpl (IZR _). ring.
Qed.
Lemma dl_comp f g x a b : derivable_pt_lim f x a -> derivable_pt_lim g (f x) b -> derivable_pt_lim (fun t => g (f t)) x (b * a).
Proof. intros Hf Hg. exact (derivable_pt_lim_comp f g x a b Hf Hg). Qed.

Lemma green_ext A B : meq 3 A B -> meq 3 (green A) (green B).
Proof. intros H i j Hi Hj. unfold green, matmul, transpose. do 2 f_equal. apply sumN_ext. intros k Hk. now rewrite !H. Qed.
Section Diff.
Variables (rows : list slip_row) (dt : R) (s : crystal).
Let n := length rows.
Definition dgamma (S dS : mat) (a : nat) : R := ao * dt * (/ slip_resistance s a) ^ 10 * (10 * tau rows s S a ^ 9 * sgn (tau rows s S a)) * tau rows s dS a.
Definition dL (S dS : mat) : mat := fun i j => sumN n (fun a => dgamma S dS a * slip_tensor rows s a i j).
Definition dFp (S dS : mat) : mat := matmul 3 (Fp_inv s) (fun i j => - dL S dS i j).
Definition dFe (u S du dS : mat) : mat := fun i j => matmul 3 du (Fp_inv_new rows dt s S) i j + matmul 3 (F_of u) (dFp S dS) i j.
Definition dS_of (Fe dF : mat) : mat := fun i j =>
  sumN 3 (fun k => sumN 3 (fun l => rotate4 (rot_mat s) elastic_C i j k l * 1 / 2 * (matmul 3 (transpose dF) Fe k l + matmul 3 (transpose Fe) dF k l))).
Definition dres (u S du dS : mat) : mat := fun i j => dS i j - dS_of (Fe_of rows dt s u S) (dFe u S du dS) i j.

Lemma path_matmul A B A' B' : path A A' -> path B B' -> path (fun t => matmul 3 (A t) (B t)) (fun i j => matmul 3 A' (B 0) i j + matmul 3 (A 0) B' i j).
Proof.
  intros HA HB i j Hi Hj. apply (dl_eq (fun t => sumN 3 (fun k => A t i k * B t k j)) _ _ (sumN 3 (fun k => A' i k * B 0 k j + A 0 i k * B' k j))).
  - apply (dl_sumN 3 (fun k t => A t i k * B t k j)). intros k Hk. apply (dl_mul (fun t => A t i k) (fun t => B t k j)); [apply HA|apply HB]; assumption.
  - reflexivity.
  - now rewrite sumN_add.
Qed.
Lemma path_const A : path (fun _ => A) mzero.
Proof. intros i j _ _. apply dl_const. Qed.
Lemma path_eq A B A' B' : path A A' -> (forall t i j, (i < 3)%nat -> (j < 3)%nat -> A t i j = B t i j) -> meq 3 A' B' -> path B B'.
Proof. intros H E D i j Hi Hj. apply (dl_eq (fun t => A t i j) _ _ (A' i j)); [now apply H|intros t; now apply E|now apply D]. Qed.
Lemma tau_path S S' a : path S S' -> derivable_pt_lim (fun t => tau rows s (S t) a) 0 (tau rows s S' a).
Proof.
  intros H. unfold tau, ddot. apply (dl_sumN 3 (fun i t => sumN 3 (fun j => S t i j * slip_tensor rows s a i j))). intros i Hi.
  apply (dl_sumN 3 (fun j t => S t i j * slip_tensor rows s a i j)). intros j Hj.
  apply (dl_eq (fun t => slip_tensor rows s a i j * S t i j) _ _ (slip_tensor rows s a i j * S' i j)); [apply dl_scal, H; assumption|intros; ring|ring].
Qed.
Lemma gamma_form S a : gamma_inc rows dt s S a = ao * dt * (/ slip_resistance s a) ^ 10 * (tau rows s S a ^ 10 * sgn (tau rows s S a)).
Proof. unfold gamma_inc. rewrite abspow_ten. unfold Rdiv. rewrite Rpow_mult_distr. ring. Qed.
Lemma gamma_path S S' a : path S S' -> derivable_pt_lim (fun t => gamma_inc rows dt s (S t) a) 0 (dgamma (S 0) S' a).
Proof.
  intros H. apply (dl_eq (fun t => ao * dt * (/ slip_resistance s a) ^ 10 * (tau rows s (S t) a ^ 10 * sgn (tau rows s (S t) a))) _ _
    (ao * dt * (/ slip_resistance s a) ^ 10 * (10 * tau rows s (S 0) a ^ 9 * sgn (tau rows s (S 0) a) * tau rows s S' a))).
  - apply dl_scal. apply (dl_comp (fun t => tau rows s (S t) a) (fun x => x ^ 10 * sgn x)); [now apply tau_path|apply sgn_pow_deriv].
  - intros t. now rewrite gamma_form.
  - unfold dgamma. ring.
Qed.
Lemma L_path S S' : path S S' -> path (fun t => L_plastic_inc rows dt s (S t)) (dL (S 0) S').
Proof.
  intros H i j _ _. unfold L_plastic_inc, dL. fold n. apply (dl_sumN n (fun a t => gamma_inc rows dt s (S t) a * slip_tensor rows s a i j)). intros a _.
  apply (dl_eq (fun t => slip_tensor rows s a i j * gamma_inc rows dt s (S t) a) _ _ (slip_tensor rows s a i j * dgamma (S 0) S' a)); [apply dl_scal, gamma_path; exact H|intros; ring|ring].
Qed.
Lemma Fp_path S S' : path S S' -> path (fun t => Fp_inv_new rows dt s (S t)) (dFp (S 0) S').
Proof.
  intros H. unfold Fp_inv_new. apply (path_eq (fun t => matmul 3 (Fp_inv s) (fun i j => eye i j - L_plastic_inc rows dt s (S t) i j)) _
    (fun i j => matmul 3 mzero (fun i j => eye i j - L_plastic_inc rows dt s (S 0) i j) i j + matmul 3 (Fp_inv s) (fun i j => - dL (S 0) S' i j) i j)).
  - apply (path_matmul (fun _ => Fp_inv s) (fun t i j => eye i j - L_plastic_inc rows dt s (S t) i j)); [apply path_const|]. intros i j Hi Hj.
    apply (dl_eq (fun t => eye i j - L_plastic_inc rows dt s (S t) i j) _ _ (0 - dL (S 0) S' i j)); [apply dl_sub; [apply dl_const|now apply L_path]|reflexivity|ring].
  - reflexivity.
  - intros i j _ _. unfold dFp. unfold matmul at 1, mzero. sums. ring.
Qed.
Lemma Fe_path u S u' S' : path u u' -> path S S' -> path (fun t => Fe_of rows dt s (u t) (S t)) (dFe (u 0) (S 0) u' S').
Proof.
  intros Hu HS. unfold Fe_of. apply (path_matmul (fun t => F_of (u t)) (fun t => Fp_inv_new rows dt s (S t))); [|now apply Fp_path]. intros i j Hi Hj. unfold F_of.
  apply (dl_eq (fun t => u t i j + eye i j) _ _ (u' i j + 0)); [apply dl_add; [now apply Hu|apply dl_const]|reflexivity|ring].
Qed.
Lemma S_of_path A A' : path A A' -> path (fun t => S_of s (A t)) (dS_of (A 0) A').
Proof.
  intros H i j Hi Hj. unfold S_of, dS_of.
  apply (dl_sumN 3 (fun k t => sumN 3 (fun l => rotate4 (rot_mat s) elastic_C i j k l * 1 / 2 * (matmul 3 (transpose (A t)) (A t) k l - eye k l)))). intros k Hk.
  apply (dl_sumN 3 (fun l t => rotate4 (rot_mat s) elastic_C i j k l * 1 / 2 * (matmul 3 (transpose (A t)) (A t) k l - eye k l))). intros l Hl. apply dl_scal.
  apply (dl_eq (fun t => matmul 3 (transpose (A t)) (A t) k l - eye k l) _ _ (matmul 3 (transpose A') (A 0) k l + matmul 3 (transpose (A 0)) A' k l - 0)); [|reflexivity|ring].
  apply dl_sub; [|apply dl_const]. assert (HT : path (fun t => transpose (A t)) (transpose A')) by (intros a b Ha Hb; now apply H). exact (path_matmul _ _ _ _ HT H k l Hk Hl).
Qed.
(** the derivative of the residual along any differentiable path *)
Lemma residual_path u S u' S' : path u u' -> path S S' -> path (fun t => implicit_residual rows dt s (u t) (S t)) (dres (u 0) (S 0) u' S').
Proof. intros Hu HS i j Hi Hj. unfold implicit_residual, dres. apply dl_sub; [now apply HS|]. apply (S_of_path (fun t => Fe_of rows dt s (u t) (S t))); [now apply Fe_path|exact Hi|exact Hj]. Qed.
Lemma path_axpy d y : path (fun t => axpy t d y) d.
Proof. intros i j _ _. unfold axpy. apply dl_line. Qed.
Lemma tau_zero' a : tau rows s mzero a = 0.
Proof. exact (tau_zero rows s a). Qed.
Lemma dFp_zero S i j : dFp S mzero i j = 0.
Proof.
  unfold dFp, matmul. apply sumN_zero. intros k _. unfold dL. rewrite sumN_zero; [ring|]. intros a _. unfold dgamma. rewrite tau_zero'. ring.
Qed.
Lemma matmul_zero_r A B i j : (forall k l, B k l = 0) -> matmul 3 A B i j = 0.
Proof. intros H. unfold matmul. sums. rewrite !H. ring. Qed.
Lemma matmul_zero_l A B i j : (forall k l, A k l = 0) -> matmul 3 A B i j = 0.
Proof. intros H. unfold matmul. sums. rewrite !H. ring. Qed.
Lemma dS_of_add A B C i j : dS_of A (fun i j => B i j + C i j) i j = dS_of A B i j + dS_of A C i j.
Proof. unfold dS_of. rewrite <- sumN_add. apply sumN_ext. intros k _. rewrite <- sumN_add. apply sumN_ext. intros l _. unfold matmul, transpose. sums. field. Qed.
Lemma dS_of_ext A B C i j : (forall i j, B i j = C i j) -> dS_of A B i j = dS_of A C i j.
Proof. intros H. unfold dS_of. apply sumN_ext. intros k _. apply sumN_ext. intros l _. unfold matmul, transpose. sums. now rewrite !H. Qed.
Lemma dres_split u S u' S' i j : dres u S u' S' i j = dres u S u' mzero i j + dres u S mzero S' i j.
Proof.
  unfold dres. rewrite (dS_of_ext _ (dFe u S u' S') (fun i j => dFe u S u' mzero i j + dFe u S mzero S' i j)).
  - rewrite dS_of_add. change (mzero i j) with 0. ring.
  - intros a b. unfold dFe. rewrite (matmul_zero_r (F_of u) (dFp S mzero)) by (intros; apply dFp_zero). rewrite (matmul_zero_l mzero) by reflexivity. ring.
Qed.
Lemma axpy_0 d y : axpy 0 d y = y.
Proof. extensionality a. extensionality b. unfold axpy. ring. Qed.
Lemma jac_y_value jac u S : is_jac jac (implicit_residual rows dt s u) S -> forall d, meq 3 (contract4 (jac (implicit_residual rows dt s u) S) d) (dres u S mzero d).
Proof.
  intros H d i j Hi Hj. apply (dl_unique (fun t => implicit_residual rows dt s u (axpy t d S) i j) 0); [now apply H|].
  pose proof (residual_path (fun _ => u) (fun t => axpy t d S) mzero d (path_const u) (path_axpy d S) i j Hi Hj) as HP.
  cbv beta in HP. rewrite axpy_0 in HP. exact HP.
Qed.
Lemma jac_x_value jac u S : is_jac jac (fun u => implicit_residual rows dt s u S) u -> forall d, meq 3 (contract4 (jac (fun u => implicit_residual rows dt s u S) u) d) (dres u S d mzero).
Proof.
  intros H d i j Hi Hj. apply (dl_unique (fun t => implicit_residual rows dt s (axpy t d u) S i j) 0); [exact (H d i j Hi Hj)|].
  pose proof (residual_path (fun t => axpy t d u) (fun _ => S) d mzero (path_axpy d u) (path_const S) i j Hi Hj) as HP.
  cbv beta in HP. rewrite axpy_0 in HP. exact HP.
Qed.
Lemma contract4_sub A x y i j : contract4 A (fun i j => x i j - y i j) i j = contract4 A x i j - contract4 A y i j.
Proof. unfold contract4. sums. ring. Qed.
(** the implicit rule *)
Lemma jvp_exact jac solve u S v (up yp : R -> mat) dy :
  is_jac jac (implicit_residual rows dt s u) S -> is_jac jac (fun u => implicit_residual rows dt s u S) u -> exact_solve solve ->
  nonsingular4 (jac (implicit_residual rows dt s u) S) -> up 0 = u -> yp 0 = S -> path up v -> path yp dy -> (forall t, solves_local rows dt s (up t) (yp t)) ->
  meq 3 (f_jvp rows dt s jac solve u S v) dy.
Proof.
  intros Hy Hx Hs Hn <- <- Hu Hp Hsol. set (A := jac (implicit_residual rows dt s (up 0)) (yp 0)) in *.
  set (B := jac (fun u => implicit_residual rows dt s u (yp 0)) (up 0)). pose proof (Hs A (fun i j => - contract4 B v i j) Hn) as HA. unfold f_jvp. fold A B. fold (contract4 B v).
  change (fun i j => - sumN 3 (fun k => sumN 3 (fun l => B i j k l * v k l))) with (fun i j => - contract4 B v i j). set (x := solve A (fun i j => - contract4 B v i j)) in *.
  assert (Z : meq 3 (fun i j => x i j - dy i j) mzero).
  { apply Hn. intros i j Hi Hj. rewrite contract4_sub, (HA i j Hi Hj). unfold A at 1. rewrite (jac_y_value jac _ _ Hy dy i j Hi Hj). unfold B. rewrite (jac_x_value jac _ _ Hx v i j Hi Hj).
    assert (D : dres (up 0) (yp 0) v dy i j = 0).
    { apply (dl_unique (fun t => implicit_residual rows dt s (up t) (yp t) i j) 0); [now apply residual_path|]. apply (dl_ext (fun _ => 0)); [|apply dl_const].
      intros t. unfold implicit_residual. rewrite <- (Hsol t i j Hi Hj). ring. }
    rewrite dres_split in D. change (mzero i j) with 0. lra. }
  intros i j Hi Hj. specialize (Z i j Hi Hj). unfold mzero in Z. lra.
Qed.
(** where the trial stress vanishes the local Jacobian is the identity *)
Lemma jac_at_zero jac u : is_jac jac (implicit_residual rows dt s u) (fun _ _ => 0) -> forall d, meq 3 (contract4 (jac (implicit_residual rows dt s u) (fun _ _ => 0)) d) d.
Proof.
  intros H d i j Hi Hj. rewrite (jac_y_value jac u _ H d i j Hi Hj). unfold dres.
  rewrite (dS_of_ext _ (dFe u (fun _ _ => 0) mzero d) mzero).
  - unfold dS_of, matmul, transpose, mzero. sums. field.
  - intros a b. unfold dFe. rewrite (matmul_zero_l mzero) by reflexivity. rewrite matmul_zero_r; [unfold mzero; ring|]. intros k l. unfold dFp. apply matmul_zero_r. intros k' l'. unfold dL. rewrite sumN_zero; [ring|]. intros c _. unfold dgamma. rewrite tau_zero. ring.
Qed.
Lemma predictor jac solve u : is_jac jac (implicit_residual rows dt s u) (fun _ _ => 0) -> exact_solve solve ->
  let f := implicit_residual rows dt s u in
  meq 3 (solve (jac f (fun _ _ => 0)) (fun i j => - f (fun _ _ => 0) i j)) (S_of s (matmul 3 (F_of u) (Fp_inv s))).
Proof.
  intros H Hs f i j Hi Hj. assert (Hn : nonsingular4 (jac f (fun _ _ => 0))) by (intros x Hx a b Ha Hb; rewrite <- (Hx a b Ha Hb); symmetry; now apply jac_at_zero).
  pose proof (Hs _ (fun i j => - f (fun _ _ => 0) i j) Hn i j Hi Hj) as E. rewrite (jac_at_zero jac u H _ i j Hi Hj) in E. rewrite E. unfold f, implicit_residual.
  replace (S_of s (Fe_of rows dt s u (fun _ _ => 0))) with (S_of s (matmul 3 (F_of u) (Fp_inv s))); [ring|]. apply S_of_ext, green_ext. intros k c Hk Hc.
  unfold Fe_of, matmul. apply sumN_ext. intros m Hm. f_equal. symmetry. now apply Fp_at_zero.
Qed.
End Diff.
Lemma gamma_abs rows dt s S a : 0 < slip_resistance s a -> Rabs (gamma_inc rows dt s S a) = ao * Rabs dt * (Rabs (tau rows s S a) / slip_resistance s a) ^ 10.
Proof.
  intros Hg. rewrite gamma_form. set (x := tau rows s S a). set (g := slip_resistance s a) in *. assert (Hp : 0 < (/ g) ^ 10) by (apply pow_lt; now apply Rinv_0_lt_compat).
  assert (Ha : 0 < ao) by (unfold ao; lra). rewrite !Rabs_mult, (Rabs_right ao), (Rabs_right ((/ g) ^ 10)) by lra. unfold Rdiv. rewrite Rpow_mult_distr.
  assert (E : Rabs (x ^ 10) * Rabs (sgn x) = Rabs x ^ 10).
  { rewrite <- RPow_abs. destruct (Rtotal_order x 0) as [H|[->|H]]; [rewrite (sgn_neg x H)|rewrite Rabs_R0; ring|rewrite (sgn_pos x H)]; unfold Rabs at 2; destruct Rcase_abs; try lra; ring. }
  rewrite E. ring.
Qed.
(** no slip systems *)
Lemma no_slip dt s S : meq 3 (Fp_inv_new [] dt s S) (Fp_inv s).
Proof.
  intros i j Hi Hj. unfold Fp_inv_new. rewrite <- (matmul_identity_r 3 (Fp_inv s) i j Hi Hj). unfold matmul. apply sumN_ext. intros k _. unfold L_plastic_inc, sumN at 1. cbn [length seq sumR]. now rewrite Rminus_0_r, eye_identity.
Qed.
Lemma elastic_solution s u : solves_local [] 1 s u (S_of s (matmul 3 (F_of u) (Fp_inv s))).
Proof.
  intros i j Hi Hj. apply (f_equal (fun M : mat => M i j)). apply S_of_ext, green_ext. intros a b Ha Hb. unfold Fe_of. unfold matmul. apply sumN_ext. intros k Hk. f_equal. symmetry. now apply no_slip.
Qed.
Lemma elastic_tangent s u v : path (fun t => S_of s (matmul 3 (F_of (axpy t v u)) (Fp_inv s))) (dS_of s (matmul 3 (F_of u) (Fp_inv s)) (matmul 3 v (Fp_inv s))).
Proof.
  assert (HF : path (fun t => matmul 3 (F_of (axpy t v u)) (Fp_inv s)) (matmul 3 v (Fp_inv s))).
  { apply (path_eq (fun t => matmul 3 (F_of (axpy t v u)) (Fp_inv s)) _ (fun i j => matmul 3 v (Fp_inv s) i j + matmul 3 (F_of (axpy 0 v u)) mzero i j)).
    - apply (path_matmul (fun t => F_of (axpy t v u)) (fun _ => Fp_inv s)); [|apply path_const]. intros i j Hi Hj. unfold F_of.
      apply (dl_eq (fun t => axpy t v u i j + eye i j) _ _ (v i j + 0)); [apply dl_add; [now apply path_axpy|apply dl_const]|reflexivity|ring].
    - reflexivity.
    - intros i j _ _. rewrite (matmul_zero_r _ mzero) by reflexivity. ring. }
  pose proof (S_of_path s _ _ HF) as H. cbv beta in H. rewrite axpy_0 in H. exact H.
Qed.
Close Scope R_scope.
