(** * Finite-strain plasticity: the return map at a point. *)
From Coq Require Import FunctionalExtensionality Lra Lia.
From Verif Require Import Prelude PreludeFacts FemModel FemFacts FemSpec MatModel MatSpec MatProofs MatHyperProofs CrysModel CrysSpec CrysTensorProofs CrysProofs FormModel FormSpec.
Open Scope R_scope.

Lemma deviatoric_dev A i j : deviatoric A i j = dev 3 A i j.
Proof. unfold deviatoric, dev, pressure, eye, identity, trace, Rdiv. ring. Qed.
Lemma grad_of_F F i j : grad_to_F (grad_of F) i j = F i j.
Proof. unfold grad_to_F, grad_of, eye, identity. ring. Qed.
Lemma grad_of_F_eq F : grad_to_F (grad_of F) = F.
Proof. extensionality i. extensionality j. apply grad_of_F. Qed.
Lemma INR3 : INR 3 = 3. Proof. cbn [INR]. ring. Qed.
Lemma dev_lin a b A i j : (i < 3)%nat -> (j < 3)%nat -> dev 3 (fun i j => a * A i j + b * eye i j) i j = a * dev 3 A i j.
Proof. intros Hi Hj. unfold dev, pressure, eye, identity. rewrite INR3. by3; sums; cbn [Nat.eqb]; field. Qed.
Lemma fro_nonneg A : 0 <= fro A. Proof. apply sqrt_pos. Qed.
Lemma fro_ext A B : meq 3 A B -> fro A = fro B.
Proof. intros H. unfold fro. now rewrite (ddot_ext 3 A B A B H H). Qed.
Lemma fro_scal c A : 0 <= c -> fro (fun i j => c * A i j) = c * fro A.
Proof.
  intros Hc. unfold fro. rewrite ddot_scal_l, ddot_comm, ddot_scal_l. rewrite <- Rmult_assoc, sqrt_mult; [|nra|apply ddot_nonneg]. now rewrite sqrt_square.
Qed.
Lemma shear_size_fro tau : shear_size tau = fro (dev 3 tau). Proof. reflexivity. Qed.

(** ** positive definite tensors *)
Definition quad (A : mat) (v : nat -> R) : R := sumN 3 (fun i => sumN 3 (fun j => v i * A i j * v j)).
Lemma spd_diag A i : spd A -> (i < 3)%nat -> 0 < A i i.
Proof.
  intros (_ & H) Hi. pose proof (H (fun k => if Nat.eqb k i then 1 else 0)) as H0. cbv beta in H0.
  assert (E : sumN 3 (fun a => sumN 3 (fun b => (if Nat.eqb a i then 1 else 0) * A a b * (if Nat.eqb b i then 1 else 0))) = A i i)
    by (by3; sums; cbn [Nat.eqb]; ring).
  rewrite E in H0. apply H0. exists i. split; [exact Hi|]. rewrite Nat.eqb_refl. lra.
Qed.
Lemma spd_trace A : spd A -> 0 < trace 3 A.
Proof. intros H. unfold trace. sums. pose proof (spd_diag A 0 H ltac:(lia)). pose proof (spd_diag A 1 H ltac:(lia)). pose proof (spd_diag A 2 H ltac:(lia)). lra. Qed.
Lemma spd_ext A B : meq 3 A B -> spd A -> spd B.
Proof.
  intros E (Hs & Hp). split.
  - intros i j Hi Hj. rewrite <- (E i j Hi Hj), <- (E j i Hj Hi). auto.
  - intros v Hv. specialize (Hp v Hv). replace (sumN 3 (fun i => sumN 3 (fun j => v i * B i j * v j))) with (sumN 3 (fun i => sumN 3 (fun j => v i * A i j * v j))); [exact Hp|].
    apply sumN_ext. intros i Hi. apply sumN_ext. intros j Hj. now rewrite (E i j Hi Hj).
Qed.
Lemma spd_eye : spd eye.
Proof.
  split; [intros i j Hi Hj; unfold eye; now rewrite Nat.eqb_sym|]. intros v (i & Hi & Hv). 
  replace (sumN 3 (fun i => sumN 3 (fun j => v i * eye i j * v j))) with (v 0%nat * v 0%nat + v 1%nat * v 1%nat + v 2%nat * v 2%nat) by (unfold eye; sums; cbn [Nat.eqb]; ring).
  assert (0 < v i * v i) by (apply Rsqr_pos_lt; exact Hv).
  pose proof (Rle_0_sqr (v 0%nat)). pose proof (Rle_0_sqr (v 1%nat)). pose proof (Rle_0_sqr (v 2%nat)). unfold Rsqr in *. by3; lra.
Qed.
Lemma spd_blend t c A : 0 < t <= 1 -> 0 < c -> spd A -> spd (fun i j => t * A i j + (1 - t) * c * eye i j).
Proof.
  intros Ht Hc (Hs & Hp). split.
  - intros i j Hi Hj. rewrite (Hs i j Hi Hj). unfold eye. now rewrite Nat.eqb_sym.
  - intros v Hv. pose proof (Hp v Hv) as H1. pose proof (proj2 spd_eye v Hv) as H2.
    replace (sumN 3 (fun i => sumN 3 (fun j => v i * (t * A i j + (1 - t) * c * eye i j) * v j)))
      with (t * sumN 3 (fun i => sumN 3 (fun j => v i * A i j * v j)) + (1 - t) * c * sumN 3 (fun i => sumN 3 (fun j => v i * eye i j * v j))) by (sums; ring).
    assert (0 <= (1 - t) * c * sumN 3 (fun i => sumN 3 (fun j => v i * eye i j * v j))) by (apply Rmult_le_pos; [apply Rmult_le_pos|]; lra). nra.
Qed.
(** f A f^T for a regular f *)
Lemma spd_congruence f A : det 3 f <> 0 -> spd A -> spd (matmul 3 (matmul 3 f A) (transpose f)).
Proof.
  intros Hd (Hs & Hp). split.
  - intros i j Hi Hj. unfold matmul, transpose. sums. rewrite (Hs 1%nat 0%nat), (Hs 2%nat 0%nat), (Hs 2%nat 1%nat) by lia. ring.
  - intros v (i & Hi & Hv). set (w := fun a => sumN 3 (fun b => f b a * v b)).
    replace (sumN 3 (fun i => sumN 3 (fun j => v i * matmul 3 (matmul 3 f A) (transpose f) i j * v j))) with (sumN 3 (fun i => sumN 3 (fun j => w i * A i j * w j)))
      by (unfold w, matmul, transpose; sums; ring).
    apply Hp. assert (E : v i = sumN 3 (fun a => inv 3 f a i * w a)).
    { transitivity (sumN 3 (fun b => matmul 3 f (inv 3 f) b i * v b)).
      - transitivity (sumN 3 (fun b => if Nat.eqb b i then v b else 0)); [symmetry; apply (sumN_pick 3 i v Hi)|].
        apply sumN_ext. intros b Hb. rewrite (proj1 (matmul_inv f Hd) b i Hb Hi). unfold identity. destruct (Nat.eqb b i); ring.
      - unfold w, matmul. sums. ring. }
    destruct (Req_dec (w 0%nat) 0) as [E0|]; [|exists 0%nat; auto]. destruct (Req_dec (w 1%nat) 0) as [E1|]; [|exists 1%nat; auto].
    destruct (Req_dec (w 2%nat) 0) as [E2|]; [|exists 2%nat; auto]. exfalso. apply Hv. rewrite E. sums. rewrite E0, E1, E2. ring.
Qed.

(** ** the return map *)
Lemma G_pos : 0 < shear_G. Proof. unfold shear_G. lra. Qed.
Lemma radius_pos a : 0 <= a -> 0 < yield_radius a.
Proof. intros H. unfold yield_radius. apply Rmult_lt_0_compat; [apply sqrt_lt_R0|]; lra. Qed.
Lemma det_inv F : det 3 F <> 0 -> det 3 (inv 3 F) <> 0.
Proof.
  intros H E. pose proof (det_matmul 3 F (inv 3 F) ltac:(unfold small_dim; auto)) as D. rewrite E, Rmult_0_r in D.
  rewrite (det_ext3 _ _ (proj1 (matmul_inv F H))), det_identity in D by (unfold small_dim; auto). lra.
Qed.
Lemma det_inv_val F : det 3 F <> 0 -> det 3 (inv 3 F) = / det 3 F.
Proof.
  intros H. pose proof (det_matmul 3 F (inv 3 F) ltac:(unfold small_dim; auto)) as D.
  rewrite (det_ext3 _ _ (proj1 (matmul_inv F H))), det_identity in D by (unfold small_dim; auto). apply (Rmult_eq_reg_l (det 3 F)); [|exact H]. rewrite <- D. now field.
Qed.
Section Point.
Variables (s : fstate) (u : mat).
Let F := grad_to_F u.
Let B := be_bar_trial s u.
Let Ie := trace 3 B / 3.
Let r := fro (s_trial s u).
Lemma trial_spd : admissible s -> det 3 F <> 0 -> spd B.
Proof.
  intros (Hd & Hs & _) HF. unfold B, be_bar_trial. fold F. apply spd_congruence; [|exact Hs].
  rewrite det_matmul by (unfold small_dim; auto). apply Rmult_integral_contrapositive. split; [exact HF|]. apply det_inv. lra.
Qed.
Lemma s_trial_form i j : s_trial s u i j = shear_G * dev 3 B i j.
Proof. unfold s_trial. fold B. now rewrite deviatoric_dev. Qed.
Lemma r_form : r = shear_G * fro (dev 3 B).
Proof. unfold r. rewrite (fro_ext _ (fun i j => shear_G * dev 3 B i j)) by (intros i j _ _; apply s_trial_form). apply fro_scal. left. apply G_pos. Qed.
(** the outcome in closed form: the new elastic tensor lies between the trial tensor and its spherical part *)
Lemma return_spec : admissible s -> det 3 F <> 0 -> exists t dg,
  0 < t <= 1 /\ 0 <= dg /\ t * r = r - 2 * (Ie * shear_G) * dg
  /\ meq 3 (fst (fst (return_map s u))) (fun i j => t * B i j + (1 - t) * Ie * eye i j)
  /\ snd (fst (return_map s u)) = alpha_old s + sqrt (2 / 3) * dg
  /\ snd (return_map s u) = get_tau F (fst (fst (return_map s u)))
  /\ (r < yield_radius (alpha_old s) /\ t = 1 /\ dg = 0
      \/ yield_radius (alpha_old s) <= r /\ t * r = yield_radius (alpha_old s + sqrt (2 / 3) * dg) /\ dg = (r - yield_radius (alpha_old s)) / (2 * (Ie * shear_G) + 12)).
Proof.
  intros Ha HF. assert (HB := trial_spd Ha HF). assert (HIe : 0 < Ie) by (unfold Ie; pose proof (spd_trace B HB); lra).
  assert (HY := radius_pos (alpha_old s) (proj2 (proj2 Ha))). assert (HG := G_pos). assert (Hg : 0 < Ie * shear_G) by nra.
  assert (Y : yield_f_trial s u = r - yield_radius (alpha_old s)) by reflexivity.
  unfold return_map. destruct (Rltb (yield_f_trial s u) 0) eqn:E.
  - apply Rltb_true in E. rewrite Y in E. exists 1, 0. cbn [elastic_loading fst snd]. repeat split; try lra; try reflexivity.
    intros i j _ _. fold B. ring.
  - apply Rltb_false in E. rewrite Y in E. assert (Hr : 0 < r) by lra.
    set (dg := (r - yield_radius (alpha_old s)) / (2 * (Ie * shear_G) + 12)).
    assert (Hdg : 0 <= dg) by (unfold dg; apply Rmult_le_pos; [lra|left; apply Rinv_0_lt_compat; lra]).
    assert (Edg : dg * (2 * (Ie * shear_G) + 12) = r - yield_radius (alpha_old s)) by (unfold dg; field; lra).
    assert (Mdg : yield_f_trial s u / (2 * (1 / 3 * trace 3 B * shear_G)) / (1 + H1 / (3 * (1 / 3 * trace 3 B * shear_G))) = dg).
    { rewrite Y. replace (1 / 3 * trace 3 B) with Ie by (unfold Ie; field). unfold dg, H1. field. lra. }
    set (t := 1 - 2 * (Ie * shear_G) * dg / r).
    assert (Et : t * r = r - 2 * (Ie * shear_G) * dg) by (unfold t; field; lra).
    assert (Htr : t * r = yield_radius (alpha_old s) + 12 * dg) by lra.
    assert (Ht : 0 < t <= 1).
    { split; [apply (Rmult_lt_reg_r r); [exact Hr|]; rewrite Htr; lra|]. apply (Rmult_le_reg_r r); [exact Hr|]. rewrite Et. nra. }
    exists t, dg. unfold plastic_loading. cbv zeta. fold B. rewrite Mdg. cbn [fst snd]. repeat split; try (exact Et || exact Hdg || apply Ht || reflexivity).
    + intros i j Hi Hj. fold r. rewrite s_trial_form. unfold dev, pressure. rewrite INR3. fold (trace 3 B). unfold t. unfold identity, Ie. fold (eye i j). field. split; lra.
    + right. split; [lra|]. split; [|reflexivity]. rewrite Htr. unfold yield_radius. pose proof (sqrt_sqrt (2 / 3) ltac:(lra)) as Hq.
      transitivity (sqrt (2 / 3) * (400 + 18 * alpha_old s) + 18 * (sqrt (2 / 3) * sqrt (2 / 3)) * dg); [rewrite Hq; field|ring].
Qed.
Definition new_be : mat := be_bar_old (update_state s u).
Lemma update_parts : F_old (update_state s u) = F /\ be_bar_old (update_state s u) = fst (fst (return_map s u)) /\ alpha_old (update_state s u) = snd (fst (return_map s u)).
Proof. unfold update_state. destruct (return_map s u) as ((b, a), t). cbn. auto. Qed.
Lemma PK_parts : PK_stress s u = matmul 3 (snd (return_map s u)) (transpose (inv 3 F)).
Proof. unfold PK_stress. destruct (return_map s u) as ((b, a), t). reflexivity. Qed.
Lemma kirchhoff_tau : det 3 F <> 0 -> meq 3 (kirchhoff (PK_stress s u) F) (snd (return_map s u)).
Proof.
  intros HF i j Hi Hj. unfold kirchhoff. rewrite PK_parts, matmul_assoc. transitivity (matmul 3 (snd (return_map s u)) identity i j).
  - apply (matmul_ext 3 _ (snd (return_map s u)) _ identity); auto; [intros a b _ _; reflexivity|]. intros a b Ha Hb.
    transitivity (matmul 3 F (inv 3 F) b a); [unfold matmul, transpose; sums; ring|]. rewrite (proj1 (matmul_inv F HF) b a Hb Ha). unfold identity. now rewrite Nat.eqb_sym.
  - unfold matmul. transitivity (sumN 3 (fun k => if Nat.eqb k j then snd (return_map s u) i k else 0)); [|apply (sumN_pick 3 j (fun k => snd (return_map s u) i k) Hj)].
    apply sumN_ext. intros k Hk. unfold identity. destruct (Nat.eqb k j); ring.
Qed.
Lemma dev_tau b i j : (i < 3)%nat -> (j < 3)%nat -> dev 3 (get_tau F b) i j = shear_G * dev 3 b i j.
Proof. intros Hi Hj. unfold get_tau. unfold dev at 1, pressure. rewrite INR3. by3; sums; unfold deviatoric, dev, pressure, eye, identity, trace; rewrite INR3; sums; cbn [Nat.eqb]; field. Qed.
Lemma new_admissible : admissible s -> 0 < det 3 F -> admissible (update_state s u).
Proof.
  intros Ha HF. destruct (return_spec Ha ltac:(lra)) as (t & dg & Ht & Hdg & _ & Hb & Hal & _ & _). destruct update_parts as (E1 & E2 & E3).
  unfold admissible. rewrite E1, E2, E3. split; [exact HF|]. split.
  - eapply spd_ext; [intros i j Hi Hj; symmetry; apply (Hb i j Hi Hj)|]. apply spd_blend; [exact Ht| |apply trial_spd; auto; lra].
    unfold Ie. pose proof (spd_trace B (trial_spd Ha ltac:(lra))). lra.
  - rewrite Hal. pose proof (sqrt_pos (2 / 3)). destruct Ha as (_ & _ & Ha). nra.
Qed.
(** the size of the deviatoric stress after the step *)
Lemma new_shear : admissible s -> 0 < det 3 F -> exists t dg, 0 < t <= 1 /\ 0 <= dg /\
  shear_size (kirchhoff (PK_stress s u) F) = t * r /\ alpha_old (update_state s u) = alpha_old s + sqrt (2 / 3) * dg
  /\ (r < yield_radius (alpha_old s) /\ t = 1 /\ dg = 0
      \/ yield_radius (alpha_old s) <= r /\ t * r = yield_radius (alpha_old s + sqrt (2 / 3) * dg) /\ dg = (r - yield_radius (alpha_old s)) / (2 * (Ie * shear_G) + 12)).
Proof.
  intros Ha HF. destruct (return_spec Ha ltac:(lra)) as (t & dg & Ht & Hdg & Hr & Hb & Hal & Htau & Hc). exists t, dg.
  split; [exact Ht|]. split; [exact Hdg|]. split; [|split; [destruct update_parts as (_ & _ & ->); exact Hal|exact Hc]].
  rewrite shear_size_fro. rewrite (fro_ext _ (fun i j => t * (shear_G * dev 3 B i j))).
  - rewrite fro_scal by lra. rewrite fro_scal by (left; apply G_pos). now rewrite r_form.
  - intros i j Hi Hj. rewrite (dev_ext 3 _ _ (kirchhoff_tau ltac:(lra)) i j Hi Hj), Htau, dev_tau by assumption. rewrite (dev_ext 3 _ _ Hb i j Hi Hj), dev_lin by assumption. ring.
Qed.
End Point.
Close Scope R_scope.
