(** * Concrete finite-strain plasticity problems. *)
From Coq Require Import FunctionalExtensionality Lra Lia.
From Verif Require Import Prelude PreludeFacts FemModel FemFacts FemSpec FemGeoProofs FemExamples MatModel MatSpec MatProofs MatHyperProofs CrysModel CrysSpec CrysTensorProofs CrysProofs CrysFemProofs CrysExamples FormModel FormSpec FormProofs FormHistProofs FormCexProofs FormFemProofs.
Open Scope R_scope.

(** a stretch that stays elastic, and one that does not *)
Definition small_stretch : mat := diag3 (1001 / 1000) 1.
Definition large_stretch : mat := diag3 2 1.
Lemma small_in : elastic_range_of small_stretch. Proof. apply diag_in; lra. Qed.
Lemma small_det : 0 < det 3 small_stretch. Proof. apply small_in. Qed.
Lemma large_det : 0 < det 3 large_stretch. Proof. unfold large_stretch. rewrite diag_det. lra. Qed.
Lemma init_trial F : meq 3 (be_bar_trial fstate_init (grad_of F)) (left_cauchy F).
Proof.
  apply trial_elastic; [|cbn [fstate_init F_old be_bar_old]; unfold left_cauchy; rewrite tr_id, mm_id_l; reflexivity].
  cbn [fstate_init F_old]. rewrite eye_id, det_identity by (unfold small_dim; auto). lra.
Qed.
Lemma large_yields : 0 < alpha_old (history fstate_init [large_stretch]).
Proof.
  cbn [history fold_left]. destruct (new_shear fstate_init (grad_of large_stretch) init_admissible ltac:(rewrite grad_of_F_eq; apply large_det)) as (t & dg & _ & _ & _ & -> & Hcase).
  rewrite r_form in Hcase. rewrite (fro_ext _ _ (fun i j Hi Hj => dev_ext 3 _ _ (init_trial large_stretch) i j Hi Hj)) in Hcase.
  assert (Hr : fro (dev 3 (left_cauchy large_stretch)) = sqrt (2 / 3) * 3).
  { unfold fro, large_stretch. rewrite diag_dev. replace (2 / 3 * ((2 ^ 2 - 1) ^ 2 + (1 ^ 2 - 1) ^ 2 - (2 ^ 2 - 1) * (1 ^ 2 - 1))) with (2 / 3 * (3 * 3)) by field.
    rewrite sqrt_mult by lra. now rewrite sqrt_square by lra. }
  rewrite Hr in Hcase. assert (Hq := sqrt_lt_R0 (2 / 3) ltac:(lra)). cbn [fstate_init alpha_old] in *. unfold yield_radius, shear_G in Hcase.
  assert (HB := trial_spd fstate_init (grad_of large_stretch) init_admissible ltac:(rewrite grad_of_F_eq; pose proof large_det; lra)). pose proof (spd_trace _ HB) as Htr.
  destruct Hcase as [(H & _)|(_ & _ & ->)]; [nra|]. rewrite Rplus_0_l. apply Rmult_lt_0_compat; [exact Hq|]. apply Rdiv_lt_0_compat; nra.
Qed.
(** after the small stretch the elastic tensor is not spherical *)
Lemma small_dev : ~ meq 3 (dev 3 (be_bar_old (history fstate_init [small_stretch]))) mzero.
Proof.
  intros H. assert (Hn : never_yields fstate_init [small_stretch]) by (apply elastic_range; constructor; [split; [apply small_in|left; apply small_in]|constructor]).
  destruct (elastic_state [small_stretch] ltac:(constructor; [apply small_det|constructor]) Hn) as ((_ & Hb) & _). cbn [last] in Hb.
  specialize (H 0%nat 0%nat ltac:(lia) ltac:(lia)). rewrite (dev_ext 3 _ _ Hb 0%nat 0%nat) in H by lia. revert H.
  unfold dev, pressure, left_cauchy, matmul, transpose, identity, small_stretch, diag3, mzero. rewrite INR3. sums. cbn [Nat.eqb]. lra.
Qed.
(** a stretched tetrahedron *)
Definition form_solid : fem fstate := solid form_tensor_map.
Definition stretched : nodal := affine_field form_solid (fun _ => 0) (grad_of large_stretch).
Lemma stretched_grad c q : (c < 1)%nat -> (q < 1)%nat -> meq 3 (def_grad form_solid stretched c q) large_stretch.
Proof. intros Hc Hq i j Hi Hj. unfold def_grad, grad_to_F, stretched, form_solid. rewrite solid_grad by assumption. unfold grad_of, identity, eye. ring. Qed.
Lemma stretched_regular : regular form_solid vars_init stretched.
Proof.
  intros c q Hc Hq. split; [apply init_admissible|]. rewrite (det_ext3 _ _ (stretched_grad c q Hc Hq)). apply large_det.
Qed.
(** a quarter turn about the third axis *)
Definition quarter : mat := fun i j => match i, j with 0%nat, 1%nat => -1 | 1%nat, 0%nat => 1 | 2%nat, 2%nat => 1 | _, _ => 0 end.
Lemma quarter_rotation : rotation 3 quarter.
Proof.
  split; [split; intros i j Hi Hj; unfold matmul, transpose, quarter, identity; sums; by3; cbn [Nat.eqb]; ring|].
  unfold det, quarter. ring.
Qed.
Close Scope R_scope.
