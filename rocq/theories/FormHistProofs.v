(** * Finite-strain plasticity: histories, elastic paths, frame indifference. *)
From Coq Require Import Lra Lia Setoid Morphisms.
From Verif Require Import Prelude PreludeFacts FemModel FemFacts FemSpec MatModel MatSpec MatProofs MatHyperProofs CrysModel CrysSpec CrysTensorProofs CrysProofs FormModel FormSpec FormProofs.
Open Scope R_scope.

#[export] Instance meq3_equiv : Equivalence (meq 3).
Proof.
  split; [intros A i j _ _; reflexivity|intros A B H i j Hi Hj; symmetry; auto|intros A B C H1 H2 i j Hi Hj; rewrite (H1 i j Hi Hj); auto].
Qed.
#[export] Instance matmul_proper : Proper (meq 3 ==> meq 3 ==> meq 3) (matmul 3).
Proof. intros A A' HA B B' HB. apply matmul_ext; assumption. Qed.
#[export] Instance transpose_proper : Proper (meq 3 ==> meq 3) transpose.
Proof. intros A B H i j Hi Hj. apply H; assumption. Qed.
Lemma mm_assoc A B C : meq 3 (matmul 3 (matmul 3 A B) C) (matmul 3 A (matmul 3 B C)).
Proof. intros i j _ _. apply matmul_assoc. Qed.
Lemma mm_id_r A : meq 3 (matmul 3 A identity) A.
Proof. intros i j Hi Hj. by3; unfold matmul, identity; sums; cbn [Nat.eqb]; ring. Qed.
Lemma mm_id_l A : meq 3 (matmul 3 identity A) A.
Proof. intros i j Hi Hj. by3; unfold matmul, identity; sums; cbn [Nat.eqb]; ring. Qed.
Lemma tr_mm A B : meq 3 (transpose (matmul 3 A B)) (matmul 3 (transpose B) (transpose A)).
Proof. intros i j _ _. unfold transpose, matmul. sums. ring. Qed.
Lemma tr_id : meq 3 (transpose identity) identity.
Proof. intros i j Hi Hj. unfold transpose, identity. now rewrite Nat.eqb_sym. Qed.
Lemma tr_tr A : meq 3 (transpose (transpose A)) A.
Proof. intros i j _ _. reflexivity. Qed.
Lemma inv_r A : det 3 A <> 0 -> meq 3 (matmul 3 A (inv 3 A)) identity. Proof. intros H. apply (proj1 (matmul_inv A H)). Qed.
Lemma inv_l A : det 3 A <> 0 -> meq 3 (matmul 3 (inv 3 A) A) identity. Proof. intros H. apply (proj2 (matmul_inv A H)). Qed.
Lemma inv_unique A X : det 3 A <> 0 -> meq 3 (matmul 3 A X) identity -> meq 3 (inv 3 A) X.
Proof. intros HA H. rewrite <- (mm_id_l X), <- (inv_l A HA), mm_assoc, H. now rewrite mm_id_r. Qed.
Lemma eye_id : eye = identity. Proof. reflexivity. Qed.

(** ** the states of a history *)
Lemma hist_app s Fs F : history s (Fs ++ [F]) = update_state (history s Fs) (grad_of F).
Proof. unfold history. now rewrite fold_left_app. Qed.
Lemma init_admissible : admissible fstate_init.
Proof. unfold admissible, fstate_init. cbn [F_old be_bar_old alpha_old]. split; [rewrite eye_id, det_identity by (unfold small_dim; auto); lra|]. split; [apply spd_eye|lra]. Qed.
Lemma hist_admissible s Fs : admissible s -> Forall (fun F => 0 < det 3 F) Fs -> admissible (history s Fs).
Proof.
  revert s. induction Fs as [|F Fs IH]; intros s Hs HF; [exact Hs|]. inversion HF as [|? ? H1 H2]; subst. apply IH; [|exact H2].
  apply new_admissible; [exact Hs|]. now rewrite grad_of_F_eq.
Qed.
Lemma step_alpha s F : admissible s -> 0 < det 3 F -> alpha_old s <= alpha_old (update_state s (grad_of F)).
Proof.
  intros Hs HF. destruct (new_shear s (grad_of F) Hs ltac:(now rewrite grad_of_F_eq)) as (t & dg & _ & Hdg & _ & -> & _).
  pose proof (sqrt_pos (2 / 3)). nra.
Qed.
Lemma hist_alpha s Fs : admissible s -> Forall (fun F => 0 < det 3 F) Fs -> alpha_old s <= alpha_old (history s Fs).
Proof.
  revert s. induction Fs as [|F Fs IH]; intros s Hs HF; [apply Rle_refl|]. inversion HF as [|? ? H1 H2]; subst.
  apply Rle_trans with (alpha_old (update_state s (grad_of F))); [apply step_alpha; assumption|].
  apply (IH (update_state s (grad_of F))); [|exact H2]. apply new_admissible; [exact Hs|]. now rewrite grad_of_F_eq.
Qed.
Lemma hist_yield s F : admissible s -> 0 < det 3 F ->
  shear_size (kirchhoff (PK_stress s (grad_of F)) F) <= yield_radius (alpha_old (update_state s (grad_of F)))
  /\ (alpha_old s < alpha_old (update_state s (grad_of F)) ->
      shear_size (kirchhoff (PK_stress s (grad_of F)) F) = yield_radius (alpha_old (update_state s (grad_of F)))).
Proof.
  intros Hs HF. destruct (new_shear s (grad_of F) Hs ltac:(now rewrite grad_of_F_eq)) as (t & dg & Ht & Hdg & Hsh & Hal & Hc).
  rewrite grad_of_F_eq in Hsh. rewrite Hsh, Hal. destruct Hc as [(Hr & -> & ->)|(Hr & E & _)].
  - rewrite Rmult_0_r, Rplus_0_r, Rmult_1_l. split; lra.
  - split; [lra|auto].
Qed.
Lemma hist_pressure s F : det 3 F <> 0 -> pressure 3 (kirchhoff (PK_stress s (grad_of F)) F) = 82000 * (det 3 F ^ 2 - 1).
Proof.
  intros HF. assert (E : meq 3 (kirchhoff (PK_stress s (grad_of F)) F) (get_tau F (fst (fst (return_map s (grad_of F)))))).
  { pose proof (kirchhoff_tau s (grad_of F) ltac:(now rewrite grad_of_F_eq)) as E. rewrite grad_of_F_eq in E.
    rewrite E. unfold return_map. destruct (Rltb _ 0); cbn [elastic_loading plastic_loading fst snd]; rewrite grad_of_F_eq; reflexivity. }
  unfold pressure. sums. rewrite (E 0%nat 0%nat), (E 1%nat 1%nat), (E 2%nat 2%nat) by lia. unfold get_tau, deviatoric, trace, bulk_K, shear_G, eye. rewrite INR3. sums. cbn [Nat.eqb]. field.
Qed.
Lemma kirchhoff_sym s F : admissible s -> det 3 F <> 0 -> msym 3 (kirchhoff (PK_stress s (grad_of F)) F).
Proof.
  intros Hs HF. assert (HF' : det 3 (grad_to_F (grad_of F)) <> 0) by now rewrite grad_of_F_eq.
  destruct (return_spec s (grad_of F) Hs HF') as (t & dg & _ & _ & _ & Hb & _ & Htau & _). pose proof (trial_spd s (grad_of F) Hs HF') as (HS & _).
  pose proof (kirchhoff_tau s (grad_of F) HF') as E. rewrite grad_of_F_eq in E. intros i j Hi Hj. rewrite (E i j Hi Hj), (E j i Hj Hi), Htau. unfold get_tau, deviatoric.
  rewrite (Hb i j Hi Hj), (Hb j i Hj Hi), (HS i j Hi Hj). unfold eye. now rewrite (Nat.eqb_sym j i).
Qed.
Lemma cauchy_kirchhoff s F : meq 3 (cauchy_of s (grad_of F)) (fun i j => / det 3 F * kirchhoff (PK_stress s (grad_of F)) F i j).
Proof. intros i j Hi Hj. unfold cauchy_of, kirchhoff. rewrite grad_of_F_eq. unfold matmul, transpose. sums. unfold Rdiv. ring. Qed.

(** ** elastic paths *)
Definition left_cauchy (F : mat) : mat := matmul 3 F (transpose F).
Lemma trial_elastic s F : det 3 (F_old s) <> 0 -> meq 3 (be_bar_old s) (left_cauchy (F_old s)) -> meq 3 (be_bar_trial s (grad_of F)) (left_cauchy F).
Proof.
  intros Hd Hb. unfold be_bar_trial. rewrite grad_of_F_eq. rewrite Hb. unfold left_cauchy. rewrite tr_mm.
  rewrite (mm_assoc F), <- (mm_assoc (inv 3 (F_old s))), (inv_l _ Hd), mm_id_l. rewrite (mm_assoc F), <- (mm_assoc (transpose (F_old s))), <- tr_mm, (inv_l _ Hd), tr_id, mm_id_l. reflexivity.
Qed.
Lemma quiet_step s F : admissible s -> 0 < det 3 F -> alpha_old (update_state s (grad_of F)) = alpha_old s ->
  meq 3 (be_bar_old (update_state s (grad_of F))) (be_bar_trial s (grad_of F)).
Proof.
  intros Hs HF Hq. assert (HF' : det 3 (grad_to_F (grad_of F)) <> 0) by (rewrite grad_of_F_eq; lra).
  destruct (return_spec s (grad_of F) Hs HF') as (t & dg & Ht & Hdg & Hr & Hb & Hal & _ & Hc). destruct (update_parts s (grad_of F)) as (_ & E2 & E3).
  rewrite E3, Hal in Hq. assert (dg = 0) by (pose proof (sqrt_lt_R0 (2 / 3) ltac:(lra)); nra). subst dg.
  assert (t = 1) by (destruct Hc as [(_ & H & _)|(Hy & _)]; [exact H|]; pose proof (radius_pos (alpha_old s) (proj2 (proj2 Hs))); nra). subst t.
  rewrite E2, Hb. intros i j _ _. ring.
Qed.
Lemma never_app s Fs F : never_yields s (Fs ++ [F]) <-> never_yields s Fs /\ alpha_old (history s (Fs ++ [F])) = alpha_old (history s Fs).
Proof.
  split.
  - intros H. split; [|apply (H Fs F []); reflexivity]. intros pre G post E. apply (H pre G (post ++ [F])). rewrite E, <- app_assoc. reflexivity.
  - intros (H1 & H2) pre G post E. destruct post as [|P post] using rev_ind.
    + apply app_inj_tail in E as (-> & ->). exact H2.
    + clear IHpost. rewrite app_comm_cons, app_assoc in E. apply app_inj_tail in E as (E & _). now apply (H1 pre G post).
Qed.
Definition on_path (s : fstate) (Fl : mat) : Prop := F_old s = Fl /\ meq 3 (be_bar_old s) (left_cauchy Fl).
Lemma elastic_state Fs : Forall (fun F => 0 < det 3 F) Fs -> never_yields fstate_init Fs ->
  on_path (history fstate_init Fs) (last Fs identity) /\ alpha_old (history fstate_init Fs) = 0.
Proof.
  induction Fs as [|F Fs IH] using rev_ind; intros HF Hn.
  - split; [|reflexivity]. split; [reflexivity|]. cbn [history fold_left fstate_init be_bar_old last]. unfold left_cauchy. rewrite tr_id, mm_id_l. reflexivity.
  - apply Forall_app in HF as (H1 & H2). inversion H2 as [|? ? HF _]; subst. apply never_app in Hn as (Hn & Hq). destruct (IH H1 Hn) as ((E1 & E2) & Ea).
    assert (Ha := hist_admissible _ _ init_admissible H1). rewrite last_last. split; [|rewrite Hq; exact Ea]. rewrite hist_app in *. split.
    + destruct (update_parts (history fstate_init Fs) (grad_of F)) as (-> & _). apply grad_of_F_eq.
    + rewrite (quiet_step _ F Ha HF Hq). apply trial_elastic; [pose proof (proj1 Ha); lra|]. now rewrite E1.
Qed.
Lemma elastic_stress Fs F : Forall (fun F => 0 < det 3 F) (Fs ++ [F]) -> never_yields fstate_init (Fs ++ [F]) ->
  meq 3 (kirchhoff (last_stress fstate_init Fs F) F) (fun i j => 82000 * (det 3 F ^ 2 - 1) * identity i j + 80000 * dev 3 (left_cauchy F) i j).
Proof.
  intros HF Hn. destruct (elastic_state _ HF Hn) as ((_ & Hb) & _). rewrite last_last in Hb. apply Forall_app in HF as (H1 & H2). inversion H2 as [|? ? HF _]; subst.
  assert (Ha := hist_admissible _ _ init_admissible H1). assert (HF' : det 3 (grad_to_F (grad_of F)) <> 0) by (rewrite grad_of_F_eq; lra).
  pose proof (kirchhoff_tau (history fstate_init Fs) (grad_of F) HF') as E. rewrite grad_of_F_eq in E. unfold last_stress. rewrite E.
  destruct (return_spec _ (grad_of F) Ha HF') as (t & dg & _ & _ & _ & _ & _ & Htau & _). rewrite Htau, grad_of_F_eq.
  rewrite hist_app in Hb. destruct (update_parts (history fstate_init Fs) (grad_of F)) as (_ & E2 & _). rewrite E2 in Hb.
  intros i j Hi Hj. unfold get_tau. rewrite deviatoric_dev, (dev_ext 3 _ _ Hb i j Hi Hj). unfold bulk_K, shear_G. rewrite eye_id. field.
Qed.
(** inside the elastic range nothing yields *)
Lemma elastic_range Fs : Forall (fun F => 0 < det 3 F /\ 80000 * fro (dev 3 (left_cauchy F)) <= yield_radius 0) Fs -> never_yields fstate_init Fs.
Proof.
  induction Fs as [|F Fs IH] using rev_ind; intros HF; [intros pre F post E; destruct pre; discriminate|].
  apply Forall_app in HF as (H1 & H2). inversion H2 as [|? ? (HF & Hy) _]; subst. specialize (IH H1). apply never_app. split; [exact IH|].
  assert (H1' : Forall (fun F => 0 < det 3 F) Fs) by (eapply Forall_impl; [|exact H1]; intros ? H; apply H).
  destruct (elastic_state Fs H1' IH) as ((E1 & E2) & Ea). assert (Ha := hist_admissible _ _ init_admissible H1'). rewrite hist_app.
  destruct (new_shear (history fstate_init Fs) (grad_of F) Ha ltac:(now rewrite grad_of_F_eq)) as (t & dg & _ & Hdg & _ & -> & Hc).
  assert (Hr : fro (s_trial (history fstate_init Fs) (grad_of F)) = 80000 * fro (dev 3 (left_cauchy F))).
  { rewrite r_form. rewrite (fro_ext _ (dev 3 (left_cauchy F))); [unfold shear_G; ring|]. apply dev_ext. apply trial_elastic; [pose proof (proj1 Ha); lra|]. now rewrite E1. }
  rewrite Hr in Hc. rewrite Ea in *. destruct Hc as [(_ & _ & ->)|(H & _ & E)]; [ring|]. replace (80000 * fro (dev 3 (left_cauchy F))) with (yield_radius 0) in E by lra.
  rewrite E. unfold Rdiv. ring.
Qed.

(** ** frame indifference *)
Definition related (Q : mat) (s1 s2 : fstate) : Prop :=
  meq 3 (F_old s2) (matmul 3 Q (F_old s1)) /\ meq 3 (be_bar_old s2) (conj Q (be_bar_old s1)) /\ alpha_old s2 = alpha_old s1.
#[export] Instance conj_proper : Proper (meq 3 ==> meq 3 ==> meq 3) conj.
Proof. intros Q Q' HQ A A' HA. unfold conj. now rewrite HQ, HA. Qed.
Lemma trace_conj Q A : orthogonal 3 Q -> trace 3 (conj Q A) = trace 3 A.
Proof.
  intros (_ & H). transitivity (ddot 3 (matmul 3 (transpose Q) Q) (transpose A)); [unfold trace, conj, ddot, matmul, transpose; sums; ring|].
  rewrite (ddot_ext 3 _ identity _ (transpose A)); [|exact H|reflexivity]. unfold ddot, identity, trace, transpose. sums. cbn [Nat.eqb]. ring.
Qed.
Lemma conj_lin Q A a b : orthogonal 3 Q -> meq 3 (conj Q (fun i j => a * A i j + b * eye i j)) (fun i j => a * conj Q A i j + b * eye i j).
Proof.
  intros (H & _) i j Hi Hj. transitivity (a * conj Q A i j + b * matmul 3 Q (transpose Q) i j).
  - unfold conj, matmul, transpose, eye. sums. cbn [Nat.eqb]. ring.
  - rewrite (H i j Hi Hj). reflexivity.
Qed.
Lemma dev_conj Q A : orthogonal 3 Q -> meq 3 (dev 3 (conj Q A)) (conj Q (dev 3 A)).
Proof.
  intros H. transitivity (conj Q (fun i j => 1 * A i j + (- pressure 3 A) * eye i j)).
  - rewrite (conj_lin Q A _ _ H). intros i j _ _. unfold dev, pressure. fold (trace 3 (conj Q A)). rewrite (trace_conj Q A H). unfold trace. rewrite <- eye_id. ring.
  - apply conj_proper; [reflexivity|]. intros i j _ _. unfold dev. rewrite <- eye_id. ring.
Qed.
Lemma fro_conj Q A : orthogonal 3 Q -> fro (conj Q A) = fro A.
Proof.
  intros H. unfold fro. f_equal. rewrite <- (ddot_rotate_rotate Q A A H). apply ddot_ext; intros i j _ _; now rewrite rotate2_conj.
Qed.
Lemma inv_turned Q F : rotation 3 Q -> det 3 F <> 0 -> meq 3 (inv 3 (matmul 3 Q F)) (matmul 3 (inv 3 F) (transpose Q)).
Proof.
  intros ((HQ & _) & HdQ) HF. apply inv_unique; [rewrite det_matmul, HdQ by (unfold small_dim; auto); lra|].
  rewrite mm_assoc, <- (mm_assoc F), (inv_r F HF), mm_id_l. exact HQ.
Qed.
Lemma inv_meq A B : meq 3 A B -> meq 3 (inv 3 A) (inv 3 B).
Proof. intros H i j Hi Hj. unfold inv. rewrite (det_ext3 A B H). f_equal. by3; unfold adj; rewrite !H by lia; reflexivity. Qed.
#[export] Instance inv_proper : Proper (meq 3 ==> meq 3) (inv 3).
Proof. intros A B H. now apply inv_meq. Qed.
Lemma trial_turned Q Q' s1 s2 F1 F2 : rotation 3 Q -> rotation 3 Q' -> det 3 (F_old s1) <> 0 -> related Q s1 s2 -> meq 3 F2 (matmul 3 Q' F1) ->
  meq 3 (be_bar_trial s2 (grad_of F2)) (conj Q' (be_bar_trial s1 (grad_of F1))).
Proof.
  intros HQ HQ' Hd (E1 & E2 & _) EF. unfold be_bar_trial. rewrite !grad_of_F_eq. rewrite EF, E1, E2, (inv_turned Q _ HQ Hd).
  destruct HQ as ((_ & HQ) & _). set (f := matmul 3 F1 (inv 3 (F_old s1))).
  assert (Ef : meq 3 (matmul 3 (matmul 3 Q' F1) (matmul 3 (inv 3 (F_old s1)) (transpose Q))) (matmul 3 Q' (matmul 3 f (transpose Q)))).
  { unfold f. now rewrite !mm_assoc. }
  rewrite Ef. unfold conj. rewrite !tr_mm, tr_tr.
  rewrite !mm_assoc. rewrite <- (mm_assoc (transpose Q) Q), HQ, mm_id_l. rewrite <- (mm_assoc (transpose Q) Q), HQ, mm_id_l. reflexivity.
Qed.
Lemma return_turned Q Q' s1 s2 F1 F2 : rotation 3 Q -> rotation 3 Q' -> det 3 (F_old s1) <> 0 -> related Q s1 s2 -> meq 3 F2 (matmul 3 Q' F1) ->
  meq 3 (fst (fst (return_map s2 (grad_of F2)))) (conj Q' (fst (fst (return_map s1 (grad_of F1)))))
  /\ snd (fst (return_map s2 (grad_of F2))) = snd (fst (return_map s1 (grad_of F1)))
  /\ meq 3 (snd (return_map s2 (grad_of F2))) (conj Q' (snd (return_map s1 (grad_of F1)))).
Proof.
  intros HQ HQ' Hd Hrel EF. assert (HB := trial_turned Q Q' s1 s2 F1 F2 HQ HQ' Hd Hrel EF). destruct Hrel as (_ & _ & Ea). assert (HO := proj1 HQ').
  assert (Etr : trace 3 (be_bar_trial s2 (grad_of F2)) = trace 3 (be_bar_trial s1 (grad_of F1))).
  { rewrite <- (trace_conj Q' (be_bar_trial s1 (grad_of F1)) HO). unfold trace. apply sumN_ext. intros i Hi. apply HB; assumption. }
  assert (Es : meq 3 (s_trial s2 (grad_of F2)) (conj Q' (s_trial s1 (grad_of F1)))).
  { intros i j Hi Hj. rewrite s_trial_form, (dev_ext 3 _ _ HB i j Hi Hj), (dev_conj Q' _ HO i j Hi Hj).
    transitivity (conj Q' (fun i j => shear_G * dev 3 (be_bar_trial s1 (grad_of F1)) i j) i j); [unfold conj, matmul; sums; ring|].
    apply conj_proper; auto; [reflexivity|]. intros a b _ _. symmetry. apply s_trial_form. }
  assert (Er : fro (s_trial s2 (grad_of F2)) = fro (s_trial s1 (grad_of F1))) by (rewrite (fro_ext _ _ Es); apply fro_conj; exact HO).
  assert (Ey : yield_f_trial s2 (grad_of F2) = yield_f_trial s1 (grad_of F1)) by (unfold yield_f_trial; now rewrite Er, Ea).
  assert (EJ : det 3 F2 = det 3 F1) by (rewrite (det_ext3 _ _ EF), det_matmul, (proj2 HQ') by (unfold small_dim; auto); ring).
  assert (Htau : forall b1 b2, meq 3 b2 (conj Q' b1) -> meq 3 (get_tau F2 b2) (conj Q' (get_tau F1 b1))).
  { intros b1 b2 Hb. transitivity (conj Q' (fun i j => shear_G * dev 3 b1 i j + (/ 2 * bulk_K * (det 3 F1 ^ 2 - 1)) * eye i j)).
    - rewrite (conj_lin Q' (dev 3 b1) _ _ HO). intros i j Hi Hj. unfold get_tau. rewrite deviatoric_dev, EJ, (dev_ext 3 _ _ Hb i j Hi Hj), (dev_conj Q' _ HO i j Hi Hj). ring.
    - apply conj_proper; [reflexivity|]. intros i j _ _. unfold get_tau. rewrite deviatoric_dev. ring. }
  unfold return_map. rewrite Ey. destruct (Rltb _ 0).
  - cbn [elastic_loading fst snd]. rewrite !grad_of_F_eq. split; [exact HB|]. split; [exact Ea|]. apply Htau. exact HB.
  - unfold plastic_loading. cbv zeta. rewrite Ey, Er, Etr, Ea, !grad_of_F_eq. cbn [fst snd].
    set (Ie := 1 / 3 * trace 3 (be_bar_trial s1 (grad_of F1))). set (dg := yield_f_trial s1 (grad_of F1) / (2 * (Ie * shear_G)) / (1 + H1 / (3 * (Ie * shear_G)))). set (r := fro (s_trial s1 (grad_of F1))).
    match goal with |- meq 3 ?b2 (conj Q' ?b1) /\ _ => assert (Hb : meq 3 b2 (conj Q' b1)) end.
    { transitivity (conj Q' (fun i j => (/ shear_G - 2 * (Ie * shear_G) * dg / r / shear_G) * s_trial s1 (grad_of F1) i j + Ie * eye i j)).
      - rewrite (conj_lin Q' _ _ _ HO). intros i j Hi Hj. rewrite (Es i j Hi Hj). unfold Rdiv. ring.
      - apply conj_proper; [reflexivity|]. intros i j _ _. unfold Rdiv. ring. }
    split; [exact Hb|]. split; [reflexivity|]. apply Htau. exact Hb.
Qed.
Lemma step_turned Q Q' s1 s2 F1 F2 : rotation 3 Q -> rotation 3 Q' -> det 3 (F_old s1) <> 0 -> det 3 F1 <> 0 -> related Q s1 s2 -> meq 3 F2 (matmul 3 Q' F1) ->
  related Q' (update_state s1 (grad_of F1)) (update_state s2 (grad_of F2)) /\ meq 3 (PK_stress s2 (grad_of F2)) (matmul 3 Q' (PK_stress s1 (grad_of F1))).
Proof.
  intros HQ HQ' Hd HF Hrel EF. destruct (return_turned Q Q' s1 s2 F1 F2 HQ HQ' Hd Hrel EF) as (H1 & H2 & H3).
  destruct (update_parts s1 (grad_of F1)) as (A1 & A2 & A3). destruct (update_parts s2 (grad_of F2)) as (B1 & B2 & B3). split.
  - unfold related. rewrite A1, A2, A3, B1, B2, B3, !grad_of_F_eq. auto.
  - rewrite (PK_parts s1), (PK_parts s2), !grad_of_F_eq. rewrite H3, EF, (inv_turned Q' F1 HQ' HF), tr_mm, tr_tr. unfold conj.
    destruct HQ' as ((_ & HO) & _). rewrite !mm_assoc. now rewrite <- (mm_assoc (transpose Q') Q'), HO, mm_id_l.
Qed.
Lemma id_rotation : rotation 3 identity.
Proof. split; [split; rewrite tr_id, mm_id_l; reflexivity|]. apply det_identity. unfold small_dim. auto. Qed.
Lemma related_refl s : related identity s s.
Proof. unfold related, conj. rewrite !mm_id_l, tr_id, mm_id_r. repeat split; reflexivity. Qed.
(** a rotation on top of every deformation gradient of the history *)
Lemma hist_turned Q s1 s2 (l : list (mat * mat)) : rotation 3 Q -> related Q s1 s2 -> admissible s1 ->
  Forall (fun p => rotation 3 (fst p) /\ 0 < det 3 (snd p)) l ->
  related (last (map fst l) Q) (history s1 (map snd l)) (history s2 (map (fun p => matmul 3 (fst p) (snd p)) l)).
Proof.
  revert Q s1 s2. induction l as [|(Q', F) l IH]; intros Q s1 s2 HQ Hrel Ha Hl; [exact Hrel|].
  inversion Hl as [|? ? (HQ' & HF) Hl']; subst. cbn [fst snd] in HQ', HF. cbn [map fst snd].
  assert (Hd : det 3 (F_old s1) <> 0) by (pose proof (proj1 Ha); lra).
  destruct (step_turned Q Q' s1 s2 F (matmul 3 Q' F) HQ HQ' Hd ltac:(lra) Hrel ltac:(reflexivity)) as (Hr & _).
  assert (Hn : admissible (update_state s1 (grad_of F))) by (apply new_admissible; [exact Ha|now rewrite grad_of_F_eq]).
  specialize (IH Q' _ _ HQ' Hr Hn Hl'). cbn [history fold_left]. replace (last (Q' :: map fst l) Q) with (last (map fst l) Q'); [exact IH|].
  clear. assert (G : forall (l : list mat) a b, last (a :: l) b = last l a) by (induction l0 as [|x l0 IH]; intros a b; [reflexivity|]; change (last (x :: l0) b = last (x :: l0) a); now rewrite !IH). symmetry. apply G.
Qed.
Close Scope R_scope.
