(** * Theorems about the forming application (applications/fem/forming). *)
From Coq Require Import FunctionalExtensionality Lra Lia.
From Verif Require Import Prelude PreludeFacts FemModel FemFacts FemSpec FemGeoProofs FemExamples MatModel MatSpec MatProofs MatHyperProofs CrysModel CrysSpec CrysTensorProofs CrysProofs CrysFemProofs CrysExamples FormModel FormSpec FormProofs FormHistProofs FormCexProofs FormFemProofs FormExamples.
Open Scope R_scope.

(** ** C131 every history *)
Theorem forming_step : forall s F, admissible s -> 0 < det 3 F ->
  let f := matmul 3 F (inv 3 (F_old s)) in
  let B := matmul 3 (matmul 3 f (be_bar_old s)) (transpose f) in
  let r := 80000 * sqrt (ddot 3 (dev 3 B) (dev 3 B)) in
  let s' := update_state s (grad_of F) in
  F_old s' = F /\ trace 3 (be_bar_old s') = trace 3 B
  /\ (r < yield_radius (alpha_old s) -> alpha_old s' = alpha_old s /\ meq 3 (be_bar_old s') B)
  /\ (yield_radius (alpha_old s) <= r ->
      alpha_old s' = alpha_old s + sqrt (2 / 3) * ((r - yield_radius (alpha_old s)) / (160000 * (trace 3 B / 3) + 12))
      /\ forall i j, (i < 3)%nat -> (j < 3)%nat -> r * dev 3 (be_bar_old s') i j = yield_radius (alpha_old s') * dev 3 B i j)
  /\ meq 3 (kirchhoff (PK_stress s (grad_of F)) F) (fun i j => 82000 * (det 3 F ^ 2 - 1) * identity i j + 80000 * dev 3 (be_bar_old s') i j).
Proof.
  intros s F Ha HF f B r s'. assert (HF' : det 3 (grad_to_F (grad_of F)) <> 0) by (rewrite grad_of_F_eq; lra).
  assert (EB : be_bar_trial s (grad_of F) = B) by (unfold be_bar_trial; now rewrite grad_of_F_eq).
  assert (Er : fro (s_trial s (grad_of F)) = r) by (rewrite r_form, EB; unfold r, fro, shear_G; f_equal; ring).
  destruct (return_spec s (grad_of F) Ha HF') as (t & dg & Ht & Hdg & Htr & Hb & Hal & Htau & Hc). rewrite EB in *. rewrite Er in *.
  destruct (update_parts s (grad_of F)) as (P1 & P2 & P3). fold s' in P1, P2, P3. rewrite <- P2 in Hb, Htau. rewrite <- P3 in Hal.
  assert (Ht' : 0 < trace 3 B) by (apply spd_trace; rewrite <- EB; now apply trial_spd).
  assert (HG : shear_G = 80000) by (unfold shear_G; ring).
  split; [rewrite P1; apply grad_of_F_eq|]. split.
  { unfold trace. sums. rewrite !Hb by lia. unfold trace, eye. sums. cbn [Nat.eqb]. field. }
  split; [|split].
  - intros Hy. destruct Hc as [(_ & -> & ->)|(H & _)]; [|lra]. split; [lra|]. intros i j Hi Hj. rewrite (Hb i j Hi Hj). ring.
  - intros Hy. destruct Hc as [(H & _)|(_ & Hr & Edg)]; [lra|]. split.
    + rewrite Hal, Edg. f_equal. f_equal. f_equal. rewrite HG. field.
    + intros i j Hi Hj. rewrite Hal, <- Hr. rewrite (dev_ext 3 _ _ Hb i j Hi Hj), dev_lin by assumption. ring.
  - intros i j Hi Hj. pose proof (kirchhoff_tau s (grad_of F) HF' i j Hi Hj) as K. rewrite grad_of_F_eq in K, Htau. rewrite K, Htau. unfold get_tau. rewrite deviatoric_dev, HG. unfold bulk_K, eye, identity. field.
Qed.
Print Assumptions forming_step.
Theorem forming_histories : forall Fs F, Forall (fun F => 0 < det 3 F) (Fs ++ [F]) ->
  let old := history fstate_init Fs in let new := history fstate_init (Fs ++ [F]) in let tau := kirchhoff (last_stress fstate_init Fs F) F in
  admissible new /\ alpha_old old <= alpha_old new
  /\ shear_size tau <= yield_radius (alpha_old new)
  /\ (alpha_old old < alpha_old new -> shear_size tau = yield_radius (alpha_old new))
  /\ pressure 3 tau = 82000 * (det 3 F ^ 2 - 1)
  /\ msym 3 tau
  /\ meq 3 (cauchy_of old (grad_of F)) (fun i j => / det 3 F * tau i j).
Proof.
  intros Fs F HF old new tau. apply Forall_app in HF as (H1 & H2). inversion H2 as [|? ? HF _]; subst.
  assert (Ho : admissible old) by (apply hist_admissible; [apply init_admissible|exact H1]).
  assert (En : new = update_state old (grad_of F)) by apply hist_app.
  assert (Hd : det 3 F <> 0) by lra. destruct (hist_yield old F Ho HF) as (Y1 & Y2).
  rewrite En. split; [apply new_admissible; [exact Ho|now rewrite grad_of_F_eq]|]. split; [now apply step_alpha|].
  split; [exact Y1|]. split; [exact Y2|]. split; [now apply hist_pressure|]. split; [now apply kirchhoff_sym|]. apply cauchy_kirchhoff.
Qed.
Print Assumptions forming_histories.
(** a history whose first step hardens *)
Example forming_case : Forall (fun F => 0 < det 3 F) ([large_stretch] ++ [small_stretch])
  /\ 0 < alpha_old (history fstate_init [large_stretch]) /\ pressure 3 (kirchhoff (last_stress fstate_init [] large_stretch) large_stretch) = 246000.
Proof.
  split; [repeat constructor; [apply large_det|apply small_det]|]. split; [apply large_yields|]. unfold last_stress. rewrite hist_pressure by (pose proof large_det; lra).
  unfold large_stretch. rewrite diag_det. lra.
Qed.

(** ** C132 elastic paths *)
Theorem elastic_paths : forall Fs F, Forall (fun F => 0 < det 3 F) (Fs ++ [F]) ->
  (never_yields fstate_init (Fs ++ [F]) ->
     meq 3 (kirchhoff (last_stress fstate_init Fs F) F) (fun i j => 82000 * (det 3 F ^ 2 - 1) * identity i j + 80000 * dev 3 (matmul 3 F (transpose F)) i j)
     /\ alpha_old (history fstate_init (Fs ++ [F])) = 0)
  /\ (Forall (fun G => 80000 * sqrt (ddot 3 (dev 3 (matmul 3 G (transpose G))) (dev 3 (matmul 3 G (transpose G)))) <= yield_radius 0) (Fs ++ [F]) ->
     never_yields fstate_init (Fs ++ [F])).
Proof.
  intros Fs F HF. split.
  - intros Hn. split; [now apply elastic_stress|]. now apply elastic_state.
  - intros Hy. apply elastic_range. rewrite Forall_forall in *. intros G HG. split; [now apply HF|now apply Hy].
Qed.
Print Assumptions elastic_paths.
Example elastic_paths_case : Forall (fun F => 0 < det 3 F) ([small_stretch] ++ [small_stretch]) /\ never_yields fstate_init ([small_stretch] ++ [small_stretch])
  /\ ~ never_yields fstate_init ([] ++ [large_stretch]).
Proof.
  split; [repeat constructor; apply small_det|]. split.
  - apply elastic_range. repeat constructor; try apply small_in; left; apply small_in.
  - intros H. specialize (H [] large_stretch [] eq_refl). cbn [app] in H. pose proof large_yields. rewrite H in H0. cbn in H0. lra.
Qed.

(** ** C133 a rotation on top of every step *)
Theorem forming_frame : forall l Q F, Forall (fun p => rotation 3 (fst p) /\ 0 < det 3 (snd p)) l -> rotation 3 Q -> 0 < det 3 F ->
  let plain := map snd l in let turned := map (fun p => matmul 3 (fst p) (snd p)) l in
  meq 3 (last_stress fstate_init turned (matmul 3 Q F)) (matmul 3 Q (last_stress fstate_init plain F))
  /\ alpha_old (history fstate_init (turned ++ [matmul 3 Q F])) = alpha_old (history fstate_init (plain ++ [F])).
Proof.
  intros l Q F Hl HQ HF plain turned.
  pose proof (hist_turned identity fstate_init fstate_init l id_rotation (related_refl _) init_admissible Hl) as Hr. fold plain turned in Hr.
  assert (HQl : rotation 3 (last (map fst l) identity)).
  { clear - Hl. induction l as [|p l IH] using rev_ind; [apply id_rotation|]. rewrite map_app. cbn [map]. rewrite last_last. apply Forall_app in Hl as (_ & Hl). inversion Hl; subst. tauto. }
  assert (Ha : admissible (history fstate_init plain)).
  { apply hist_admissible; [apply init_admissible|]. unfold plain. apply Forall_map. eapply Forall_impl; [|exact Hl]. intros p Hp. apply Hp. }
  assert (Hd : det 3 (F_old (history fstate_init plain)) <> 0) by (pose proof (proj1 Ha); lra).
  destruct (step_turned _ Q _ _ F (matmul 3 Q F) HQl HQ Hd ltac:(lra) Hr ltac:(intros i j _ _; reflexivity)) as ((_ & _ & E) & HP).
  split; [exact HP|]. rewrite !hist_app. exact E.
Qed.
Print Assumptions forming_frame.
Example forming_frame_case : rotation 3 quarter /\ ~ meq 3 (matmul 3 quarter large_stretch) large_stretch /\ 0 < alpha_old (history fstate_init [matmul 3 quarter large_stretch]).
Proof.
  split; [apply quarter_rotation|]. split.
  - intros H. specialize (H 0%nat 0%nat ltac:(lia) ltac:(lia)). revert H. unfold matmul, quarter, large_stretch, diag3. sums. lra.
  - pose proof (forming_frame [] quarter large_stretch ltac:(constructor) quarter_rotation large_det) as (_ & E). cbn [map app] in E. rewrite E. apply large_yields.
Qed.

(** ** C134 changes of volume *)
(** "a step that only changes the volume does not harden", and "the elastic tensor keeps determinant one" *)
Definition volume_steps_do_not_harden : Prop := forall Fs F c, Forall (fun F => 0 < det 3 F) (Fs ++ [F]) -> 0 < c ->
  alpha_old (history fstate_init (Fs ++ [F] ++ [mscal c F])) = alpha_old (history fstate_init (Fs ++ [F])).
Definition elastic_tensor_isochoric : Prop := forall Fs, Forall (fun F => 0 < det 3 F) Fs -> det 3 (be_bar_old (history fstate_init Fs)) = 1.
Theorem volume_steps_refuted : ~ volume_steps_do_not_harden /\ ~ elastic_tensor_isochoric.
Proof.
  split.
  - intros H. destruct (expansion_yields (history fstate_init [small_stretch])) as (c & Hc & Hlt).
    + apply hist_admissible; [apply init_admissible|repeat constructor; apply small_det].
    + apply small_dev.
    + specialize (H [] small_stretch c ltac:(repeat constructor; apply small_det) ltac:(lra)). cbn [app] in H.
      change [small_stretch; mscal c small_stretch] with ([small_stretch] ++ [mscal c small_stretch]) in H. rewrite hist_app in H.
      assert (EF : F_old (history fstate_init [small_stretch]) = small_stretch) by (cbn [history fold_left]; destruct (update_parts fstate_init (grad_of small_stretch)) as (-> & _); apply grad_of_F_eq).
      rewrite EF in Hlt. lra.
  - intros H. assert (Hd : 0 < det 3 (mscal 2 identity)) by (rewrite det_scal, det_identity by (unfold small_dim; auto); lra).
    assert (El : meq 3 (left_cauchy (mscal 2 identity)) (mscal 4 identity)) by (intros i j Hi Hj; unfold left_cauchy, matmul, transpose, mscal, identity; sums; by3; cbn [Nat.eqb]; ring).
    assert (Hn : never_yields fstate_init [mscal 2 identity]).
    { apply elastic_range. constructor; [split; [exact Hd|]|constructor]. rewrite (fro_ext _ (fun i j => 0 * identity i j)).
      - rewrite fro_scal by lra. pose proof (radius_pos 0 ltac:(lra)). lra.
      - intros i j Hi Hj. rewrite (dev_ext 3 _ _ El i j Hi Hj). unfold dev, pressure, mscal, identity. rewrite INR3. sums. by3; cbn [Nat.eqb]; field. }
    destruct (elastic_state [mscal 2 identity] ltac:(repeat constructor; exact Hd) Hn) as ((_ & Hb) & _). cbn [last] in Hb.
    specialize (H [mscal 2 identity] ltac:(repeat constructor; exact Hd)). rewrite (det_ext3 _ _ Hb), (det_ext3 _ _ El), det_scal, det_identity in H by (unfold small_dim; auto). lra.
Qed.
Print Assumptions volume_steps_refuted.
(** every state with a deviatoric elastic strain yields in some pure expansion; the code's trial tensor is
    the one with the volume taken out times (J/J_old)^(2/3) *)
Theorem volume_steps_harden : forall s, admissible s -> ~ meq 3 (dev 3 (be_bar_old s)) mzero ->
  (exists c, 1 < c /\ alpha_old s < alpha_old (update_state s (grad_of (mscal c (F_old s)))))
  /\ (forall F, 0 < det 3 F ->
      meq 3 (isochoric_trial s F) (mscal (Rpower (det 3 F / det 3 (F_old s)) (- 2 / 3)) (be_bar_trial s (grad_of F)))
      /\ (det 3 F = det 3 (F_old s) -> meq 3 (isochoric_trial s F) (be_bar_trial s (grad_of F)))).
Proof.
  intros s Ha Hn. split; [now apply expansion_yields|]. intros F HF. pose proof (isochoric_form s F HF (proj1 Ha)) as E. split; [exact E|].
  intros Hd i j Hi Hj. rewrite (E i j Hi Hj), Hd. unfold mscal. unfold Rdiv at 1. rewrite Rinv_r by (pose proof (proj1 Ha); lra). unfold Rpower. rewrite ln_1, Rmult_0_r, exp_0. ring.
Qed.
Print Assumptions volume_steps_harden.
Example volume_steps_case : admissible (history fstate_init [small_stretch]) /\ ~ meq 3 (dev 3 (be_bar_old (history fstate_init [small_stretch]))) mzero.
Proof. split; [apply hist_admissible; [apply init_admissible|repeat constructor; apply small_det]|apply small_dev]. Qed.

(** ** C135 stored energy *)
Theorem elastic_energy_refuted : ~ exists W, is_grad 3 W (fun F => 0 < det 3 F /\ never_yields fstate_init [F]) (fun F => last_stress fstate_init [] F).
Proof.
  intros (W & HW). apply (no_potential W). intros F i j (Hd & Hy) Hi Hj. apply HW; try assumption. split; [exact Hd|].
  apply elastic_range. constructor; [split; [exact Hd|left; exact Hy]|constructor].
Qed.
Print Assumptions elastic_energy_refuted.

(** ** C136 bodies *)
Theorem forming_runs : forall F v sols sol c q,
  form_run F v sols c q = history (v c q) (map (fun sol => def_grad F sol c q) sols)
  /\ let D := def_grad F sol c q in
     fst (form_step F (form_run F v sols) sol) c q = history (v c q) (map (fun sol => def_grad F sol c q) (sols ++ [sol]))
     /\ meq 3 (snd (form_step F (form_run F v sols) sol) c q)
         (fun i j => / det 3 D * kirchhoff (last_stress (v c q) (map (fun sol => def_grad F sol c q) sols) D) D i j).
Proof.
  intros F v sols sol c q. split; [apply run_history|]. intros D. split.
  - rewrite <- run_history. unfold form_run. now rewrite fold_left_app.
  - cbn [form_step snd]. unfold compute_stress, last_stress. rewrite run_history, <- grad_of_def. apply cauchy_kirchhoff.
Qed.
Print Assumptions forming_runs.
Theorem forming_moments : forall F inds v sol i j, tensor_map F = Some form_tensor_map -> wf_mesh F -> dim F = 3%nat -> vec F = 3%nat -> (0 < num_cells F)%nat ->
  (forall sel, In sel inds -> faces_ok F sel) -> only_internal F (form_internal F v) -> grads_sum_zero F -> invertible_cells F -> regular F v sol ->
  (i < 3)%nat -> (j < 3)%nat ->
  exists r, compute_residual_vars F inds sol (form_internal F v) = Ok r /\
  sumN (num_total_nodes F) (fun n => (points F n i + sol n i) * r n j - (points F n j + sol n j) * r n i) = 0.
Proof.
  intros F inds v sol i j Ht Hwf H3 Hv Hc Hf Ho Hg Hinv Hreg Hi Hj. apply (form_moments F Ht Hwf inds H3 Hv Hc Hf); auto.
  intros c q Hcc Hq. destruct (Hreg c q Hcc Hq) as (Ha & Hd). split; [exact Ha|lra].
Qed.
Print Assumptions forming_moments.
Theorem forming_rigid_motion : forall F inds v1 v2 sol Q Q' b, tensor_map F = Some form_tensor_map -> wf_mesh F -> dim F = 3%nat -> vec F = 3%nat -> (0 < num_cells F)%nat ->
  (forall sel, In sel inds -> faces_ok F sel) -> only_internal F (form_internal F v1) -> grads_sum_zero F -> invertible_cells F -> regular F v1 sol ->
  rotation 3 Q -> rotation 3 Q' -> turned_vars F Q v1 v2 ->
  turned_vars F Q' (fst (form_step F v1 sol)) (fst (form_step F v2 (moved F Q' b sol)))
  /\ exists r1 r2, compute_residual_vars F inds sol (form_internal F v1) = Ok r1 /\ compute_residual_vars F inds (moved F Q' b sol) (form_internal F v2) = Ok r2
     /\ forall n k, (n < num_total_nodes F)%nat -> (k < 3)%nat -> r2 n k = sumN 3 (fun l => Q' k l * r1 n l).
Proof.
  intros F inds v1 v2 sol Q Q' b Ht Hwf H3 Hv Hc Hf Ho Hg Hinv Hreg HQ HQ' Hrel. split.
  - intros c q Hcc Hq. apply (moved_step F H3 Hv Hc Q Q' b v1 v2 sol c q); assumption.
  - now apply (moved_residual F Ht Hwf inds H3 Hv Hc Hf Q).
Qed.
Print Assumptions forming_rigid_motion.
(** single.py constrains the third component only: any equilibrium can be turned about the third axis and shifted sideways *)
Theorem single_not_unique : forall F inds v sol (held : nat -> Prop) Q b, tensor_map F = Some form_tensor_map -> wf_mesh F -> dim F = 3%nat -> vec F = 3%nat -> (0 < num_cells F)%nat ->
  (forall sel, In sel inds -> faces_ok F sel) -> only_internal F (form_internal F v) -> grads_sum_zero F -> invertible_cells F -> regular F v sol ->
  rotation 3 Q -> (forall k, (k < 3)%nat -> Q 2%nat k = identity 2%nat k /\ Q k 2%nat = identity k 2%nat) -> b 2%nat = 0 ->
  (exists r, compute_residual_vars F inds sol (form_internal F v) = Ok r /\
    forall n, (n < num_total_nodes F)%nat -> r n 0%nat = 0 /\ r n 1%nat = 0 /\ (~ held n -> r n 2%nat = 0)) ->
  (forall n, moved F Q b sol n 2%nat = sol n 2%nat)
  /\ exists r, compute_residual_vars F inds (moved F Q b sol) (form_internal F v) = Ok r /\
    forall n, (n < num_total_nodes F)%nat -> r n 0%nat = 0 /\ r n 1%nat = 0 /\ (~ held n -> r n 2%nat = 0).
Proof.
  intros F inds v sol held Q b Ht Hwf H3 Hv Hc Hf Ho Hg Hinv Hreg HQ Hax Hb (r & Hr & Hz).
  destruct (Hax 0%nat ltac:(lia)) as (A1 & A2). destruct (Hax 1%nat ltac:(lia)) as (A3 & A4). destruct (Hax 2%nat ltac:(lia)) as (A5 & _).
  unfold identity in A1, A2, A3, A4, A5. cbn [Nat.eqb] in A1, A2, A3, A4, A5. split.
  - intros n. unfold moved. rewrite Hb. sums. rewrite A1, A3, A5. ring.
  - destruct (forming_rigid_motion F inds v v sol identity Q b) as (_ & r1 & r2 & R1 & R2 & E); auto; [apply id_rotation|intros c q _ _; apply related_refl|].
    rewrite Hr in R1. injection R1 as <-. exists r2. split; [exact R2|]. intros n Hn. destruct (Hz n Hn) as (Z0 & Z1 & Z2).
    rewrite !E by (assumption || lia). sums. rewrite Z0, Z1, A1, A2, A3, A4, A5. repeat split; try ring. intros Hh. rewrite (Z2 Hh). ring.
Qed.
Print Assumptions single_not_unique.
Example forming_body_case : tensor_map form_solid = Some form_tensor_map /\ wf_mesh form_solid /\ only_internal form_solid (form_internal form_solid vars_init)
  /\ grads_sum_zero form_solid /\ invertible_cells form_solid /\ regular form_solid vars_init stretched /\ rotation 3 quarter
  /\ moved form_solid quarter (fun _ => 0) stretched 1%nat 0%nat <> stretched 1%nat 0%nat.
Proof.
  split; [reflexivity|]. split; [apply solid_wf|]. split; [repeat split|]. split; [apply solid_grads|]. split; [apply solid_invertible|].
  split; [apply stretched_regular|]. split; [apply quarter_rotation|].
  unfold moved, stretched, affine_field, form_solid, solid, large_stretch, grad_of, quarter, diag3, identity, dim. cbn [points f_ele e_dim tet4]. unfold pick2, pick. sums. cbn [nth Nat.eqb]. lra.
Qed.

(** ** C137 boundary values *)
Theorem top_displacement : forall Lx Ly scale p, 0 < Lx -> 0 < Ly -> 0 <= p 0%nat <= Lx -> 0 <= p 1%nat <= Ly ->
  let d := Rmin (Rmin (Rmin (p 0%nat) (Lx - p 0%nat)) (p 1%nat)) (Ly - p 1%nat) in
  dirichlet_top Lx Ly scale p = - scale * Lx * (2 * d / Rmin Lx Ly + / 10 ^ 10)
  /\ 0 <= 2 * d / Rmin Lx Ly <= 1.
Proof.
  intros Lx Ly scale p Hx Hy Hp0 Hp1 d. assert (Hm : 0 < Rmin Lx Ly) by now apply Rmin_glb_lt. split.
  - rewrite top_closed by assumption. rewrite !Rabs_right by lra. fold d. f_equal. f_equal. field. lra.
  - assert (Hd0 : 0 <= d) by (unfold d; apply sdf_nonneg; lra).
    assert (H1 : d <= p 0%nat /\ d <= Lx - p 0%nat /\ d <= p 1%nat /\ d <= Ly - p 1%nat).
    { unfold d. set (x := p 0%nat). set (y := p 1%nat). pose proof (Rmin_l (Rmin (Rmin x (Lx - x)) y) (Ly - y)). pose proof (Rmin_r (Rmin (Rmin x (Lx - x)) y) (Ly - y)).
      pose proof (Rmin_l (Rmin x (Lx - x)) y). pose proof (Rmin_r (Rmin x (Lx - x)) y). pose proof (Rmin_l x (Lx - x)). pose proof (Rmin_r x (Lx - x)). repeat split; lra. }
    assert (H2 : 2 * d <= Rmin Lx Ly) by (apply Rmin_glb; lra). split.
    + apply Rmult_le_pos; [lra|]. left. now apply Rinv_0_lt_compat.
    + apply (Rmult_le_reg_r (Rmin Lx Ly)); [exact Hm|]. unfold Rdiv. rewrite Rmult_assoc, Rinv_l by lra. lra.
Qed.
Print Assumptions top_displacement.
Example top_displacement_case : dirichlet_top 10 10 (2 / 10) (fun _ => 5) = - 2 * (1 + / 10 ^ 10).
Proof.
  destruct (top_displacement 10 10 (2 / 10) (fun _ => 5)) as (-> & _); try lra.
  replace (10 - 5) with 5 by ring. rewrite !(Rmin_left 5 5) by lra. rewrite Rmin_left by lra. field.
Qed.
(** "the value prescribed on the top at the walls is the zero value that the walls prescribe": example_disp.py lists both conditions for those nodes *)
Theorem top_meets_walls_refuted : ~ (forall p, 0 <= p 0%nat <= 10 -> 0 <= p 1%nat <= 10 -> p 0%nat = 0 -> dirichlet_top 10 10 (2 / 10) p = 0).
Proof.
  intros H. specialize (H (fun _ => 0) ltac:(lra) ltac:(lra) eq_refl). destruct (top_displacement 10 10 (2 / 10) (fun _ => 0)) as (E & _); try lra.
  rewrite E in H. rewrite !(Rmin_left 0) in H by (try rewrite Rmin_left; lra). rewrite (Rmin_left 10 10) in H by lra.
  assert (0 < / 10 ^ 10) by (apply Rinv_0_lt_compat; lra). lra.
Qed.
Print Assumptions top_meets_walls_refuted.
(** the traction of example_force.py points down, and grows towards the centre of the plate *)
Theorem punch_traction : forall Lx Ly scale p p', 0 < Lx -> 0 < Ly -> 0 < scale ->
  let dist2 (p : point) := (p 0%nat - Lx / 2) ^ 2 + (p 1%nat - Ly / 2) ^ 2 in
  (forall k, k <> 2%nat -> form_neumann_top Lx Ly scale p k = 0)
  /\ - scale <= form_neumann_top Lx Ly scale p 2%nat < 0
  /\ (form_neumann_top Lx Ly scale p 2%nat = - scale <-> dist2 p = 0)
  /\ (dist2 p < dist2 p' <-> form_neumann_top Lx Ly scale p 2%nat < form_neumann_top Lx Ly scale p' 2%nat)
  /\ (dist2 p = (Lx ^ 2 + Ly ^ 2) / 16 -> form_neumann_top Lx Ly scale p 2%nat = - (scale * exp (- 1))).
Proof.
  intros Lx Ly scale p p' Hx Hy Hs dist2. set (L := (Lx ^ 2 + Ly ^ 2) / 16). assert (HL : 0 < L) by (unfold L; nra).
  assert (E : forall p, form_neumann_top Lx Ly scale p 2%nat = - (scale * exp (- (dist2 p / L)))).
  { intros x. unfold form_neumann_top, dist2, L. cbv zeta. do 3 f_equal. field. nra. }
  assert (HD : forall p, 0 <= dist2 p / L) by (intros x; apply Rmult_le_pos; [unfold dist2; apply Rplus_le_le_0_compat; apply pow2_ge_0|left; now apply Rinv_0_lt_compat]).
  assert (HM : forall a b, a < b <-> a / L < b / L).
  { intros a b. split; intros H; [apply Rmult_lt_compat_r; [now apply Rinv_0_lt_compat|exact H]|]. apply (Rmult_lt_reg_r (/ L)); [now apply Rinv_0_lt_compat|exact H]. }
  split; [|split; [|split; [|split]]].
  - intros k Hk. unfold form_neumann_top. destruct k as [|[|[|k]]]; try reflexivity. lia.
  - rewrite E. pose proof (exp_pos (- (dist2 p / L))). specialize (HD p). assert (exp (- (dist2 p / L)) <= 1) by (rewrite <- exp_0; destruct (Req_dec (dist2 p / L) 0) as [->|]; [rewrite Ropp_0; lra|left; apply exp_increasing; lra]). split; nra.
  - rewrite E. split; intros H.
    + assert (H1 : exp (- (dist2 p / L)) = exp 0) by (rewrite exp_0; nra). apply exp_inv in H1. apply (Rmult_eq_reg_r (/ L)); [|apply Rinv_neq_0_compat; lra]. unfold Rdiv in H1. lra.
    + rewrite H. unfold Rdiv. rewrite Rmult_0_l, Ropp_0, exp_0. ring.
  - rewrite !E, HM. split; intros H.
    + assert (exp (- (dist2 p' / L)) < exp (- (dist2 p / L))) by (apply exp_increasing; lra). nra.
    + assert (H1 : exp (- (dist2 p' / L)) < exp (- (dist2 p / L))) by nra. apply exp_lt_inv in H1. lra.
  - intros H. rewrite E, H. fold L. unfold Rdiv. rewrite Rinv_r by lra. reflexivity.
Qed.
Print Assumptions punch_traction.
Example punch_traction_case : form_neumann_top 10 10 50 (fun _ => 5) 2%nat = - 50.
Proof. apply (punch_traction 10 10 50 (fun _ => 5) (fun _ => 5)); lra. Qed.
Theorem load_programme : forall top n i, (2 <= n)%nat ->
  length (scales top n) = (2 * n)%nat
  /\ ((i < 2 * n)%nat -> nth i (scales top n) 0 = top * (INR (Nat.min i (2 * n - 1 - i)) / INR (n - 1)))
  /\ ((i < 2 * n)%nat -> nth i (scales top n) 0 = nth (2 * n - 1 - i) (scales top n) 0).
Proof.
  intros top n i Hn. assert (G : forall k, (k < 2 * n)%nat -> nth k (scales top n) 0 = top * (INR (Nat.min k (2 * n - 1 - k)) / INR (n - 1))).
  { intros k Hk. rewrite scales_nth by assumption. destruct (Nat.ltb_spec k n); [rewrite Nat.min_l by lia|rewrite Nat.min_r by lia]; reflexivity. }
  split; [unfold scales; rewrite map_length, app_length, !linspace_len; lia|]. split; [apply G|]. intros Hi. rewrite !G by lia.
  replace (2 * n - 1 - (2 * n - 1 - i))%nat with i by lia. now rewrite Nat.min_comm.
Qed.
Print Assumptions load_programme.
Example load_programme_case : nth 4 (scales (2 / 10) 5) 0 = 2 / 10 /\ nth 5 (scales (2 / 10) 5) 0 = 2 / 10 /\ nth 9 (scales (2 / 10) 5) 0 = 0.
Proof. repeat split; (destruct (load_programme (2 / 10) 5 4 ltac:(lia)) as (_ & E & _) || idtac); rewrite scales_nth by lia; cbn; field. Qed.
Close Scope R_scope.
