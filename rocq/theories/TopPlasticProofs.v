(** * Proofs about the plastic load sequence and the derivative through it. *)
From Verif Require Import Prelude PreludeFacts FemModel FemSpec FemFacts FemAsmProofs MatModel MatSpec MatProofs MatPlasticProofs MatTopProofs FormModel FormFemProofs.
From Verif Require Import SolverModel TopModel TopSpec.
From Coq Require Import Lra Lia Psatz.
Open Scope R_scope.

(** ** The sequence *)
Lemma rs_values : rs = [2 / 10; 4 / 10; 6 / 10; 8 / 10; 1].
Proof.
  unfold rs, linspace. cbn [seq map]. rewrite (INR_IZR_INZ (5 - 1)). rewrite !INR_IZR_INZ. cbn [Z.of_nat Pos.of_succ_nat Pos.succ Nat.sub].
  repeat (apply f_equal2; [lra|]). reflexivity.
Qed.
Definition step_load (i : nat) : R := 80 * INR (S i).
Lemma rs_loads : map (fun r => r * max_load) rs = map step_load (seq 0 5).
Proof.
  rewrite rs_values. unfold max_load, step_load. cbn [map seq]. rewrite !INR_IZR_INZ. cbn [Z.of_nat Pos.of_succ_nat Pos.succ].
  repeat (apply f_equal2; [lra|]). reflexivity.
Qed.
Section Seq.
Variable F : fem pvars.
Variable solve : R -> top_params -> nodal.
Fixpoint hist (p : top_params) (n : nat) : top_params :=
  match n with O => p | S n => top_update F (solve (step_load n) (hist p n)) (hist p n) end.
Lemma loop_from p : forall (rl : list R) (m : nat) sol o, map (fun r => r * max_load) rl = map step_load (seq m (length rl)) -> (0 < length rl)%nat ->
  fold_left (load_step F solve) rl (sol, hist p m, o) =
  (solve (step_load (m + length rl - 1)) (hist p (m + length rl - 1)), hist p (m + length rl), mkTo (step_load (m + length rl - 1)) (hist p (m + length rl - 1))).
Proof.
  induction rl as [|r rl IH]; intros m sol o E Hl; [cbn in Hl; lia|].
  cbn [map length seq] in E. injection E as E1 E2. cbn [fold_left]. unfold load_step at 2. unfold fwd_pred. cbn [to_load to_params]. rewrite E1.
  change (top_update F (solve (step_load m) (hist p m)) (hist p m)) with (hist p (S m)).
  destruct rl as [|r' rl].
  - cbn [fold_left length]. replace (m + 1 - 1)%nat with m by lia. now replace (m + 1)%nat with (S m) by lia.
  - rewrite IH by (assumption || (cbn; lia)). cbn [length]. replace (S m + S (length rl))%nat with (m + S (S (length rl)))%nat by lia. reflexivity.
Qed.
Lemma seq_result o theta : length theta = num_cells F -> exists p0, top_init F theta = Ok p0
  /\ (forall c q, (c < num_cells F)%nat -> p0 c q = mkPv (fun _ _ => 0) (fun _ _ => 0) (nth c theta (1, 1)))
  /\ (forall c q, pv_sigma (p0 c q) = (fun _ _ => 0) /\ pv_epsilon (p0 c q) = (fun _ _ => 0))
  /\ fwd_pred_seq F solve o theta = Ok (solve 400 (hist p0 4), hist p0 5, mkTo 400 (hist p0 4)).
Proof.
  intros Hl. unfold fwd_pred_seq, top_init.
  destruct (set_params_ok (1, 1) (num_cells F) (seq 0 (num_cells F)) theta) as (full & -> & Hfl & Hin & _).
  - apply seq_NoDup.
  - now rewrite seq_length.
  - cbn [bind]. eexists. split; [reflexivity|]. split; [|split; [intros; split; reflexivity|]].
    + intros c q Hc. f_equal. destruct (nth_error theta c) as [x|] eqn:E.
      * rewrite (nth_error_nth theta c (1, 1) E). apply nth_error_nth. apply (Hin c c x); [|exact E|exact Hc].
        rewrite (nth_error_nth' (seq 0 (num_cells F)) 0%nat) by (now rewrite seq_length). f_equal. now apply seq_nth.
      * apply nth_error_None in E. lia.
    + set (p0 := fun (c _ : nat) => mkPv (fun _ _ => 0) (fun _ _ => 0) (nth c full (1, 1))).
      change p0 with (hist p0 0) at 1. rewrite (loop_from p0 rs 0).
      * assert (length rs = 5%nat) as -> by (rewrite rs_values; reflexivity). cbn [Nat.add Nat.sub].
        replace (step_load 4) with 400 by (unfold step_load; rewrite INR_IZR_INZ; cbn [Z.of_nat Pos.of_succ_nat Pos.succ]; lra). reflexivity.
      * assert (length rs = 5%nat) as -> by (rewrite rs_values; reflexivity). exact rs_loads.
      * rewrite rs_values. cbn. lia.
Qed.
Lemma seq_wrong o theta : length theta <> num_cells F -> fwd_pred_seq F solve o theta = Err ValueError.
Proof.
  intros H. unfold fwd_pred_seq, top_init, set_params. rewrite seq_length. destruct (Nat.eqb_spec (num_cells F) (length theta)); [congruence|reflexivity].
Qed.
Lemma hist_steps p n : load_steps F solve n step_load (hist p) (fun i => solve (step_load i) (hist p i)).
Proof. intros i _. split; [reflexivity|]. intros c q. repeat split. Qed.
End Seq.

(** ** Yield surface *)
Lemma top_trial_sym d p G : msym d (pv_sigma p) -> msym d (pv_epsilon p) ->
  msym d (fun i j => iso_stress d (top_E (pv_theta p)) (fun i j => strain G i j - pv_epsilon p i j) i j + pv_sigma p i j).
Proof.
  intros Hs He i j Hi Hj. rewrite (Hs i j Hi Hj). f_equal. apply (iso_sym d (top_E (pv_theta p)) (fun i j => strain G i j - pv_epsilon p i j)); [|assumption|assumption].
  intros a b Ha Hb. rewrite (He a b Ha Hb), (strain_sym G a b). reflexivity.
Qed.
Lemma steps_theta F solve n load ps us : load_steps F solve n load ps us -> forall i, (i <= n)%nat -> forall c q, pv_theta (ps i c q) = pv_theta (ps 0%nat c q).
Proof.
  intros H. induction i as [|i IH]; intros Hi c q; [reflexivity|]. destruct (H i) as (_ & Hs); [lia|]. destruct (Hs c q) as (_ & _ & ->). apply IH. lia.
Qed.
Lemma steps_yield F solve n load ps us : load_steps F solve n load ps us -> (0 < dim F)%nat ->
  (forall c q, pv_sigma (ps 0%nat c q) = (fun _ _ => 0) /\ pv_epsilon (ps 0%nat c q) = (fun _ _ => 0)) ->
  forall i c q, (i <= n)%nat -> 0 <= top_sig0 (pv_theta (ps 0%nat c q)) ->
  von_mises (dim F) (pv_sigma (ps i c q)) <= top_sig0 (pv_theta (ps 0%nat c q)) /\ msym (dim F) (pv_sigma (ps i c q)) /\ msym (dim F) (pv_epsilon (ps i c q)).
Proof.
  intros H Hd H0 i c q Hi Hs. induction i as [|i IH].
  - destruct (H0 c q) as (-> & ->). split; [|split; intros a b _ _; reflexivity].
    replace (von_mises (dim F) (fun _ _ => 0)) with 0; [exact Hs|]. symmetry. unfold von_mises, dev, ddot, pressure.
    rewrite sumN_zero; [rewrite Rmult_0_r; apply sqrt_0|]. intros a _. apply sumN_zero. intros b _. rewrite (sumN_zero (dim F) (fun _ => 0)) by reflexivity. unfold Rdiv. ring.
  - destruct (H i) as (_ & Hst); [lia|]. destruct (Hst c q) as (-> & -> & _). destruct IH as (_ & IHs & IHe); [lia|].
    assert (Ht := steps_theta F solve n load ps us H i ltac:(lia) c q).
    split; [|split].
    + unfold top_return_map. rewrite Ht, ret_von_mises by assumption. apply Rmin_r.
    + unfold top_return_map. rewrite Ht. apply ret_sym; [assumption|]. rewrite <- Ht. now apply top_trial_sym.
    + apply strain_msym.
Qed.

(** ** Equilibrium *)
Section Work.
Variable F : fem pvars.
Variable sel : list (nat * nat).
Hypothesis HF : top_problem F sel.
Lemma top_work load p u : exists r, compute_residual_vars (loaded F load) [sel] u (top_vars F p) = Ok r /\ forall v,
  power F r v = stress_work F (top_update F u p) v - compute_compliance F sel (neumann_val load) v.
Proof.
  destruct HF as (Hwf & Hc & Hv & Ht & Hm & Hsrc & Hca & Hsel).
  destruct (virtual_work (loaded F load) Hwf [sel] u (top_vars F p)) as (r & Hr & He).
  - split; [constructor|]. constructor; [|constructor]. cbn. now rewrite map_length, seq_length.
  - exact Hc.
  - unfold neumann_ok. cbn. lia.
  - intros s [<-|[]]. exact Hsel.
  - exists r. split; [exact Hr|]. intros v.
    replace (power F r v) with (internal_power (loaded F load) (top_vars F p) u v + cauchy_power (loaded F load) u v - body_power (loaded F load) (top_vars F p) v - neumann_power (loaded F load) [sel] (top_vars F p) v)
      by (rewrite <- He; reflexivity).
    change (neumann_power (loaded F load) [sel] (top_vars F p) v) with (neumann_power (loaded F load) [sel] (design [map p (seq 0 (num_cells F))]) v).
    rewrite <- (compliance_power (loaded F load) sel (neumann_val load) eq_refl [map p (seq 0 (num_cells F))] v).
    replace (cauchy_power (loaded F load) u v) with 0 by (unfold cauchy_power, cauchy_faces; cbn [cauchy_bc_info loaded]; rewrite Hca; reflexivity).
    replace (body_power (loaded F load) (top_vars F p) v) with 0.
    + rewrite Rplus_0_r, Rminus_0_r. change (compute_compliance (loaded F load) sel (neumann_val load) v) with (compute_compliance F sel (neumann_val load) v). f_equal.
      unfold internal_power, stress_work. change (num_cells (loaded F load)) with (num_cells F). change (f_ele (loaded F load)) with (f_ele F).
      apply sumN_ext. intros c Hcc. apply sumN_ext. intros q _. change (JxW (loaded F load) c q) with (JxW F c q). f_equal.
      unfold stress, reaction, dot_vec. cbn [tensor_map mass_map loaded]. rewrite Ht, Hm. cbn [iv_laplace top_vars].
      change (vec (loaded F load)) with (vec F). rewrite (sumN_zero (vec F) (fun k => 0 * _)) by (intros; ring). rewrite Rplus_0_r. unfold ddot. rewrite Hv.
      apply sumN_ext. intros i Hi. change (dim (loaded F load)) with (dim F). apply sumN_ext. intros j Hj.
      change (sol_to_grad (loaded F load) u c q) with (sol_to_grad F u c q). change (sol_to_grad (loaded F load) v c q) with (sol_to_grad F v c q). f_equal.
      unfold vars_at. cbn [flat_map]. rewrite (map_nth_error p c (seq 0 (num_cells F)) (d := c)).
      * reflexivity.
      * rewrite (nth_error_nth' (seq 0 (num_cells F)) 0%nat) by (now rewrite seq_length). f_equal. now apply seq_nth.
    + symmetry. unfold body_power. apply sumN_zero. intros c _. apply sumN_zero. intros q _. unfold body_load. cbn [iv_body top_vars source_info loaded]. rewrite Hsrc.
      unfold dot_vec. rewrite sumN_zero; [ring|]. intros; ring.
Qed.
Lemma equilibrium_stress fixed load p u : equilibrium F sel fixed load p u -> forall v, admissible F fixed v ->
  stress_work F (top_update F u p) v = compute_compliance F sel (neumann_val load) v.
Proof.
  intros He v Hv. destruct (top_work load p u) as (r & Hr & Hp). specialize (He r Hr).
  assert (Hz := balanced_power F fixed r u v He Hv). rewrite Hp in Hz. lra.
Qed.
Lemma compliance_load a load v : compute_compliance F sel (neumann_val (a * load)) v = a * compute_compliance F sel (neumann_val load) v.
Proof.
  unfold compute_compliance. rewrite <- sumR_scal. apply sumR_ext. intros s _. rewrite <- sumN_scal. apply sumN_ext. intros q _.
  rewrite <- sumN_scal. apply sumN_ext. intros i _. unfold neumann_val. destruct i as [|[|i]]; ring.
Qed.
End Work.

(** ** The load does not enter the derivative *)
Lemma set_at_add a b idx vals : forall n k, set_at (fun n k => a n k + b n k) idx vals n k = set_at a idx vals n k + set_at b idx (map (fun _ => 0) vals) n k.
Proof.
  unfold set_at. revert vals a b. induction idx as [|p idx IH]; intros [|x vals] a b n k; try reflexivity. cbn [map combine fold_left fst snd].
  rewrite <- IH. assert (Hx : forall l (f g : nodal), (forall n k, f n k = g n k) -> forall n k,
    fold_left (fun (a : nodal) (u : nat * nat * R) n k => if here n k (fst u) then snd u else a n k) l f n k = fold_left (fun (a : nodal) (u : nat * nat * R) n k => if here n k (fst u) then snd u else a n k) l g n k).
  { induction l as [|u l IHl]; intros f g Hfg n' k'; [apply Hfg|]. cbn [fold_left]. apply IHl. intros n2 k2. now rewrite Hfg. }
  apply Hx. intros n' k'. destruct (here n' k' p); [ring|reflexivity].
Qed.
Lemma add_at_add a b idx vals : forall n k, add_at (fun n k => a n k + b n k) idx vals n k = add_at a idx vals n k + b n k.
Proof.
  unfold add_at. revert vals a b. induction idx as [|p idx IH]; intros [|x vals] a b n k; try reflexivity. cbn [combine fold_left fst snd].
  rewrite <- IH. assert (Hx : forall l (f g : nodal), (forall n k, f n k = g n k) -> forall n k,
    fold_left (fun (a : nodal) (u : nat * nat * R) n k => if here n k (fst u) then a n k + snd u else a n k) l f n k = fold_left (fun (a : nodal) (u : nat * nat * R) n k => if here n k (fst u) then a n k + snd u else a n k) l g n k).
  { induction l as [|u l IHl]; intros f g Hfg n' k'; [apply Hfg|]. cbn [fold_left]. apply IHl. intros n2 k2. now rewrite Hfg. }
  apply Hx. intros n' k'. destruct (here n' k' p); ring.
Qed.
Lemma set_at_ext f g idx vals : (forall n k, f n k = g n k) -> forall n k, set_at f idx vals n k = set_at g idx vals n k.
Proof.
  unfold set_at. generalize (combine idx vals). intros l. revert f g. induction l as [|u l IHl]; intros f g Hfg n' k'; [apply Hfg|]. cbn [fold_left]. apply IHl. intros n2 k2. now rewrite Hfg.
Qed.
Lemma add_at_ext f g idx vals : (forall n k, f n k = g n k) -> forall n k, add_at f idx vals n k = add_at g idx vals n k.
Proof.
  unfold add_at. generalize (combine idx vals). intros l. revert f g. induction l as [|u l IHl]; intros f g Hfg n' k'; [apply Hfg|]. cbn [fold_left]. apply IHl. intros n2 k2. now rewrite Hfg.
Qed.
(** what remains of a shift of the residual after the boundary rows were replaced *)
Definition masked (P : problem) (k : vector) : vector :=
  ravel P (fold_left (fun r i => set_at r (bc_idx P i) (map (fun _ => 0) (bc_idx P i))) (bc_range P) (reshape P k)).
Lemma apply_bc_vec_shift P k r r' d : (forall n j, reshape P r' n j = reshape P r n j + reshape P k n j) ->
  forall i, apply_bc_vec P r' d i = apply_bc_vec P r d i + masked P k i.
Proof.
  unfold apply_bc_vec, masked. intros H i. unfold ravel.
  assert (HG : forall l (f f' g : nodal), (forall n j, f' n j = f n j + g n j) -> forall n j,
    fold_left (fun r i => add_at (set_at r (bc_idx P i) (gather (reshape P d) (bc_idx P i))) (bc_idx P i) (map Ropp (bc_vals P i))) l f' n j =
    fold_left (fun r i => add_at (set_at r (bc_idx P i) (gather (reshape P d) (bc_idx P i))) (bc_idx P i) (map Ropp (bc_vals P i))) l f n j
    + fold_left (fun r i => set_at r (bc_idx P i) (map (fun _ => 0) (bc_idx P i))) l g n j).
  { induction l as [|a l IH]; intros f f' g Hf n j; [apply Hf|]. cbn [fold_left]. apply IH. intros n2 j2. rewrite <- add_at_add. apply add_at_ext. intros n3 j3.
    rewrite (set_at_ext f' (fun n j => f n j + g n j) _ _ Hf), set_at_add. f_equal. f_equal. unfold gather. now rewrite map_map. }
  now apply HG.
Qed.
(** the residuals for two loads differ by a fixed nodal force *)
Lemma residual_shift F sel l l' : exists k : nodal, forall p u r r',
  compute_residual_vars (loaded F l) [sel] u (top_vars F p) = Ok r -> compute_residual_vars (loaded F l') [sel] u (top_vars F p) = Ok r' ->
  forall n j, r' n j = r n j + k n j.
Proof.
  exists (fun n j => match compute_Neumann_integral_vars (loaded F l) [sel] (fun _ => []), compute_Neumann_integral_vars (loaded F l') [sel] (fun _ => []) with Ok a, Ok b => a n j - b n j | _, _ => 0 end).
  intros p u r r' Hr Hr'. unfold compute_residual_vars in *. change (kernel (loaded F l')) with (kernel (loaded F l)) in Hr'.
  change (@split_and_compute_cell _ (loaded F l') nodal) with (@split_and_compute_cell _ (loaded F l) nodal) in Hr'. change (the_inputs (loaded F l')) with (the_inputs (loaded F l)) in Hr'.
  destruct (split_and_compute_cell _ _ _) as [w|]; [|discriminate]. cbn [bind] in *. unfold compute_residual_vars_helper in *. cbn [iv_neumann iv_body top_vars] in *.
  destruct (compute_Neumann_integral_vars (loaded F l) _ _) as [a|]; [|discriminate]. destruct (compute_Neumann_integral_vars (loaded F l') _ _) as [b|]; [|discriminate].
  cbn [bind] in *. injection Hr as <-. injection Hr' as <-. intros n j.
  change (add_cauchy (loaded F l') u) with (add_cauchy (loaded F l) u). change (cells (loaded F l')) with (cells (loaded F l)). change (rows (loaded F l')) with (rows (loaded F l)).
  change (compute_body_force_by_fn (loaded F l')) with (compute_body_force_by_fn (loaded F l)). ring.
Qed.
Lemma backprop F sel l l' dec jac cjac dbc ev vjp Pp Pp' rp rp' sol params v pet g : ignores_constants vjp ->
  (forall p, fem_problem (loaded F l) [sel] (top_vars F (dec p)) jac cjac dbc None None = Ok (Pp p)) ->
  (forall p, fem_problem (loaded F l') [sel] (top_vars F (dec p)) jac cjac dbc None None = Ok (Pp' p)) ->
  (forall p u, compute_residual_vars (loaded F l) [sel] u (top_vars F (dec p)) = Ok (rp p u)) ->
  (forall p u, compute_residual_vars (loaded F l') [sel] u (top_vars F (dec p)) = Ok (rp' p u)) ->
  implicit_vjp ev Pp rp vjp sol params v pet = Ok g ->
  exists g', implicit_vjp ev Pp' rp' vjp sol params v pet = Ok g' /\ forall i, g' i = g i.
Proof.
  intros Hv HP HP' Hr Hr' Hg.
  destruct (Dirichlet_boundary_conditions F dbc) as [[[nl vl] xl]|e] eqn:Ed.
  2:{ specialize (HP params). unfold fem_problem in HP. change (Dirichlet_boundary_conditions (loaded F l) dbc) with (Dirichlet_boundary_conditions F dbc) in HP. rewrite Ed in HP. discriminate. }
  destruct (residual_shift F sel l l') as (k & Hk).
  assert (EP : forall p, exists ld, Pp p = mkProblem (num_total_nodes F) (vec F) nl vl xl [] [] [] false None (fun sol => compute_newton_vars (loaded F l) [sel] sol (top_vars F (dec p)) jac cjac) ld).
  { intros p. specialize (HP p). unfold fem_problem in HP. change (Dirichlet_boundary_conditions (loaded F l) dbc) with (Dirichlet_boundary_conditions F dbc) in HP. rewrite Ed in HP. cbn [bind] in HP.
    destruct (fem_loads _ _ _) as [ld|]; [|discriminate]. cbn [bind map] in HP. injection HP as HP. exists ld. now rewrite <- HP. }
  assert (EP' : forall p, exists ld, Pp' p = mkProblem (num_total_nodes F) (vec F) nl vl xl [] [] [] false None (fun sol => compute_newton_vars (loaded F l') [sel] sol (top_vars F (dec p)) jac cjac) ld).
  { intros p. specialize (HP' p). unfold fem_problem in HP'. change (Dirichlet_boundary_conditions (loaded F l') dbc) with (Dirichlet_boundary_conditions F dbc) in HP'. rewrite Ed in HP'. cbn [bind] in HP'.
    destruct (fem_loads _ _ _) as [ld|]; [|discriminate]. cbn [bind map] in HP'. injection HP' as HP'. exists ld. now rewrite <- HP'. }
  set (P0 := mkProblem (num_total_nodes F) (vec F) nl vl xl [] [] [] false None (fun _ => Err ValueError) (fun _ _ => 0)).
  assert (HC : forall p i, constraint_fn Pp' rp' sol p i = constraint_fn Pp rp sol p i + masked P0 (ravel P0 k) i).
  { intros p i. unfold constraint_fn. destruct (EP p) as (ld & ->). destruct (EP' p) as (ld' & ->). unfold apply_bc.
    match goal with |- apply_bc_vec ?A ?X _ _ = apply_bc_vec ?B ?Y _ _ + _ =>
      change (apply_bc_vec A X sol i) with (apply_bc_vec P0 X sol i); change (apply_bc_vec B Y sol i) with (apply_bc_vec P0 Y sol i) end.
    apply apply_bc_vec_shift. intros n j. unfold reshape, ravel. cbn [pvec P0].
    change (reshape (mkProblem (num_total_nodes F) (vec F) nl vl xl [] [] [] false None (fun sol0 => compute_newton_vars (loaded F l') [sel] sol0 (top_vars F (dec p)) jac cjac) ld') sol) with (reshape P0 sol).
    apply (Hk (dec p) (reshape P0 sol)); [apply Hr|apply Hr']. }
  unfold implicit_vjp in *. destruct (EP params) as (ld & EPp). destruct (EP' params) as (ld' & EPp'). rewrite EPp in Hg. rewrite EPp'. cbn [newton_update] in *.
  assert (HN : forall u, match compute_newton_vars (loaded F l) [sel] u (top_vars F (dec params)) jac cjac with Err _ => True
     | Ok (r, ijv) => exists r', compute_newton_vars (loaded F l') [sel] u (top_vars F (dec params)) jac cjac = Ok (r', ijv) end).
  { intros u. specialize (Hr params u). specialize (Hr' params u). unfold compute_newton_vars, compute_residual_vars in *.
    change (the_inputs (loaded F l')) with (the_inputs (loaded F l)) in *.
    change (kernel (loaded F l')) with (kernel (loaded F l)) in *.
    match goal with |- match bind ?X _ with _ => _ end => set (W := X) end.
    match goal with |- context [bind (split_and_compute_cell_jac ?A ?B ?C) _] => change (split_and_compute_cell_jac A B C) with W end.
    destruct W as [wj|]; [|exact I]. cbn [bind].
    unfold compute_residual_vars_helper in *. destruct (split_and_compute_cell (loaded F l) _ _); [|discriminate]. destruct (split_and_compute_cell (loaded F l') _ _); [|discriminate]. cbn [bind] in *.
    destruct (compute_Neumann_integral_vars (loaded F l) _ _) as [na|]; [|discriminate]. destruct (compute_Neumann_integral_vars (loaded F l') _ _) as [nb|]; [|discriminate]. cbn [bind].
    eexists. reflexivity. }
  match type of Hg with context [reshape ?A sol] => change (reshape A sol) with (reshape P0 sol) in Hg end.
  match goal with |- context [reshape ?A sol] => change (reshape A sol) with (reshape P0 sol) end.
  specialize (HN (reshape P0 sol)). destruct (compute_newton_vars (loaded F l) [sel] (reshape P0 sol) _ jac cjac) as [[r ijv]|]; [|discriminate].
  destruct HN as (r' & ->). cbn [bind snd] in *. injection Hg as <-. eexists. split; [reflexivity|]. intros i. unfold vopp. f_equal.
  apply (Hv (constraint_fn Pp rp sol) (constraint_fn Pp' rp' sol) (masked P0 (ravel P0 k))). exact HC.
Qed.
Close Scope R_scope.
