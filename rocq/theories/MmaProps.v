(** * Properties of the method of moving asymptotes (jax_am/fem/mma.py). *)
From Coq Require Import FunctionalExtensionality Lra.
From Verif Require Import Prelude PreludeFacts FemModel FemFacts MmaModel MmaSpec MmaProofs MmaNewtonProofs MmaOptProofs MmaStepProofs MmaFilterProofs MmaExamples.
Open Scope R_scope.

(** ** C55 *)
Theorem bounds_bracket_design : forall M xval j, box_ok M xval -> (j < numDesignVariables M)%nat ->
  let sp := build M xval in
  low sp j < alfa sp j /\ alfa sp j <= xval j <= beta sp j /\ beta sp j < upp sp j /\ alfa sp j < beta sp j /\
  xmin M j <= alfa sp j /\ beta sp j <= xmax M j /\
  xval j - moveLimit M * (xmax M j - xmin M j) <= alfa sp j /\ beta sp j <= xval j + moveLimit M * (xmax M j - xmin M j).
Proof. intros M xval j Hb Hj. exact (bounds_ok M xval Hb j Hj). Qed.
Print Assumptions bounds_bracket_design.
Theorem asymptotes_keep_distance : forall M xval j, box_ok M xval -> (j < numDesignVariables M)%nat ->
  let r := xmax M j - xmin M j in
  0.01 * r <= xval j - low (build M xval) j <= 10 * r /\ 0.01 * r <= upp (build M xval) j - xval j <= 10 * r.
Proof. intros M xval j Hb Hj. exact (asymptote_distance M xval Hb j Hj). Qed.
Print Assumptions asymptotes_keep_distance.
(** the adaptation rule: after the second pass an asymptote moves closer by 0.7 when the variable
    oscillates, away by 1.2 when it keeps its direction, before the clipping *)
Theorem asymptotes_adapt : forall M xval j, (2 < epoch M)%nat ->
  let r := xmax M j - xmin M j in
  let clip := fun d => Rmax (0.01 * r) (Rmin (10 * r) d) in
  let sp := build M xval in
  let osc := (xval j - xold1 M j) * (xold1 M j - xold2 M j) in
  0 <= r ->
  (osc < 0 -> xval j - low sp j = clip (0.7 * (xold1 M j - lowAsymp M j)) /\ upp sp j - xval j = clip (0.7 * (upAsymp M j - xold1 M j))) /\
  (0 < osc -> xval j - low sp j = clip (1.2 * (xold1 M j - lowAsymp M j)) /\ upp sp j - xval j = clip (1.2 * (upAsymp M j - xold1 M j))) /\
  (osc = 0 -> xval j - low sp j = clip (xold1 M j - lowAsymp M j) /\ upp sp j - xval j = clip (upAsymp M j - xold1 M j)).
Proof.
  intros M xval j He r clip sp osc Hr. unfold sp. rewrite build_low, build_upp. unfold asymptotes. replace (Nat.leb (epoch M) 2) with false by (symmetry; apply Nat.leb_gt; exact He). cbn [fst snd].
  fold osc. unfold clip. fold r. set (dl := xold1 M j - lowAsymp M j). set (du := upAsymp M j - xold1 M j).
  split; [|split]; intros Ho;
    (destruct (Rltb osc 0) eqn:E1; [apply Rltb_true in E1|apply Rltb_false in E1]; try lra; try (destruct (Rltb 0 osc) eqn:E2; [apply Rltb_true in E2|apply Rltb_false in E2]; try lra)); split; mm.
Qed.
Print Assumptions asymptotes_adapt.
Example bounds_bracket_case : box_ok ex_mma ex_x /\ alfa (build ex_mma ex_x) 0%nat = 0.4 /\ beta (build ex_mma ex_x) 0%nat = 0.6.
Proof. split; [exact ex_box|]. apply ex_bounds. Qed.

(** ** C56: [solve] is arbitrary here, so are the directions *)
Theorem subproblem_iterates_interior : forall sp solve, well_posed sp ->
  interior sp (start sp) /\
  (forall it d t, interior sp it -> 0 < t <= first_step sp it d -> interior sp (moved it t d)) /\
  (forall k epsi it it', interior sp it -> newton_loop solve sp k epsi it (residu sp epsi it) (norm2 (residu sp epsi it)) = Ok it' -> interior sp it') /\
  (forall fuel emin it, subsolv solve sp fuel emin = Some (Ok it) -> interior sp it) /\
  (exists r, forall fuel, (7 <= fuel)%nat -> subsolv solve sp fuel epsimin = Some r).
Proof.
  intros sp solve Hwp. split; [exact (start_interior sp Hwp)|]. split; [exact (moved_interior sp)|]. split; [|split].
  - intros k epsi it it' Hi H. exact (newton_loop_interior sp solve k epsi it _ _ Hi eq_refl eq_refl it' H).
  - intros fuel emin it H. exact (subsolv_interior sp Hwp solve fuel emin it H).
  - exact (subsolv_stops sp solve 7 ltac:(lia)).
Qed.
Print Assumptions subproblem_iterates_interior.
Example subproblem_iterates_case : well_posed (build ex_mma ex_x) /\ exists it, subsolv some_solver (build ex_mma ex_x) 7 epsimin = Some (Ok it) /\ 0.4 < x_ it 0%nat < 0.6.
Proof.
  split; [exact ex_well_posed|]. destruct (subsolv_runs _ ex_well_posed some_solver some_solver_sound 7 ltac:(lia)) as (i1 & i2 & p & H & _ & [Hi _] & _). exists i2. split; [exact H|].
  destruct ex_bounds as (_ & _ & Ea & Eb). specialize (Hi 0%nat). rewrite build_n in Hi. specialize (Hi ltac:(cbn; lia)). lra.
Qed.

(** ** C57 *)
Theorem optimize_stays_in_unit_box : forall solve fuel q D kcol m objectiveHandle consHandle movelimit maxIters rho_ini rho hist,
  let n := (length (flex_inds D) * kcol)%nat in
  0 < movelimit -> (0 < n)%nat -> in_unit_box n rho_ini ->
  optimize solve fuel q D kcol m objectiveHandle consHandle movelimit maxIters rho_ini = Some (Ok (rho, hist)) ->
  length hist = maxIters /\ (forall d, In d hist -> in_unit_box n d) /\ in_unit_box n rho /\ hd rho (hist ++ [rho]) = rho_ini /\
  (forall i j, (S i < length (hist ++ [rho]))%nat -> (j < n)%nat ->
     Rabs (nth (S i) (hist ++ [rho]) (fun _ => 0) j - nth i (hist ++ [rho]) (fun _ => 0) j) <= movelimit).
Proof.
  intros solve fuel q D kcol m oh ch ml mi r0 rho hist n Hml Hn Hr E. unfold optimize in E. destruct (compute_filter_kd_tree q D) as [[H Hs]|e]; [|discriminate].
  destruct (optimize_with_box solve fuel (length (flex_inds D)) kcol m H Hs oh ch ml Hml Hn mi r0 rho hist Hr E) as (R1 & R2 & R3 & R4 & R5).
  split; [exact R1|]. split; [exact R2|]. split; [exact R3|]. split; [exact R5|exact R4].
Qed.
Print Assumptions optimize_stays_in_unit_box.

(** each pass hands the solver the filtered gradients, the last two designs and the last asymptotes *)
Theorem optimize_passes_exact : forall solve fuel q D kcol m objectiveHandle consHandle movelimit maxIters rho_ini rho hist H Hs,
  let ncell := length (flex_inds D) in
  compute_filter_kd_tree q D = Ok (H, Hs) ->
  optimize solve fuel q D kcol m objectiveHandle consHandle movelimit maxIters rho_ini = Some (Ok (rho, hist)) ->
  exists X LO UP : nat -> vct, X 0%nat = rho_ini /\ hist = map X (seq 0 maxIters) /\ rho = X maxIters /\
  forall i, (i < maxIters)%nat -> exists M,
    mmasub solve fuel M (X i) = Some (Ok (X (S i), LO (S i), UP (S i))) /\
    numConstraints M = m /\ numDesignVariables M = (ncell * kcol)%nat /\ epoch M = S i /\ xold1 M = X (i - 1)%nat /\ xold2 M = X (i - 2)%nat /\
    lowAsymp M = LO i /\ upAsymp M = UP i /\ moveLimit M = movelimit /\ (forall j, xmin M j = 0 /\ xmax M j = 1) /\
    (zconst M = 1 /\ forall j, zscale M j = 0 /\ ylinscale M j = 10000 /\ yquadscale M j = 0) /\
    constraint M = fst (consHandle (X i) (S i)) /\
    let filtered := fun g c k => sumN ncell (fun c' => H c c' * (X i (c' * kcol + k)%nat * g (c' * kcol + k)%nat / Rmax 0.001 (X i (c' * kcol + k)%nat) / Hs c')) in
    forall c k, (k < kcol)%nat ->
      objectiveGradient M (c * kcol + k)%nat = filtered (snd (objectiveHandle (X i))) c k /\
      forall r, consGrad M r (c * kcol + k)%nat = filtered (snd (consHandle (X i) (S i)) r) c k.
Proof.
  intros solve fuel q D kcol m oh ch ml mi r0 rho hist H Hs ncell EF E. unfold optimize in E. rewrite EF in E.
  destruct (optimize_loop_passes solve fuel (length (flex_inds D)) kcol m H Hs oh ch ml mi 0 r0 r0 r0 (fun _ => 1) (fun _ => 1) [] rho hist E) as (X & LO & UP & X0 & _ & _ & Eh & Er & HX).
  exists X, LO, UP. split; [exact X0|]. split; [exact Eh|]. split; [exact Er|]. intros i Hi. eexists. split; [exact (HX i Hi)|]. unfold mma_at.
  cbn [numConstraints numDesignVariables epoch xold1 xold2 xmin xmax objectiveGradient constraint consGrad lowAsymp upAsymp zconst zscale ylinscale yquadscale moveLimit Nat.add].
  split; [reflexivity|]. split; [reflexivity|]. split; [reflexivity|]. split; [destruct i as [|i]; cbn [prev1 Nat.sub]; [exact (eq_sym X0)|rewrite Nat.sub_0_r; reflexivity]|].
  split; [destruct i as [|[|i]]; cbn [prev2 Nat.sub]; [exact (eq_sym X0)|exact (eq_sym X0)|rewrite Nat.sub_0_r; reflexivity]|].
  split; [reflexivity|]. split; [reflexivity|]. split; [reflexivity|]. split; [intros; split; reflexivity|]. split; [split; [reflexivity|]; intros; repeat split; lra|]. split; [reflexivity|].
  cbv zeta. intros c k Hk. split; [apply filter_flat_at; exact Hk|]. intros r. apply filter_flat_at. exact Hk.
Qed.
Print Assumptions optimize_passes_exact.

(** ** C58 *)
Theorem subproblem_first_order_consistent : forall M xval, box_ok M xval ->
  let sp := build M xval in
  (forall j, (j < numDesignVariables M)%nat -> derivable_pt_lim (fun t => f_approx sp (set_var xval j t)) (xval j) (objectiveGradient M j)) /\
  (forall i, g_approx sp i xval - bb sp i = constraint M i) /\
  (forall i j, (j < numDesignVariables M)%nat -> derivable_pt_lim (fun t => g_approx sp i (set_var xval j t) - bb sp i) (xval j) (consGrad M i j)) /\
  (forall j, (j < numDesignVariables M)%nat -> 0 < p0 sp j /\ 0 < q0 sp j /\ forall i, 0 < PP sp i j /\ 0 < QQ sp i j).
Proof.
  intros M xval Hb sp. split; [exact (consistent_objective M xval Hb)|]. split; [exact (consistent_value M xval)|]. split; [intros i; exact (consistent_constraint M xval Hb i)|].
  intros j Hj. unfold sp. rewrite build_p0, build_q0. split; [exact (pcoef_pos M xval Hb _ j Hj)|]. split; [exact (qcoef_pos M xval Hb _ j Hj)|]. intros i. rewrite build_P, build_Q.
  split; [exact (pcoef_pos M xval Hb _ j Hj)|exact (qcoef_pos M xval Hb _ j Hj)].
Qed.
Print Assumptions subproblem_first_order_consistent.
Theorem mmasub_subproblem_well_posed : forall M xval, box_ok M xval -> (0 < numDesignVariables M)%nat ->
  (forall i, (i < numConstraints M)%nat -> 0 <= yquadscale M i) -> well_posed (build M xval).
Proof. intros M xval Hb Hn Hd. exact (build_well_posed M xval Hb Hn Hd). Qed.
Print Assumptions mmasub_subproblem_well_posed.
Example consistent_case : derivable_pt_lim (fun t => f_approx (build ex_mma ex_x) (set_var ex_x 0 t)) 0.5 2 /\ g_approx (build ex_mma ex_x) 0 ex_x - bb (build ex_mma ex_x) 0%nat = -0.25.
Proof. destruct (subproblem_first_order_consistent ex_mma ex_x ex_box) as (A & B & _). split; [exact (A 0%nat ltac:(cbn; lia))|exact (B 0%nat)]. Qed.

(** ** C59 *)
Theorem filter_weights_nonnegative : forall q D H Hs, sound_query (dm_dim D) q -> (20 <= length (flex_inds D))%nat ->
  compute_filter_kd_tree q D = Ok (H, Hs) ->
  let n := length (flex_inds D) in
  let dist := fun i j => distance (dm_dim D) (nth i (flex_centroids D) (fun _ => 0)) (nth j (flex_centroids D) (fun _ => 0)) in
  forall i, (i < n)%nat ->
  Hs i = sumN n (fun j => H i j) /\ 0 < Hs i /\ (forall j, 0 <= H i j <= Rmax (rmin D - dist i j) 0) /\
  ((forall j, (j < n)%nat -> j <> i -> 0 < dist i j) -> H i i = rmin D /\ 0 < H i i).
Proof.
  intros q D H Hs Hq H20 E n dist i Hi. rewrite filter_runs in E by assumption. injection E as <- <-. split; [reflexivity|]. split; [exact (row_sum_pos q D Hq H20 i Hi)|]. split.
  - intros j. split; [exact (Hmat_nonneg q D Hq H20 i j Hi)|exact (Hmat_cone q D Hq H20 i j Hi)].
  - intros Hd. rewrite (diag_pos q D Hq H20 i Hi Hd). split; [reflexivity|apply rmin_pos].
Qed.
Print Assumptions filter_weights_nonnegative.
Theorem filter_is_cone_when_few_neighbours : forall q D H Hs, sound_query (dm_dim D) q -> (20 <= length (flex_inds D))%nat ->
  compute_filter_kd_tree q D = Ok (H, Hs) ->
  let n := length (flex_inds D) in
  let dist := fun i j => distance (dm_dim D) (nth i (flex_centroids D) (fun _ => 0)) (nth j (flex_centroids D) (fun _ => 0)) in
  (forall i l, (i < n)%nat -> NoDup l -> (forall j, In j l -> (j < n)%nat /\ dist i j < rmin D) -> (length l <= 20)%nat) ->
  (forall i j, (i < n)%nat -> (j < n)%nat -> H i j = Rmax (rmin D - dist i j) 0) /\ symmetric n H /\
  forall rho g, (forall j, (j < n)%nat -> 0.001 <= rho j) -> sumN n (apply_filter n H Hs rho g) = sumN n g.
Proof.
  intros q D H Hs Hq H20 E n dist Hc. rewrite filter_runs in E by assumption. injection E as <- <-.
  pose proof (exact_cone q D Hq H20 Hc) as HE. fold n in HE.
  assert (Sy : symmetric n (Hmat q D)). { intros i j Hi Hj. rewrite !HE by assumption. rewrite distance_sym. reflexivity. }
  split; [exact HE|]. split; [exact Sy|]. intros rho g Hf. apply filter_conserves_floor; [exact Sy| |exact Hf]. intros i Hi. split; [reflexivity|]. apply Rgt_not_eq. exact (row_sum_pos q D Hq H20 i Hi).
Qed.
Print Assumptions filter_is_cone_when_few_neighbours.
Theorem filter_preserves_total : forall n H (Hs rho g : vct), symmetric n H -> (forall i, (i < n)%nat -> Hs i = sumN n (fun j => H i j) /\ Hs i <> 0) ->
  (forall j, (j < n)%nat -> 0.001 <= rho j) -> sumN n (apply_filter n H Hs rho g) = sumN n g.
Proof. intros n H Hs rho g. exact (filter_conserves_floor n H Hs rho g). Qed.
Print Assumptions filter_preserves_total.
Example filter_case : exists H Hs, compute_filter_kd_tree (some_query 1) (ex_row 20) = Ok (H, Hs) /\ H 0%nat 0%nat = 1.5 /\ H 0%nat 1%nat = 0.5 /\ H 0%nat 2%nat = 0.
Proof.
  destruct ex_row_filter as (H & Hs & E & B). exists H, Hs. split; [exact E|]. rewrite !B by lia. cbn [INR]. repeat split.
  - rewrite Rminus_0_r, Rabs_R0, Rmax_left; lra.
  - rewrite (Rabs_left (0 - 1)) by lra. rewrite Rmax_left; lra.
  - rewrite (Rabs_left (0 - (1 + 1))) by lra. rewrite Rmax_right; lra.
Qed.

(** on a mesh of equal cubes of side h the filter radius is one and a half cells *)
Theorem filter_radius_is_cell_size : forall D h, 0 < h -> (0 < dm_dim D)%nat -> dm_cells D <> [] -> dm_volume D = INR (length (dm_cells D)) * h ^ dm_dim D -> rmin D = 1.5 * h.
Proof. intros D h Hh Hd Hc Hv. exact (rmin_uniform D h Hh Hd Hc Hv). Qed.
Print Assumptions filter_radius_is_cell_size.
Example filter_radius_case : rmin (mkDM 2 (fun _ _ => 0) [[0]; [1]; [2]]%nat 12 []) = 3.
Proof. rewrite (filter_radius_is_cell_size _ 2); cbn; try lra; try lia; discriminate. Qed.

(** ** C87 *)
Theorem newton_direction_is_exact : forall sp solve epsi it, well_posed sp -> interior sp it -> sound_solver solve ->
  exists d, direction solve sp epsi it = Ok d /\ newton_direction sp epsi it d /\
  derivable_pt_lim (fun t => sumR (residu sp epsi (moved it t d)) (fun r => r * r)) 0 (- 2 * sumR (residu sp epsi it) (fun r => r * r)) /\
  (0 < residumax (residu sp epsi it) -> exists t0, 0 < t0 /\ forall t, 0 < t < t0 -> norm2 (residu sp epsi (moved it t d)) < norm2 (residu sp epsi it)).
Proof.
  intros sp solve epsi it Hwp Hi Hs. destruct (direction_defined sp Hwp epsi it Hi solve Hs) as (d & Hd). exists d. split; [exact Hd|].
  pose proof (newton_direction_exact sp Hwp epsi it Hi solve d Hs Hd) as Hn. split; [exact Hn|]. split; [exact (newton_descent sp epsi it d Hn)|exact (newton_norm_decreases sp epsi it d Hn)].
Qed.
Print Assumptions newton_direction_is_exact.
Example newton_direction_case : exists d, direction some_solver (build ex_mma ex_x) 1 (start (build ex_mma ex_x)) = Ok d /\ newton_direction (build ex_mma ex_x) 1 (start (build ex_mma ex_x)) d.
Proof.
  destruct (newton_direction_is_exact (build ex_mma ex_x) some_solver 1 _ ex_well_posed (start_interior _ ex_well_posed) some_solver_sound) as (d & A & B & _). exists d. split; assumption.
Qed.

(** ** C88 *)
Theorem optimize_completes : forall solve fuel q D kcol m objectiveHandle consHandle movelimit maxIters rho_ini,
  let n := (length (flex_inds D) * kcol)%nat in
  sound_solver solve -> sound_query (dm_dim D) q -> (7 <= fuel)%nat -> (20 <= length (flex_inds D))%nat -> (0 < kcol)%nat ->
  0 < movelimit -> in_unit_box n rho_ini ->
  exists rho hist, optimize solve fuel q D kcol m objectiveHandle consHandle movelimit maxIters rho_ini = Some (Ok (rho, hist)) /\ length hist = maxIters.
Proof.
  intros solve fuel q D kcol m oh ch ml mi r0 n Hs Hq Hf H20 Hk Hml Hr. assert (Hn : (0 < n)%nat) by (unfold n; apply Nat.mul_pos_pos; lia).
  assert (E : exists rho hist, optimize solve fuel q D kcol m oh ch ml mi r0 = Some (Ok (rho, hist))).
  { unfold optimize. rewrite filter_runs by assumption. apply optimize_loop_runs; assumption. }
  destruct E as (rho & hist & E). exists rho, hist. split; [exact E|]. apply (optimize_stays_in_unit_box _ _ _ _ _ _ _ _ _ _ _ _ _ Hml Hn Hr E).
Qed.
Print Assumptions optimize_completes.
Example optimize_case : exists rho hist,
  optimize some_solver 7 (some_query 1) (ex_row 20) 1 1 (fun _ => (0, fun _ => -1)) (fun rho _ => (fun _ => rho 0%nat - 0.5, fun _ _ => 1)) 0.1 30 (fun _ => 0.5) = Some (Ok (rho, hist))
  /\ length hist = 30%nat /\ in_unit_box 20 rho.
Proof.
  assert (Hr : in_unit_box 20 (fun _ => 0.5)) by (intros j _; lra).
  destruct (optimize_completes some_solver 7 (some_query 1) (ex_row 20) 1 1 (fun _ => (0, fun _ => -1)) (fun rho _ => (fun _ => rho 0%nat - 0.5, fun _ _ => 1)) 0.1 30 (fun _ => 0.5)
    some_solver_sound (some_query_sound 1) ltac:(lia)) as (rho & hist & E & L); rewrite ?ex_row_len; try lia; try lra; [exact Hr|]. exists rho, hist. split; [exact E|]. split; [exact L|].
  pose proof (optimize_stays_in_unit_box some_solver 7 (some_query 1) (ex_row 20) 1 1 (fun _ => (0, fun _ => -1)) (fun rho _ => (fun _ => rho 0%nat - 0.5, fun _ _ => 1)) 0.1 30 (fun _ => 0.5) rho hist ltac:(lra)) as H. cbv zeta in H. rewrite ex_row_len in H. apply (H ltac:(lia) Hr E).
Qed.

(** ** C89 *)
Theorem subsolv_near_optimal_partial : forall sp solve fuel, well_posed sp -> sound_solver solve -> (7 <= fuel)%nat ->
  let epsi := 1 * 0.1 ^ 6 in
  exists it1 it p, subsolv solve sp fuel epsimin = Some (Ok it) /\ interior sp it1 /\ interior sp it /\ damped_newton sp epsi p it1 it /\ (p <= 200)%nat /\
  (near_kkt sp epsi (0.9 * epsi) it \/ p = 200%nat).
Proof.
  intros sp solve fuel Hwp Hs Hf epsi. destruct (subsolv_runs sp Hwp solve Hs fuel Hf) as (i1 & i2 & p & H1 & H2 & H3 & H4 & H5 & H6). exists i1, i2, p.
  split; [exact H1|]. split; [exact H2|]. split; [exact H3|]. split; [exact H5|]. split; [exact H4|]. destruct H6 as [H6|H6]; [left; exact (near_kkt_of_residual sp Hwp _ _ i2 H3 H6)|right; exact H6].
Qed.
Print Assumptions subsolv_near_optimal_partial.
Theorem near_kkt_is_near_optimal : forall sp epsi tol it x y z, well_posed sp -> 0 <= tol -> interior sp it -> near_kkt sp epsi tol it -> sub_feasible sp x y z ->
  sub_cost sp (x_ it) (y_ it) (z_ it) <= sub_cost sp x y z + (epsi + tol) * INR (2 * sp_n sp + 2 * sp_m sp + 1)
  + tol * (sumN (sp_n sp) (fun j => Rabs (x j - x_ it j)) + sumN (sp_m sp) (fun i => Rabs (y i - y_ it i) + lam_ it i) + Rabs (z - z_ it)).
Proof. intros sp epsi tol it x y z Hwp. exact (near_optimal sp Hwp epsi tol it x y z). Qed.
Print Assumptions near_kkt_is_near_optimal.
Example near_optimal_case : near_kkt ex_sub 0.1 0 ex_it /\ forall x y z, sub_feasible ex_sub x y z -> sub_cost ex_sub (fun _ => 0) (fun _ => 0) 0.1 <= sub_cost ex_sub x y z + 0.3.
Proof.
  split; [exact ex_it_kkt|]. intros x y z H. pose proof (near_kkt_is_near_optimal ex_sub 0.1 0 ex_it x y z ex_sub_wp ltac:(lra) ex_it_interior ex_it_kkt H) as B. cbn [x_ y_ z_ ex_it sp_n sp_m ex_sub Nat.mul Nat.add INR] in B. lra.
Qed.

(** ** C90 *)
Theorem filter_needs_twenty_cells_refuted : forall q D, sound_query (dm_dim D) q -> (0 < length (flex_inds D) < 20)%nat ->
  compute_filter_kd_tree q D = Err IndexError /\
  forall solve fuel kcol m oh ch ml mi rho, optimize solve fuel q D kcol m oh ch ml mi rho = Some (Err IndexError).
Proof. intros q D Hq H. pose proof (filter_fails q D Hq H) as E. split; [exact E|]. intros. unfold optimize. rewrite E. reflexivity. Qed.
Print Assumptions filter_needs_twenty_cells_refuted.
Example filter_needs_twenty_cells_case : compute_filter_kd_tree (some_query 1) (ex_row 4) = Err IndexError.
Proof. apply filter_needs_twenty_cells_refuted; [apply some_query_sound|rewrite ex_row_len; lia]. Qed.
Close Scope R_scope.
