(** * Properties of the flow past a cylinder (jax_am/lbm/experiments/cylinder.py). *)
From Coq Require Import Lra Lia.
From Verif Require Import Prelude PreludeFacts FemModel FemFacts CylModel CylSpec CylProofs CylSymProofs CylExamples.
Open Scope R_scope.
Open Scope list_scope.

(** ** C193: the total mass never changes *)
Theorem cylinder_mass : forall Ny Nx tau mask n F F', run Ny Nx tau mask n F = Some F' -> total_mass Ny Nx F' = total_mass Ny Nx F.
Proof. intros Ny Nx tau mask n F F'. exact (run_mass Ny Nx tau mask n F F'). Qed.
Print Assumptions cylinder_mass.
Theorem cylinder_start_mass : forall Ny Nx tau mask rho0 noise n F', (forall y x, (y < Ny)%nat -> (x < Nx)%nat -> rho (raw Nx noise) y x <> 0) ->
  run Ny Nx tau mask n (initial Nx rho0 noise) = Some F' -> total_mass Ny Nx F' = rho0 * INR Ny * INR Nx.
Proof. intros Ny Nx tau mask rho0 noise n F' H E. rewrite (run_mass Ny Nx tau mask n _ _ E). now apply initial_mass. Qed.
Print Assumptions cylinder_start_mass.
(** the script without noise: the first step works and leaves 4000000 *)
Example cylinder_mass_case : exists F', run 100 400 (6 / 10) (cylinder 100 400) 1 script_start = Some F' /\ total_mass 100 400 F' = 4000000.
Proof.
  destruct turns_negative as (F' & E & _). exists F'. assert (R1 : run 100 400 (6 / 10) (cylinder 100 400) 1 script_start = Some F') by (cbn [run]; now rewrite E). split; [exact R1|].
  rewrite (cylinder_start_mass 100 400 (6 / 10) (cylinder 100 400) 100 calm_noise 1 F'); [|intros y x _ _; destruct (raw_rho y x) as (c & Hc & -> & _); lra|exact R1].
  rewrite !INR_IZR_INZ. change (Z.of_nat 100) with 100%Z. change (Z.of_nat 400) with 400%Z. lra.
Qed.

(** ** C194: momentum is lost only to the cylinder, twice what arrives there *)
Theorem cylinder_momentum : forall Ny Nx tau mask F F', step Ny Nx tau mask F = Some F' ->
  momentum Ny Nx cxs F' = momentum Ny Nx cxs F - 2 * momentum_in Ny Nx mask cxs (drift Ny Nx F) /\
  momentum Ny Nx cys F' = momentum Ny Nx cys F - 2 * momentum_in Ny Nx mask cys (drift Ny Nx F).
Proof. exact step_momentum. Qed.
Print Assumptions cylinder_momentum.
Theorem free_flow_momentum : forall Ny Nx tau mask n, (forall y x, (y < Ny)%nat -> (x < Nx)%nat -> mask y x = false) -> forall F F', run Ny Nx tau mask n F = Some F' ->
  momentum Ny Nx cxs F' = momentum Ny Nx cxs F /\ momentum Ny Nx cys F' = momentum Ny Nx cys F.
Proof. exact free_momentum. Qed.
Print Assumptions free_flow_momentum.
(** one obstacle cell in a uniform flow with density 1 and velocity 1/10 on nine cells takes 2/10 of 9/10 *)
Example cylinder_momentum_case : let mask := fun y x => (Nat.eqb y 1 && Nat.eqb x 1)%bool in
  exists F', step 3 3 (6 / 10) mask (uniform 1 (1 / 10) 0) = Some F' /\ momentum 3 3 cxs (uniform 1 (1 / 10) 0) = 9 / 10 /\ momentum 3 3 cxs F' = 7 / 10.
Proof.
  intros mask. eexists. split; [apply some_step; intros y x _ _ _; rewrite (proj1 (uniform_local 3 3 1 (1 / 10) 0 y x ltac:(lra))); lra|].
  assert (E : momentum 3 3 cxs (uniform 1 (1 / 10) 0) = 9 / 10) by (unfold momentum, over_cells, uniform; rewrite feq_px; unfold sumN; cbn [seq sumR]; lra). split; [exact E|].
  match goal with |- momentum 3 3 cxs ?G = _ => assert (S : step 3 3 (6 / 10) mask (uniform 1 (1 / 10) 0) = Some G) by (apply some_step; intros y x _ _ _; rewrite (proj1 (uniform_local 3 3 1 (1 / 10) 0 y x ltac:(lra))); lra) end.
  rewrite (proj1 (cylinder_momentum 3 3 _ mask _ _ S)), E. unfold momentum_in, over_cells, mask.
  rewrite (sumN_ext 3 _ (fun y => sumN 3 (fun x => if (Nat.eqb y 1 && Nat.eqb x 1)%bool then 1 / 10 else 0))); [unfold sumN; cbn [seq sumR Nat.eqb andb]; lra|].
  intros y _. apply sumN_ext. intros x _. destruct (_ && _)%bool; [|reflexivity].
  rewrite (sumN_ext 9 _ (fun i => feq 1 (1 / 10) 0 i * IZR (nth i cxs 0%Z))) by (intros i Hi; now rewrite uniform_drift). rewrite feq_px. lra.
Qed.

(** ** C195: what moves into the cylinder comes back to the same cell with the opposite velocity *)
Theorem cylinder_returns : forall Ny Nx tau mask F F1 y x i, (y < Ny)%nat -> (x < Nx)%nat -> (i < 9)%nat -> step Ny Nx tau mask F = Some F1 ->
  mask (moved Ny y (nth i cys 0%Z)) (moved Nx x (nth i cxs 0%Z)) = true ->
  exists j, (j < 9)%nat /\ nth j cxs 0%Z = (- nth i cxs 0)%Z /\ nth j cys 0%Z = (- nth i cys 0)%Z /\ drift Ny Nx F1 y x j = F y x i.
Proof.
  intros Ny Nx tau mask F F1 y x i Hy Hx Hi E Hm. destruct (rev9_lt i Hi) as (H1 & _ & H3 & H4). exists (nth i rev9 0%nat). split; [exact H1|]. split; [exact H3|]. split; [exact H4|]. exact (returns Ny Nx tau mask F F1 y x i Hy Hx Hi E Hm).
Qed.
Print Assumptions cylinder_returns.
(** the cell in front of the cylinder: what flows to the right comes back to the left *)
Example cylinder_returns_case : forall F1, step 100 400 (6 / 10) (cylinder 100 400) script_start = Some F1 ->
  cylinder 100 400 50 75 = false /\ drift 100 400 F1 50%nat 75%nat 7%nat = script_start 50%nat 75%nat 3%nat.
Proof.
  assert (N : INR 400 = 400 /\ INR 100 = 100 /\ INR 50 = 50 /\ INR 75 = 75 /\ INR 76 = 76) by (rewrite !INR_IZR_INZ; repeat split; reflexivity). destruct N as (N1 & N2 & N3 & N4 & N5).
  intros F1 E. split; [unfold cylinder; apply Rltb_false; rewrite N1, N2, N3, N4; lra|].
  apply (returns 100 400 (6 / 10) (cylinder 100 400) script_start F1 50 75 3 ltac:(lia) ltac:(lia) ltac:(lia) E).
  change (moved 100 50 (nth 3 cys 0%Z)) with 50%nat. change (moved 400 75 (nth 3 cxs 0%Z)) with 76%nat. unfold cylinder. apply Rltb_true. rewrite N1, N2, N3, N5. lra.
Qed.

(** ** C196: a fluid at rest stays at rest around any obstacle; a uniform flow without obstacle goes on *)
Theorem cylinder_rest : forall Ny Nx tau mask r u v n F, (0 < Ny)%nat -> (0 < Nx)%nat -> r <> 0 ->
  (forall y x, (y < Ny)%nat -> (x < Nx)%nat -> mask y x = true -> u = 0 /\ v = 0) -> same_grid Ny Nx F (fun _ _ => feq r u v) ->
  exists F', run Ny Nx tau mask n F = Some F' /\ same_grid Ny Nx F' (fun _ _ => feq r u v) /\
  forall y x, (y < Ny)%nat -> (x < Nx)%nat -> rho F' y x = r /\ ux F' y x = u /\ uy F' y x = v.
Proof.
  intros Ny Nx tau mask r u v n F Hy Hx Hr Hm HF. destruct (uniform_run Ny Nx Hy Hx tau mask r u v Hr Hm n F HF) as (F' & E & Hs). exists F'. split; [exact E|]. split; [exact Hs|]. intros y x Hy' Hx'.
  destruct (local_congr F' (drift Ny Nx (uniform r u v)) y x y x) as (-> & -> & ->); [|now apply uniform_local]. intros i Hi. rewrite uniform_drift by exact Hi. now apply Hs.
Qed.
Print Assumptions cylinder_rest.
(** the weights times 100 with the cylinder of the script; density 100 and velocity (1/5, 1/10) without it *)
Example cylinder_rest_case : forall n,
  (exists F', run 100 400 (6 / 10) (cylinder 100 400) n (fun _ _ i => 100 * nth i weights9 0) = Some F' /\ forall y x i, (y < 100)%nat -> (x < 400)%nat -> (i < 9)%nat -> F' y x i = 100 * nth i weights9 0) /\
  (exists F', run 100 400 (6 / 10) (fun _ _ => false) n (fun _ _ => feq 100 (1 / 5) (1 / 10)) = Some F' /\ ux F' 0%nat 0%nat = 1 / 5).
Proof.
  intros n. split.
  - assert (W : forall i, 100 * nth i weights9 0 = feq 100 0 0 i) by (intros i; unfold feq; rewrite !Rmult_0_r; field).
    destruct (cylinder_rest 100 400 (6 / 10) (cylinder 100 400) 100 0 0 n (fun _ _ i => 100 * nth i weights9 0) ltac:(lia) ltac:(lia) ltac:(lra) (fun _ _ _ _ _ => ltac:(split; reflexivity)) (fun y x i _ _ _ => W i)) as (F' & E & Hs & _).
    exists F'. split; [exact E|]. intros y x i Hy Hx Hi. rewrite (Hs y x i Hy Hx Hi). now rewrite W.
  - destruct (cylinder_rest 100 400 (6 / 10) (fun _ _ => false) 100 (1 / 5) (1 / 10) n (fun _ _ => feq 100 (1 / 5) (1 / 10)) ltac:(lia) ltac:(lia) ltac:(lra) ltac:(discriminate) (fun y x i _ _ _ => eq_refl)) as (F' & E & _ & Hu).
    exists F'. split; [exact E|]. now apply Hu; lia.
Qed.

(** ** C197: without asymmetric noise the flow stays mirror symmetric, so no vortices are shed *)
Theorem cylinder_symmetric : forall Ny Nx tau mask n F F', (0 < Ny)%nat -> (0 < Nx)%nat -> mirror_mask Ny Nx mask -> same_grid Ny Nx F (mirrored Ny F) ->
  run Ny Nx tau mask n F = Some F' -> same_grid Ny Nx F' (mirrored Ny F') /\ forall y x, (y < Ny)%nat -> (x < Nx)%nat -> uy F' (upside Ny y) x = - uy F' y x.
Proof.
  intros Ny Nx tau mask n F F' Hy Hx Hm Hs E. pose proof (stays_symmetric Ny Nx Hy Hx tau mask n F F' Hm Hs E) as H. split; [exact H|]. intros y x Hy' Hx'. exact (symmetric_axis Ny Nx F' y x H Hy' Hx').
Qed.
Print Assumptions cylinder_symmetric.
Theorem cylinder_symmetric_start : forall Ny Nx tau rho0 noise n F', (0 < Ny)%nat -> (0 < Nx)%nat -> same_grid Ny Nx noise (mirrored Ny noise) ->
  run Ny Nx tau (cylinder Ny Nx) n (initial Nx rho0 noise) = Some F' -> same_grid Ny Nx F' (mirrored Ny F').
Proof. intros Ny Nx tau rho0 noise n F' Hy Hx Hn E. exact (proj1 (cylinder_symmetric Ny Nx tau _ n _ F' Hy Hx (cylinder_mirror Ny Nx Hy Hx) (initial_mirror Ny Nx Hy Hx rho0 noise Hn) E)). Qed.
Print Assumptions cylinder_symmetric_start.
(** the script without noise: on the axis behind the cylinder nothing ever moves across *)
Example cylinder_symmetric_case : forall n F', run 100 400 (6 / 10) (cylinder 100 400) n script_start = Some F' -> forall x, (x < 400)%nat -> uy F' 50%nat x = 0.
Proof.
  intros n F' E x Hx. destruct (cylinder_symmetric 100 400 (6 / 10) (cylinder 100 400) n script_start F' ltac:(lia) ltac:(lia) (cylinder_mirror 100 400 ltac:(lia) ltac:(lia)) (initial_mirror 100 400 ltac:(lia) ltac:(lia) 100 calm_noise (fun _ _ _ _ _ _ => eq_refl)) E) as [_ H].
  specialize (H 50%nat x ltac:(lia) Hx). change (upside 100 50) with 50%nat in H. lra.
Qed.

(** ** C198: populations stay non-negative. They do not: the first step of the script makes one negative *)
Theorem cylinder_nonnegative_refuted : exists noise F', nonnegative 100 400 (initial 400 100 noise) /\ step 100 400 (6 / 10) (cylinder 100 400) (initial 400 100 noise) = Some F' /\ ~ nonnegative 100 400 F'.
Proof.
  destruct turns_negative as (F' & E & H). exists calm_noise, F'. split; [exact start_nonneg|]. split; [exact E|]. intros C. specialize (C 0%nat 0%nat 6%nat ltac:(lia) ltac:(lia) ltac:(lia)). lra.
Qed.
Print Assumptions cylinder_nonnegative_refuted.
(** they do for relaxation times from 1 on and speeds below the speed of sound *)
Theorem cylinder_nonnegative_slow : forall Ny Nx tau mask F F', (0 < Ny)%nat -> (0 < Nx)%nat -> 1 <= tau -> nonnegative Ny Nx F ->
  (forall y x, (y < Ny)%nat -> (x < Nx)%nat -> mask y x = false -> ux (drift Ny Nx F) y x ^ 2 + uy (drift Ny Nx F) y x ^ 2 <= 1 / 3) ->
  step Ny Nx tau mask F = Some F' -> nonnegative Ny Nx F'.
Proof. intros Ny Nx tau mask F F' Hy Hx. exact (step_nonneg Ny Nx Hy Hx tau mask F F'). Qed.
Print Assumptions cylinder_nonnegative_slow.
Example cylinder_nonnegative_case : exists F', step 3 3 1 (fun y x => (Nat.eqb y 1 && Nat.eqb x 1)%bool) (uniform 1 (1 / 10) 0) = Some F' /\ nonnegative 3 3 F'.
Proof.
  eexists. split; [apply some_step; intros y x _ _ _; rewrite (proj1 (uniform_local 3 3 1 (1 / 10) 0 y x ltac:(lra))); lra|].
  refine (cylinder_nonnegative_slow 3 3 1 (fun y x => (Nat.eqb y 1 && Nat.eqb x 1)%bool) (uniform 1 (1 / 10) 0) _ ltac:(lia) ltac:(lia) ltac:(lra) _ _ (some_step 3 3 1 _ _ _)).
  - intros y x i _ _ Hi. apply feq_nonneg; [lra|lra|exact Hi].
  - intros y x _ _ _. destruct (uniform_local 3 3 1 (1 / 10) 0 y x ltac:(lra)) as (_ & -> & ->). lra.
  - intros y x _ _ _. rewrite (proj1 (uniform_local 3 3 1 (1 / 10) 0 y x ltac:(lra))). lra.
Qed.
Close Scope R_scope.
