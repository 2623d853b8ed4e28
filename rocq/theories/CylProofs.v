(** * Flow past a cylinder: balances, reflection, symmetry, rest states. *)
From Coq Require Import FunctionalExtensionality Lra Lia.
From Verif Require Import Prelude PreludeFacts FemModel FemFacts CylModel CylSpec.
Open Scope R_scope.
Open Scope list_scope.

Ltac nine i := destruct i as [|[|[|[|[|[|[|[|[|i]]]]]]]]]; [| | | | | | | | |lia].
(** ** moving on a ring *)
Lemma moved_lt n j s : (0 < n)%nat -> (moved n j s < n)%nat.
Proof. intros Hn. unfold moved. pose proof (Z.mod_pos_bound (Z.of_nat j + s) (Z.of_nat n) ltac:(lia)). lia. Qed.
Lemma moved_Z n j s : (0 < n)%nat -> Z.of_nat (moved n j s) = ((Z.of_nat j + s) mod Z.of_nat n)%Z.
Proof. intros Hn. unfold moved. apply Z2Nat.id. apply Z.mod_pos_bound. lia. Qed.
Lemma moved_add n j s t : (0 < n)%nat -> moved n (moved n j s) t = moved n j (s + t).
Proof. intros Hn. unfold moved at 1 3. rewrite moved_Z by exact Hn. rewrite Zplus_mod_idemp_l. f_equal. f_equal. lia. Qed.
Lemma moved_0 n j : (j < n)%nat -> moved n j 0 = j.
Proof. intros Hj. unfold moved. rewrite Z.add_0_r, Z.mod_small by lia. apply Nat2Z.id. Qed.
Lemma moved_back n j s : (j < n)%nat -> moved n (moved n j s) (- s) = j.
Proof. intros Hj. rewrite moved_add by lia. rewrite Z.add_opp_diag_r. now apply moved_0. Qed.
Lemma moved_sum n s f : sumN n (fun j => f (moved n j s)) = sumN n f.
Proof.
  destruct (Nat.eq_dec n 0) as [->|Hn]; [reflexivity|]. unfold sumN. apply (sumR_reindex (seq 0 n) (fun j => moved n j s)); [apply seq_NoDup| |].
  - intros j _. apply in_seq. pose proof (moved_lt n j s ltac:(lia)). lia.
  - intros a b Ha Hb E. apply in_seq in Ha. apply in_seq in Hb. rewrite <- (moved_back n a s ltac:(lia)), <- (moved_back n b s ltac:(lia)). now rewrite E.
Qed.
Lemma upside_lt n y : (0 < n)%nat -> (upside n y < n)%nat.
Proof. intros. unfold upside. apply Nat.mod_upper_bound. lia. Qed.
Lemma upside_Z n y : (0 < n)%nat -> (y <= n)%nat -> Z.of_nat (upside n y) = ((- Z.of_nat y) mod Z.of_nat n)%Z.
Proof. intros Hn Hy. unfold upside. rewrite Nat2Z.inj_mod, Nat2Z.inj_sub by exact Hy. rewrite <- (Z_mod_plus_full (- Z.of_nat y) 1 (Z.of_nat n)). f_equal. lia. Qed.
Lemma upside_moved n y s : (0 < n)%nat -> upside n (moved n y s) = moved n (upside n y) (- s) \/ (n <= y)%nat.
Proof.
  intros Hn. destruct (le_lt_dec n y) as [H|H]; [now right|left]. apply Nat2Z.inj. rewrite upside_Z by (try exact Hn; pose proof (moved_lt n y s Hn); lia). rewrite !moved_Z by exact Hn. rewrite upside_Z by lia.
  rewrite Zplus_mod_idemp_l. rewrite <- (Z.sub_0_l ((Z.of_nat y + s) mod Z.of_nat n)), Zminus_mod_idemp_r. f_equal. lia.
Qed.
Lemma upside_upside n y : (y < n)%nat -> upside n (upside n y) = y.
Proof.
  intros H. unfold upside. destruct (Nat.eq_dec y 0) as [->|H0]; [rewrite Nat.sub_0_r, Nat.mod_same, Nat.sub_0_r, Nat.mod_same; lia|].
  rewrite (Nat.mod_small (n - y)) by lia. rewrite Nat.mod_small by lia. lia.
Qed.

(** ** equilibrium *)
Lemma feq_mass r u v : sumN 9 (feq r u v) = r.
Proof. unfold sumN, feq. cbn [seq sumR nth weights9 cxs cys]. field. Qed.
Lemma feq_px r u v : sumN 9 (fun i => feq r u v i * IZR (nth i cxs 0%Z)) = r * u.
Proof. unfold sumN, feq. cbn [seq sumR nth weights9 cxs cys]. field. Qed.
Lemma feq_py r u v : sumN 9 (fun i => feq r u v i * IZR (nth i cys 0%Z)) = r * v.
Proof. unfold sumN, feq. cbn [seq sumR nth weights9 cxs cys]. field. Qed.

Section Cyl.
Variables (Ny Nx : nat).
Lemma drift_at F y x i : (i < 9)%nat -> drift Ny Nx F y x i = F (moved Ny y (- nth i cys 0%Z)) (moved Nx x (- nth i cxs 0%Z)) i.
Proof. intros Hi. unfold drift. cbn [combine seq cxs cys fold_left]. nine i; reflexivity. Qed.
Lemma drift_sum F i : (i < 9)%nat -> over_cells Ny Nx (fun y x => drift Ny Nx F y x i) = over_cells Ny Nx (fun y x => F y x i).
Proof.
  intros Hi. unfold over_cells. rewrite <- (moved_sum Ny (- nth i cys 0%Z) (fun y => sumN Nx (fun x => F y x i))). apply sumN_ext. intros y _.
  rewrite <- (moved_sum Nx (- nth i cxs 0%Z) (fun x => F (moved Ny y (- nth i cys 0%Z)) x i)). apply sumN_ext. intros x _. now apply drift_at.
Qed.
Lemma over_sum (w : nat -> R) F : over_cells Ny Nx (fun y x => sumN 9 (fun i => F y x i * w i)) = sumN 9 (fun i => over_cells Ny Nx (fun y x => F y x i) * w i).
Proof.
  unfold over_cells. rewrite (sumN_ext Ny _ (fun y => sumN 9 (fun i => sumN Nx (fun x => F y x i) * w i))).
  - rewrite sumN_swap. apply sumN_ext. intros i _. now rewrite sumN_scal_r.
  - intros y _. rewrite sumN_swap. apply sumN_ext. intros i _. now rewrite sumN_scal_r.
Qed.
Lemma drift_weighted (w : nat -> R) F : over_cells Ny Nx (fun y x => sumN 9 (fun i => drift Ny Nx F y x i * w i)) = over_cells Ny Nx (fun y x => sumN 9 (fun i => F y x i * w i)).
Proof. rewrite !over_sum. apply sumN_ext. intros i Hi. now rewrite drift_sum. Qed.
Lemma mass_weighted F : total_mass Ny Nx F = over_cells Ny Nx (fun y x => sumN 9 (fun i => F y x i * 1)).
Proof. unfold total_mass, over_cells. apply sumN_ext. intros y _. apply sumN_ext. intros x _. apply sumN_ext. intros i _. ring. Qed.
Lemma drift_mass F : total_mass Ny Nx (drift Ny Nx F) = total_mass Ny Nx F.
Proof. rewrite !mass_weighted. apply drift_weighted. Qed.
Lemma drift_momentum c F : momentum Ny Nx c (drift Ny Nx F) = momentum Ny Nx c F.
Proof. apply drift_weighted. Qed.

Variable tau : R.
Lemma collide_mass F y x : sumN 9 (collide tau F y x) = sumN 9 (F y x).
Proof.
  unfold collide. rewrite (sumN_add 9 (fun i => F y x i) (fun i => - (1 / tau) * (F y x i - feq (rho F y x) (ux F y x) (uy F y x) i))). rewrite sumN_scal, sumN_sub.
  change (sumN 9 (fun i => feq (rho F y x) (ux F y x) (uy F y x) i)) with (sumN 9 (feq (rho F y x) (ux F y x) (uy F y x))). rewrite feq_mass. unfold rho. change (sumN 9 (fun i => F y x i)) with (sumN 9 (F y x)). ring.
Qed.
Lemma collide_mom (c : nat -> R) m F y x : sumN 9 (fun i => feq (rho F y x) (ux F y x) (uy F y x) i * c i) = m -> sumN 9 (fun i => F y x i * c i) = m ->
  sumN 9 (fun i => collide tau F y x i * c i) = m.
Proof.
  intros He Hf. unfold collide. rewrite (sumN_ext 9 _ (fun i => F y x i * c i + - (1 / tau) * (F y x i * c i - feq (rho F y x) (ux F y x) (uy F y x) i * c i))) by (intros; ring).
  rewrite sumN_add, sumN_scal, sumN_sub, He, Hf. ring.
Qed.
Lemma collide_px F y x : rho F y x <> 0 -> sumN 9 (fun i => collide tau F y x i * IZR (nth i cxs 0%Z)) = sumN 9 (fun i => F y x i * IZR (nth i cxs 0%Z)).
Proof. intros H. apply collide_mom; [|reflexivity]. rewrite feq_px. unfold ux. now field. Qed.
Lemma collide_py F y x : rho F y x <> 0 -> sumN 9 (fun i => collide tau F y x i * IZR (nth i cys 0%Z)) = sumN 9 (fun i => F y x i * IZR (nth i cys 0%Z)).
Proof. intros H. apply collide_mom; [|reflexivity]. rewrite feq_py. unfold uy. now field. Qed.
Lemma reflect_mass F y x : sumN 9 (reflected F y x) = sumN 9 (F y x).
Proof. unfold sumN, reflected. cbn [seq sumR nth rev9]. ring. Qed.
Lemma reflect_momentum F y x : sumN 9 (fun i => reflected F y x i * IZR (nth i cxs 0%Z)) = - sumN 9 (fun i => F y x i * IZR (nth i cxs 0%Z)) /\ sumN 9 (fun i => reflected F y x i * IZR (nth i cys 0%Z)) = - sumN 9 (fun i => F y x i * IZR (nth i cys 0%Z)).
Proof. unfold sumN, reflected. cbn [seq sumR nth rev9 cxs cys]. split; ring. Qed.

Variable mask : nat -> nat -> bool.
Lemma step_some F F' : step Ny Nx tau mask F = Some F' ->
  F' = (fun y x i => if mask y x then reflected (drift Ny Nx F) y x i else collide tau (drift Ny Nx F) y x i) /\
  forall y x, (y < Ny)%nat -> (x < Nx)%nat -> mask y x = false -> rho (drift Ny Nx F) y x <> 0.
Proof.
  unfold step. cbv zeta. destruct (forallb _ _) eqn:E; [|discriminate]. intros H. injection H as <-. split; [reflexivity|]. intros y x Hy Hx Hm.
  rewrite forallb_forall in E. specialize (E y ltac:(apply in_seq; lia)). rewrite forallb_forall in E. specialize (E x ltac:(apply in_seq; lia)). rewrite Hm in E. cbn [orb] in E.
  apply Bool.negb_true_iff in E. intros H0. apply (proj2 (Reqb_true _ _)) in H0. congruence.
Qed.
Lemma some_step F : (forall y x, (y < Ny)%nat -> (x < Nx)%nat -> mask y x = false -> rho (drift Ny Nx F) y x <> 0) ->
  step Ny Nx tau mask F = Some (fun y x i => if mask y x then reflected (drift Ny Nx F) y x i else collide tau (drift Ny Nx F) y x i).
Proof.
  intros H. unfold step. cbv zeta. destruct (forallb _ _) eqn:E; [reflexivity|]. exfalso. apply Bool.not_true_iff_false in E. apply E. apply forallb_forall. intros y Hy. apply forallb_forall. intros x Hx. apply in_seq in Hy. apply in_seq in Hx.
  destruct (mask y x) eqn:Hm; [reflexivity|]. cbn [orb]. apply Bool.negb_true_iff. apply Bool.not_true_iff_false. intros H0. apply Reqb_true in H0. exact (H y x ltac:(lia) ltac:(lia) Hm H0).
Qed.
Lemma step_mass F F' : step Ny Nx tau mask F = Some F' -> total_mass Ny Nx F' = total_mass Ny Nx F.
Proof.
  intros H. apply step_some in H as [-> _]. rewrite <- (drift_mass F). unfold total_mass, over_cells. apply sumN_ext. intros y _. apply sumN_ext. intros x _.
  destruct (mask y x); [exact (reflect_mass (drift Ny Nx F) y x)|exact (collide_mass (drift Ny Nx F) y x)].
Qed.
Lemma run_mass n : forall F F', run Ny Nx tau mask n F = Some F' -> total_mass Ny Nx F' = total_mass Ny Nx F.
Proof.
  induction n as [|n IH]; intros F F'; cbn [run]; [intros H; now injection H as <-|]. destruct (step Ny Nx tau mask F) as [F1|] eqn:E; [|discriminate]. intros H. rewrite (IH F1 F' H). now apply step_mass.
Qed.
Lemma initial_mass rho0 noise : (forall y x, (y < Ny)%nat -> (x < Nx)%nat -> rho (raw Nx noise) y x <> 0) -> total_mass Ny Nx (initial Nx rho0 noise) = rho0 * INR Ny * INR Nx.
Proof.
  intros H. unfold total_mass, over_cells. rewrite (sumN_ext Ny _ (fun _ => INR Nx * rho0)); [rewrite sumN_const; ring|]. intros y Hy. rewrite (sumN_ext Nx _ (fun _ => rho0)); [apply sumN_const|].
  intros x Hx. specialize (H y x Hy Hx). unfold initial. rewrite (sumN_scal_r 9 (rho0 / rho (raw Nx noise) y x) (raw Nx noise y x)). fold (rho (raw Nx noise) y x). now field.
Qed.
Lemma step_momentum F F' : step Ny Nx tau mask F = Some F' ->
  momentum Ny Nx cxs F' = momentum Ny Nx cxs F - 2 * momentum_in Ny Nx mask cxs (drift Ny Nx F) /\
  momentum Ny Nx cys F' = momentum Ny Nx cys F - 2 * momentum_in Ny Nx mask cys (drift Ny Nx F).
Proof.
  intros H. apply step_some in H as [-> Hr]. rewrite <- (drift_momentum cxs F), <- (drift_momentum cys F). unfold momentum, momentum_in, over_cells. rewrite <- !sumN_scal, <- !sumN_sub.
  split; apply sumN_ext; intros y Hy; rewrite <- sumN_scal, <- sumN_sub; apply sumN_ext; intros x Hx; destruct (mask y x) eqn:Hm.
  - rewrite (proj1 (reflect_momentum (drift Ny Nx F) y x)). ring.
  - rewrite (collide_px _ _ _ (Hr y x Hy Hx Hm)). ring.
  - rewrite (proj2 (reflect_momentum (drift Ny Nx F) y x)). ring.
  - rewrite (collide_py _ _ _ (Hr y x Hy Hx Hm)). ring.
Qed.
Lemma free_momentum n : (forall y x, (y < Ny)%nat -> (x < Nx)%nat -> mask y x = false) -> forall F F', run Ny Nx tau mask n F = Some F' ->
  momentum Ny Nx cxs F' = momentum Ny Nx cxs F /\ momentum Ny Nx cys F' = momentum Ny Nx cys F.
Proof.
  intros Hm. assert (Hz : forall c G, momentum_in Ny Nx mask c G = 0) by (intros c G; unfold momentum_in, over_cells; apply sumN_zero; intros y Hy; apply sumN_zero; intros x Hx; now rewrite Hm).
  induction n as [|n IH]; intros F F'; cbn [run]; [intros H; now injection H as <-|]. destruct (step Ny Nx tau mask F) as [F1|] eqn:E; [|discriminate]. intros H. destruct (IH F1 F' H) as [-> ->]. destruct (step_momentum F F1 E) as [-> ->]. rewrite !Hz. split; ring.
Qed.
(** ** what enters the cylinder comes back *)
Lemma rev9_lt i : (i < 9)%nat -> (nth i rev9 0 < 9)%nat /\ nth (nth i rev9 0%nat) rev9 0%nat = i /\ nth (nth i rev9 0%nat) cxs 0%Z = (- nth i cxs 0)%Z /\ nth (nth i rev9 0%nat) cys 0%Z = (- nth i cys 0)%Z.
Proof. intros Hi. nine i; repeat split; cbn; lia. Qed.
Lemma returns F F1 y x i : (y < Ny)%nat -> (x < Nx)%nat -> (i < 9)%nat -> step Ny Nx tau mask F = Some F1 ->
  mask (moved Ny y (nth i cys 0%Z)) (moved Nx x (nth i cxs 0%Z)) = true ->
  drift Ny Nx F1 y x (nth i rev9 0%nat) = F y x i.
Proof.
  intros Hy Hx Hi H Hm. apply step_some in H as [-> _]. destruct (rev9_lt i Hi) as (H1 & H2 & H3 & H4). rewrite drift_at by exact H1. rewrite H3, H4, !Z.opp_involutive, Hm. unfold reflected. rewrite H2, drift_at by exact Hi.
  now rewrite !moved_back.
Qed.
End Cyl.
Close Scope R_scope.
