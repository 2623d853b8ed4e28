(** * Subproblem optimality, MMA steps and the optimisation loop. *)
From Coq Require Import FunctionalExtensionality Lra.
From Verif Require Import Prelude PreludeFacts FemModel FemFacts MmaModel MmaSpec MmaProofs MmaNewtonProofs.
Open Scope R_scope.

Lemma fold_max_in l x : fold_left Rmax l x = x \/ In (fold_left Rmax l x) l.
Proof.
  revert x. induction l as [|a l IH]; intros x; cbn; [auto|]. destruct (IH (Rmax x a)) as [H|H]; [|auto].
  rewrite H. unfold Rmax. destruct (Rle_dec x a); auto.
Qed.
Lemma maxl_in l : l <> [] -> In (maxl l) l.
Proof. destruct l as [|x l]; [congruence|]. intros _. cbn. destruct (fold_max_in l x) as [->|H]; [left; reflexivity|right; exact H]. Qed.
Lemma sumR_sq_pos l r : In r l -> r <> 0 -> 0 < sumR l (fun r => r * r).
Proof.
  induction l as [|a l IH]; [intros []|]. intros [<-|H] Hr; cbn.
  - assert (0 <= sumR l (fun r => r * r)) by (apply sumR_nonneg; intros; apply Rle_0_sqr). nra.
  - pose proof (IH H Hr). pose proof (Rle_0_sqr a). unfold Rsqr in *. lra.
Qed.
Lemma residumax_norm l : 0 < residumax l -> 0 < norm2 l.
Proof.
  unfold residumax. destruct l as [|a l]; [cbn; lra|]. intros H. pose proof (maxl_in (map Rabs (a :: l)) ltac:(discriminate)) as Hin. apply in_map_iff in Hin as (r & Hr & Hin).
  assert (r <> 0). { intros ->. rewrite Rabs_R0 in Hr. rewrite <- Hr in H. lra. } apply sqrt_lt_R0. exact (sumR_sq_pos _ r Hin H0).
Qed.
Lemma residumax_le l r : In r l -> Rabs r <= residumax l.
Proof. intros H. apply maxl_ge. apply in_map. exact H. Qed.

Section Sub.
Variable sp : subproblem.
Local Notation m := (sp_m sp).
Local Notation n := (sp_n sp).
Hypothesis Hwp : well_posed sp.

(** ** descent *)
Lemma dl_sum_nth (F : R -> list R) (G : list R) : (forall t, length (F t) = length G) -> forall H,
  (forall k, (k < length G)%nat -> derivable_pt_lim (fun t => nth k (F t) 0) 0 (H k)) ->
  derivable_pt_lim (fun t => sumR (F t) (fun r => r * r)) 0 (sumN (length G) (fun k => 2 * (nth k (F 0) 0 * H k))).
Proof.
  intros HL H HD. apply (dl_eq (fun t => sumN (length G) (fun k => nth k (F t) 0 * nth k (F t) 0)) _ 0 (sumN (length G) (fun k => H k * nth k (F 0) 0 + nth k (F 0) 0 * H k))).
  - apply dl_sumN. intros k Hk. exact (dl_mul (fun t => nth k (F t) 0) (fun t => nth k (F t) 0) 0 _ _ (HD k Hk) (HD k Hk)).
  - intros t. rewrite (sumR_nth (F t) 0), HL. reflexivity.
  - apply sumN_ext. intros k _. ring.
Qed.
Lemma moved_0 it d : moved it 0 d = it.
Proof. destruct it. unfold moved. cbn. f_equal; try (extensionality j); ring. Qed.
Lemma newton_descent epsi it d : newton_direction sp epsi it d ->
  derivable_pt_lim (fun t => sumR (residu sp epsi (moved it t d)) (fun r => r * r)) 0 (- 2 * sumR (residu sp epsi it) (fun r => r * r)).
Proof.
  intros H. eapply dl_eq; [apply (dl_sum_nth (fun t => residu sp epsi (moved it t d)) (residu sp epsi it)) with (H := fun k => - nth k (residu sp epsi it) 0)|reflexivity|].
  - intros t. unfold residu. rewrite !app_length, !entries_length. reflexivity.
  - exact H.
  - rewrite moved_0. rewrite (sumR_nth (residu sp epsi it) 0), <- sumN_scal. apply sumN_ext. intros k _. ring.
Qed.
Lemma descent_exists f l : derivable_pt_lim f 0 l -> l < 0 -> exists t0, 0 < t0 /\ forall t, 0 < t < t0 -> f t < f 0.
Proof.
  intros H Hl. destruct (H (- l) ltac:(lra)) as (dl & Hd). exists dl. split; [apply cond_pos|]. intros t Ht.
  specialize (Hd t ltac:(lra)). rewrite Rabs_right in Hd by lra. specialize (Hd ltac:(lra)). rewrite Rplus_0_l in Hd. apply Rabs_def2 in Hd as [Hd _].
  assert ((f t - f 0) / t < 0) by lra. apply (Rmult_lt_compat_r t) in H0; [|lra]. unfold Rdiv in H0. rewrite Rmult_assoc, Rinv_l in H0 by lra. lra.
Qed.
Lemma newton_norm_decreases epsi it d : newton_direction sp epsi it d -> 0 < residumax (residu sp epsi it) ->
  exists t0, 0 < t0 /\ forall t, 0 < t < t0 -> norm2 (residu sp epsi (moved it t d)) < norm2 (residu sp epsi it).
Proof.
  intros H Hp. apply residumax_norm in Hp.
  assert (Hs : 0 < sumR (residu sp epsi it) (fun r => r * r)). { destruct (Rlt_dec 0 (sumR (residu sp epsi it) (fun r => r * r))); [assumption|]. unfold norm2 in Hp. rewrite sqrt_neg_0 in Hp; lra. }
  destruct (descent_exists _ _ (newton_descent epsi it d H) ltac:(lra)) as (t0 & Ht0 & Hd). exists t0. split; [exact Ht0|]. intros t Ht. specialize (Hd t Ht). rewrite moved_0 in Hd.
  unfold norm2. apply sqrt_lt_1_alt. split; [apply sumR_nonneg; intros; apply Rle_0_sqr|exact Hd].
Qed.

(** ** what the loops return *)
Section Loops.
Variable solve : nat -> mtx -> vct -> res vct.
Hypothesis Hs : sound_solver solve.
Lemma newton_loop_runs k epsi it : 0 < epsi -> interior sp it ->
  forall rs nrm, rs = residu sp epsi it -> nrm = norm2 rs ->
  exists it' k', newton_loop solve sp k epsi it rs nrm = Ok it' /\ interior sp it' /\ (k' <= k)%nat /\ damped_newton sp epsi k' it it' /\
  (residumax (residu sp epsi it') <= 0.9 * epsi \/ k' = k).
Proof.
  intros He. revert it. induction k as [|k IH]; intros it Hi rs nrm Hrs Hn; cbn [newton_loop]; destruct (Rltb (0.9 * epsi) (residumax rs)) eqn:E.
  - exists it, 0%nat. split; [reflexivity|]. split; [exact Hi|]. split; [lia|]. split; [constructor|]. right. reflexivity.
  - exists it, 0%nat. split; [reflexivity|]. split; [exact Hi|]. split; [lia|]. split; [constructor|]. right. reflexivity.
  - apply Rltb_true in E. destruct (direction_defined sp Hwp epsi it Hi solve Hs) as (d & Hd). pose proof (newton_direction_exact sp Hwp epsi it Hi solve d Hs Hd) as Hnd.
    destruct (newton_step solve sp epsi it rs nrm) as [[[it1 rs1] nrm1]|e] eqn:E1; [|unfold newton_step in E1; rewrite Hd in E1; discriminate].
    cbn [bind]. destruct (newton_step_interior sp solve epsi it rs nrm Hi Hrs Hn it1 rs1 nrm1 E1) as (H1 & H2 & H3).
    assert (Hnrm : 0 < nrm) by (rewrite Hn; apply residumax_norm; lra).
    destruct (first_step_bound sp it d) as (Hfs & _).
    destruct (line_search_moves sp 50 epsi it d nrm (2 * nrm) (first_step sp it d) it rs ltac:(lra) ltac:(lia) ltac:(lra)) as (t & Ht & Hls).
    unfold newton_step in E1. rewrite Hd in E1. remember 50%nat as fifty. cbn [bind] in E1. injection E1 as E1. rewrite E1 in Hls. destruct Hls as [Hm Hdec].
    destruct (IH it1 H1 rs1 nrm1 H2 H3) as (it' & k' & Ha & Hb & Hc & Hdn & Hlast). exists it', (S k'). split; [exact Ha|]. split; [exact Hb|]. split; [lia|]. split.
    + apply (dn_step sp epsi k' it d t it' Hnd); [lra| |rewrite <- Hm; exact Hdn]. rewrite <- Hm, <- H2, <- H3, <- Hrs, <- Hn.
      destruct Hdec as [Hdec|(t0 & Hq & ->)]; [left; exact Hdec|right; subst fifty; cbn [Nat.sub] in Hq; rewrite Hq; lra].
    + destruct Hlast; [left; assumption|right; lia].
  - apply Rltb_false in E. exists it, 0%nat. split; [reflexivity|]. split; [exact Hi|]. split; [lia|]. split; [constructor|]. left. rewrite <- Hrs. exact E.
Qed.
Lemma outer_runs k emin epsi it : 0 < epsi -> interior sp it -> (forall j, (j < k)%nat -> emin < epsi * 0.1 ^ j) -> epsi * 0.1 ^ k <= emin -> (0 < k)%nat ->
  exists it1 it2 p, outer_loop solve sp k emin epsi it = Some (Ok it2) /\ interior sp it1 /\ interior sp it2 /\ (p <= 200)%nat /\
  damped_newton sp (epsi * 0.1 ^ (k - 1)) p it1 it2 /\ (residumax (residu sp (epsi * 0.1 ^ (k - 1)) it2) <= 0.9 * (epsi * 0.1 ^ (k - 1)) \/ p = 200%nat).
Proof.
  revert epsi it. induction k as [|k IH]; intros epsi it He Hi Hlo Hhi Hk; [lia|]. cbn [outer_loop].
  assert (E : Rltb emin epsi = true) by (apply Rltb_true; specialize (Hlo 0%nat ltac:(lia)); cbn in Hlo; lra). rewrite E.
  destruct (newton_loop_runs 200 epsi it He Hi _ _ eq_refl eq_refl) as (it1 & p & Ha & Hb & Hc & Hd & Hf). rewrite Ha.
  destruct k as [|k].
  - exists it, it1, p. split.
    + cbn [outer_loop]. replace (Rltb emin (0.1 * epsi)) with false; [reflexivity|]. symmetry. apply Rltb_false. cbn in Hhi. lra.
    + cbn [Nat.sub pow]. rewrite Rmult_1_r. auto.
  - destruct (IH (0.1 * epsi) it1) as (i1 & i2 & p' & H1 & H2 & H3 & H4 & H5 & H6).
    + lra.
    + exact Hb.
    + intros j Hj. specialize (Hlo (S j) ltac:(lia)). cbn [pow] in Hlo. lra.
    + cbn [pow] in *. lra.
    + lia.
    + exists i1, i2, p'. cbn [Nat.sub] in *. rewrite Nat.sub_0_r in *. replace (0.1 * epsi * 0.1 ^ k) with (epsi * 0.1 ^ S k) in H5, H6 by (cbn [pow]; ring). repeat (split; [assumption|]). assumption.
Qed.
Lemma subsolv_runs fuel : (7 <= fuel)%nat -> exists it1 it2 p, subsolv solve sp fuel epsimin = Some (Ok it2) /\ interior sp it1 /\ interior sp it2 /\ (p <= 200)%nat /\
  damped_newton sp (1 * 0.1 ^ 6) p it1 it2 /\ (residumax (residu sp (1 * 0.1 ^ 6) it2) <= 0.9 * (1 * 0.1 ^ 6) \/ p = 200%nat).
Proof.
  intros Hf. destruct (outer_runs 7 epsimin 1 (start sp)) as (i1 & i2 & p & H1 & H).
  - lra.
  - exact (start_interior sp Hwp).
  - intros j Hj. unfold epsimin. do 7 (destruct j as [|j]; [cbn [pow]; lra|]). lia.
  - unfold epsimin. cbn [pow]. lra.
  - lia.
  - exists i1, i2, p. split; [exact (outer_loop_more sp solve 7 fuel epsimin 1 (start sp) _ H1 Hf)|exact H].
Qed.
End Loops.

(** ** optimality *)
Lemma lagrangian_split it x : sub_lagrangian sp (lam_ it) x = sumN n (fun j => plam sp it j / (upp sp j - x j) + qlam sp it j / (x j - low sp j)).
Proof.
  unfold sub_lagrangian, f_approx, g_approx, approx, plam, qlam.
  rewrite (sumN_ext m _ (fun i => sumN n (fun j => lam_ it i * (PP sp i j / (upp sp j - x j) + QQ sp i j / (x j - low sp j))))) by (intros i _; rewrite sumN_scal; reflexivity).
  rewrite sumN_swap, <- sumN_add. apply sumN_ext. intros j _.
  rewrite (sumN_ext m _ (fun i => PP sp i j * lam_ it i * / (upp sp j - x j) + QQ sp i j * lam_ it i * / (x j - low sp j))) by (intros i _; unfold Rdiv; ring).
  rewrite sumN_add, !sumN_scal_r. unfold Rdiv. ring.
Qed.
Lemma approx_derivative (P Q lo up x : vct) j : (j < n)%nat -> lo j < x j < up j ->
  derivable_pt_lim (fun t => approx n P Q lo up (set_var x j t)) (x j) (P j / ((up j - x j) * (up j - x j)) - Q j / ((x j - lo j) * (x j - lo j))).
Proof.
  intros Hj Hx. unfold approx.
  apply (dl_eq (fun t => sumN n (fun k => P k / (up k - set_var x j t k) + Q k / (set_var x j t k - lo k))) _ (x j)
    (sumN n (fun k => if Nat.eqb k j then P k / ((up k - x k) * (up k - x k)) - Q k / ((x k - lo k) * (x k - lo k)) else 0))); [|reflexivity|exact (sumN_pick n j (fun k => P k / ((up k - x k) * (up k - x k)) - Q k / ((x k - lo k) * (x k - lo k))) Hj)].
  apply dl_sumN. intros k _. unfold set_var. destruct (Nat.eqb k j) eqn:E; [|apply dl_const]. apply Nat.eqb_eq in E as ->.
  assert (D1 : derivable_pt_lim (fun t => up j - t) (x j) (0 - 1)) by (apply dl_sub; [apply dl_const|apply dl_id]).
  assert (D2 : derivable_pt_lim (fun t => t - lo j) (x j) (1 - 0)) by (apply dl_sub; [apply dl_id|apply dl_const]).
  eapply dl_eq; [apply dl_add; [apply (derivable_pt_lim_div (fun _ => P j) _ (x j) 0 _ (dl_const _ _) D1)|apply (derivable_pt_lim_div (fun _ => Q j) _ (x j) 0 _ (dl_const _ _) D2)]|reflexivity|]; unfold Rsqr; [lra|lra|]. field. lra.
Qed.
Lemma lagrangian_derivative it j : interior sp it -> (j < n)%nat ->
  derivable_pt_lim (fun t => sub_lagrangian sp (lam_ it) (set_var (x_ it) j t)) (x_ it j) (dpsidx sp it j).
Proof.
  intros Hi Hj. eapply dl_eq; [apply (approx_derivative (plam sp it) (qlam sp it) (low sp) (upp sp) (x_ it) j Hj)|intros t; rewrite lagrangian_split; reflexivity|reflexivity].
  pose proof (ux_pos sp Hwp it Hi j Hj). pose proof (xl_pos sp Hwp it Hi j Hj). lra.
Qed.
Lemma gvec_approx it i : gvec sp it i = g_approx sp i (x_ it).
Proof. unfold gvec, g_approx, approx. rewrite <- sumN_add. apply sumN_ext. intros j _. unfold Rdiv. ring. Qed.
Lemma near_kkt_of_residual epsi tol it : interior sp it -> residumax (residu sp epsi it) <= tol -> near_kkt sp epsi tol it.
Proof.
  intros Hi H. assert (B : forall r, In r (residu sp epsi it) -> Rabs r <= tol) by (intros r Hr; pose proof (residumax_le _ r Hr); lra). unfold residu in B.
  split; [|split; [|split]].
  - intros j Hj. split; [|split].
    + exists (dpsidx sp it j). split; [exact (lagrangian_derivative it j Hi Hj)|]. apply (B (rex sp it j)). rewrite !in_app_iff. left. apply (in_entries n (rex sp it) j Hj).
    + apply (B (rexsi sp epsi it j)). rewrite !in_app_iff. do 4 right. left. apply (in_entries n (rexsi sp epsi it) j Hj).
    + apply (B (reeta sp epsi it j)). rewrite !in_app_iff. do 5 right. left. apply (in_entries n (reeta sp epsi it) j Hj).
  - intros i Hm. split; [|split; [|split]].
    + apply (B (rey sp it i)). rewrite !in_app_iff. do 1 right. left. apply (in_entries m (rey sp it) i Hm).
    + rewrite <- gvec_approx. apply (B (relam sp it i)). rewrite !in_app_iff. do 3 right. left. apply (in_entries m (relam sp it) i Hm).
    + apply (B (remu epsi it i)). rewrite !in_app_iff. do 6 right. left. apply (in_entries m (remu epsi it) i Hm).
    + apply (B (res_ epsi it i)). rewrite !in_app_iff. do 8 right. apply (in_entries m (res_ epsi it) i Hm).
  - apply (B (rez sp it)). rewrite !in_app_iff. do 2 right. left. left. reflexivity.
  - apply (B (rezet epsi it)). rewrite !in_app_iff. do 7 right. left. left. reflexivity.
Qed.
Lemma recip_tangent u x x' : 0 < u - x -> 0 < u - x' -> 1 / (u - x') >= 1 / (u - x) + (x' - x) / ((u - x) * (u - x)).
Proof.
  intros H1 H2. assert (E : 1 / (u - x') - (1 / (u - x) + (x' - x) / ((u - x) * (u - x))) = (x' - x) * (x' - x) / ((u - x') * ((u - x) * (u - x)))) by (field; lra).
  assert (0 <= (x' - x) * (x' - x) / ((u - x') * ((u - x) * (u - x)))). { apply Rmult_le_pos; [apply Rle_0_sqr|apply Rlt_le, Rinv_0_lt_compat; repeat apply Rmult_lt_0_compat; assumption]. } lra.
Qed.
Lemma abs_le_inv a b : Rabs a <= b -> - b <= a <= b.
Proof. intros H. pose proof (Rle_abs a). pose proof (Rle_abs (- a)). rewrite Rabs_Ropp in *. lra. Qed.
Lemma bounded_product r t w : Rabs r <= t -> - (t * Rabs w) <= r * w.
Proof.
  intros H. assert (Rabs (r * w) <= t * Rabs w) by (rewrite Rabs_mult; apply Rmult_le_compat_r; [apply Rabs_pos|exact H]). pose proof (Rle_abs (- (r * w))). rewrite Rabs_Ropp in H1. lra.
Qed.
Lemma near_optimal epsi tol it x y z : 0 <= tol -> interior sp it -> near_kkt sp epsi tol it -> sub_feasible sp x y z ->
  sub_cost sp (x_ it) (y_ it) (z_ it) <= sub_cost sp x y z + (epsi + tol) * INR (2 * n + 2 * m + 1)
  + tol * (sumN n (fun j => Rabs (x j - x_ it j)) + sumN m (fun i => Rabs (y i - y_ it i) + lam_ it i) + Rabs (z - z_ it)).
Proof.
  intros Ht Hi (KX & KY & KZ & KZz) (FX & FY & FZ & FG).
  set (lam := lam_ it) in *.
  (* Lagrangian is below the cost at a feasible point *)
  assert (L1 : f_approx sp x + sumN m (fun i => lam i * (g_approx sp i x - aa sp i * z - y i - bb sp i)) <= f_approx sp x).
  { assert (sumN m (fun i => lam i * (g_approx sp i x - aa sp i * z - y i - bb sp i)) <= 0); [|lra].
    rewrite <- (sumN_zero m (fun _ => 0)) by reflexivity. apply sumN_le. intros i Hm. pose proof (lam_pos sp it Hi i Hm) as Hl. fold lam in Hl. specialize (FG i Hm). nra. }
  (* convexity in x *)
  assert (L2 : sub_lagrangian sp lam (x_ it) + sumN n (fun j => dpsidx sp it j * (x j - x_ it j)) <= sub_lagrangian sp lam x).
  { unfold lam. rewrite !lagrangian_split, <- sumN_add. apply sumN_le. intros j Hj. destruct (wp_b sp Hwp j Hj) as (W1 & W2 & W3 & _). destruct (FX j Hj) as [X1 X2].
    pose proof (ux_pos sp Hwp it Hi j Hj) as Hu. pose proof (xl_pos sp Hwp it Hi j Hj) as Hl. pose proof (plam_pos sp Hwp it Hi j Hj) as Hp. pose proof (qlam_pos sp Hwp it Hi j Hj) as Hq.
    pose proof (recip_tangent (upp sp j) (x_ it j) (x j) Hu ltac:(lra)) as T1.
    pose proof (recip_tangent (- low sp j) (- x_ it j) (- x j) ltac:(lra) ltac:(lra)) as T2.
    replace (- low sp j - - x j) with (x j - low sp j) in T2 by ring. replace (- low sp j - - x_ it j) with (x_ it j - low sp j) in T2 by ring. replace (- x j - - x_ it j) with (- (x j - x_ it j)) in T2 by ring.
    unfold dpsidx.
    assert (P1 : plam sp it j * (1 / (upp sp j - x j)) >= plam sp it j * (1 / (upp sp j - x_ it j) + (x j - x_ it j) / ((upp sp j - x_ it j) * (upp sp j - x_ it j)))) by (apply Rmult_ge_compat_l; lra).
    assert (P2 : qlam sp it j * (1 / (x j - low sp j)) >= qlam sp it j * (1 / (x_ it j - low sp j) + - (x j - x_ it j) / ((x_ it j - low sp j) * (x_ it j - low sp j)))) by (apply Rmult_ge_compat_l; lra).
    unfold Rdiv in *. lra. }
  (* first-order terms *)
  assert (L3 : - sumN n (fun j => 2 * (epsi + tol) + tol * Rabs (x j - x_ it j)) <= sumN n (fun j => dpsidx sp it j * (x j - x_ it j))).
  { rewrite <- sumN_opp. apply sumN_le. intros j Hj. destruct (KX j Hj) as ((g & Dg & Bg) & B1 & B2). pose proof (dl_unique _ _ _ _ Dg (lagrangian_derivative it j Hi Hj)) as ->.
    destruct (FX j Hj) as [X1 X2]. destruct (proj1 Hi j Hj) as ([I1 I2] & I3 & I4).
    pose proof (bounded_product _ tol (x j - x_ it j) Bg) as BP. apply abs_le_inv in B1, B2.
    assert (M1 : xsi_ it j * (x j - x_ it j) >= - (xsi_ it j * (x_ it j - alfa sp j))) by nra.
    assert (M2 : - eta_ it j * (x j - x_ it j) >= - (eta_ it j * (beta sp j - x_ it j))) by nra. nra. }
  assert (L4 : - sumN m (fun i => (epsi + tol) + tol * Rabs (y i - y_ it i)) <=
     sumN m (fun i => (cc sp i * y i + dd sp i * (y i * y i) / 2 - lam i * y i) - (cc sp i * y_ it i + dd sp i * (y_ it i * y_ it i) / 2 - lam i * y_ it i))).
  { rewrite <- sumN_opp. apply sumN_le. intros i Hm. destruct (KY i Hm) as (B1 & _ & B2 & _). pose proof (proj2 (proj2 (proj2 Hwp)) i Hm) as Hd. specialize (FY i Hm).
    pose proof (mu_pos sp it Hi i Hm) as Hmu. pose proof (y_pos sp it Hi i Hm) as Hy. fold lam in B1.
    pose proof (bounded_product _ tol (y i - y_ it i) B1) as BP. apply abs_le_inv in B2. assert (0 <= mu_ it i * y i) by (apply Rmult_le_pos; lra). pose proof (Rle_0_sqr (y i - y_ it i)) as Sq. unfold Rsqr in Sq.
    assert (0 <= dd sp i * ((y i - y_ it i) * (y i - y_ it i))) by (apply Rmult_le_pos; lra). nra. }
  assert (L5 : - ((epsi + tol) + tol * Rabs (z - z_ it)) <= (a0 sp - sumN m (fun i => aa sp i * lam i)) * (z - z_ it)).
  { pose proof (bounded_product _ tol (z - z_ it) KZ) as BP. apply abs_le_inv in KZz. pose proof (zet_pos sp it Hi). assert (0 <= zet_ it * z) by (apply Rmult_le_pos; lra). fold lam in BP. nra. }
  assert (L6 : - sumN m (fun i => tol * lam i + (epsi + tol)) <= sumN m (fun i => lam i * (g_approx sp i (x_ it) - aa sp i * z_ it - y_ it i - bb sp i))).
  { rewrite <- sumN_opp. apply sumN_le. intros i Hm. destruct (KY i Hm) as (_ & B1 & _ & B2). pose proof (lam_pos sp it Hi i Hm) as Hl. fold lam in Hl, B2. apply abs_le_inv in B1, B2.
    replace (g_approx sp i (x_ it) - aa sp i * z_ it - y_ it i - bb sp i) with ((g_approx sp i (x_ it) - aa sp i * z_ it - y_ it i + s_ it i - bb sp i) - s_ it i) by ring.
    set (q := g_approx sp i (x_ it) - aa sp i * z_ it - y_ it i + s_ it i - bb sp i) in *. nra. }
  (* assemble *)
  assert (E1 : forall u v w, f_approx sp u + sumN m (fun i => lam i * (g_approx sp i u - aa sp i * w - v i - bb sp i))
      = sub_lagrangian sp lam u - sumN m (fun i => aa sp i * lam i) * w - sumN m (fun i => lam i * v i) - sumN m (fun i => lam i * bb sp i)).
  { intros u v w. unfold sub_lagrangian. rewrite <- sumN_scal_r. rewrite (sumN_ext m (fun i => lam i * (g_approx sp i u - aa sp i * w - v i - bb sp i)) (fun i => lam i * g_approx sp i u - aa sp i * lam i * w - lam i * v i - lam i * bb sp i)) by (intros; ring).
    rewrite !sumN_sub. ring. }
  rewrite E1 in L1.
  assert (E2 : sumN m (fun i => lam i * (g_approx sp i (x_ it) - aa sp i * z_ it - y_ it i - bb sp i))
    = sub_lagrangian sp lam (x_ it) - f_approx sp (x_ it) - sumN m (fun i => aa sp i * lam i) * z_ it - sumN m (fun i => lam i * y_ it i) - sumN m (fun i => lam i * bb sp i)) by (pose proof (E1 (x_ it) (y_ it) (z_ it)); lra).
  rewrite E2 in L6. unfold sub_cost. rewrite !sumN_sub in L4.
  rewrite (sumN_add n (fun j => 2 * (epsi + tol)) (fun j => tol * Rabs (x j - x_ it j))), (sumN_scal n tol), sumN_const in L3.
  rewrite (sumN_add m (fun i => epsi + tol) (fun i => tol * Rabs (y i - y_ it i))), sumN_scal, sumN_const in L4.
  rewrite (sumN_add m (fun i => tol * lam i) (fun i => epsi + tol)), sumN_scal, sumN_const in L6.
  rewrite (sumN_add m (fun i => Rabs (y i - y_ it i)) lam).
  replace (INR (2 * n + 2 * m + 1)) with (2 * INR n + 2 * INR m + 1) by (rewrite !plus_INR, !mult_INR; cbn; ring). lra.
Qed.
End Sub.
Close Scope R_scope.
