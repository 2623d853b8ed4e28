(** * Crystal plasticity: slip, hardening, the local solve, the stress. *)
From Coq Require Import Lra Lia FunctionalExtensionality.
From Verif Require Import Prelude PreludeFacts FemModel FemFacts FemSpec MatModel MatSpec MatProofs MatHyperProofs CrysModel CrysSpec CrysTensorProofs.
Open Scope R_scope.

Lemma Rltb_true x y : Rltb x y = true <-> x < y.
Proof. unfold Rltb. destruct (Rlt_dec x y); split; auto; try discriminate; contradiction. Qed.
Lemma Rltb_false x y : Rltb x y = false <-> y <= x.
Proof. unfold Rltb. destruct (Rlt_dec x y); split; try discriminate; auto; lra. Qed.
Lemma sgn_mul x : x * sgn x = Rabs x.
Proof.
  unfold sgn. destruct (Rltb 0 x) eqn:E1; [apply Rltb_true in E1; rewrite Rabs_right; lra|]. destruct (Rltb x 0) eqn:E2; [apply Rltb_true in E2; rewrite Rabs_left; lra|].
  apply Rltb_false in E1, E2. replace x with 0 by lra. rewrite Rabs_R0. ring.
Qed.
Lemma sgn_zero : sgn 0 = 0.
Proof. unfold sgn. replace (Rltb 0 0) with false; [reflexivity|]. symmetry. apply Rltb_false. lra. Qed.
Lemma sgn_pos x : 0 < x -> sgn x = 1.
Proof. intros H. unfold sgn. apply Rltb_true in H. now rewrite H. Qed.
Lemma sgn_neg x : x < 0 -> sgn x = -1.
Proof. intros H. unfold sgn. replace (Rltb 0 x) with false; [apply Rltb_true in H; now rewrite H|]. symmetry. apply Rltb_false. lra. Qed.
Lemma abspow_nonneg x a : 0 <= abspow x a.
Proof. unfold abspow. destruct (Reqb x 0); [lra|]. left. apply exp_pos. Qed.
Lemma abspow_zero a : abspow 0 a = 0.
Proof. unfold abspow. now replace (Reqb 0 0) with true by (symmetry; now apply Reqb_true). Qed.
Lemma abspow_pos x a : 0 < x -> abspow x a = Rpower x a.
Proof. intros H. unfold abspow. replace (Reqb x 0) with false by (symmetry; apply Reqb_false; lra). now rewrite Rabs_right by lra. Qed.
Lemma abspow_le_self x a : 1 <= a -> 0 <= x <= 1 -> abspow x a <= x.
Proof.
  intros Ha (Hx & Hx1). destruct (Req_dec x 0) as [->|Hn]; [rewrite abspow_zero; lra|]. rewrite abspow_pos by lra. rewrite <- (Rpower_1 x) at 2 by lra. unfold Rpower.
  destruct (Req_dec x 1) as [->|H1]; [rewrite ln_1, !Rmult_0_r; lra|].
  assert (ln x < 0) by (rewrite <- ln_1; apply ln_increasing; lra). assert (a * ln x <= 1 * ln x) by (apply Rmult_le_compat_neg_l with (r := ln x) in Ha; lra).
  destruct (Req_dec (a * ln x) (1 * ln x)) as [->|Hne]; [lra|]. left. apply exp_increasing. lra.
Qed.

(** ** slip *)
Section Slip.
Variables (rows : list slip_row) (dt : R) (s : crystal).
Let n := length rows.
Lemma gamma_tau S a : 0 <= dt -> 0 <= gamma_inc rows dt s S a * tau rows s S a.
Proof.
  intros H. unfold gamma_inc. replace (ao * dt * abspow (tau rows s S a / slip_resistance s a) (1 / xm) * sgn (tau rows s S a) * tau rows s S a)
    with (ao * dt * abspow (tau rows s S a / slip_resistance s a) (1 / xm) * (tau rows s S a * sgn (tau rows s S a))) by ring. rewrite sgn_mul.
  repeat apply Rmult_le_pos; [unfold ao; lra|exact H|apply abspow_nonneg|apply Rabs_pos].
Qed.
Lemma gamma_zero S a : tau rows s S a = 0 -> gamma_inc rows dt s S a = 0.
Proof. intros H. unfold gamma_inc. rewrite H, sgn_zero. ring. Qed.
Lemma plastic_work S : ddot 3 S (L_plastic_inc rows dt s S) = sumN n (fun a => gamma_inc rows dt s S a * tau rows s S a).
Proof.
  unfold ddot, L_plastic_inc. fold n.
  transitivity (sumN 3 (fun i => sumN 3 (fun j => sumN n (fun a => S i j * (gamma_inc rows dt s S a * slip_tensor rows s a i j))))).
  { apply sumN_ext. intros i _. apply sumN_ext. intros j _. now rewrite sumN_scal. }
  transitivity (sumN n (fun a => sumN 3 (fun i => sumN 3 (fun j => S i j * (gamma_inc rows dt s S a * slip_tensor rows s a i j))))).
  { transitivity (sumN 3 (fun i => sumN n (fun a => sumN 3 (fun j => S i j * (gamma_inc rows dt s S a * slip_tensor rows s a i j))))); [apply sumN_ext; intros i _; apply sumN_swap|apply sumN_swap]. }
  apply sumN_ext. intros a _. unfold tau, ddot. rewrite <- sumN_scal. apply sumN_ext. intros i _. rewrite <- sumN_scal. apply sumN_ext. intros j _. ring.
Qed.
Lemma dissipation S : 0 <= dt -> 0 <= ddot 3 S (L_plastic_inc rows dt s S).
Proof. intros H. rewrite plastic_work. apply sumN_nonneg. intros a _. now apply gamma_tau. Qed.
Lemma schmid_outer r : forall i j, schmid r i j = (snd r i / len3 (snd r)) * (fst r j / len3 (fst r)).
Proof. reflexivity. Qed.
Lemma slip_trace a : (a < n)%nat -> Forall slip_system rows -> orthogonal 3 (rot_mat s) -> trace 3 (slip_tensor rows s a) = 0.
Proof.
  intros Ha Hr HQ. rewrite Forall_forall in Hr. set (r := nth a rows (fun _ => 0, fun _ => 0)). assert (Hin : In r rows) by (apply nth_In; exact Ha). destruct (Hr r Hin) as (Hp & _).
  transitivity (dot3 (apply3 (rot_mat s) (fun i => snd r i / len3 (snd r))) (apply3 (rot_mat s) (fun j => fst r j / len3 (fst r)))).
  - unfold trace, dot3. apply sumN_ext. intros i _. unfold slip_tensor. fold r. rewrite <- rotate2_outer. reflexivity.
  - rewrite dot_apply by exact HQ. transitivity (dot3 (fst r) (snd r) / len3 (snd r) / len3 (fst r)); [unfold dot3, Rdiv; sums; ring|rewrite Hp; unfold Rdiv; ring].
Qed.
Lemma L_trace S : Forall slip_system rows -> orthogonal 3 (rot_mat s) -> trace 3 (L_plastic_inc rows dt s S) = 0.
Proof.
  intros Hr HQ. unfold trace, L_plastic_inc. rewrite sumN_swap. fold n. transitivity (sumN n (fun _ => 0)); [|apply sumN_zero; reflexivity]. apply sumN_ext. intros a Ha.
  rewrite sumN_scal. fold (trace 3 (slip_tensor rows s a)). rewrite (slip_trace a Ha Hr HQ). ring.
Qed.
Lemma det_rank_one c u v : det 3 (fun i j => eye i j - c * (u i * v j)) = 1 - c * dot3 u v.
Proof. unfold det, eye, dot3. sums. cbn [Nat.eqb]. ring. Qed.
Lemma det_slip S a : (a < n)%nat -> Forall slip_system rows -> orthogonal 3 (rot_mat s) -> only_active rows dt s S a ->
  det 3 (Fp_inv_new rows dt s S) = det 3 (Fp_inv s).
Proof.
  intros Ha Hr HQ Ho. unfold Fp_inv_new. rewrite det_matmul by (unfold small_dim; auto). set (r := nth a rows (fun _ => 0, fun _ => 0)). set (u := apply3 (rot_mat s) (fun i => snd r i / len3 (snd r))). set (v := apply3 (rot_mat s) (fun j => fst r j / len3 (fst r))).
  rewrite (det_ext3 (fun i j => eye i j - L_plastic_inc rows dt s S i j) (fun i j => eye i j - gamma_inc rows dt s S a * (u i * v j))).
  - rewrite det_rank_one. pose proof (slip_trace a Ha Hr HQ) as Ht. assert (E : trace 3 (slip_tensor rows s a) = dot3 u v).
    { unfold trace, dot3. apply sumN_ext. intros i _. unfold slip_tensor. fold r. unfold u, v. rewrite <- rotate2_outer. reflexivity. }
    rewrite <- E, Ht. ring.
  - intros i j _ _. f_equal. unfold L_plastic_inc. fold n. transitivity (sumN n (fun b => if Nat.eqb b a then gamma_inc rows dt s S b * slip_tensor rows s b i j else 0)).
    + apply sumN_ext. intros b Hb. destruct (Nat.eqb_spec b a) as [->|Hne]; [reflexivity|]. rewrite (Ho b Hb Hne). ring.
    + rewrite (sumN_pick n a (fun b => gamma_inc rows dt s S b * slip_tensor rows s b i j) Ha). f_equal. unfold slip_tensor. fold r. unfold u, v. rewrite <- rotate2_outer. reflexivity.
Qed.
End Slip.

(** ** the hardening matrix *)
Lemma fold_err {A B} (f : A -> B -> res A) l e : fold_left (fun q x => bind q (fun q => f q x)) l (Err e) = Err e.
Proof. induction l; [reflexivity|exact IHl]. Qed.
Definition q_step (n : nat) (q : res (nat -> nat -> R)) (ij : nat * nat) : res (nat -> nat -> R) :=
  bind q (fun q => if Nat.ltb (snd ij) n then Ok (fun a b => if Nat.eqb a (fst ij) && Nat.eqb b (snd ij) then 1 else q a b) else Err IndexError).
Lemma q_fold n l : forall q, (forall x, In x l -> (snd x < n)%nat) ->
  exists q', fold_left (q_step n) l (Ok q) = Ok q' /\ forall a b, (In (a, b) l -> q' a b = 1) /\ (~ In (a, b) l -> q' a b = q a b).
Proof.
  induction l as [|x r IH]; intros q H; [exists q; split; [reflexivity|]; intros; split; [intros []|reflexivity]|]. cbn [fold_left]. unfold q_step at 2. cbn [bind].
  replace (Nat.ltb (snd x) n) with true by (symmetry; apply Nat.ltb_lt, H; now left). destruct (IH (fun a b => if Nat.eqb a (fst x) && Nat.eqb b (snd x) then 1 else q a b)) as (q' & E & Hq); [intros y Hy; apply H; now right|].
  exists q'. split; [exact E|]. intros a b. destruct (Hq a b) as (H1 & H2). destruct (in_dec (fun p p' : nat * nat => ltac:(decide equality; apply Nat.eq_dec) : {p = p'} + {p <> p'}) (a, b) r) as [Hi|Hi].
  - split; [intros _; now apply H1|]. intros Hn. exfalso. apply Hn. now right.
  - rewrite (H2 Hi). split.
    + intros [->|Hi']; [cbn; now rewrite !Nat.eqb_refl|contradiction].
    + intros Hn. destruct (Nat.eqb_spec a (fst x)) as [Ea|]; [|reflexivity]. destruct (Nat.eqb_spec b (snd x)) as [Eb|]; [|reflexivity]. exfalso. apply Hn. left. destruct x; cbn in *. now subst.
Qed.
Lemma in_flat2 {A} n1 n2 (f : nat -> nat -> A) x : In x (flat2 n1 n2 f) <-> exists i j, (i < n1)%nat /\ (j < n2)%nat /\ f i j = x.
Proof.
  unfold flat2. rewrite in_flat_map. split.
  - intros (i & Hi & Hx). apply in_map_iff in Hx. destruct Hx as (j & <- & Hj). apply in_seq in Hi, Hj. exists i, j. repeat split; lia.
  - intros (i & j & Hi & Hj & <-). exists i. split; [apply in_seq; lia|]. apply in_map_iff. exists j. split; [reflexivity|apply in_seq; lia].
Qed.
Lemma q_matrix_ok r m : exists q, q_matrix r (3 * m) = Ok q /\ forall a b, (a < 3 * m)%nat -> (b < 3 * m)%nat -> q a b = if Nat.eqb (a / 3) (b / 3) then 1 else r.
Proof.
  set (l := flat2 (3 * m) 3 (fun i j => (i, i / 3 * 3 + j)%nat)). destruct (q_fold (3 * m) l (fun _ _ => r)) as (q & E & Hq).
  - intros x Hx. apply in_flat2 in Hx. destruct Hx as (i & j & Hi & Hj & <-). cbn [snd]. assert (i / 3 < m)%nat by (apply Nat.div_lt_upper_bound; lia). lia.
  - exists q. split; [exact E|]. intros a b Ha Hb. destruct (Hq a b) as (H1 & H2). destruct (Nat.eqb_spec (a / 3) (b / 3)) as [Eab|Hne].
    + apply H1. apply in_flat2. exists a, (b mod 3)%nat. split; [exact Ha|split; [apply Nat.mod_upper_bound; lia|]]. f_equal. rewrite Eab. pose proof (Nat.div_mod b 3 ltac:(lia)). lia.
    + apply H2. intros Hi. apply in_flat2 in Hi. destruct Hi as (i & j & Hi & Hj & Eij). injection Eij as -> Eb. apply Hne. rewrite <- Eb. rewrite Nat.add_comm, Nat.div_add, (Nat.div_small j 3) by lia. reflexivity.
Qed.
Lemma q_fold_err n l : (exists x, In x l /\ (n <= snd x)%nat) -> forall q, fold_left (q_step n) l (Ok q) = Err IndexError.
Proof.
  induction l as [|y r IH]; intros (x & Hx & Hn) q; [destruct Hx|]. cbn [fold_left]. unfold q_step at 2. cbn [bind]. destruct (Nat.ltb_spec (snd y) n) as [Hy|Hy].
  - destruct Hx as [->|Hx]; [lia|]. apply IH. now exists x.
  - apply (fold_err (fun q ij => if Nat.ltb (snd ij) n then Ok (fun a b => if Nat.eqb a (fst ij) && Nat.eqb b (snd ij) then 1 else q a b) else Err IndexError)).
Qed.
Lemma q_matrix_err r n : (n mod 3 <> 0)%nat -> q_matrix r n = Err IndexError.
Proof.
  intros H. pose proof (Nat.div_mod n 3 ltac:(lia)) as E. pose proof (Nat.mod_upper_bound n 3 ltac:(lia)). apply (q_fold_err n). exists ((n - 1)%nat, ((n - 1) / 3 * 3 + 2)%nat). split.
  - apply in_flat2. exists (n - 1)%nat, 2%nat. repeat split; lia.
  - cbn [snd]. replace ((n - 1) / 3)%nat with (n / 3)%nat; [lia|]. replace (n - 1)%nat with ((n mod 3 - 1) + n / 3 * 3)%nat by lia. rewrite Nat.div_add, (Nat.div_small (n mod 3 - 1)) by lia. lia.
Qed.

(** ** hardening *)
Section Hard.
Variables (rows : list slip_row) (qm : nat -> nat -> R) (dt : R) (s : crystal).
Let n := length rows.
Lemma rel_bounds g : 0 <= g <= t_sat -> 0 <= 1 - g / t_sat <= 1.
Proof.
  unfold t_sat. intros (H1 & H2). split.
  - assert (g / (1098 / 10) <= 1); [|lra]. apply Rmult_le_reg_r with (1098 / 10); [lra|]. unfold Rdiv at 1. rewrite Rmult_assoc, Rinv_l; lra.
  - assert (0 <= g / (1098 / 10)); [|lra]. apply Rmult_le_pos; [exact H1|]. left. apply Rinv_0_lt_compat. lra.
Qed.
Lemma sgn_nonneg x : 0 <= x -> 0 <= sgn x <= 1.
Proof. intros H. destruct (Req_dec x 0) as [->|]; [rewrite sgn_zero; lra|rewrite sgn_pos; lra]. Qed.
Lemma resistance_grows S a : (forall b, (b < n)%nat -> 0 <= slip_resistance s b <= t_sat) -> (forall a b, 0 <= qm a b) ->
  slip_resistance s a <= slip_resistance_new rows qm dt s S a.
Proof.
  intros Hg Hq. unfold slip_resistance_new. assert (0 <= g_inc rows qm dt s S a); [|lra]. apply sumN_nonneg. intros b Hb.
  assert (0 <= h_hard) by (unfold h_hard; lra). assert (0 <= sgn (1 - slip_resistance s b / t_sat)) by (apply sgn_nonneg, rel_bounds, Hg; exact Hb).
  pose proof (abspow_nonneg (1 - slip_resistance s b / t_sat) gss_a). pose proof (Rabs_pos (gamma_inc rows dt s S b)). pose proof (Hq a b).
  repeat (apply Rmult_le_pos; try assumption).
Qed.
Lemma resistance_uniform S : uniform_resistance n s -> (forall a a' b, (a < n)%nat -> (a' < n)%nat -> (b < n)%nat -> qm a b = qm a' b) -> uniform_resistance n (new_state rows qm dt s S).
Proof.
  intros Hu Hq a b Ha Hb. cbn. unfold slip_resistance_new. rewrite (Hu a b Ha Hb). f_equal. apply sumN_ext. intros c Hc. now rewrite (Hq a b c Ha Hb Hc).
Qed.
(** the total hardening of a step *)
Lemma resistance_saturates S a : uniform_resistance n s -> (forall b, (b < n)%nat -> 0 <= slip_resistance s b <= t_sat) -> (a < n)%nat -> (forall b, (b < n)%nat -> qm a b = 1) ->
  sumN n (fun b => h_hard * Rabs (gamma_inc rows dt s S b)) <= t_sat -> slip_resistance_new rows qm dt s S a <= t_sat.
Proof.
  intros Hu Hg Ha Hq Hs. unfold slip_resistance_new. set (g := slip_resistance s a). set (x := 1 - g / t_sat). assert (Hx : 0 <= x <= 1) by (apply rel_bounds, Hg; exact Ha).
  assert (Hgx : g + t_sat * x = t_sat) by (unfold x; field; unfold t_sat; lra).
  assert (E : g_inc rows qm dt s S a <= sumN n (fun b => h_hard * Rabs (gamma_inc rows dt s S b)) * x).
  { unfold g_inc. fold n. rewrite <- sumN_scal_r. apply sumN_le. intros b Hb. rewrite (Hq b Hb), (Hu b a Hb Ha). fold g x. rewrite Rmult_1_l. rewrite Rmult_assoc. apply Rmult_le_compat_l; [apply Rmult_le_pos; [unfold h_hard; lra|apply Rabs_pos]|].
    assert (abspow x gss_a <= x) by (apply abspow_le_self; [unfold gss_a; lra|exact Hx]). pose proof (abspow_nonneg x gss_a). pose proof (sgn_nonneg x (proj1 Hx)).
    apply Rle_trans with (abspow x gss_a * 1); [apply Rmult_le_compat_l; lra|lra]. }
  assert (sumN n (fun b => h_hard * Rabs (gamma_inc rows dt s S b)) * x <= t_sat * x) by (apply Rmult_le_compat_r; lra). lra.
Qed.
End Hard.

(** ** the local solve *)
Section Newton.
Variables (jac : (mat -> mat) -> mat -> tensor4) (solve : tensor4 -> mat -> mat) (f : mat -> mat).
Lemma search_point res_vec y d todo : forall relax crt, crt = f (axpy (2 * relax) d y) ->
  let (r, c) := line_search f res_vec y d todo relax crt in c = f (axpy (2 * r) d y).
Proof.
  induction todo as [|todo IH]; intros relax crt H; [exact H|]. cbn [line_search]. destruct (Rleb (fnorm res_vec) (fnorm crt)); [|exact H]. apply IH. do 2 f_equal. lra.
Qed.
Lemma search_result res_vec y d todo : forall relax crt, let (r, c) := line_search f res_vec y d todo relax crt in fnorm c < fnorm res_vec \/ r = relax * (/ 2) ^ todo.
Proof.
  induction todo as [|todo IH]; intros relax crt; [right; cbn; ring|]. cbn [line_search]. unfold Rleb. destruct (Rle_dec (fnorm res_vec) (fnorm crt)) as [H|H].
  - specialize (IH (/ 2 * relax) (f (axpy relax d y))). destruct (line_search f res_vec y d todo (/ 2 * relax) (f (axpy relax d y))) as (r, c). destruct IH as [IH|IH]; [now left|right]. rewrite IH. cbn. ring.
  - left. lra.
Qed.
Lemma search_power res_vec y d todo : forall relax crt, let (r, c) := line_search f res_vec y d todo relax crt in exists k, (k <= todo)%nat /\ r = relax * (/ 2) ^ k.
Proof.
  induction todo as [|todo IH]; intros relax crt; [exists 0%nat; split; [lia|cbn; ring]|]. cbn [line_search]. destruct (Rleb (fnorm res_vec) (fnorm crt)).
  - specialize (IH (/ 2 * relax) (f (axpy relax d y))). destruct (line_search f res_vec y d todo (/ 2 * relax) (f (axpy relax d y))) as (r, c). destruct IH as (k & Hk & ->). exists (S k). split; [lia|cbn; ring].
  - exists 0%nat. split; [lia|cbn; ring].
Qed.
Lemma search_first res_vec y d : line_search f res_vec y d 5 1 res_vec = line_search f res_vec y d 4 (/ 2 * 1) (f (axpy 1 d y)).
Proof. cbn [line_search]. replace (Rleb (fnorm res_vec) (fnorm res_vec)) with true; [reflexivity|]. symmetry. unfold Rleb. destruct (Rle_dec (fnorm res_vec) (fnorm res_vec)); [reflexivity|lra]. Qed.
(** a step goes from y to y + t y_inc with t = 1, 1/2, 1/4, 1/8 or 1/16; the residual goes down, or t = 1/16 *)
Lemma step_spec res_vec y : exists t, newton_step jac solve f (res_vec, y) = (f (axpy t (solve (jac f y) (fun i j => - res_vec i j)) y), axpy t (solve (jac f y) (fun i j => - res_vec i j)) y)
  /\ (exists k, (k <= 4)%nat /\ t = (/ 2) ^ k)
  /\ (fnorm (f (axpy t (solve (jac f y) (fun i j => - res_vec i j)) y)) < fnorm res_vec \/ t = / 16).
Proof.
  unfold newton_step. set (d := solve (jac f y) (fun i j => - res_vec i j)). rewrite search_first.
  pose proof (search_point res_vec y d 4 (/ 2 * 1) (f (axpy 1 d y))) as H1. pose proof (search_result res_vec y d 4 (/ 2 * 1) (f (axpy 1 d y))) as H2. pose proof (search_power res_vec y d 4 (/ 2 * 1) (f (axpy 1 d y))) as H3.
  destruct (line_search f res_vec y d 4 (/ 2 * 1) (f (axpy 1 d y))) as (r, c). rewrite H1 in *; try (do 2 f_equal; lra). exists (2 * r). split; [reflexivity|]. split.
  - destruct H3 as (k & Hk & ->). exists k. split; [exact Hk|field].
  - destruct H2 as [H2|H2]; [now left|right]. rewrite H2. field.
Qed.
Lemma search_all res_vec y d todo : forall relax crt, crt = f (axpy (2 * relax) d y) -> let (r, c) := line_search f res_vec y d todo relax crt in
  exists k, (k <= todo)%nat /\ r = relax * (/ 2) ^ k /\ c = f (axpy (2 * relax * (/ 2) ^ k) d y) /\ (fnorm c < fnorm res_vec \/ k = todo)
  /\ forall k', (k' < k)%nat -> fnorm res_vec <= fnorm (f (axpy (2 * relax * (/ 2) ^ k') d y)).
Proof.
  induction todo as [|todo IH]; intros relax crt H.
  - exists 0%nat. cbn [pow]. rewrite !Rmult_1_r. repeat split; auto; lia.
  - cbn [line_search]. unfold Rleb. destruct (Rle_dec (fnorm res_vec) (fnorm crt)) as [Hle|Hgt].
    + specialize (IH (/ 2 * relax) (f (axpy relax d y)) ltac:(do 2 f_equal; lra)). destruct (line_search f res_vec y d todo (/ 2 * relax) (f (axpy relax d y))) as (r, c). destruct IH as (k & Hk & Hr & Hc & Hd & Hf).
      assert (Ek : forall k, 2 * (/ 2 * relax) * (/ 2) ^ k = 2 * relax * (/ 2) ^ S k) by (intros; cbn [pow]; ring).
      exists (S k). rewrite Ek in Hc. split; [lia|]. split; [rewrite Hr; cbn [pow]; ring|]. split; [exact Hc|]. split; [destruct Hd as [Hd|Hd]; [now left|right; lia]|].
      intros [|k'] Hk'; [cbn [pow]; rewrite Rmult_1_r, <- H; exact Hle|]. rewrite <- Ek. apply Hf. lia.
    + exists 0%nat. cbn [pow]. rewrite !Rmult_1_r. split; [lia|]. split; [reflexivity|]. split; [exact H|]. split; [left; lra|]. intros; lia.
Qed.
Lemma step_first res_vec y : let d := solve (jac f y) (fun i j => - res_vec i j) in
  exists k, (k <= 4)%nat /\ newton_step jac solve f (res_vec, y) = (f (axpy ((/ 2) ^ k) d y), axpy ((/ 2) ^ k) d y)
  /\ (fnorm (f (axpy ((/ 2) ^ k) d y)) < fnorm res_vec \/ k = 4%nat)
  /\ forall k', (k' < k)%nat -> fnorm res_vec <= fnorm (f (axpy ((/ 2) ^ k') d y)).
Proof.
  intros d. unfold newton_step. fold d. rewrite search_first. pose proof (search_all res_vec y d 4 (/ 2 * 1) (f (axpy 1 d y)) ltac:(do 2 f_equal; lra)) as H.
  destruct (line_search f res_vec y d 4 (/ 2 * 1) (f (axpy 1 d y))) as (r, c). destruct H as (k & Hk & Hr & Hc & Hd & Hf). assert (Ek : forall k, 2 * (/ 2 * 1) * (/ 2) ^ k = (/ 2) ^ k) by (intros; field).
  exists k. rewrite Ek in Hc. split; [exact Hk|]. rewrite Hr. replace (2 * (/ 2 * 1 * (/ 2) ^ k)) with ((/ 2) ^ k) by field. rewrite Hc. split; [reflexivity|]. split; [rewrite <- Hc; exact Hd|]. intros k' Hk'. rewrite <- Ek. now apply Hf.
Qed.
Lemma loop_spec fuel : forall st y, fst st = f (snd st) -> newton_loop jac solve fuel f st = Some y -> fnorm (f y) <= tol.
Proof.
  induction fuel as [|fuel IH]; intros (r, y0) y H E; cbn [newton_loop fst snd] in *; destruct (Rltb tol (fnorm r)) eqn:C.
  - discriminate.
  - injection E as <-. apply Rltb_false in C. rewrite <- H. exact C.
  - destruct (step_spec r y0) as (t & Es & _). rewrite Es in E. refine (IH _ _ _ E). reflexivity.
  - injection E as <-. apply Rltb_false in C. rewrite <- H. exact C.
Qed.
Lemma loop_start fuel st : fnorm (fst st) <= tol -> newton_loop jac solve fuel f st = Some (snd st).
Proof. intros H. destruct fuel; cbn [newton_loop]; apply Rltb_false in H; now rewrite H. Qed.
End Newton.
Lemma fnorm_entry A i j : (i < 3)%nat -> (j < 3)%nat -> Rabs (A i j) <= fnorm A.
Proof.
  intros Hi Hj. unfold fnorm. rewrite <- sqrt_Rsqr_abs. apply sqrt_le_1; [apply Rle_0_sqr|apply ddot_nonneg|]. unfold Rsqr, ddot.
  apply Rle_trans with (sumN 3 (fun j => A i j * A i j)).
  - rewrite <- (sumN_pick 3 j (fun j => A i j * A i j) Hj) at 1. apply sumN_le. intros k _. destruct (Nat.eqb k j); [lra|apply Rle_0_sqr].
  - rewrite <- (sumN_pick 3 i (fun i => sumN 3 (fun j => A i j * A i j)) Hi) at 1. apply sumN_le. intros k _. destruct (Nat.eqb k i); [lra|]. apply sumN_nonneg. intros l _. apply Rle_0_sqr.
Qed.
Lemma newton_tol rows dt s jac solve fuel u S : newton_solver rows dt s jac solve fuel u = Some S -> forall i j, (i < 3)%nat -> (j < 3)%nat -> Rabs (S i j - S_of s (Fe_of rows dt s u S) i j) <= tol.
Proof.
  intros H i j Hi Hj. unfold newton_solver in H. apply loop_spec in H; [|reflexivity]. apply Rle_trans with (2 := H). exact (fnorm_entry (implicit_residual rows dt s u S) i j Hi Hj).
Qed.
Lemma nearly_symmetric rows dt s jac solve fuel u S : newton_solver rows dt s jac solve fuel u = Some S -> forall i j, (i < 3)%nat -> (j < 3)%nat -> Rabs (S i j - S j i) <= 2 * tol.
Proof.
  intros H i j Hi Hj. pose proof (newton_tol _ _ _ _ _ _ _ _ H i j Hi Hj) as H1. pose proof (newton_tol _ _ _ _ _ _ _ _ H j i Hj Hi) as H2. rewrite (S_of_sym s _ j i) in H2.
  revert H1 H2. unfold Rabs. repeat destruct Rcase_abs; lra.
Qed.

(** ** the stress *)
Lemma matmul_inv F : det 3 F <> 0 -> meq 3 (matmul 3 F (inv 3 F)) identity /\ meq 3 (matmul 3 (inv 3 F) F) identity.
Proof.
  intros H. split; intros i j Hi Hj; by3; unfold matmul, inv, identity; sums; cbn [Nat.eqb]; unfold adj; unfold det in *; field; exact H.
Qed.
Section Stress.
Variables (rows : list slip_row) (dt : R) (s : crystal) (u S : mat).
Let F := F_of u.
Let Fe := Fe_of rows dt s u S.
Let G := Fp_inv_new rows dt s S.
(** P = Fe S G^T / det G where G is the new inverse plastic deformation *)
Lemma PK_form : det 3 F <> 0 -> meq 3 (PK_of rows dt s u S) (fun i j => / det 3 G * matmul 3 (matmul 3 Fe S) (transpose G) i j).
Proof.
  intros Hd i j Hi Hj. unfold PK_of. fold F Fe. assert (DF : det 3 Fe = det 3 F * det 3 G) by (unfold Fe, Fe_of; apply det_matmul; unfold small_dim; auto).
  assert (E : matmul 3 (transpose Fe) (transpose (inv 3 F)) = fun a b => sumN 3 (fun m => G m a * matmul 3 (inv 3 F) F b m)).
  { extensionality a. extensionality b. unfold matmul, transpose, Fe, Fe_of. fold F G. unfold matmul. sums. ring. }
  transitivity (det 3 F * (1 / det 3 Fe) * sumN 3 (fun k => matmul 3 Fe S i k * matmul 3 (transpose Fe) (transpose (inv 3 F)) k j)).
  { unfold matmul at 1 2. unfold matmul at 3. sums. ring. }
  rewrite E. transitivity (det 3 F * (1 / det 3 Fe) * sumN 3 (fun k => matmul 3 Fe S i k * G j k)).
  - f_equal. apply sumN_ext. intros k Hk. f_equal. transitivity (sumN 3 (fun m => if Nat.eqb m j then G m k else 0)).
    + apply sumN_ext. intros m Hm. rewrite (proj2 (matmul_inv F Hd) j m Hj Hm). unfold identity. rewrite (Nat.eqb_sym j m). destruct (Nat.eqb m j); ring.
    + apply (sumN_pick 3 j (fun m => G m k) Hj).
  - rewrite DF. replace (matmul 3 (matmul 3 Fe S) (transpose G) i j) with (sumN 3 (fun k => matmul 3 Fe S i k * G j k)) by reflexivity.
    destruct (Req_dec (det 3 G) 0) as [->|Hg]; [rewrite Rmult_0_r; unfold Rdiv; rewrite !Rinv_0; ring|]. f_equal. field. auto.
Qed.
Lemma PK_kirchhoff : det 3 F <> 0 -> meq 3 (matmul 3 (PK_of rows dt s u S) (transpose F)) (fun i j => / det 3 G * matmul 3 (matmul 3 Fe S) (transpose Fe) i j).
Proof.
  intros Hd i j Hi Hj. transitivity (sumN 3 (fun k => / det 3 G * matmul 3 (matmul 3 Fe S) (transpose G) i k * F j k)).
  - unfold matmul at 1. apply sumN_ext. intros k Hk. now rewrite (PK_form Hd i k Hi Hk).
  - unfold transpose, Fe, Fe_of. fold F G. unfold matmul. sums. ring.
Qed.
Lemma PK_moment_free : det 3 F <> 0 -> msym 3 S -> msym 3 (matmul 3 (PK_of rows dt s u S) (transpose F)).
Proof.
  intros Hd Hs i j Hi Hj. rewrite (PK_kirchhoff Hd i j Hi Hj), (PK_kirchhoff Hd j i Hj Hi). f_equal. unfold matmul, transpose. sums. rewrite (Hs 1%nat 0%nat), (Hs 2%nat 0%nat), (Hs 2%nat 1%nat) by lia. ring.
Qed.
Lemma cauchy_stress : det 3 F <> 0 -> meq 3 (P_to_sigma (PK_of rows dt s u S) F) (fun i j => / det 3 Fe * matmul 3 (matmul 3 Fe S) (transpose Fe) i j).
Proof.
  intros Hd i j Hi Hj. unfold P_to_sigma. transitivity (1 / det 3 F * matmul 3 (PK_of rows dt s u S) (transpose F) i j); [unfold matmul at 1 2; sums; ring|].
  rewrite (PK_kirchhoff Hd i j Hi Hj). assert (DF : det 3 Fe = det 3 F * det 3 G) by (unfold Fe, Fe_of; apply det_matmul; unfold small_dim; auto). rewrite DF, Rinv_mult. unfold Rdiv. ring.
Qed.
End Stress.

(** ** frame indifference *)
Definition turned (Q u : mat) : mat := fun i j => matmul 3 Q (F_of u) i j - eye i j.
Lemma F_turned Q u : F_of (turned Q u) = matmul 3 Q (F_of u).
Proof. extensionality i. extensionality j. unfold F_of at 1, turned. ring. Qed.
Lemma Fe_turned rows dt s Q u S i j : Fe_of rows dt s (turned Q u) S i j = matmul 3 Q (Fe_of rows dt s u S) i j.
Proof. unfold Fe_of. rewrite F_turned. apply matmul_assoc. Qed.
Lemma S_of_ext s A B : meq 3 (green A) (green B) -> S_of s A = S_of s B.
Proof.
  intros H. extensionality i. extensionality j. rewrite !S_of_form. apply rotate2_ext, cubic_ext. intros a b _ _. now apply rotate2_ext.
Qed.
Lemma residual_frame rows dt s Q u : orthogonal 3 Q -> implicit_residual rows dt s (turned Q u) = implicit_residual rows dt s u.
Proof.
  intros HQ. extensionality S. extensionality i. extensionality j. unfold implicit_residual. f_equal. apply (f_equal (fun M : mat => M i j)). apply S_of_ext. intros a b Ha Hb.
  rewrite <- (green_frame Q (Fe_of rows dt s u S) HQ a b Ha Hb). unfold green. do 2 f_equal. unfold matmul at 1 4. apply sumN_ext. intros k _. unfold transpose. now rewrite !Fe_turned.
Qed.
Lemma newton_frame rows dt s jac solve fuel Q u : orthogonal 3 Q -> newton_solver rows dt s jac solve fuel (turned Q u) = newton_solver rows dt s jac solve fuel u.
Proof. intros HQ. unfold newton_solver. now rewrite (residual_frame rows dt s Q u HQ). Qed.
Lemma PK_frame rows dt s Q u S : rotation 3 Q -> det 3 (F_of u) <> 0 -> meq 3 (PK_of rows dt s (turned Q u) S) (matmul 3 Q (PK_of rows dt s u S)).
Proof.
  intros (HQ & Dq) Hd i j Hi Hj. assert (Hd' : det 3 (F_of (turned Q u)) <> 0) by (rewrite F_turned, det_matmul, Dq, Rmult_1_l; [exact Hd|unfold small_dim; auto]).
  rewrite (PK_form rows dt s (turned Q u) S Hd' i j Hi Hj).
  transitivity (sumN 3 (fun k => Q i k * (/ det 3 (Fp_inv_new rows dt s S) * matmul 3 (matmul 3 (Fe_of rows dt s u S) S) (transpose (Fp_inv_new rows dt s S)) k j))).
  - set (G := Fp_inv_new rows dt s S). replace (matmul 3 (Fe_of rows dt s (turned Q u) S) S) with (fun a b => matmul 3 Q (matmul 3 (Fe_of rows dt s u S) S) a b).
    + unfold matmul. sums. ring.
    + extensionality a. extensionality b. rewrite <- matmul_assoc. unfold matmul at 1 3. apply sumN_ext. intros k _. now rewrite Fe_turned.
  - unfold matmul at 3. apply sumN_ext. intros k Hk. now rewrite (PK_form rows dt s u S Hd k j Hk Hj).
Qed.

(** ** elastically unstrained points *)
Lemma tau_zero rows s a : tau rows s (fun _ _ => 0) a = 0.
Proof. unfold tau, ddot. sums. ring. Qed.
Lemma gamma_at_zero rows dt s a : gamma_inc rows dt s (fun _ _ => 0) a = 0.
Proof. apply gamma_zero, tau_zero. Qed.
Lemma L_at_zero rows dt s i j : L_plastic_inc rows dt s (fun _ _ => 0) i j = 0.
Proof. unfold L_plastic_inc. apply sumN_zero. intros a _. rewrite gamma_at_zero. ring. Qed.
Lemma Fp_at_zero rows dt s : meq 3 (Fp_inv_new rows dt s (fun _ _ => 0)) (Fp_inv s).
Proof. intros i j Hi Hj. unfold Fp_inv_new. rewrite <- (matmul_identity_r 3 (Fp_inv s) i j Hi Hj). unfold matmul. apply sumN_ext. intros k _. now rewrite L_at_zero, Rminus_0_r, eye_identity. Qed.
Lemma S_zero s A : meq 3 (green A) mzero -> meq 3 (S_of s A) mzero.
Proof.
  intros H i j Hi Hj. rewrite S_of_form. unfold mzero. transitivity (rotate2 (rot_mat s) (fun _ _ => 0) i j); [|unfold rotate2; sums; ring]. apply rotate2_ext. intros a b Ha Hb.
  assert (Z : forall k l, rotate2 (transpose (rot_mat s)) (green A) k l = 0) by (intros k l; rewrite (rotate2_ext _ (green A) mzero H); unfold rotate2, mzero; sums; ring).
  unfold cubic, trace. sums. rewrite !Z. destruct (Nat.eqb a b); ring.
Qed.
Lemma ddot_mzero A : meq 3 A mzero -> ddot 3 A A = 0.
Proof. intros H. rewrite (ddot_ext 3 A mzero A mzero H H). unfold ddot, mzero. sums. ring. Qed.
Lemma tol_pos : 0 < tol.
Proof. unfold tol. apply Rinv_0_lt_compat. apply pow_lt. lra. Qed.
Lemma unstrained rows dt s jac solve fuel u : orthogonal 3 (matmul 3 (F_of u) (Fp_inv s)) -> newton_solver rows dt s jac solve fuel u = Some (fun _ _ => 0).
Proof.
  intros (_ & HO). unfold newton_solver. apply loop_start. cbn [fst]. unfold fnorm. rewrite ddot_mzero; [rewrite sqrt_0; left; apply tol_pos|].
  intros i j Hi Hj. unfold implicit_residual. rewrite (S_zero s); [unfold mzero; ring| |exact Hi|exact Hj]. intros a b Ha Hb. unfold green, mzero.
  replace (matmul 3 (transpose (Fe_of rows dt s u (fun _ _ => 0))) (Fe_of rows dt s u (fun _ _ => 0)) a b) with (identity a b); [ring|]. rewrite <- (HO a b Ha Hb). unfold matmul at 1 3. apply sumN_ext. intros k Hk. unfold transpose.
  assert (E : forall c, (c < 3)%nat -> Fe_of rows dt s u (fun _ _ => 0) k c = matmul 3 (F_of u) (Fp_inv s) k c).
  { intros c Hc. unfold Fe_of, matmul. apply sumN_ext. intros m Hm. f_equal. now apply Fp_at_zero. }
  now rewrite (E a Ha), (E b Hb).
Qed.
Lemma zero_stress rows dt s u : meq 3 (PK_of rows dt s u (fun _ _ => 0)) mzero.
Proof. intros i j _ _. unfold PK_of, matmul, mzero. sums. ring. Qed.
Lemma zero_state rows qm dt s : let s' := new_state rows qm dt s (fun _ _ => 0) in
  meq 3 (Fp_inv s') (Fp_inv s) /\ (forall a, slip_resistance s' a = slip_resistance s a) /\ (forall a, slip s' a = slip s a) /\ rot_mat s' = rot_mat s.
Proof.
  cbn. split; [apply Fp_at_zero|split; [|split; [|reflexivity]]]; intros a.
  - unfold slip_resistance_new, g_inc. rewrite sumN_zero; [ring|]. intros b _. rewrite gamma_at_zero, Rabs_R0. ring.
  - unfold slip_new. rewrite gamma_at_zero. ring.
Qed.
Close Scope R_scope.
