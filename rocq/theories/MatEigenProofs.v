(** * The derivative rule of eigen_f for differentiable functions: Hermite interpolation at the
    eigenvalues, and a bound for the change of the eigenvalues. *)
From Coq Require Import Lra Lia.
From Verif Require Import Prelude PreludeFacts FemModel FemFacts FemSpec FemProofs FemAsmProofs FemGeoProofs MatModel MatSpec MatProofs MatPlasticProofs MatFemProofs MatFractureProofs.
Open Scope R_scope.
Open Scope list_scope.

(** ** polynomials *)
Fixpoint padd (p q : list R) : list R := match p, q with [], _ => q | _, [] => p | a :: p, b :: q => (a + b) :: padd p q end.
Fixpoint pmul (p q : list R) : list R := match p with [] => [] | a :: p => padd (map (Rmult a) q) (0 :: pmul p q) end.
Lemma padd_eval p q x : peval (padd p q) x = peval p x + peval q x /\ pderiv (padd p q) x = pderiv p x + pderiv q x.
Proof.
  revert q. induction p as [|a p IH]; intros q; [cbn; split; ring|]. destruct q as [|b q]; [cbn; split; ring|].
  cbn [padd peval pderiv]. destruct (IH q) as [-> ->]. split; ring.
Qed.
Lemma pscale_eval a q x : peval (map (Rmult a) q) x = a * peval q x /\ pderiv (map (Rmult a) q) x = a * pderiv q x.
Proof. induction q as [|b q [IH1 IH2]]; cbn [map peval pderiv]; [split; ring|]. rewrite IH1, IH2. split; ring. Qed.
Lemma pmul_eval p q x : peval (pmul p q) x = peval p x * peval q x /\ pderiv (pmul p q) x = pderiv p x * peval q x + peval p x * pderiv q x.
Proof.
  induction p as [|a p [IH1 IH2]]; [cbn; split; ring|]. cbn [pmul]. destruct (padd_eval (map (Rmult a) q) (0 :: pmul p q) x) as [-> ->]. destruct (pscale_eval a q x) as [-> ->].
  cbn [peval pderiv]. rewrite IH1, IH2. split; ring.
Qed.
Lemma peval_der p x : derivable_pt_lim (peval p) x (pderiv p x).
Proof.
  induction p as [|c p IH]; [apply derivable_pt_lim_const|]. cbn [pderiv].
  replace (peval p x + x * pderiv p x) with (0 + (1 * peval p x + id x * pderiv p x)) by (unfold id; ring).
  apply (derivable_pt_lim_plus (fct_cte c) (id * peval p)%F); [apply derivable_pt_lim_const|]. apply derivable_pt_lim_mult; [apply derivable_pt_lim_id|exact IH].
Qed.
(** product of the squares of x - l b *)
Fixpoint nodal_sq (l : nat -> R) (n : nat) : list R := match n with 0%nat => [1] | S n => pmul [l n ^ 2; -2 * l n; 1] (nodal_sq l n) end.
Lemma nodal_sq_zero l n b : (b < n)%nat -> peval (nodal_sq l n) (l b) = 0 /\ pderiv (nodal_sq l n) (l b) = 0.
Proof.
  induction n as [|n IH]; intros Hb; [lia|]. cbn [nodal_sq]. destruct (pmul_eval [l n ^ 2; -2 * l n; 1] (nodal_sq l n) (l b)) as [-> ->]. cbn [peval pderiv].
  destruct (Nat.eq_dec b n) as [->|]; [split; ring|]. destruct IH as [-> ->]; [lia|]. split; ring.
Qed.
Lemma nodal_sq_pos l n x : (forall b, (b < n)%nat -> l b <> x) -> peval (nodal_sq l n) x <> 0.
Proof.
  induction n as [|n IH]; intros H; [cbn; lra|]. cbn [nodal_sq]. destruct (pmul_eval [l n ^ 2; -2 * l n; 1] (nodal_sq l n) x) as [-> _]. cbn [peval].
  apply Rmult_integral_contrapositive_currified; [|apply IH; intros b Hb; apply H; lia].
  replace (l n ^ 2 + x * (-2 * l n + x * (1 + x * 0))) with ((l n - x) ^ 2) by ring. apply pow_nonzero. specialize (H n ltac:(lia)). lra.
Qed.
Lemma hermite (f g : R -> R) l n : exists p, forall b, (b < n)%nat -> peval p (l b) = f (l b) /\ pderiv p (l b) = g (l b).
Proof.
  induction n as [|n (p & Hp)]; [exists []; intros; lia|].
  destruct (Classical_Prop.classic (exists b, (b < n)%nat /\ l b = l n)) as [(b & Hb & E)|Hnew].
  - exists p. intros c Hc. destruct (Nat.eq_dec c n) as [->|]; [rewrite <- E; now apply Hp|apply Hp; lia].
  - set (q := nodal_sq l n). set (c := l n). assert (Hq : peval q c <> 0) by (apply nodal_sq_pos; intros b Hb E; apply Hnew; now exists b).
    set (al := (f c - peval p c) / peval q c). set (be := (g c - pderiv p c - al * pderiv q c) / peval q c).
    exists (padd p (pmul [al - be * c; be] q)). intros b Hb. destruct (padd_eval p (pmul [al - be * c; be] q) (l b)) as [-> ->]. destruct (pmul_eval [al - be * c; be] q (l b)) as [-> ->]. cbn [peval pderiv].
    destruct (Nat.eq_dec b n) as [->|].
    + fold c. unfold be, al. split; field; exact Hq.
    + destruct (nodal_sq_zero l n b) as [E1 E2]; [lia|]. fold q in E1, E2. rewrite E1, E2. destruct (Hp b) as [-> ->]; [lia|]. split; ring.
Qed.
Lemma theta_hermite f g p s t : peval p s = f s -> pderiv p s = g s -> peval p t = f t -> pick_theta f g s t = pick_theta (peval p) (pderiv p) s t.
Proof. intros E1 E2 E3. unfold pick_theta. now rewrite E1, E2, E3. Qed.

Section Perturb.
Variable d : nat.
Lemma abs_sum n f : Rabs (sumN n f) <= sumN n (fun i => Rabs (f i)).
Proof. induction n as [|n IH]; [unfold sumN; cbn; rewrite Rabs_R0; lra|]. rewrite !sumN_S. eapply Rle_trans; [apply Rabs_triang|]. lra. Qed.
Lemma entry_small V a i : orthogonal d V -> (a < d)%nat -> (i < d)%nat -> Rabs (V a i) <= 1.
Proof.
  intros HV Ha Hi. assert (V a i ^ 2 <= 1).
  { replace 1 with (sumN d (fun i => V a i * V a i)) by (rewrite (rows_orthonormal d V a a HV Ha Ha); unfold identity; now rewrite Nat.eqb_refl).
    replace (V a i ^ 2) with (sumN d (fun j => if Nat.eqb i j then V a j * V a j else 0)) by (rewrite (sumN_pick' d i (fun j => V a j * V a j) Hi); ring).
    apply sumN_le. intros j _. destruct (Nat.eqb i j); nra. }
  unfold Rabs. destruct (Rcase_abs (V a i)); nra.
Qed.
Definition size (v : mat) : R := sumN d (fun i => sumN d (fun j => Rabs (v i j))).
Lemma size_nonneg v : 0 <= size v.
Proof. apply sumN_nonneg. intros. apply sumN_nonneg. intros. apply Rabs_pos. Qed.
Lemma eigenvalue_moves x l V v t m W b : eigen_of d x l V -> eigen_of d (fun i j => x i j + t * v i j) m W -> (b < d)%nat ->
  exists a, (a < d)%nat /\ Rabs (m b - l a) <= Rabs t * (size v * INR d).
Proof.
  intros Hx Hm Hb. pose proof Hx as (HV & Ex). pose proof Hm as (HW & _). set (c a := sumN d (fun i => V a i * W b i)).
  assert (Hd : (0 < INR d)) by (apply lt_0_INR; lia).
  assert (Hone : sumN d (fun a => c a * c a) = 1).
  { unfold c. rewrite (sumN_ext d _ (fun a => sumN d (fun i => sumN d (fun j => (W b i * W b j) * (V a i * V a j))))).
    2:{ intros a _. rewrite <- sumN_scal_r. apply sumN_ext. intros i _. rewrite <- sumN_scal. apply sumN_ext. intros j _. ring. }
    rewrite (sumN_swap d d (fun a i => sumN d (fun j => (W b i * W b j) * (V a i * V a j)))). rewrite (sumN_ext d _ (fun i => W b i * W b i)).
    { rewrite (rows_orthonormal d W b b HW Hb Hb). unfold identity. now rewrite Nat.eqb_refl. }
    intros i Hi. rewrite (sumN_swap d d (fun a j => (W b i * W b j) * (V a i * V a j))). rewrite (sumN_ext d _ (fun j => identity i j * (W b i * W b j))).
    { now rewrite (sum_identity d (fun j => W b i * W b j) i Hi). }
    intros j Hj. rewrite sumN_scal, (rows_complete d V i j HV Hi Hj). ring. }
  assert (Hbig : exists a, (a < d)%nat /\ / INR d <= c a * c a).
  { destruct (Classical_Prop.classic (exists a, (a < d)%nat /\ / INR d <= c a * c a)) as [H|H]; [exact H|exfalso].
    assert (Hlt : forall n, (0 < n <= d)%nat -> sumN n (fun a => c a * c a) < INR n * / INR d).
    { induction n as [|n IH]; intros Hn; [lia|]. rewrite sumN_S, S_INR. assert (Hc : c n * c n < / INR d) by (apply Rnot_le_lt; intros Hle; apply H; exists n; split; [lia|exact Hle]).
      destruct n as [|n]; [unfold sumN at 1; cbn [seq sumR INR]; lra|]. specialize (IH ltac:(lia)). lra. }
    specialize (Hlt d ltac:(lia)). rewrite Hone, Rinv_r in Hlt; lra. }
  destruct Hbig as (a & Ha & Hca). exists a. split; [exact Ha|].
  assert (Hsm : Rabs (c a) <= 1).
  { assert (c a * c a <= 1). { rewrite <- Hone. replace (c a * c a) with (sumN d (fun j => if Nat.eqb a j then c j * c j else 0)) by (now rewrite (sumN_pick' d a (fun j => c j * c j) Ha)). apply sumN_le. intros j _. destruct (Nat.eqb a j); nra. }
    unfold Rabs. destruct (Rcase_abs (c a)); nra. }
  assert (Hlow : / INR d <= Rabs (c a)).
  { apply Rle_trans with (1 := Hca). replace (c a * c a) with (Rabs (c a) * Rabs (c a)) by (rewrite <- Rabs_mult; apply Rabs_right; nra). pose proof (Rabs_pos (c a)). nra. }
  assert (Hkey : (m b - l a) * c a = t * sumN d (fun i => sumN d (fun j => v i j * (V a i * W b j)))).
  { assert (E1 : m b * c a = sumN d (fun i => V a i * sumN d (fun j => (x i j + t * v i j) * W b j))).
    { unfold c. rewrite <- sumN_scal. apply sumN_ext. intros i Hi. rewrite (eigen_vec d _ m W b i Hm Hb Hi). ring. }
    assert (E2 : l a * c a = sumN d (fun i => V a i * sumN d (fun j => x i j * W b j))).
    { unfold c. rewrite (sumN_ext d (fun i => V a i * sumN d (fun j => x i j * W b j)) (fun i => sumN d (fun j => V a i * (x i j * W b j)))) by (intros i _; now rewrite sumN_scal).
      rewrite (sumN_swap d d (fun i j => V a i * (x i j * W b j))). rewrite <- sumN_scal. apply sumN_ext. intros j Hj.
      transitivity (W b j * sumN d (fun i => x j i * V a i)); [rewrite (eigen_vec d x l V a j Hx Ha Hj); ring|]. rewrite <- sumN_scal. apply sumN_ext. intros i Hi.
      rewrite (Ex i j Hi Hj), (Ex j i Hj Hi). rewrite (sumN_ext d (fun b => l b * (V b j * V b i)) (fun b => l b * (V b i * V b j))) by (intros; ring). ring. }
    rewrite Rmult_minus_distr_r, E1, E2, <- sumN_sub. rewrite <- sumN_scal. apply sumN_ext. intros i _. rewrite <- Rmult_minus_distr_l, <- sumN_sub, <- !sumN_scal. apply sumN_ext. intros j _. ring. }
  assert (Hb1 : Rabs (sumN d (fun i => sumN d (fun j => v i j * (V a i * W b j)))) <= size v).
  { eapply Rle_trans; [apply abs_sum|]. apply sumN_le. intros i Hi. eapply Rle_trans; [apply abs_sum|]. apply sumN_le. intros j Hj. rewrite !Rabs_mult.
    pose proof (entry_small V a i HV Ha Hi). pose proof (entry_small W b j HW Hb Hj). pose proof (Rabs_pos (V a i)). pose proof (Rabs_pos (W b j)). pose proof (Rabs_pos (v i j)).
    assert (Rabs (V a i) * Rabs (W b j) <= 1) by nra. nra. }
  apply (f_equal Rabs) in Hkey. rewrite !Rabs_mult in Hkey. pose proof (Rabs_pos t) as Ht. pose proof (Rabs_pos (m b - l a)) as Hml.
  assert (H1 : Rabs (m b - l a) * / INR d <= Rabs t * size v).
  { apply Rle_trans with (Rabs (m b - l a) * Rabs (c a)); [apply Rmult_le_compat_l; assumption|]. rewrite Hkey. apply Rmult_le_compat_l; assumption. }
  apply Rmult_le_compat_r with (r := INR d) in H1; [|lra]. rewrite Rmult_assoc, Rinv_l, Rmult_1_r in H1 by lra. lra.
Qed.
(** a common delta for finitely many points *)
Lemma common_delta (Q : nat -> R -> Prop) n : (forall a e1 e2, 0 < e2 <= e1 -> Q a e1 -> Q a e2) -> (forall a, (a < n)%nat -> exists e, 0 < e /\ Q a e) -> exists e, 0 < e /\ forall a, (a < n)%nat -> Q a e.
Proof.
  intros Hmon. induction n as [|n IH]; intros H; [exists 1; split; [lra|intros; lia]|]. destruct IH as (e1 & H1 & Q1); [intros; apply H; lia|]. destruct (H n ltac:(lia)) as (e2 & H2 & Q2).
  exists (Rmin e1 e2). split; [now apply Rmin_pos|]. intros a Ha. destruct (Nat.eq_dec a n) as [->|]; [apply (Hmon n e2)|apply (Hmon a e1)]; auto; try (apply Q1; lia); (split; [now apply Rmin_pos|apply Rmin_r || apply Rmin_l]).
Qed.
Lemma flat_remainder (r : R -> R) x l V v (m : R -> nat -> R) (W : R -> mat) i j : eigen_of d x l V -> (forall t, eigen_of d (fun i j => x i j + t * v i j) (m t) (W t)) ->
  (forall a, (a < d)%nat -> r (l a) = 0 /\ derivable_pt_lim r (l a) 0) -> (i < d)%nat -> (j < d)%nat ->
  derivable_pt_lim (fun t => sumN d (fun b => r (m t b) * (W t b i * W t b j))) 0 0.
Proof.
  intros Hx Hm Hr Hi Hj. set (K := size v * INR d). assert (HK : 0 <= K) by (apply Rmult_le_pos; [apply size_nonneg|apply pos_INR]). set (D := INR d * K + 1).
  assert (HD : 0 < D) by (unfold D; pose proof (Rmult_le_pos _ _ (pos_INR d) HK); lra). intros eps Heps.
  set (e := eps / (2 * D)). assert (He : 0 < e) by (apply Rdiv_lt_0_compat; lra).
  destruct (common_delta (fun a del => forall y, Rabs (y - l a) < del -> Rabs (r y) <= e * Rabs (y - l a)) d) as (del & Hdel & Hc).
  { intros a e1 e2 He2 H y Hy. apply H. lra. }
  { intros a Ha. destruct (Hr a Ha) as [R0 Rd]. destruct (Rd e He) as (del & Hd). exists del. split; [apply cond_pos|]. intros y Hy.
    destruct (Req_EM_T y (l a)) as [->|Hne]; [rewrite R0, Rminus_diag_eq, Rabs_R0 by reflexivity; lra|].
    specialize (Hd (y - l a) ltac:(lra) Hy). replace (l a + (y - l a)) with y in Hd by ring. rewrite R0, !Rminus_0_r in Hd.
    unfold Rdiv in Hd. rewrite Rabs_mult, Rabs_inv in Hd. assert (0 < Rabs (y - l a)) by (apply Rabs_pos_lt; lra).
    apply Rmult_lt_compat_r with (r := Rabs (y - l a)) in Hd; [|assumption]. rewrite Rmult_assoc, Rinv_l, Rmult_1_r in Hd by lra. lra. }
  assert (Hdel' : 0 < del / (K + 1)) by (apply Rdiv_lt_0_compat; lra). exists (mkposreal _ Hdel'). intros h Hh Hhd. cbn [pos] in Hhd.
  assert (Hbound : forall t, Rabs t < del / (K + 1) -> Rabs (sumN d (fun b => r (m t b) * (W t b i * W t b j))) <= e * (Rabs t * (INR d * K))).
  { intros t Ht. eapply Rle_trans; [apply abs_sum|]. apply Rle_trans with (sumN d (fun _ => e * (Rabs t * K))).
    - apply sumN_le. intros b Hb. destruct (eigenvalue_moves x l V v t (m t) (W t) b Hx (Hm t) Hb) as (a & Ha & Hml). fold K in Hml.
      assert (Rabs t * (K + 1) < del). { apply Rmult_lt_compat_r with (r := K + 1) in Ht; [|lra]. unfold Rdiv in Ht. rewrite Rmult_assoc, Rinv_l, Rmult_1_r in Ht; lra. }
      pose proof (Rabs_pos t). assert (Hrb : Rabs (r (m t b)) <= e * Rabs (m t b - l a)) by (apply (Hc a Ha); lra).
      rewrite !Rabs_mult. pose proof (entry_small (W t) b i (proj1 (Hm t)) Hb Hi). pose proof (entry_small (W t) b j (proj1 (Hm t)) Hb Hj). pose proof (Rabs_pos (W t b i)). pose proof (Rabs_pos (W t b j)).
      assert (Rabs (W t b i) * Rabs (W t b j) <= 1) by nra. assert (0 <= Rabs (W t b i) * Rabs (W t b j)) by nra. pose proof (Rabs_pos (r (m t b))).
      assert (e * Rabs (m t b - l a) <= e * (Rabs t * K)) by (apply Rmult_le_compat_l; lra). nra.
    - rewrite sumN_const. lra. }
  assert (H0 : sumN d (fun b => r (m 0 b) * (W 0 b i * W 0 b j)) = 0).
  { pose proof (Hbound 0) as H0. rewrite Rabs_R0, Rmult_0_l, Rmult_0_r in H0. specialize (H0 ltac:(exact Hdel')). pose proof (Rabs_pos (sumN d (fun b => r (m 0 b) * (W 0 b i * W 0 b j)))).
    destruct (Req_EM_T (sumN d (fun b => r (m 0 b) * (W 0 b i * W 0 b j))) 0) as [E|E]; [exact E|]. apply Rabs_pos_lt in E. lra. }
  rewrite H0, !Rminus_0_r, Rplus_0_l. specialize (Hbound h Hhd). unfold Rdiv. rewrite Rabs_mult, Rabs_inv. assert (Hp : 0 < Rabs h) by now apply Rabs_pos_lt.
  apply Rmult_lt_reg_r with (Rabs h); [exact Hp|]. rewrite Rmult_assoc, Rinv_l, Rmult_1_r by lra.
  apply Rle_lt_trans with (1 := Hbound). assert (E : e * D = eps / 2) by (unfold e; field; lra). unfold D in E. nra.
Qed.
Lemma jvp_differentiable fn grad_fn x v (m : R -> nat -> R) (W : R -> mat) i j : msym d v -> (forall t, eigen_of d (fun i j => x i j + t * v i j) (m t) (W t)) ->
  (forall b, (b < d)%nat -> derivable_pt_lim fn (m 0 b) (grad_fn (m 0 b))) -> (i < d)%nat -> (j < d)%nat ->
  derivable_pt_lim (fun t => eigen_f d fn (m t) (W t) i j) 0 (eigen_jvp d fn grad_fn (m 0) (W 0) v i j).
Proof.
  intros Hs Hm Hd Hi Hj. assert (Hx : eigen_of d x (m 0) (W 0)).
  { destruct (Hm 0) as [HV HE]. split; [exact HV|]. intros a b Ha Hb. rewrite <- (HE a b Ha Hb). ring. }
  destruct (hermite fn grad_fn (m 0) d) as (p & Hp).
  assert (Ejvp : eigen_jvp d fn grad_fn (m 0) (W 0) v i j = eigen_jvp d (peval p) (pderiv p) (m 0) (W 0) v i j).
  { rewrite !jvp_form. unfold dk. apply sumN_ext. intros a Ha. apply sumN_ext. intros b Hb. destruct (Hp a Ha) as [? ?]. destruct (Hp b Hb) as [? _]. now rewrite (theta_hermite fn grad_fn p) by assumption. }
  rewrite Ejvp. destruct (jvp_polynomial d x (m 0) (W 0) Hx p v i j Hs Hi Hj) as [_ Hpoly].
  assert (Hrem : derivable_pt_lim (fun t => sumN d (fun b => (fn (m t b) - peval p (m t b)) * (W t b i * W t b j))) 0 0).
  { apply (flat_remainder (fun y => fn y - peval p y) x (m 0) (W 0) v m W i j Hx Hm); [|exact Hi|exact Hj]. intros a Ha. destruct (Hp a Ha) as [E1 E2]. split; [rewrite E1; ring|].
    pose proof (derivable_pt_lim_minus fn (peval p) _ _ _ (Hd a Ha) (peval_der p (m 0 a))) as Hmin. rewrite E2, Rminus_diag_eq in Hmin by reflexivity. exact Hmin. }
  pose proof (derivable_pt_lim_plus _ _ _ _ _ Hpoly Hrem) as H. rewrite Rplus_0_r in H. revert H. apply dl_ext. intros t. unfold plus_fct.
  rewrite (poly_spectral d (fun i j => x i j + t * v i j) (m t) (W t) (Hm t) p i j Hi Hj). rewrite eigen_f_form, <- sumN_add. apply sumN_ext. intros b _. ring.
Qed.
End Perturb.
(** ** an example whose eigenvectors turn *)
Definition turn_x : mat := fun i j => match i, j with 0%nat, 0%nat => 1 | 1%nat, 1%nat => -1 | _, _ => 0 end.
Definition turn_v : mat := fun i j => match i, j with 0%nat, 1%nat | 1%nat, 0%nat => 1 | _, _ => 0 end.
Definition turn_s (t : R) : R := sqrt (1 + t ^ 2).
Definition turn_l (t : R) (b : nat) : R := match b with 0%nat => turn_s t | _ => - turn_s t end.
Definition turn_V (t : R) : mat := fun b i =>
  let n := sqrt (2 * turn_s t * (1 + turn_s t)) in match b, i with 0%nat, 0%nat | 1%nat, 1%nat => (1 + turn_s t) / n | 0%nat, 1%nat => t / n | _, _ => - t / n end.
Lemma turn_eigen t : eigen_of 2 (fun i j => turn_x i j + t * turn_v i j) (turn_l t) (turn_V t).
Proof.
  assert (Hs : turn_s t * turn_s t = 1 + t ^ 2) by (apply sqrt_sqrt; nra). assert (Hp : 0 < turn_s t) by (apply sqrt_lt_R0; nra).
  assert (Hn : sqrt (2 * turn_s t * (1 + turn_s t)) * sqrt (2 * turn_s t * (1 + turn_s t)) = 2 * turn_s t * (1 + turn_s t)) by (apply sqrt_sqrt; nra).
  assert (Hnp : 0 < sqrt (2 * turn_s t * (1 + turn_s t))) by (apply sqrt_lt_R0; nra).
  unfold eigen_of, orthogonal, meq, turn_V, turn_l. set (n := sqrt (2 * turn_s t * (1 + turn_s t))) in *. set (s := turn_s t) in *. clearbody n s.
  assert (Hq : forall y z, y / n * (z / n) = y * z / (2 * s * (1 + s))) by (intros y z; rewrite <- Hn; field; lra).
  assert (Ht : t * t = s * s - 1) by (rewrite Hs; ring). assert (Hz : 2 * s * (1 + s) <> 0) by nra.
  assert (He : forall y z w, y + w = z * (2 * s * (1 + s)) -> y / (2 * s * (1 + s)) + (w / (2 * s * (1 + s)) + 0) = z) by (intros y z w H; apply Rmult_eq_reg_r with (2 * s * (1 + s)); [|exact Hz]; rewrite <- H; field; lra).
  assert (Hs2 : forall c e z y w, c * y + e * w = z * (2 * s * (1 + s)) -> z = c * (y / (2 * s * (1 + s))) + (e * (w / (2 * s * (1 + s))) + 0)) by (intros c e z y w H; apply Rmult_eq_reg_r with (2 * s * (1 + s)); [|exact Hz]; rewrite <- H; field; lra).
  split; [split|]; intros i j Hi Hj; (destruct i as [|[|i]]; [| |lia]); (destruct j as [|[|j]]; [| |lia]);
    unfold matmul, transpose, identity, turn_x, turn_v, sumN; cbn [seq sumR Nat.eqb]; rewrite !Hq; first [apply He|apply Hs2]; nra.
Qed.
Close Scope R_scope.
