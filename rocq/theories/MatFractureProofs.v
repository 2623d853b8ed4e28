(** * Proofs about the phase-field fracture demo and its spectral functions. *)
From Coq Require Import Lra Lia.
From Verif Require Import Prelude PreludeFacts FemModel FemFacts FemSpec FemProofs FemAsmProofs FemGeoProofs MatModel MatSpec MatProofs MatPlasticProofs MatFemProofs.
Open Scope R_scope.

(** ** spectral decomposition *)
Section Spec.
Variable d : nat.
Lemma rows_orthonormal V a b : orthogonal d V -> (a < d)%nat -> (b < d)%nat -> sumN d (fun i => V a i * V b i) = identity a b.
Proof. intros (H & _) Ha Hb. exact (H a b Ha Hb). Qed.
Lemma rows_complete V i j : orthogonal d V -> (i < d)%nat -> (j < d)%nat -> sumN d (fun b => V b i * V b j) = identity i j.
Proof. intros (_ & H) Hi Hj. exact (H i j Hi Hj). Qed.
Lemma sum_identity n f a : (a < n)%nat -> sumN n (fun b => identity a b * f b) = f a.
Proof.
  intros Ha. rewrite <- (sumN_pick' n a f Ha). apply sumN_ext. intros b _. unfold identity. destruct (Nat.eqb a b); ring.
Qed.
Lemma eigen_trace x l V : eigen_of d x l V -> trace d x = sumN d l.
Proof.
  intros (HV & Hx). unfold trace. rewrite (sumN_ext d _ (fun i => sumN d (fun b => l b * (V b i * V b i)))) by (intros i Hi; now apply Hx).
  rewrite sumN_swap. apply sumN_ext. intros b Hb. rewrite sumN_scal, rows_orthonormal by assumption. unfold identity. rewrite Nat.eqb_refl. ring.
Qed.
Lemma eigen_vec x l V b i : eigen_of d x l V -> (b < d)%nat -> (i < d)%nat -> sumN d (fun j => x i j * V b j) = l b * V b i.
Proof.
  intros (HV & Hx) Hb Hi. rewrite (sumN_ext d _ (fun j => sumN d (fun a => l a * V a i * (V a j * V b j)))).
  - rewrite sumN_swap. rewrite (sumN_ext d _ (fun a => identity b a * (l a * V a i))); [now rewrite (sum_identity d (fun a => l a * V a i))|].
    intros a Ha. rewrite sumN_scal, rows_orthonormal by assumption. unfold identity. rewrite (Nat.eqb_sym a b). ring.
  - intros j Hj. rewrite Hx by assumption. rewrite <- sumN_scal_r. apply sumN_ext. intros a _. ring.
Qed.
Lemma eigen_norm x l V : eigen_of d x l V -> ddot d x x = sumN d (fun b => l b ^ 2).
Proof.
  intros H. destruct H as (HV & Hx). unfold ddot.
  rewrite (sumN_ext d _ (fun i => sumN d (fun b => l b * (V b i * (l b * V b i))))).
  - rewrite sumN_swap. apply sumN_ext. intros b Hb. rewrite (sumN_ext d _ (fun i => l b ^ 2 * (V b i * V b i))) by (intros; ring).
    rewrite sumN_scal, rows_orthonormal by assumption. unfold identity. rewrite Nat.eqb_refl. ring.
  - intros i Hi. rewrite (sumN_ext d (fun j => x i j * x i j) (fun j => sumN d (fun b => l b * V b i * (x i j * V b j)))).
    + rewrite sumN_swap. apply sumN_ext. intros b Hb. rewrite sumN_scal, (eigen_vec x l V) by (split || assumption; assumption). ring.
    + intros j Hj. rewrite (Hx i j) at 2 by assumption. rewrite <- sumN_scal. apply sumN_ext. intros b _. ring.
Qed.
(** two decompositions of one tensor *)
Lemma overlap x l V m W a b : msym d x -> eigen_of d x l V -> eigen_of d x m W -> (a < d)%nat -> (b < d)%nat ->
  (l a - m b) * sumN d (fun i => V a i * W b i) = 0.
Proof.
  intros Hs HV HW Ha Hb.
  assert (E : sumN d (fun i => sumN d (fun j => V a i * x i j * W b j)) = m b * sumN d (fun i => V a i * W b i)).
  { rewrite <- sumN_scal. apply sumN_ext. intros i Hi. rewrite (sumN_ext d _ (fun j => V a i * (x i j * W b j))) by (intros; ring).
    rewrite sumN_scal, (eigen_vec x m W b i HW Hb Hi). ring. }
  assert (E' : sumN d (fun i => sumN d (fun j => V a i * x i j * W b j)) = l a * sumN d (fun i => V a i * W b i)).
  { rewrite sumN_swap, <- sumN_scal. apply sumN_ext. intros j Hj. rewrite (sumN_ext d _ (fun i => W b j * (x j i * V a i))) by (intros i Hi; rewrite (Hs j i) by assumption; ring).
    rewrite sumN_scal, (eigen_vec x l V a j HV Ha Hj). ring. }
  lra.
Qed.
Lemma spectral_unique f x l V m W : msym d x -> eigen_of d x l V -> eigen_of d x m W ->
  meq d (fun i j => sumN d (fun b => f (l b) * (V b i * V b j))) (fun i j => sumN d (fun b => f (m b) * (W b i * W b j))).
Proof.
  intros Hs HV HW i j Hi Hj. cbv beta.
  transitivity (sumN d (fun a => sumN d (fun b => f (l a) * (V a i * (sumN d (fun k => V a k * W b k) * W b j))))).
  - apply sumN_ext. intros a Ha. rewrite sumN_scal, sumN_scal. do 2 f_equal.
    rewrite (sumN_ext d _ (fun b => sumN d (fun k => V a k * (W b k * W b j)))) by (intros; rewrite <- sumN_scal_r; apply sumN_ext; intros; ring).
    rewrite sumN_swap. rewrite (sumN_ext d _ (fun k => identity j k * V a k)); [now rewrite (sum_identity d (V a))|].
    intros k Hk. rewrite sumN_scal, (rows_complete W k j (proj1 HW)) by assumption. unfold identity. rewrite (Nat.eqb_sym k j). ring.
  - transitivity (sumN d (fun a => sumN d (fun b => f (m b) * (V a i * (sumN d (fun k => V a k * W b k) * W b j))))).
    + apply sumN_ext. intros a Ha. apply sumN_ext. intros b Hb. pose proof (overlap x l V m W a b Hs HV HW Ha Hb) as H. apply Rmult_integral in H.
      destruct H as [H|H]; [replace (l a) with (m b) by lra; reflexivity|rewrite H; ring].
    + rewrite sumN_swap. apply sumN_ext. intros b Hb. rewrite sumN_scal. f_equal.
      rewrite (sumN_ext d _ (fun a => (sumN d (fun k => (V a i * V a k) * W b k)) * W b j)) by (intros; rewrite <- !sumN_scal_r, <- sumN_scal; apply sumN_ext; intros; ring).
      rewrite sumN_scal_r. f_equal. rewrite sumN_swap. rewrite (sumN_ext d _ (fun k => identity i k * W b k)); [now rewrite (sum_identity d (W b))|].
      intros k Hk. rewrite sumN_scal_r, (rows_complete V i k (proj1 HV)) by assumption. reflexivity.
Qed.
End Spec.

(** ** eigen_f and its derivative rule *)
Section EigenF.
Variables (d : nat) (x : mat) (l : nat -> R) (V : mat).
Hypothesis Hx : eigen_of d x l V.
Definition pick_theta (fn grad_fn : R -> R) (s t : R) : R := if Reqb (s - t) 0 then grad_fn s else (fn s - fn t) / (s - t).
Definition dk (phi : R -> R -> R) (S : mat) (i j : nat) : R :=
  sumN d (fun a => sumN d (fun b => phi (l a) (l b) * (V a i * (sumN d (fun k => sumN d (fun m => V a k * S k m * V b m)) * V b j)))).
Lemma Reqb_true x0 y : Reqb x0 y = true <-> x0 = y.
Proof. unfold Reqb. destruct (Req_EM_T x0 y); split; intros; congruence. Qed.
Lemma jvp_form fn grad_fn v i j : eigen_jvp d fn grad_fn l V v i j = dk (pick_theta fn grad_fn) (strain v) i j.
Proof.
  unfold eigen_jvp, dk. set (th := eigen_theta fn grad_fn l).
  assert (Eth : forall a b, th a b = pick_theta fn grad_fn (l a) (l b)) by reflexivity.
  assert (Ediag : forall a, th a a = grad_fn (l a)). { intros a. rewrite Eth. unfold pick_theta. replace (l a - l a) with 0 by ring. now rewrite (proj2 (Reqb_true 0 0) eq_refl). }
  set (vab a b := sumN d (fun k => sumN d (fun m => V a k * v k m * V b m))).
  assert (Es : forall a b, sumN d (fun k => sumN d (fun m => V a k * strain v k m * V b m)) = / 2 * (vab a b + vab b a)).
  { intros a b. unfold vab, strain. rewrite (sumN_swap d d (fun k m => V b k * v k m * V a m)), <- sumN_add, <- sumN_scal. apply sumN_ext. intros k _.
    rewrite <- sumN_add, <- sumN_scal. apply sumN_ext. intros m _. ring. }
  assert (T1 : sumN d (fun k => sumN d (fun m => sumN d (fun b => eigen_M V b i j * eigen_M V b k m * grad_fn (l b)) * v k m)) = sumN d (fun b => grad_fn (l b) * (V b i * (vab b b * V b j)))).
  { unfold vab, eigen_M. rewrite (sumN_ext d _ (fun k => sumN d (fun b => sumN d (fun m => grad_fn (l b) * (V b i * V b j) * (V b k * v k m * V b m))))).
    - rewrite sumN_swap. apply sumN_ext. intros b _. rewrite (sumN_ext d _ (fun k => grad_fn (l b) * (V b i * V b j) * sumN d (fun m => V b k * v k m * V b m))) by (intros; now rewrite sumN_scal).
      rewrite sumN_scal. ring.
    - intros k _. rewrite sumN_swap. apply sumN_ext. intros m _. rewrite <- sumN_scal_r. apply sumN_ext. intros; ring. }
  assert (G : forall a b, sumN d (fun k => sumN d (fun m => (eigen_M V a i k * eigen_M V b j m + eigen_M V a i m * eigen_M V b j k) * th a b * v k m)) = th a b * (V a i * ((vab a b + vab b a) * V b j))).
  { intros a b. unfold vab, eigen_M. rewrite <- sumN_add, <- sumN_scal_r, <- !sumN_scal. apply sumN_ext. intros k _. rewrite <- sumN_add, <- sumN_scal_r, <- !sumN_scal. apply sumN_ext. intros m _. ring. }
  transitivity (sumN d (fun k => sumN d (fun m => sumN d (fun b => eigen_M V b i j * eigen_M V b k m * grad_fn (l b)) * v k m))
    + / 2 * (sumN d (fun a => sumN d (fun b => sumN d (fun k => sumN d (fun m => (eigen_M V a i k * eigen_M V b j m + eigen_M V a i m * eigen_M V b j k) * th a b * v k m))))
             - sumN d (fun a => sumN d (fun k => sumN d (fun m => (eigen_M V a i k * eigen_M V a j m + eigen_M V a i m * eigen_M V a j k) * th a a * v k m))))).
  - rewrite (sumN_ext d (fun a => sumN d (fun b => sumN d (fun k => _))) (fun a => sumN d (fun k => sumN d (fun m => sumN d (fun b => (eigen_M V a i k * eigen_M V b j m + eigen_M V a i m * eigen_M V b j k) * th a b * v k m))))).
    + rewrite (sumN_swap d d (fun a k => sumN d (fun m => sumN d (fun b => _)))). rewrite (sumN_swap d d (fun a k => sumN d (fun m => _ * th a a * v k m))).
      rewrite <- sumN_sub, <- sumN_scal, <- sumN_add. apply sumN_ext. intros k _.
      rewrite (sumN_swap d d (fun a m => sumN d (fun b => _))), (sumN_swap d d (fun a m => _ * th a a * v k m)).
      rewrite <- sumN_sub, <- sumN_scal, <- sumN_add. apply sumN_ext. intros m _. rewrite sumN_scal_r.
      rewrite (sumN_ext d (fun a => sumN d (fun b => _ * th a b * v k m)) (fun a => sumN d (fun b => (eigen_M V a i k * eigen_M V b j m + eigen_M V a i m * eigen_M V b j k) * th a b) * v k m)) by (intros; now rewrite sumN_scal_r).
      rewrite sumN_scal_r. ring.
    + intros a _. rewrite (sumN_swap d d (fun b k => sumN d (fun m => _))). apply sumN_ext. intros k _. now rewrite sumN_swap.
  - rewrite T1. rewrite (sumN_ext d (fun a => sumN d (fun b => sumN d (fun k => _))) (fun a => sumN d (fun b => th a b * (V a i * ((vab a b + vab b a) * V b j))))) by (intros; apply sumN_ext; intros; apply G).
    rewrite (sumN_ext d (fun a => sumN d (fun k => sumN d (fun m => _ * th a a * v k m))) (fun a => th a a * (V a i * ((vab a a + vab a a) * V a j)))) by (intros; apply G).
    rewrite (sumN_ext d (fun a => th a a * _) (fun a => 2 * (grad_fn (l a) * (V a i * (vab a a * V a j))))) by (intros; rewrite Ediag; ring).
    rewrite sumN_scal. symmetry. transitivity (sumN d (fun a => / 2 * sumN d (fun b => th a b * (V a i * ((vab a b + vab b a) * V b j))))).
    + apply sumN_ext. intros a _. rewrite <- sumN_scal. apply sumN_ext. intros b _. rewrite Es, Eth. ring.
    + rewrite sumN_scal. field.
Qed.
Lemma pick_theta_same fn grad_fn s : pick_theta fn grad_fn s s = grad_fn s.
Proof. unfold pick_theta. replace (s - s) with 0 by ring. now rewrite (proj2 (Reqb_true 0 0) eq_refl). Qed.
Lemma eigen_f_form fn i j : eigen_f d fn l V i j = sumN d (fun b => fn (l b) * (V b i * V b j)).
Proof. unfold eigen_f, eigen_M. apply sumN_ext. intros; ring. Qed.
(** directions that keep the eigenvectors *)
Lemma dk_diagonal phi s v i j : (i < d)%nat -> (j < d)%nat -> meq d v (fun i j => sumN d (fun b => s b * (V b i * V b j))) ->
  dk phi v i j = sumN d (fun a => phi (l a) (l a) * (V a i * (s a * V a j))).
Proof.
  intros Hi Hj Hvs.
  assert (E : forall a b, (a < d)%nat -> (b < d)%nat -> sumN d (fun k => sumN d (fun m => V a k * v k m * V b m)) = identity a b * s b).
  { intros a b Ha Hb. rewrite (sumN_ext d _ (fun k => V a k * (s b * V b k))).
    - rewrite (sumN_ext d _ (fun k => s b * (V a k * V b k))) by (intros; ring). rewrite sumN_scal, (rows_orthonormal d V a b (proj1 Hx)) by assumption. ring.
    - intros k Hk. rewrite (sumN_ext d _ (fun m => V a k * (v k m * V b m))) by (intros; ring). rewrite sumN_scal. f_equal.
      apply (eigen_vec d v s V b k); try assumption. split; [exact (proj1 Hx)|]. exact Hvs. }
  unfold dk. apply sumN_ext. intros a Ha.
  rewrite (sumN_ext d _ (fun b => identity a b * (phi (l a) (l b) * (V a i * (s b * V b j))))) by (intros b Hb; rewrite E by assumption; ring).
  now rewrite (sum_identity d (fun b => phi (l a) (l b) * (V a i * (s b * V b j)))).
Qed.
Lemma jvp_commuting fn grad_fn s v i j : (i < d)%nat -> (j < d)%nat -> meq d v (fun i j => sumN d (fun b => s b * (V b i * V b j))) ->
  (forall b, (b < d)%nat -> derivable_pt_lim fn (l b) (grad_fn (l b))) ->
  (forall t, eigen_of d (fun i j => x i j + t * v i j) (fun b => l b + t * s b) V)
  /\ derivable_pt_lim (fun t => eigen_f d fn (fun b => l b + t * s b) V i j) 0 (eigen_jvp d fn grad_fn l V v i j).
Proof.
  intros Hi Hj Hvs Hf. split.
  - intros t. split; [exact (proj1 Hx)|]. intros k m Hk Hm. rewrite (proj2 Hx) by assumption. rewrite Hvs by assumption.
    rewrite <- sumN_scal, <- sumN_add. apply sumN_ext. intros; ring.
  - assert (Hsv : meq d (strain v) (fun i j => sumN d (fun b => s b * (V b i * V b j)))).
    { intros k m Hk Hm. unfold strain. rewrite !Hvs by assumption. rewrite <- sumN_add, <- sumN_scal. apply sumN_ext. intros; field. }
    rewrite jvp_form, (dk_diagonal _ s _ i j Hi Hj Hsv). eapply dl_eq.
    + apply (dl_sumN d (fun b t => eigen_M V b i j * fn (l b + t * s b)) (fun b => eigen_M V b i j * (grad_fn (l b) * s b))).
      intros b Hb. apply dl_scal. apply (derivable_pt_lim_comp (fun t => l b + t * s b) fn 0 (s b) (grad_fn (l b))); [apply dl_line|].
      cbn beta. replace (l b + 0 * s b) with (l b) by ring. now apply Hf.
    + reflexivity.
    + apply sumN_ext. intros b _. rewrite pick_theta_same. unfold eigen_M. ring.
Qed.
(** polynomials *)
Lemma poly_spectral p : meq d (mat_poly d p x) (fun i j => sumN d (fun b => peval p (l b) * (V b i * V b j))).
Proof.
  induction p as [|c p IH]; intros i j Hi Hj; cbn [mat_poly peval].
  - unfold mzero. symmetry. apply sumN_zero. intros; ring.
  - rewrite (sumN_ext d _ (fun b => c * (V b i * V b j) + l b * (peval p (l b) * (V b i * V b j)))) by (intros; ring).
    rewrite sumN_add, sumN_scal, (rows_complete d V i j (proj1 Hx)) by assumption. f_equal. unfold matmul.
    rewrite (sumN_ext d _ (fun k => sumN d (fun b => peval p (l b) * V b j * (x i k * V b k)))).
    + rewrite sumN_swap. apply sumN_ext. intros b Hb. rewrite sumN_scal, (eigen_vec d x l V b i Hx Hb Hi). ring.
    + intros k Hk. rewrite IH by assumption. rewrite <- sumN_scal. apply sumN_ext. intros; ring.
Qed.
Fixpoint dmat (p : list R) (v : mat) : mat := match p with [] => mzero | _ :: p => fun i j => matmul d v (mat_poly d p x) i j + matmul d x (dmat p v) i j end.
Lemma poly_derivable p v i j : derivable_pt_lim (fun t => mat_poly d p (fun i j => x i j + t * v i j) i j) 0 (dmat p v i j).
Proof.
  revert i j. induction p as [|c p IH]; intros i j; cbn [mat_poly dmat].
  - unfold mzero. apply dl_const.
  - eapply dl_eq.
    + apply (dl_add (fun _ => c * identity i j)); [apply dl_const|]. unfold matmul.
      apply (dl_sumN d (fun k t => (x i k + t * v i k) * mat_poly d p (fun i j => x i j + t * v i j) k j) (fun k => v i k * mat_poly d p (fun i j => x i j + 0 * v i j) k j + (x i k + 0 * v i k) * dmat p v k j)).
      intros k Hk. apply (dl_mul (fun t => x i k + t * v i k)); [apply dl_line|apply IH].
    + reflexivity.
    + rewrite Rplus_0_l. unfold matmul. rewrite <- sumN_add. apply sumN_ext. intros k _.
      replace (mat_poly d p (fun i j => x i j + 0 * v i j)) with (mat_poly d p x); [ring|]. f_equal.
      apply FunctionalExtensionality.functional_extensionality. intros a. apply FunctionalExtensionality.functional_extensionality. intros b. ring.
Qed.
Lemma pick_theta_step c p s t : pick_theta (peval (c :: p)) (pderiv (c :: p)) s t = peval p t + s * pick_theta (peval p) (pderiv p) s t.
Proof.
  unfold pick_theta. destruct (Reqb (s - t) 0) eqn:E0.
  - apply Reqb_true in E0. replace t with s by lra. reflexivity.
  - assert (s - t <> 0) by (intros H; apply Reqb_true in H; congruence). cbn [peval]. field. exact H.
Qed.
Lemma dmat_spectral p v : meq d (dmat p v) (dk (pick_theta (peval p) (pderiv p)) v).
Proof.
  induction p as [|c p IH]; intros i j Hi Hj.
  - cbn [dmat]. unfold mzero, dk. symmetry. apply sumN_zero. intros a _. apply sumN_zero. intros b _. unfold pick_theta. cbn [peval pderiv].
    destruct (Reqb (l a - l b) 0); unfold Rdiv; ring.
  - cbn [dmat]. unfold dk.
    set (vab a b := sumN d (fun k => sumN d (fun m => V a k * v k m * V b m))).
    assert (A : matmul d v (mat_poly d p x) i j = sumN d (fun a => sumN d (fun b => peval p (l b) * (V a i * (vab a b * V b j))))).
    { unfold matmul. rewrite (sumN_ext d _ (fun k => sumN d (fun b => peval p (l b) * V b j * (v i k * V b k)))).
      - rewrite sumN_swap. rewrite (sumN_swap d d (fun a b => peval p (l b) * _)). apply sumN_ext. intros b Hb. rewrite sumN_scal.
        rewrite (sumN_ext d (fun a => peval p (l b) * _) (fun a => peval p (l b) * V b j * (V a i * vab a b))) by (intros; ring). rewrite sumN_scal. f_equal.
        unfold vab. rewrite (sumN_ext d (fun a => V a i * _) (fun a => sumN d (fun k => (V a i * V a k) * sumN d (fun m => v k m * V b m)))).
        + rewrite sumN_swap. rewrite (sumN_ext d (fun k => sumN d (fun a => _)) (fun k => identity i k * sumN d (fun m => v k m * V b m))).
          * now rewrite (sum_identity d (fun k => sumN d (fun m => v k m * V b m))).
          * intros k Hk. rewrite sumN_scal_r, (rows_complete d V i k (proj1 Hx)) by assumption. reflexivity.
        + intros a _. rewrite <- sumN_scal. apply sumN_ext. intros k _. rewrite <- !sumN_scal. apply sumN_ext. intros; ring.
      - intros k Hk. rewrite poly_spectral by assumption. rewrite <- sumN_scal. apply sumN_ext. intros; ring. }
    assert (B : matmul d x (dmat p v) i j = sumN d (fun a => sumN d (fun b => l a * (pick_theta (peval p) (pderiv p) (l a) (l b) * (V a i * (vab a b * V b j)))))).
    { unfold matmul. rewrite (sumN_ext d _ (fun k => sumN d (fun a => (x i k * V a k) * sumN d (fun b => pick_theta (peval p) (pderiv p) (l a) (l b) * (vab a b * V b j))))).
      - rewrite sumN_swap. apply sumN_ext. intros a Ha. rewrite sumN_scal_r, (eigen_vec d x l V a i Hx Ha Hi). rewrite <- sumN_scal. apply sumN_ext. intros; ring.
      - intros k Hk. rewrite IH by assumption. unfold dk. rewrite <- sumN_scal. apply sumN_ext. intros a _. rewrite <- !sumN_scal. apply sumN_ext. intros b _. unfold vab. ring. }
    rewrite A, B, <- sumN_add. apply sumN_ext. intros a _. rewrite <- sumN_add. apply sumN_ext. intros b _. rewrite pick_theta_step. fold (vab a b). ring.
Qed.
Lemma jvp_polynomial p v i j : msym d v -> (i < d)%nat -> (j < d)%nat ->
  eigen_f d (peval p) l V i j = mat_poly d p x i j
  /\ derivable_pt_lim (fun t => mat_poly d p (fun i j => x i j + t * v i j) i j) 0 (eigen_jvp d (peval p) (pderiv p) l V v i j).
Proof.
  intros Hv Hi Hj. split; [rewrite eigen_f_form; symmetry; now apply poly_spectral|].
  eapply dl_eq; [apply poly_derivable|reflexivity|]. rewrite jvp_form, dmat_spectral by assumption. unfold dk. apply sumN_ext. intros a _. apply sumN_ext. intros b _.
  do 3 f_equal. apply sumN_ext. intros k Hk. apply sumN_ext. intros m Hm. unfold strain. rewrite (Hv m k) by assumption. field.
Qed.
End EigenF.
Lemma dk_unique d phi x l V m W S : msym d x -> eigen_of d x l V -> eigen_of d x m W -> meq d (dk d l V phi S) (dk d m W phi S).
Proof.
  intros Hs HV HW i j Hi Hj.
  assert (E : forall l1 V1 l2 V2, sumN d (fun a => sumN d (fun b => phi (l1 a) (l2 b) * (V1 a i * (sumN d (fun k => sumN d (fun m => V1 a k * S k m * V2 b m)) * V2 b j))))
     = sumN d (fun k => sumN d (fun m => S k m * sumN d (fun b => sumN d (fun a => phi (l1 a) (l2 b) * (V1 a i * V1 a k)) * (V2 b m * V2 b j))))).
  { intros l1 V1 l2 V2.
    rewrite (sumN_ext d _ (fun a => sumN d (fun k => sumN d (fun m => sumN d (fun b => S k m * (phi (l1 a) (l2 b) * (V1 a i * V1 a k) * (V2 b m * V2 b j))))))).
    - rewrite sumN_swap. apply sumN_ext. intros k _. rewrite sumN_swap. apply sumN_ext. intros n _. rewrite sumN_swap, <- sumN_scal. apply sumN_ext. intros b _. rewrite sumN_scal. f_equal. now rewrite sumN_scal_r.
    - intros a _. rewrite (sumN_ext d _ (fun b => sumN d (fun k => sumN d (fun m => S k m * (phi (l1 a) (l2 b) * (V1 a i * V1 a k) * (V2 b m * V2 b j)))))).
      + rewrite sumN_swap. apply sumN_ext. intros k _. apply sumN_swap.
      + intros b _. rewrite <- sumN_scal_r, <- !sumN_scal. apply sumN_ext. intros k _. rewrite <- sumN_scal_r, <- !sumN_scal. apply sumN_ext. intros; ring. }
  transitivity (sumN d (fun a => sumN d (fun b => phi (m a) (l b) * (W a i * (sumN d (fun k => sumN d (fun n => W a k * S k n * V b n)) * V b j))))).
  - unfold dk. rewrite !E. apply sumN_ext. intros k Hk. apply sumN_ext. intros n Hn. f_equal. apply sumN_ext. intros b Hb. f_equal.
    exact (spectral_unique d (fun s => phi s (l b)) x l V m W Hs HV HW i k Hi Hk).
  - unfold dk. apply sumN_ext. intros a Ha.
    assert (G : forall l2 V2, sumN d (fun b => phi (m a) (l2 b) * (W a i * (sumN d (fun k => sumN d (fun n => W a k * S k n * V2 b n)) * V2 b j)))
      = W a i * sumN d (fun k => sumN d (fun n => W a k * S k n * sumN d (fun b => phi (m a) (l2 b) * (V2 b n * V2 b j))))).
    { intros l2 V2. rewrite (sumN_ext d _ (fun b => W a i * sumN d (fun k => sumN d (fun n => W a k * S k n * (phi (m a) (l2 b) * (V2 b n * V2 b j)))))).
      - rewrite sumN_scal, sumN_swap. f_equal. apply sumN_ext. intros k _. rewrite sumN_swap. apply sumN_ext. intros n _. now rewrite sumN_scal.
      - intros b _. rewrite <- sumN_scal_r, <- !sumN_scal. apply sumN_ext. intros k _. rewrite <- sumN_scal_r, <- !sumN_scal. apply sumN_ext. intros; ring. }
    rewrite !G. f_equal. apply sumN_ext. intros k Hk. apply sumN_ext. intros n Hn. f_equal.
    exact (spectral_unique d (fun s => phi (m a) s) x l V m W Hs HV HW n j Hn Hj).
Qed.

(** ** energies *)
Lemma safe_split x : safe_plus x + safe_minus x = x /\ safe_plus x * safe_minus x = 0 /\ 0 <= safe_plus x /\ safe_minus x <= 0
  /\ safe_plus x = Rmax x 0 /\ safe_minus x = Rmin x 0.
Proof.
  unfold safe_plus, safe_minus, Rabs, Rmax, Rmin. destruct (Rcase_abs x), (Rle_dec x 0); repeat split; try lra; nra.
Qed.
Lemma safe_sq x : safe_plus x ^ 2 + safe_minus x ^ 2 = x ^ 2.
Proof. destruct (safe_split x) as (A & B & _). rewrite <- A at 3. nra. Qed.
Lemma fr_pos : 0 < fr_lmbda /\ 0 < fr_mu.
Proof. unfold fr_lmbda, fr_mu, nu. lra. Qed.
Lemma energy_split d eig x l V : eigen_of d x l V -> eig x = map l (seq 0 d) ->
  psi_plus d eig x + psi_minus d eig x = / 2 * ddot d (iso_stress d 210 x) x
  /\ 0 <= psi_plus d eig x /\ 0 <= psi_minus d eig x
  /\ psi_plus d eig x = fr_lmbda / 2 * Rmax (trace d x) 0 ^ 2 + fr_mu * sumR (eig x) (fun y => Rmax y 0 ^ 2).
Proof.
  intros Hx El. destruct fr_pos as (Hl & Hm).
  assert (Sq : forall (f : R -> R) L, 0 <= sumR L (fun y => f y ^ 2)) by (intros f L; apply sumR_nonneg; intros; apply pow2_ge_0).
  split; [|split; [|split]].
  - unfold psi_plus, psi_minus. rewrite El. rewrite iso_work.
    rewrite (eigen_norm d x l V Hx). pose proof (safe_sq (trace d x)) as Ht.
    assert (Ep : sumR (map l (seq 0 d)) (fun y => safe_plus y ^ 2) + sumR (map l (seq 0 d)) (fun y => safe_minus y ^ 2) = sumN d (fun b => l b ^ 2)).
    { rewrite <- sumR_add, sumR_map. apply sumR_ext. intros b _. apply safe_sq. }
    replace (lmbda_of 210) with fr_lmbda by reflexivity. replace (mu_of 210) with fr_mu by reflexivity.
    rewrite <- Ep. replace (fr_lmbda * trace d x * trace d x) with (fr_lmbda * (trace d x ^ 2)) by ring. rewrite <- Ht. field.
  - unfold psi_plus. pose proof (Sq safe_plus (eig x)). pose proof (pow2_ge_0 (safe_plus (trace d x))). nra.
  - unfold psi_minus. pose proof (Sq safe_minus (eig x)). pose proof (pow2_ge_0 (safe_minus (trace d x))). nra.
  - unfold psi_plus. rewrite (proj1 (proj2 (proj2 (proj2 (proj2 (safe_split (trace d x))))))). do 2 f_equal. apply sumR_ext. intros y _. f_equal. apply safe_split.
Qed.
(** compression stores no driving energy *)
Lemma compression_no_drive d eig x l V : eigen_of d x l V -> eig x = map l (seq 0 d) -> (forall b, (b < d)%nat -> l b <= 0) -> psi_plus d eig x = 0.
Proof.
  intros Hx El Hl. unfold psi_plus. rewrite El, (eigen_trace d x l V Hx).
  assert (Hp : forall y, y <= 0 -> safe_plus y = 0) by (intros y Hy; unfold safe_plus, Rabs; destruct (Rcase_abs y); lra).
  rewrite Hp.
  - rewrite sumR_map, sumR_zero; [ring|]. intros b Hb. apply in_seq in Hb. rewrite Hp; [ring|apply Hl; lia].
  - assert (0 <= sumN d (fun b => - l b)) by (apply sumN_nonneg; intros b Hb; specialize (Hl b Hb); lra). rewrite sumN_opp in H. lra.
Qed.
Lemma degrade_range dm : 0 <= dm 0%nat <= 1 -> / 1000 <= degrade dm <= 1 + / 1000.
Proof. intros H. unfold degrade. assert (0 <= (1 - dm 0%nat) ^ 2 <= 1) by (split; [apply pow2_ge_0|nra]). lra. Qed.
Lemma degrade_decreasing d1 d2 : 0 <= d1 0%nat -> d1 0%nat <= d2 0%nat -> d2 0%nat <= 1 -> degrade d2 <= degrade d1.
Proof. intros. unfold degrade. nra. Qed.
(** the homogeneous solution *)
Lemma local_damage H dm : 0 <= H -> (phase_mass_map H dm 0%nat = 0 <-> dm 0%nat = 2 * H / (G_c / fr_l + 2 * H)) .
Proof.
  intros HH. unfold phase_mass_map. assert (K : 0 < G_c / fr_l) by (unfold G_c, fr_l; lra). set (k := G_c / fr_l) in *. split.
  - intros H0. apply Rmult_eq_reg_r with (k + 2 * H); [|lra]. unfold Rdiv. rewrite Rmult_assoc, Rinv_l by lra. lra.
  - intros ->. field. lra.
Qed.
Lemma local_damage_range H H' : 0 <= H -> H <= H' ->
  0 <= 2 * H / (G_c / fr_l + 2 * H) < 1 /\ 2 * H / (G_c / fr_l + 2 * H) <= 2 * H' / (G_c / fr_l + 2 * H').
Proof.
  intros H0 HH. assert (K : 0 < G_c / fr_l) by (unfold G_c, fr_l; lra). set (k := G_c / fr_l) in *.
  assert (P : 0 < / (k + 2 * H)) by (apply Rinv_0_lt_compat; lra). assert (P' : 0 < / (k + 2 * H')) by (apply Rinv_0_lt_compat; lra).
  assert (Q : (k + 2 * H) * / (k + 2 * H) = 1) by (apply Rinv_r; lra). assert (Q' : (k + 2 * H') * / (k + 2 * H') = 1) by (apply Rinv_r; lra).
  unfold Rdiv. repeat split; try nra.
  apply Rmult_le_reg_r with ((k + 2 * H) * (k + 2 * H')); [nra|].
  replace (2 * H * / (k + 2 * H) * ((k + 2 * H) * (k + 2 * H'))) with (2 * H * ((k + 2 * H) * / (k + 2 * H)) * (k + 2 * H')) by ring.
  replace (2 * H' * / (k + 2 * H') * ((k + 2 * H) * (k + 2 * H'))) with (2 * H' * ((k + 2 * H') * / (k + 2 * H')) * (k + 2 * H)) by ring.
  rewrite Q, Q'. nra.
Qed.

(** ** load histories *)
Section Run.
Context {V : Type}.
Variable F : fem V.
Variable eig : mat -> list R.
Lemma fracture_app x steps s : fracture_run F eig x (steps ++ [s]) = fracture_step F eig (fracture_run F eig x steps) s.
Proof. unfold fracture_run. now rewrite fold_left_app. Qed.
Lemma history_is_max x steps c q :
  let h := fst (fracture_run F eig x steps) c q in
  fst x c q <= h /\ (forall s, In s steps -> psi_plus (dim F) eig (strain (sol_to_grad F (fst s) c q)) <= h)
  /\ (h = fst x c q \/ exists s, In s steps /\ h = psi_plus (dim F) eig (strain (sol_to_grad F (fst s) c q))).
Proof.
  cbv zeta. induction steps as [|s steps IH] using rev_ind.
  - cbn. split; [lra|]. split; [intros s []|now left].
  - rewrite fracture_app. unfold fracture_step. destruct (fracture_run F eig x steps) as (h, dm), s as (u, sd). cbn [fst] in *.
    unfold compute_history. destruct IH as (A & B & C). split; [|split].
    + apply Rle_trans with (1 := A). apply Rmax_r.
    + intros s Hs. apply in_app_iff in Hs. destruct Hs as [Hs|[<-|[]]]; [apply Rle_trans with (1 := B s Hs); apply Rmax_r|cbn [fst]; apply Rmax_l].
    + unfold Rmax. destruct (Rle_dec _ _).
      * destruct C as [C|(s & Hs & C)]; [now left|]. right. exists s. split; [apply in_app_iff; now left|exact C].
      * right. exists (u, sd). split; [apply in_app_iff; right; now left|reflexivity].
Qed.
Lemma damage_is_max x steps n k :
  let dm := snd (fracture_run F eig x steps) n k in
  snd x n k <= dm /\ (forall s, In s steps -> snd s n k <= dm) /\ (dm = snd x n k \/ exists s, In s steps /\ dm = snd s n k).
Proof.
  cbv zeta. induction steps as [|s steps IH] using rev_ind.
  - cbn. split; [lra|]. split; [intros s []|now left].
  - rewrite fracture_app. unfold fracture_step. destruct (fracture_run F eig x steps) as (h, dm), s as (u, sd). cbn [snd] in *.
    destruct IH as (A & B & C). split; [|split].
    + apply Rle_trans with (1 := A). apply Rmax_r.
    + intros s Hs. apply in_app_iff in Hs. destruct Hs as [Hs|[<-|[]]]; [apply Rle_trans with (1 := B s Hs); apply Rmax_r|cbn [snd]; apply Rmax_l].
    + unfold Rmax. destruct (Rle_dec _ _).
      * destruct C as [C|(s & Hs & C)]; [now left|]. right. exists s. split; [apply in_app_iff; now left|exact C].
      * right. exists (u, sd). split; [apply in_app_iff; right; now left|reflexivity].
Qed.
Lemma run_split x s1 s2 : fracture_run F eig x (s1 ++ s2) = fracture_run F eig (fracture_run F eig x s1) s2.
Proof. unfold fracture_run. apply fold_left_app. Qed.
Lemma irreversible x s1 s2 : (forall c q, fst (fracture_run F eig x s1) c q <= fst (fracture_run F eig x (s1 ++ s2)) c q)
  /\ (forall n k, snd (fracture_run F eig x s1) n k <= snd (fracture_run F eig x (s1 ++ s2)) n k).
Proof. split; intros; rewrite run_split; [exact (proj1 (history_is_max (fracture_run F eig x s1) s2 _ _))|exact (proj1 (damage_is_max (fracture_run F eig x s1) s2 _ _))]. Qed.
End Run.

(** ** the damage problem has one solution at the quadrature points *)
Section Damage.
Variable F : fem R.
Local Notation E := (f_ele F).
Variable history : nat -> nat -> R.
Hypothesis Hwf : wf_mesh F.
Hypothesis Hc : (0 < num_cells F)%nat.
Hypothesis Hv : vec F = 1%nat.
Hypothesis Ht : tensor_map F = Some (fun _ => phase_tensor_map).
Hypothesis Hm : mass_map F = Some phase_mass_of.
Hypothesis Hca : cauchy_bc_info F = None.
Hypothesis Hw : positive_weights F.
Hypothesis Hh : forall c q, 0 <= history c q.
Variable inds : list (list (nat * nat)).
Hypothesis Hn : neumann_ok F inds.
Hypothesis Hf : forall sel, In sel inds -> faces_ok F sel.
Definition damage_vars : internal_vars R := mkIv [map history (seq 0 (num_cells F))] [] None (fun _ => []).
Lemma damage_sized : iv_sized F damage_vars.
Proof. split; [|constructor]. unfold sized, damage_vars. cbn [iv_mass]. repeat constructor; now rewrite map_length, seq_length. Qed.
Lemma damage_reaction sol c q : (c < num_cells F)%nat -> reaction F damage_vars sol c q = phase_mass_map (history c q) (at_quad F sol c q).
Proof.
  intros Hcc. unfold reaction. rewrite Hm. unfold vars_at, damage_vars. cbn [iv_mass flat_map].
  rewrite nth_error_map, (nth_error_nth' (seq 0 (num_cells F)) 0%nat) by (now rewrite seq_length). cbn [option_map app map]. rewrite seq_nth by assumption. reflexivity.
Qed.
Lemma at_quad_diff u v c q i : at_quad F (fun n k => u n k - v n k) c q i = at_quad F u c q i - at_quad F v c q i.
Proof. unfold at_quad, convert_from_dof_to_quad. rewrite <- sumN_sub. apply sumN_ext. intros. ring. Qed.
Lemma damage_monotone u w : exists ru rw, compute_residual_vars F inds u damage_vars = Ok ru /\ compute_residual_vars F inds w damage_vars = Ok rw
  /\ power F (fun n k => ru n k - rw n k) (fun n k => u n k - w n k)
     = sumN (num_cells F) (fun c => sumN (num_quads E) (fun q => JxW F c q *
        (G_c * fr_l * sumN (dim F) (fun d => (sol_to_grad F u c q 0%nat d - sol_to_grad F w c q 0%nat d) ^ 2)
         + (G_c / fr_l + 2 * history c q) * (at_quad F u c q 0%nat - at_quad F w c q 0%nat) ^ 2))).
Proof.
  destruct (virtual_work F Hwf inds u damage_vars damage_sized Hc Hn Hf) as (ru & Hru & Eu).
  destruct (virtual_work F Hwf inds w damage_vars damage_sized Hc Hn Hf) as (rw & Hrw & Ew).
  exists ru, rw. split; [exact Hru|]. split; [exact Hrw|]. rewrite power_sub. unfold power at 1 2. rewrite Eu, Ew.
  unfold cauchy_power, cauchy_faces. rewrite Hca. cbn [sumR]. set (v := fun n k => u n k - w n k).
  transitivity (internal_power F damage_vars u v - internal_power F damage_vars w v); [ring|].
  unfold internal_power. rewrite <- sumN_sub. apply sumN_ext. intros c Hcc. rewrite <- sumN_sub. apply sumN_ext. intros q Hq.
  rewrite <- Rmult_minus_distr_l. f_equal. rewrite !damage_reaction by exact Hcc. unfold dot_vec, stress. rewrite Ht, Hv. unfold sumN at 1 3 4 6. cbn [seq sumR].
  unfold phase_mass_map, phase_tensor_map, v. rewrite !at_quad_diff.
  set (a := at_quad F u c q 0%nat). set (b := at_quad F w c q 0%nat).
  rewrite (sumN_ext (dim F) (fun d => G_c * fr_l * sol_to_grad F u c q 0%nat d * _) (fun d => G_c * fr_l * (sol_to_grad F u c q 0%nat d * (sol_to_grad F u c q 0%nat d - sol_to_grad F w c q 0%nat d)))) by (intros; rewrite grad_sub; ring).
  rewrite (sumN_ext (dim F) (fun d => G_c * fr_l * sol_to_grad F w c q 0%nat d * _) (fun d => G_c * fr_l * (sol_to_grad F w c q 0%nat d * (sol_to_grad F u c q 0%nat d - sol_to_grad F w c q 0%nat d)))) by (intros; rewrite grad_sub; ring).
  rewrite !sumN_scal.
  rewrite (sumN_ext (dim F) (fun d => (_ - _) ^ 2) (fun d => sol_to_grad F u c q 0%nat d * (sol_to_grad F u c q 0%nat d - sol_to_grad F w c q 0%nat d) - sol_to_grad F w c q 0%nat d * (sol_to_grad F u c q 0%nat d - sol_to_grad F w c q 0%nat d))) by (intros; ring).
  rewrite sumN_sub. field. unfold fr_l. lra.
Qed.
Lemma damage_unique u w :
  (forall r, compute_residual_vars F inds u damage_vars = Ok r -> forall n, (n < num_total_nodes F)%nat -> r n 0%nat = 0) ->
  (forall r, compute_residual_vars F inds w damage_vars = Ok r -> forall n, (n < num_total_nodes F)%nat -> r n 0%nat = 0) ->
  forall c q, (c < num_cells F)%nat -> (q < num_quads E)%nat -> at_quad F u c q 0%nat = at_quad F w c q 0%nat.
Proof.
  intros Hu0 Hw0 c q Hcc Hq. destruct (damage_monotone u w) as (ru & rw & Hru & Hrw & He).
  assert (Z : power F (fun n k => ru n k - rw n k) (fun n k => u n k - w n k) = 0).
  { unfold power. apply sumN_zero. intros n Hnn. rewrite Hv. unfold sumN. cbn [seq sumR]. rewrite (Hu0 ru Hru n Hnn), (Hw0 rw Hrw n Hnn). ring. }
  rewrite Z in He. symmetry in He.
  assert (K : 0 < G_c / fr_l /\ 0 < G_c * fr_l) by (unfold G_c, fr_l; lra).
  assert (Hnn : forall c q, (c < num_cells F)%nat -> (q < num_quads E)%nat -> 0 <= JxW F c q *
        (G_c * fr_l * sumN (dim F) (fun d => (sol_to_grad F u c q 0%nat d - sol_to_grad F w c q 0%nat d) ^ 2)
         + (G_c / fr_l + 2 * history c q) * (at_quad F u c q 0%nat - at_quad F w c q 0%nat) ^ 2)).
  { intros c' q' Hc' Hq'. apply Rmult_le_pos; [left; now apply Hw|]. apply Rplus_le_le_0_compat.
    - apply Rmult_le_pos; [lra|]. apply sumN_nonneg. intros; apply pow2_ge_0.
    - specialize (Hh c' q'). apply Rmult_le_pos; [lra|apply pow2_ge_0]. }
  assert (H1 := sumN_zero_each _ _ (fun c' Hc' => sumN_nonneg _ _ (fun q' Hq' => Hnn c' q' Hc' Hq')) He c Hcc).
  assert (H2 := sumN_zero_each _ _ (fun q' Hq' => Hnn c q' Hcc Hq') H1 q Hq). cbn beta in H2.
  apply Rmult_integral in H2. destruct H2 as [H2|H2]; [pose proof (Hw c q Hcc Hq); lra|].
  assert (A : 0 <= G_c * fr_l * sumN (dim F) (fun d => (sol_to_grad F u c q 0%nat d - sol_to_grad F w c q 0%nat d) ^ 2)) by (apply Rmult_le_pos; [lra|]; apply sumN_nonneg; intros; apply pow2_ge_0).
  specialize (Hh c q). set (e := at_quad F u c q 0%nat - at_quad F w c q 0%nat) in *. assert (0 <= e ^ 2) by apply pow2_ge_0. assert (e ^ 2 = 0) by nra. assert (e = 0) by nra. unfold e in *. lra.
Qed.
End Damage.
Close Scope R_scope.
