(** * Proofs about the material models: elasticity and plasticity at one quadrature point. *)
From Coq Require Import Lra Lia.
From Verif Require Import Prelude PreludeFacts FemModel FemFacts FemSpec MatModel MatSpec.
Open Scope R_scope.

(** ** d x d tensors *)
Lemma eye_identity i j : eye i j = identity i j.
Proof. reflexivity. Qed.
Lemma ddot_ext d A A' B B' : meq d A A' -> meq d B B' -> ddot d A B = ddot d A' B'.
Proof. intros HA HB. apply sumN_ext. intros i Hi. apply sumN_ext. intros j Hj. now rewrite HA, HB. Qed.
Lemma ddot_add_l d A B C : ddot d (fun i j => A i j + B i j) C = ddot d A C + ddot d B C.
Proof. unfold ddot. rewrite <- sumN_add. apply sumN_ext. intros i _. rewrite <- sumN_add. apply sumN_ext. intros j _. ring. Qed.
Lemma ddot_sub_l d A B C : ddot d (fun i j => A i j - B i j) C = ddot d A C - ddot d B C.
Proof. unfold ddot. rewrite <- sumN_sub. apply sumN_ext. intros i _. rewrite <- sumN_sub. apply sumN_ext. intros j _. ring. Qed.
Lemma ddot_scal_l d c A C : ddot d (fun i j => c * A i j) C = c * ddot d A C.
Proof. unfold ddot. rewrite <- sumN_scal. apply sumN_ext. intros i _. rewrite <- sumN_scal. apply sumN_ext. intros j _. ring. Qed.
Lemma ddot_comm d A B : ddot d A B = ddot d B A.
Proof. apply sumN_ext. intros i _. apply sumN_ext. intros j _. ring. Qed.
Lemma ddot_transpose d A B : ddot d (transpose A) B = ddot d A (transpose B).
Proof. unfold ddot, transpose. now rewrite sumN_swap. Qed.
Lemma ddot_nonneg d A : 0 <= ddot d A A.
Proof. apply sumN_nonneg. intros i _. apply sumN_nonneg. intros j _. nra. Qed.
Lemma sumN_zero_each n f : (forall i, (i < n)%nat -> 0 <= f i) -> sumN n f = 0 -> forall i, (i < n)%nat -> f i = 0.
Proof.
  intros Hf H i Hi. assert (E : f i <= sumN n f).
  { rewrite <- (sumN_pick n i f Hi). apply sumN_le. intros k Hk. destruct (Nat.eqb_spec k i); [lra|now apply Hf]. }
  specialize (Hf i Hi). lra.
Qed.
Lemma ddot_zero d A : ddot d A A = 0 -> meq d A mzero.
Proof.
  intros H i j Hi Hj. unfold ddot in H.
  assert (Hp : forall k, (k < d)%nat -> 0 <= sumN d (fun l => A k l * A k l)) by (intros k _; apply sumN_nonneg; intros l _; nra).
  pose proof (sumN_zero_each d _ Hp H i Hi) as H1. cbn beta in H1.
  assert (Hq : forall l, (l < d)%nat -> 0 <= A i l * A i l) by (intros l _; nra).
  pose proof (sumN_zero_each d _ Hq H1 j Hj) as H2. cbn beta in H2. unfold mzero. nra.
Qed.
Lemma ddot_eye d A : ddot d identity A = sumN d (fun i => A i i).
Proof.
  unfold ddot, identity. apply sumN_ext. intros i Hi. rewrite <- (sumN_pick' d i (fun j => A i j) Hi). apply sumN_ext. intros j _.
  destruct (Nat.eqb i j); ring.
Qed.
(** a nonnegative quadratic polynomial has a nonpositive discriminant *)
Lemma discriminant a b c : (forall t, 0 <= a + 2 * t * b + t ^ 2 * c) -> 0 <= c -> b * b <= a * c.
Proof.
  intros H Hc. destruct (Req_dec c 0) as [->|Hn].
  - assert (b = 0); [|subst; lra]. destruct (Req_dec b 0) as [|Hb]; [assumption|]. exfalso.
    specialize (H (- (a + 1) / (2 * b))). replace (a + 2 * (- (a + 1) / (2 * b)) * b + (- (a + 1) / (2 * b)) ^ 2 * 0) with (-1) in H by (field; exact Hb). lra.
  - assert (0 < c) by lra. specialize (H (- b / c)). replace (a + 2 * (- b / c) * b + (- b / c) ^ 2 * c) with ((a * c - b * b) / c) in H by (field; lra).
    assert (0 <= a * c - b * b); [|lra]. replace (a * c - b * b) with ((a * c - b * b) / c * c) by (field; lra). nra.
Qed.
Lemma ddot_cauchy d A B : ddot d A B * ddot d A B <= ddot d A A * ddot d B B.
Proof.
  apply discriminant; [|apply ddot_nonneg]. intros t.
  replace (ddot d A A + 2 * t * ddot d A B + t ^ 2 * ddot d B B) with (ddot d (fun i j => A i j + t * B i j) (fun i j => A i j + t * B i j)).
  - apply ddot_nonneg.
  - rewrite (ddot_add_l d A (fun i j => t * B i j)), ddot_scal_l.
    rewrite (ddot_comm d A (fun i j => A i j + t * B i j)), (ddot_comm d B (fun i j => A i j + t * B i j)).
    rewrite !(ddot_add_l d A (fun i j => t * B i j)), !ddot_scal_l, (ddot_comm d B A). ring.
Qed.
Lemma le_of_sq x y : 0 <= y -> x * x <= y * y -> x <= y.
Proof. intros. nra. Qed.
Lemma ddot_bound d A B k : 0 <= k -> sqrt (ddot d B B) <= k -> ddot d A B <= sqrt (ddot d A A) * k.
Proof.
  intros Hk H. pose proof (ddot_nonneg d A) as HA. pose proof (ddot_nonneg d B) as HB.
  pose proof (sqrt_pos (ddot d A A)) as PA. pose proof (sqrt_pos (ddot d B B)) as PB.
  apply Rle_trans with (sqrt (ddot d A A) * sqrt (ddot d B B)); [|nra].
  apply le_of_sq; [nra|]. pose proof (ddot_cauchy d A B) as HC.
  replace (sqrt (ddot d A A) * sqrt (ddot d B B) * (sqrt (ddot d A A) * sqrt (ddot d B B))) with ((sqrt (ddot d A A) * sqrt (ddot d A A)) * (sqrt (ddot d B B) * sqrt (ddot d B B))) by ring.
  now rewrite !sqrt_sqrt.
Qed.

(** ** trace, deviator *)
Lemma trace_add d A B : trace d (fun i j => A i j + B i j) = trace d A + trace d B.
Proof. apply sumN_add. Qed.
Lemma trace_scal d c A : trace d (fun i j => c * A i j) = c * trace d A.
Proof. apply sumN_scal. Qed.
Lemma trace_sub d A B : trace d (fun i j => A i j - B i j) = trace d A - trace d B.
Proof. apply sumN_sub. Qed.
Lemma trace_identity d : trace d identity = INR d.
Proof. unfold trace, identity. rewrite (sumN_ext d _ (fun _ => 1)) by (intros; now rewrite Nat.eqb_refl). rewrite sumN_const. ring. Qed.
Lemma INR_pos d : (0 < d)%nat -> 0 < INR d.
Proof. intros. now apply lt_0_INR. Qed.
Lemma pressure_trace d A : pressure d A = trace d A / INR d.
Proof. reflexivity. Qed.
Lemma trace_dev d A : (0 < d)%nat -> trace d (dev d A) = 0.
Proof.
  intros Hd. pose proof (INR_pos d Hd). unfold dev. rewrite (trace_sub d A (fun i j => pressure d A * identity i j)).
  rewrite trace_scal, trace_identity, pressure_trace. field. lra.
Qed.
Lemma ddot_dev_identity d A : (0 < d)%nat -> ddot d identity (dev d A) = 0.
Proof. intros Hd. rewrite ddot_eye. exact (trace_dev d A Hd). Qed.
Lemma decompose d A i j : A i j = dev d A i j + pressure d A * identity i j.
Proof. unfold dev. ring. Qed.
Lemma dev_sub d A B i j : dev d (fun i j => A i j - B i j) i j = dev d A i j - dev d B i j.
Proof. unfold dev. rewrite !pressure_trace, trace_sub. unfold Rdiv. ring. Qed.
Lemma dev_ext d A B : meq d A B -> meq d (dev d A) (dev d B).
Proof.
  intros H i j Hi Hj. unfold dev. rewrite H by assumption. f_equal. f_equal. unfold pressure. f_equal. apply sumN_ext. intros k Hk. now apply H.
Qed.
Lemma von_mises_ext d A B : meq d A B -> von_mises d A = von_mises d B.
Proof. intros H. unfold von_mises. do 2 f_equal. apply ddot_ext; now apply dev_ext. Qed.
(** A:B splits into deviators and pressures *)
Lemma ddot_split d A B : (0 < d)%nat -> ddot d A B = ddot d (dev d A) (dev d B) + INR d * pressure d A * pressure d B.
Proof.
  intros Hd. rewrite (ddot_ext d A (fun i j => dev d A i j + pressure d A * identity i j) B (fun i j => dev d B i j + pressure d B * identity i j))
    by (intros i j _ _; apply decompose).
  rewrite (ddot_add_l d (dev d A) (fun i j => pressure d A * identity i j)), ddot_scal_l.
  rewrite (ddot_comm d (dev d A)), (ddot_comm d identity), !(ddot_add_l d (dev d B) (fun i j => pressure d B * identity i j)), !ddot_scal_l.
  rewrite (ddot_comm d (dev d B) identity), !ddot_dev_identity, (ddot_comm d (dev d B) (dev d A)) by exact Hd.
  rewrite ddot_eye. unfold identity. rewrite (sumN_ext d _ (fun _ => 1)) by (intros; now rewrite Nat.eqb_refl). rewrite sumN_const. ring.
Qed.
Lemma von_mises_nonneg d A : 0 <= von_mises d A.
Proof. apply sqrt_pos. Qed.
Lemma von_mises_sqr d A : von_mises d A * von_mises d A = 3 / 2 * ddot d (dev d A) (dev d A).
Proof. unfold von_mises. apply sqrt_sqrt. pose proof (ddot_nonneg d (dev d A)). lra. Qed.
Lemma von_mises_scal_dev d A B b : 0 <= b -> meq d (dev d A) (fun i j => b * dev d B i j) -> von_mises d A = b * von_mises d B.
Proof.
  intros Hb H. apply Rsqr_inj; [apply von_mises_nonneg|pose proof (von_mises_nonneg d B); nra|]. unfold Rsqr. rewrite von_mises_sqr.
  rewrite (ddot_ext d _ (fun i j => b * dev d B i j) _ (fun i j => b * dev d B i j)) by exact H.
  rewrite ddot_scal_l, ddot_comm, ddot_scal_l. replace (b * von_mises d B * (b * von_mises d B)) with (b * b * (von_mises d B * von_mises d B)) by ring.
  rewrite von_mises_sqr. ring.
Qed.

(** ** isotropic elasticity *)
Lemma strain_sym G i j : strain G i j = strain G j i.
Proof. unfold strain. ring. Qed.
Lemma lin_iso d G i j : linear_elastic_stress d G i j = iso_stress d 70000 (strain G) i j.
Proof. reflexivity. Qed.
Lemma lmbda_pos E : 0 < E -> 0 < lmbda_of E.
Proof. intros. unfold lmbda_of, nu. lra. Qed.
Lemma mu_pos E : 0 < E -> 0 < mu_of E.
Proof. intros. unfold mu_of, nu. lra. Qed.
Lemma iso_linear d E a A B i j : iso_stress d E (fun i j => a * A i j + B i j) i j = a * iso_stress d E A i j + iso_stress d E B i j.
Proof. unfold iso_stress. rewrite (trace_add d (fun i j => a * A i j) B), trace_scal. ring. Qed.
Lemma iso_sub d E A B i j : iso_stress d E (fun i j => A i j - B i j) i j = iso_stress d E A i j - iso_stress d E B i j.
Proof. unfold iso_stress. rewrite trace_sub. ring. Qed.
Lemma iso_ext d E A B : meq d A B -> meq d (iso_stress d E A) (iso_stress d E B).
Proof. intros H i j Hi Hj. unfold iso_stress. rewrite H by assumption. f_equal. f_equal. f_equal. apply sumN_ext. intros k Hk. now apply H. Qed.
Lemma iso_zero d E A : meq d A mzero -> meq d (iso_stress d E A) mzero.
Proof.
  intros H i j Hi Hj. rewrite (iso_ext d E A mzero H) by assumption. unfold iso_stress, mzero, trace. rewrite sumN_zero by reflexivity. ring.
Qed.
Lemma iso_work d E A B : ddot d (iso_stress d E A) B = lmbda_of E * trace d A * trace d B + 2 * mu_of E * ddot d A B.
Proof.
  unfold iso_stress. rewrite (ddot_add_l d (fun i j => lmbda_of E * trace d A * eye i j)), !ddot_scal_l.
  rewrite (ddot_ext d eye identity B B), ddot_eye by (intros i j _ _; reflexivity). reflexivity.
Qed.
Lemma strain_linear a G H i j : strain (fun i j => a * G i j + H i j) i j = a * strain G i j + strain H i j.
Proof. unfold strain. ring. Qed.
Lemma ddot_strain_r d A G : msym d A -> ddot d A (strain G) = ddot d A G.
Proof.
  intros HA. unfold strain. rewrite ddot_comm, (ddot_scal_l d (/ 2) (fun i j => G i j + G j i)), (ddot_add_l d G (fun i j => G j i)).
  rewrite (ddot_comm d G A). replace (ddot d (fun i j => G j i) A) with (ddot d A G); [lra|].
  change (ddot d (fun i j => G j i) A) with (ddot d (transpose G) A). rewrite ddot_transpose, (ddot_comm d G).
  apply ddot_ext; [|intros i j _ _; reflexivity]. intros i j Hi Hj. unfold transpose. now apply HA.
Qed.
Lemma iso_sym d E A : msym d A -> msym d (iso_stress d E A).
Proof. intros H i j Hi Hj. unfold iso_stress. rewrite (H i j) by assumption. unfold eye. now rewrite Nat.eqb_sym. Qed.
Lemma strain_msym d G : msym d (strain G).
Proof. intros i j _ _. apply strain_sym. Qed.
Lemma lin_symmetric d G : msym d (linear_elastic_stress d G).
Proof. exact (iso_sym d 70000 (strain G) (strain_msym d G)). Qed.
Lemma lin_linear d a G H : meq d (linear_elastic_stress d (madd (mscal a G) H)) (madd (mscal a (linear_elastic_stress d G)) (linear_elastic_stress d H)).
Proof.
  intros i j Hi Hj. rewrite lin_iso. rewrite (iso_ext d 70000 _ (fun i j => a * strain G i j + strain H i j)); [|intros k l _ _; apply (strain_linear a G H)|assumption|assumption].
  rewrite iso_linear. reflexivity.
Qed.
Lemma lin_skew d G : mskew d G -> meq d (linear_elastic_stress d G) mzero.
Proof.
  intros H. apply (iso_zero d 70000). intros i j Hi Hj. unfold strain, mzero. rewrite (H i j) by assumption. ring.
Qed.
Lemma lin_work d G H : ddot d (linear_elastic_stress d G) H = ddot d (linear_elastic_stress d H) G.
Proof.
  rewrite <- (ddot_strain_r d (linear_elastic_stress d G) H) by apply lin_symmetric.
  rewrite <- (ddot_strain_r d (linear_elastic_stress d H) G) by apply lin_symmetric.
  change (ddot d (iso_stress d 70000 (strain G)) (strain H) = ddot d (iso_stress d 70000 (strain H)) (strain G)).
  rewrite !iso_work, (ddot_comm d (strain H)). ring.
Qed.
Lemma lin_energy d G : 0 <= ddot d (linear_elastic_stress d G) G.
Proof.
  rewrite <- ddot_strain_r by apply lin_symmetric. change (0 <= ddot d (iso_stress d 70000 (strain G)) (strain G)). rewrite iso_work.
  pose proof (lmbda_pos 70000 ltac:(lra)). pose proof (mu_pos 70000 ltac:(lra)). pose proof (ddot_nonneg d (strain G)).
  assert (0 <= trace d (strain G) * trace d (strain G)) by nra. rewrite Rmult_assoc. apply Rplus_le_le_0_compat; apply Rmult_le_pos; lra.
Qed.
Lemma lin_energy_zero d G : ddot d (linear_elastic_stress d G) G = 0 <-> mskew d G.
Proof.
  split.
  - intros H. rewrite <- ddot_strain_r in H by apply lin_symmetric. change (ddot d (iso_stress d 70000 (strain G)) (strain G) = 0) in H. rewrite iso_work in H.
    pose proof (lmbda_pos 70000 ltac:(lra)). pose proof (mu_pos 70000 ltac:(lra)). pose proof (ddot_nonneg d (strain G)).
    assert (0 <= lmbda_of 70000 * (trace d (strain G) * trace d (strain G))) by (apply Rmult_le_pos; nra).
    assert (Hz : ddot d (strain G) (strain G) = 0) by nra. intros i j Hi Hj. pose proof (ddot_zero d _ Hz i j Hi Hj) as E. unfold strain, mzero in E. lra.
  - intros H. rewrite (ddot_ext d _ mzero G G) by (apply lin_skew, H || (intros i j _ _; reflexivity)).
    unfold ddot, mzero. apply sumN_zero. intros. apply sumN_zero. intros. ring.
Qed.
(** rotating the displacement gradient rotates the stress *)
Lemma matmul_ext d A A' B B' : meq d A A' -> meq d B B' -> meq d (matmul d A B) (matmul d A' B').
Proof. intros HA HB i j Hi Hj. apply sumN_ext. intros k Hk. now rewrite HA, HB. Qed.
Lemma matmul_assoc d A B C i j : matmul d (matmul d A B) C i j = matmul d A (matmul d B C) i j.
Proof.
  unfold matmul. rewrite (sumN_ext d _ (fun k => sumN d (fun l => A i l * B l k * C k j))) by (intros; now rewrite <- sumN_scal_r).
  rewrite sumN_swap. apply sumN_ext. intros l _. rewrite <- sumN_scal. apply sumN_ext. intros k _. ring.
Qed.
Lemma matmul_identity_l d A : meq d (matmul d identity A) A.
Proof.
  intros i j Hi Hj. unfold matmul, identity. rewrite <- (sumN_pick' d i (fun k => A k j) Hi). apply sumN_ext. intros k _. destruct (Nat.eqb i k); ring.
Qed.
Lemma matmul_identity_r d A : meq d (matmul d A identity) A.
Proof.
  intros i j Hi Hj. unfold matmul, identity. rewrite <- (sumN_pick d j (fun k => A i k) Hj). apply sumN_ext. intros k _. destruct (Nat.eqb k j); ring.
Qed.
Lemma trace_matmul d A B : trace d (matmul d A B) = trace d (matmul d B A).
Proof. unfold trace, matmul. rewrite sumN_swap. apply sumN_ext. intros i _. apply sumN_ext. intros j _. ring. Qed.
Lemma trace_ext d A B : meq d A B -> trace d A = trace d B.
Proof. intros H. apply sumN_ext. intros k Hk. now apply H. Qed.
Definition conjugate (d : nat) (Q A : mat) : mat := matmul d (matmul d Q A) (transpose Q).
Lemma trace_conjugate d Q A : orthogonal d Q -> trace d (conjugate d Q A) = trace d A.
Proof.
  intros (_ & HQ). unfold conjugate. rewrite trace_matmul. apply trace_ext. intros i j Hi Hj. rewrite <- matmul_assoc.
  rewrite (matmul_ext d _ identity A A HQ) by (assumption || (intros k l _ _; reflexivity)). now apply matmul_identity_l.
Qed.
Lemma conjugate_strain d Q G i j : conjugate d Q (strain G) i j = strain (conjugate d Q G) i j.
Proof.
  assert (E : forall i j, conjugate d Q (fun k l => G l k) i j = conjugate d Q G j i).
  { intros i0 j0. unfold conjugate, matmul, transpose.
    rewrite (sumN_ext d _ (fun k => sumN d (fun l => Q i0 l * G k l * Q j0 k))) by (intros; now rewrite <- sumN_scal_r).
    rewrite sumN_swap. apply sumN_ext. intros l _. rewrite <- sumN_scal_r. apply sumN_ext. intros k _. ring. }
  unfold strain at 2. rewrite <- (E i j). unfold conjugate, matmul, strain. rewrite <- sumN_add, <- sumN_scal. apply sumN_ext. intros k _.
  rewrite (sumN_ext d _ (fun l => / 2 * (Q i l * G l k + Q i l * G k l))) by (intros; ring). rewrite sumN_scal, sumN_add. ring.
Qed.
Lemma lin_isotropic d Q G : orthogonal d Q ->
  meq d (linear_elastic_stress d (conjugate d Q G)) (conjugate d Q (linear_elastic_stress d G)).
Proof.
  intros HQ i j Hi Hj. rewrite lin_iso.
  rewrite (iso_ext d 70000 _ (conjugate d Q (strain G))) by (assumption || (intros k l _ _; symmetry; apply conjugate_strain)).
  unfold iso_stress at 1. rewrite trace_conjugate by exact HQ.
  assert (E : conjugate d Q (linear_elastic_stress d G) i j = lmbda_of 70000 * trace d (strain G) * conjugate d Q identity i j + 2 * mu_of 70000 * conjugate d Q (strain G) i j).
  { unfold conjugate, matmul. rewrite <- !sumN_scal, <- sumN_add. apply sumN_ext. intros k _.
    rewrite <- !sumN_scal_r, <- !sumN_scal, <- sumN_add. apply sumN_ext. intros l _. rewrite lin_iso. unfold iso_stress. rewrite eye_identity. ring. }
  rewrite E. f_equal. f_equal. unfold conjugate. rewrite (matmul_ext d _ Q _ (transpose Q)); try assumption.
  - symmetry. now apply (proj1 HQ).
  - apply matmul_identity_r.
  - intros k l _ _. reflexivity.
Qed.
(** the constants: uniaxial tension and simple shear *)
Lemma lin_uniaxial e : meq 3 (linear_elastic_stress 3 (fun i j => if Nat.eqb i j then (if Nat.eqb i 0 then e else - (3 / 10) * e) else 0))
                             (fun i j => if Nat.eqb i 0 && Nat.eqb j 0 then 70000 * e else 0).
Proof.
  intros i j Hi Hj. unfold linear_elastic_stress, trace, sumN, eye. cbn [seq sumR fold_right map Nat.eqb].
  destruct i as [|[|[|i]]], j as [|[|[|j]]]; cbn [Nat.eqb andb]; try lia; cbn; field.
Qed.
Lemma lin_shear g : meq 3 (linear_elastic_stress 3 (fun i j => if Nat.eqb i 0 && Nat.eqb j 1 then g else 0))
                          (fun i j => if (Nat.eqb i 0 && Nat.eqb j 1) || (Nat.eqb i 1 && Nat.eqb j 0) then 70000 / (2 * (1 + 3 / 10)) * g else 0).
Proof.
  intros i j Hi Hj. unfold linear_elastic_stress, trace, sumN, eye. cbn [seq sumR fold_right map Nat.eqb andb].
  destruct i as [|[|[|i]]], j as [|[|[|j]]]; cbn [Nat.eqb andb orb]; try lia; cbn; field.
Qed.
Close Scope R_scope.
