(** * Proofs about implicit differentiation and dynamic relaxation. *)
From Coq Require Import FunctionalExtensionality Lra.
From Verif Require Import Prelude PreludeFacts FemModel FemFacts FemMatProofs SolverModel SolverSpec SolverProofs.
Open Scope R_scope.

Lemma dotN_sym n a b : dotN n a b = dotN n b a.
Proof. unfold dotN. apply sumN_ext. intros i _. ring. Qed.
Lemma dotN_ext n a a' b b' : same n a a' -> same n b b' -> dotN n a b = dotN n a' b'.
Proof. intros H1 H2. unfold dotN. apply sumN_ext. intros i Hi. rewrite (H1 i Hi), (H2 i Hi). reflexivity. Qed.
Lemma sumN_prefix (x : vector) m n i : (m <= n)%nat -> (i < n)%nat -> sumN m (fun j => if Nat.eqb i j then x j else 0) = if Nat.ltb i m then x i else 0.
Proof.
  intros Hm Hi. destruct (Nat.ltb_spec i m) as [H|H]; [exact (sumN_pick' m i x H)|].
  apply sumN_zero. intros j Hj. destruct (Nat.eqb_spec i j); [lia|reflexivity].
Qed.
(** a linear map is a matrix *)
Lemma linear_map_matrix n m A : linear_map n m A -> forall x i, (i < n)%nat -> A x i = sumN m (fun j => x j * A (unit_vec j) i).
Proof.
  intros (Ha & Hs & He) x i Hi.
  assert (Hz : A (fun _ => 0) i = 0).
  { pose proof (Hs i 0 (fun _ => 0) Hi) as H. rewrite Rmult_0_l in H. etransitivity; [|exact H]. f_equal. apply functional_extensionality. intros j. ring. }
  assert (H : forall k, (k <= m)%nat -> A (fun j => if Nat.ltb j k then x j else 0) i = sumN k (fun j => x j * A (unit_vec j) i)).
  { induction k as [|k IH]; intros Hk.
    - transitivity (A (fun _ => 0) i); [|exact Hz]. reflexivity.
    - rewrite sumN_S, <- IH by lia. rewrite <- Hs, <- Ha by exact Hi. f_equal. apply functional_extensionality. intros j. unfold unit_vec.
      destruct (Nat.ltb_spec j (S k)), (Nat.ltb_spec j k), (Nat.eqb_spec j k); subst; try lia; ring. }
  rewrite <- H by lia. apply He; [|exact Hi]. intros j Hj. destruct (Nat.ltb_spec j m); [reflexivity|lia].
Qed.
Definition op_bound (m : nat) (A : vector -> vector) (i : nat) : R := sumN m (fun j => Rabs (A (unit_vec j) i)).
Lemma sumN_abs n f : Rabs (sumN n f) <= sumN n (fun i => Rabs (f i)).
Proof.
  induction n as [|n IH]; [cbn; rewrite Rabs_R0; lra|]. rewrite !sumN_S. eapply Rle_trans; [apply Rabs_triang|]. lra.
Qed.
Lemma op_bound_nonneg m A i : 0 <= op_bound m A i.
Proof. apply sumN_nonneg. intros j _. apply Rabs_pos. Qed.
Lemma linear_bound n m A e y i : linear_map n m A -> (i < n)%nat -> (forall j, (j < m)%nat -> Rabs (y j) <= e) -> Rabs (A y i) <= e * op_bound m A i.
Proof.
  intros HA Hi Hy. rewrite (linear_map_matrix n m A HA y i Hi). eapply Rle_trans; [apply sumN_abs|]. unfold op_bound. rewrite <- sumN_scal. apply sumN_le.
  intros j Hj. rewrite Rabs_mult. apply Rmult_le_compat_r; [apply Rabs_pos|]. exact (Hy j Hj).
Qed.
(** all components of a path are close to their tangent at once *)
Lemma path_close n (u : R -> vector) du : (forall i, (i < n)%nat -> derivable_pt_lim (fun t => u t i) 0 (du i)) ->
  forall e, 0 < e -> exists del, 0 < del /\ forall t, Rabs t < del -> forall i, (i < n)%nat -> Rabs (u t i - u 0 i - t * du i) <= e * Rabs t.
Proof.
  intros Hd e He. induction n as [|n IH].
  - exists 1. split; [lra|]. intros t _ i Hi. lia.
  - destruct IH as (d1 & Hd1 & H1); [intros i Hi; apply Hd; lia|]. destruct (Hd n ltac:(lia) e He) as (d2 & H2).
    exists (Rmin d1 d2). split; [apply Rmin_pos; [exact Hd1|apply cond_pos]|]. intros t Ht i Hi.
    assert (Ht1 : Rabs t < d1) by (eapply Rlt_le_trans; [exact Ht|apply Rmin_l]). assert (Ht2 : Rabs t < d2) by (eapply Rlt_le_trans; [exact Ht|apply Rmin_r]).
    destruct (Nat.eq_dec i n) as [->|Hn]; [|apply H1; [exact Ht1|lia]].
    destruct (Req_dec t 0) as [->|Hne]; [rewrite Rabs_R0; replace (u 0 n - u 0 n - 0 * du n) with 0 by ring; rewrite Rabs_R0; lra|].
    specialize (H2 t Hne Ht2). rewrite Rplus_0_l in H2. replace (u t n - u 0 n - t * du n) with (((u t n - u 0 n) / t - du n) * t) by (field; exact Hne).
    rewrite Rabs_mult. apply Rmult_le_compat_r; [apply Rabs_pos|lra].
Qed.
Lemma norm1_bound n y e : (forall i, (i < n)%nat -> Rabs (y i) <= e) -> norm1 n y <= INR n * e.
Proof. intros H. rewrite <- sumN_const. apply sumN_le. exact H. Qed.

(** ** Chain rule along a path of solutions *)
Lemma implicit_chain_rule n m c sol p dp u du A B : linear_map n n A -> linear_map n m B -> differentiable n m c sol p A B ->
  solution_path n c sol p dp u du -> forall i, (i < n)%nat -> A du i + B dp i = 0.
Proof.
  intros HA HB Hdiff (H0 & (d0 & Hd0 & Hz) & Hdu) i Hi.
  set (X := A du i + B dp i). destruct (Req_dec X 0) as [|HX]; [assumption|exfalso].
  set (K := op_bound n A i). assert (HK : 0 <= K) by apply op_bound_nonneg.
  set (ndu := norm1 n du). set (ndp := norm1 m dp).
  assert (Hndu : 0 <= ndu) by (apply sumN_nonneg; intros; apply Rabs_pos). assert (Hndp : 0 <= ndp) by (apply sumN_nonneg; intros; apply Rabs_pos).
  pose proof (pos_INR n) as Hn.
  (* e1 for the path, e2 for the function *)
  set (e1 := Rabs X / (4 * (K + 1))). assert (HaX : 0 < Rabs X) by (apply Rabs_pos_lt; exact HX).
  assert (He1 : 0 < e1) by (apply Rdiv_lt_0_compat; lra).
  set (C := ndu + INR n * e1 + ndp + 1). assert (HC : 0 < C) by (unfold C; pose proof (Rmult_le_pos _ _ Hn (Rlt_le _ _ He1)); lra).
  set (e2 := Rabs X / (4 * C)). assert (He2 : 0 < e2) by (apply Rdiv_lt_0_compat; lra).
  destruct (path_close n u du Hdu e1 He1) as (d1 & Hd1 & Hclose). destruct (Hdiff i Hi e2 He2) as (d2 & Hd2 & Hf).
  set (t := Rmin (d0 / 2) (Rmin (d1 / 2) (d2 / (2 * C)))).
  assert (Ht : 0 < t) by (unfold t; repeat apply Rmin_pos; try lra; apply Rdiv_lt_0_compat; lra).
  assert (Ht0 : t < d0) by (unfold t; eapply Rle_lt_trans; [apply Rmin_l|lra]).
  assert (Ht1 : t < d1) by (unfold t; eapply Rle_lt_trans; [eapply Rle_trans; [apply Rmin_r|apply Rmin_l]|lra]).
  assert (Ht2 : t * C < d2).
  { apply Rle_lt_trans with (d2 / (2 * C) * C); [apply Rmult_le_compat_r; [lra|]; unfold t; eapply Rle_trans; [apply Rmin_r|apply Rmin_r]|].
    replace (d2 / (2 * C) * C) with (d2 / 2) by (field; lra). lra. }
  assert (Habs : Rabs t = t) by (apply Rabs_right; lra).
  specialize (Hclose t ltac:(lra)). set (w := fun j => u t j - sol j).
  assert (Hw : forall j, (j < n)%nat -> Rabs (w j - t * du j) <= e1 * t).
  { intros j Hj. specialize (Hclose j Hj). rewrite H0, Habs in Hclose. exact Hclose. }
  assert (Hnw : norm1 n w <= t * ndu + INR n * (e1 * t)).
  { unfold norm1. eapply Rle_trans with (sumN n (fun j => t * Rabs (du j) + e1 * t)).
    - apply sumN_le. intros j Hj. replace (w j) with (t * du j + (w j - t * du j)) by ring. eapply Rle_trans; [apply Rabs_triang|].
      rewrite Rabs_mult, Habs. specialize (Hw j Hj). lra.
    - rewrite sumN_add, sumN_scal, sumN_const. unfold ndu, norm1. lra. }
  assert (Hnt : norm1 m (fun j => t * dp j) = t * ndp).
  { unfold norm1, ndp, norm1. rewrite <- sumN_scal. apply sumN_ext. intros j _. rewrite Rabs_mult, Habs. reflexivity. }
  assert (Htot : norm1 n w + norm1 m (fun j => t * dp j) <= t * C) by (unfold C; rewrite Hnt; nra).
  specialize (Hf w (fun j => t * dp j) ltac:(lra)).
  replace (fun j => sol j + w j) with (u t) in Hf by (apply functional_extensionality; intros j; unfold w; ring).
  change (fun j => p j + t * dp j) with (step p t dp) in Hf. rewrite (Hz t ltac:(rewrite Habs; lra) i Hi) in Hf.
  assert (Hs0 : c sol p i = 0).
  { specialize (Hz 0 ltac:(rewrite Rabs_R0; lra) i Hi). replace (u 0) with sol in Hz by (apply functional_extensionality; intros j; symmetry; apply H0).
    replace (step p 0 dp) with p in Hz by (apply functional_extensionality; intros j; unfold step; ring). exact Hz. }
  rewrite Hs0 in Hf. destruct HA as (Aa & As & Ae). destruct HB as (Ba & Bs & Be).
  rewrite (Bs i t dp Hi) in Hf.
  assert (HAw : A w i = t * A du i + A (fun j => w j - t * du j) i).
  { rewrite <- (As i t du Hi), <- (Aa i _ _ Hi). f_equal. apply functional_extensionality. intros j. ring. }
  rewrite HAw in Hf. pose proof (linear_bound n n A (e1 * t) (fun j => w j - t * du j) i (conj Aa (conj As Ae)) Hi Hw) as Hb. fold K in Hb.
  assert (Hle : Rabs (t * X) <= e1 * t * K + e2 * (t * C)).
  { replace (t * X) with (- (0 - 0 - (t * A du i + A (fun j => w j - t * du j) i) - t * B dp i) - A (fun j => w j - t * du j) i) by (unfold X; ring).
    eapply Rle_trans; [apply Rabs_triang|]. rewrite !Rabs_Ropp.
    assert (e2 * (norm1 n w + norm1 m (fun j => t * dp j)) <= e2 * (t * C)) by (apply Rmult_le_compat_l; lra). lra. }
  rewrite Rabs_mult, Habs in Hle.
  assert (E1 : e1 * K <= Rabs X / 4).
  { unfold e1. replace (Rabs X / (4 * (K + 1)) * K) with (Rabs X / 4 * (K / (K + 1))) by (field; lra).
    assert (K / (K + 1) <= 1) by (apply Rmult_le_reg_r with (K + 1); [lra|]; replace (K / (K + 1) * (K + 1)) with K by (field; lra); lra). nra. }
  assert (E2 : e2 * C = Rabs X / 4) by (unfold e2; field; lra).
  assert (t * Rabs X <= t * (Rabs X / 2)); [|nra].
  replace (e1 * t * K + e2 * (t * C)) with (t * (e1 * K + e2 * C)) in Hle by ring. eapply Rle_trans; [exact Hle|]. apply Rmult_le_compat_l; lra.
Qed.

Section Implicit.
Variable ev : env.
Variable Pp : vector -> problem.
Variable rp : vector -> nodal -> nodal.
Variable m : nat.
Variables sol params : vector.
Local Notation P := (Pp params).
Local Notation N := (num_total_dofs P).
Hypothesis Hok : bc_ok P.

Lemma get_A_linear ijv use_petsc : linear_map N N (lop_apply N (get_A_fn P ijv use_petsc)).
Proof.
  repeat split.
  - intros i x y Hi. destruct (dof_ex P i Hi) as (n & k & Hu & ->). rewrite !get_A_fn_spec by assumption. destruct (prescribed P n k); [ring|].
    unfold coo_mul. rewrite <- sumN_add. apply sumN_ext. intros j _. ring.
  - intros i c x Hi. destruct (dof_ex P i Hi) as (n & k & Hu & ->). rewrite !get_A_fn_spec by assumption. destruct (prescribed P n k); [ring|].
    unfold coo_mul. rewrite <- sumN_scal. apply sumN_ext. intros j _. ring.
  - intros x y Hxy i Hi. destruct (dof_ex P i Hi) as (n & k & Hu & ->). rewrite !get_A_fn_spec by assumption. destruct (prescribed P n k); [exact (Hxy _ Hi)|].
    unfold coo_mul. apply sumN_ext. intros j Hj. rewrite (Hxy j Hj). reflexivity.
Qed.
(** the derivative of the constrained residual *)
Lemma constraint_differentiable ijv use_petsc B :
  (forall p, same_conditions (Pp p) P) -> (forall p, bc_ok (Pp p)) ->
  differentiable N m (fun d p => ravel P (rp p (reshape P d))) sol params (coo_mul N ijv) B ->
  differentiable N m (constraint_fn Pp rp) sol params (lop_apply N (get_A_fn P ijv use_petsc)) (free_rows P B).
Proof.
  intros Hsc Hall Hd i Hi e He. destruct (Hd i Hi e He) as (del & Hdel & H). exists del. split; [exact Hdel|]. intros du dp Hnorm.
  specialize (H du dp Hnorm). destruct (dof_ex P i Hi) as (n & k & Hu & ->).
  assert (Hc : forall d p, constraint_fn Pp rp d p (dof P n k) = match prescribed P n k with Some v => d (dof P n k) - v | None => rp p (reshape P d) n k end).
  { intros d p. destruct (Hsc p) as (Hn & Hv & Hp). unfold constraint_fn, apply_bc.
    assert (Hu' : unknown (Pp p) n k) by (unfold unknown; rewrite Hn, Hv; exact Hu).
    assert (Hdof : dof P n k = dof (Pp p) n k) by (unfold dof; rewrite Hv; reflexivity). rewrite Hdof.
    rewrite apply_bc_vec_spec by (apply Hall || exact Hu'). rewrite ravel_dof by exact (proj2 Hu'). rewrite Hp.
    assert (Hrs : reshape (Pp p) d = reshape P d) by (unfold reshape; rewrite Hv; reflexivity). rewrite Hrs. reflexivity. }
  rewrite !Hc, get_A_fn_spec by assumption. unfold free_rows. rewrite ravel_dof by exact (proj2 Hu). rewrite !ravel_dof in H by exact (proj2 Hu).
  destruct (prescribed P n k) as [v|]; [|exact H].
  replace (sol (dof P n k) + du (dof P n k) - v - (sol (dof P n k) - v) - du (dof P n k) - 0) with 0 by ring. rewrite Rabs_R0.
  apply Rmult_le_pos; [lra|]. apply Rplus_le_le_0_compat; apply sumN_nonneg; intros; apply Rabs_pos.
Qed.
Lemma free_rows_linear B : linear_map N m B -> linear_map N m (free_rows P B).
Proof.
  intros (Ha & Hs & He). repeat split.
  - intros i x y Hi. destruct (dof_ex P i Hi) as (n & k & Hu & ->). unfold free_rows. rewrite !ravel_dof by exact (proj2 Hu). destruct (prescribed P n k); [ring|]. apply Ha; exact Hi.
  - intros i c x Hi. destruct (dof_ex P i Hi) as (n & k & Hu & ->). unfold free_rows. rewrite !ravel_dof by exact (proj2 Hu). destruct (prescribed P n k); [ring|]. apply Hs; exact Hi.
  - intros x y Hxy i Hi. destruct (dof_ex P i Hi) as (n & k & Hu & ->). unfold free_rows. rewrite !ravel_dof by exact (proj2 Hu). destruct (prescribed P n k); [reflexivity|]. apply He; assumption.
Qed.

Variable vjp : (vector -> vector) -> vector -> vector -> vector.
Variable jvp : (vector -> vector) -> vector -> vector -> vector.
Hypothesis Hex : exact_solvers ev.
Lemma adjoint_solvable A : linear_map N N A -> invertible N A -> forall v, exists w, forall d, dotN N w (A d) = dotN N v d.
Proof.
  intros HA (Mi & Hr & Hl) v. exists (fun i => sumN N (fun j => v j * Mi j i)). intros d. unfold dotN at 1.
  rewrite (sumN_ext _ _ (fun i => sumN N (fun j => v j * Mi j i * A d i))) by (intros i _; rewrite sumN_scal_r; reflexivity).
  rewrite sumN_swap. unfold dotN. apply sumN_ext. intros j Hj. rewrite <- (Hl d j Hj). unfold mat_vec. rewrite <- sumN_scal. apply sumN_ext. intros i _. ring.
Qed.
Lemma dotN_unit v j : (j < N)%nat -> dotN N v (unit_vec j) = v j.
Proof. intros Hj. unfold dotN, unit_vec. rewrite <- (sumN_pick N j v Hj). apply sumN_ext. intros i _. destruct (Nat.eqb i j); ring. Qed.
Lemma implicit_vjp_adjoint ijv r B v use_petsc :
  newton_update P (reshape P sol) = Ok (r, ijv) ->
  invertible N (lop_apply N (get_A_fn P ijv use_petsc)) ->
  vjp_ok N N vjp (lop_apply N (get_A_fn P ijv use_petsc)) sol (lop_apply N (get_A_fn P ijv use_petsc)) ->
  vjp_ok N m vjp (constraint_fn Pp rp sol) params B ->
  exists g w, implicit_vjp ev Pp rp vjp sol params v use_petsc = Ok g /\
    (forall d, dotN N w (lop_apply N (get_A_fn P ijv use_petsc) d) = dotN N v d) /\ (forall dp, dotN m g dp = - dotN N w (B dp)).
Proof.
  intros Hr Hinv Hv1 Hv2. pose proof (get_A_linear ijv use_petsc) as HA.
  destruct (adjoint_solvable _ HA Hinv v) as (w0 & Hw0).
  unfold implicit_vjp. rewrite Hr. cbn [bind snd].
  set (w := match get_A_fn P ijv use_petsc with Pmat M => _ | Jop A => _ end).
  eexists. exists w. split; [reflexivity|]. split.
  - subst w. destruct Hex as [Hj Hk]. destruct (get_A_fn P ijv use_petsc) as [f|Mt]; cbn [lop_apply] in *.
    + unfold jax_solve. set (w := bicgstab _ _ _ _ _ _). assert (E : same N (vjp f sol w) v).
      { subst w. apply Hj. exists w0. intros j Hj'. rewrite <- (dotN_unit (vjp f sol w0) j Hj'), Hv1, Hw0. apply dotN_unit. exact Hj'. }
      intros d. rewrite <- Hv1. apply dotN_ext; [exact E|intros ? ?; reflexivity].
    + unfold petsc_solve. set (w := ksp _ _ _ _).
      assert (Htr : forall a d, dotN N a (mat_vec N Mt d) = dotN N (mat_vec N (transpose Mt) a) d).
      { intros a d. unfold dotN, mat_vec, transpose. rewrite (sumN_ext _ _ (fun i => sumN N (fun j => a i * (Mt i j * d j)))) by (intros i _; rewrite sumN_scal; reflexivity).
        rewrite sumN_swap. apply sumN_ext. intros j _. rewrite <- sumN_scal_r. apply sumN_ext. intros i _. ring. }
      assert (E : same N (mat_vec N (transpose Mt) w) v).
      { subst w. apply Hk. exists w0. intros j Hj'. rewrite <- (dotN_unit _ j Hj'), <- Htr, Hw0. apply dotN_unit. exact Hj'. }
      intros d. rewrite Htr. apply dotN_ext; [exact E|intros ? ?; reflexivity].
  - intros dp. rewrite <- (Hv2 w dp). unfold dotN, vopp. rewrite <- sumN_opp. apply sumN_ext. intros i _. ring.
Qed.
Lemma implicit_vjp_exact ijv r B dp u du v use_petsc :
  newton_update P (reshape P sol) = Ok (r, ijv) ->
  differentiable N m (constraint_fn Pp rp) sol params (lop_apply N (get_A_fn P ijv use_petsc)) B -> linear_map N m B ->
  invertible N (lop_apply N (get_A_fn P ijv use_petsc)) ->
  vjp_ok N N vjp (lop_apply N (get_A_fn P ijv use_petsc)) sol (lop_apply N (get_A_fn P ijv use_petsc)) ->
  vjp_ok N m vjp (constraint_fn Pp rp sol) params B ->
  solution_path N (constraint_fn Pp rp) sol params dp u du ->
  exists g, implicit_vjp ev Pp rp vjp sol params v use_petsc = Ok g /\ dotN m g dp = dotN N v du.
Proof.
  intros Hr Hd HB Hinv Hv1 Hv2 Hpath. pose proof (get_A_linear ijv use_petsc) as HA.
  pose proof (implicit_chain_rule _ _ _ _ _ _ _ _ _ _ HA HB Hd Hpath) as Hch.
  destruct (implicit_vjp_adjoint ijv r B v use_petsc Hr Hinv Hv1 Hv2) as (g & w & Hg & Hw & Hgd). exists g. split; [exact Hg|].
  rewrite Hgd, <- (Hw du). unfold dotN. rewrite <- sumN_opp. apply sumN_ext. intros i Hi. specialize (Hch i Hi).
  replace (B dp i) with (- lop_apply N (get_A_fn P ijv use_petsc) du i) by lra. ring.
Qed.
Lemma implicit_jvp_solves ijv r B dp :
  newton_update P (reshape P sol) = Ok (r, ijv) -> invertible N (lop_apply N (get_A_fn P ijv false)) ->
  jvp_ok N jvp (fun d => constraint_fn Pp rp d params) sol (lop_apply N (get_A_fn P ijv false)) ->
  jvp_ok N jvp (constraint_fn Pp rp sol) params B ->
  exists x, implicit_jvp_helper ev Pp rp jvp sol params dp = Ok x /\ same N (lop_apply N (get_A_fn P ijv false) x) (vopp (B dp)).
Proof.
  intros Hr (Mi & Hir & _) Hj1 Hj2. unfold implicit_jvp_helper. rewrite Hr. cbn [bind snd]. eexists. split; [reflexivity|]. unfold jax_solve.
  set (x := bicgstab _ _ _ _ _ _). set (b := vopp (jvp (constraint_fn Pp rp sol) params dp)) in *.
  intros i Hi. rewrite <- (Hj1 x i Hi). transitivity (b i); [|unfold b, vopp; rewrite (Hj2 dp i Hi); reflexivity].
  subst x. apply Hex; [|exact Hi]. exists (mat_vec N Mi b). intros j Hj. rewrite (Hj1 _ j Hj). exact (Hir b j Hj).
Qed.
Lemma implicit_jvp_exact ijv r B dp u du :
  newton_update P (reshape P sol) = Ok (r, ijv) ->
  differentiable N m (constraint_fn Pp rp) sol params (lop_apply N (get_A_fn P ijv false)) B -> linear_map N m B ->
  invertible N (lop_apply N (get_A_fn P ijv false)) ->
  jvp_ok N jvp (fun d => constraint_fn Pp rp d params) sol (lop_apply N (get_A_fn P ijv false)) ->
  jvp_ok N jvp (constraint_fn Pp rp sol) params B ->
  solution_path N (constraint_fn Pp rp) sol params dp u du ->
  exists d, implicit_jvp_helper ev Pp rp jvp sol params dp = Ok d /\ same N d du.
Proof.
  intros Hr Hd HB Hinv Hj1 Hj2 Hpath. pose proof (get_A_linear ijv false) as HA.
  pose proof (implicit_chain_rule _ _ _ _ _ _ _ _ _ _ HA HB Hd Hpath) as Hch.
  destruct (implicit_jvp_solves ijv r B dp Hr Hinv Hj1 Hj2) as (x & Hx & Hs). exists x. split; [exact Hx|]. destruct Hinv as (Mi & _ & Hil).
  intros i Hi. rewrite <- (Hil x i Hi), <- (Hil du i Hi). unfold mat_vec. apply sumN_ext. intros j Hj. rewrite (Hs j Hj). unfold vopp. specialize (Hch j Hj).
  replace (B dp j) with (- lop_apply N (get_A_fn P ijv false) du j) by lra. ring.
Qed.
Lemma modes_adjoint ijv r B v dp :
  newton_update P (reshape P sol) = Ok (r, ijv) -> invertible N (lop_apply N (get_A_fn P ijv false)) ->
  vjp_ok N N vjp (lop_apply N (get_A_fn P ijv false)) sol (lop_apply N (get_A_fn P ijv false)) ->
  vjp_ok N m vjp (constraint_fn Pp rp sol) params B ->
  jvp_ok N jvp (fun d => constraint_fn Pp rp d params) sol (lop_apply N (get_A_fn P ijv false)) ->
  jvp_ok N jvp (constraint_fn Pp rp sol) params B ->
  exists g x, implicit_vjp ev Pp rp vjp sol params v false = Ok g /\ implicit_jvp_helper ev Pp rp jvp sol params dp = Ok x /\ dotN m g dp = dotN N v x.
Proof.
  intros Hr Hinv Hv1 Hv2 Hj1 Hj2. destruct (implicit_vjp_adjoint ijv r B v false Hr Hinv Hv1 Hv2) as (g & w & Hg & Hw & Hgd).
  destruct (implicit_jvp_solves ijv r B dp Hr Hinv Hj1 Hj2) as (x & Hx & Hs). exists g, x. split; [exact Hg|]. split; [exact Hx|].
  rewrite Hgd, <- (Hw x). unfold dotN. rewrite <- sumN_opp. apply sumN_ext. intros i Hi. rewrite (Hs i Hi). unfold vopp. ring.
Qed.
End Implicit.

(** ** Dynamic relaxation *)
Lemma calC_within t cmin cmax : cmin <= cmax -> cmin <= calC t cmin cmax <= cmax.
Proof.
  intros H. unfold calC, Rltb.
  destruct (Rlt_dec t 0); match goal with |- context [Rlt_dec (2 * sqrt ?x) cmin] => destruct (Rlt_dec (2 * sqrt x) cmin) end;
    match goal with |- context [Rlt_dec cmax ?x] => destruct (Rlt_dec cmax x) end; lra.
Qed.
Lemma calC_value t cmin cmax : cmin <= 2 * sqrt (Rmax t 0) <= cmax -> calC t cmin cmax = 2 * sqrt (Rmax t 0).
Proof.
  intros H. unfold calC, Rltb. replace (if if Rlt_dec t 0 then true else false then 0 else t) with (Rmax t 0).
  - destruct (Rlt_dec (2 * sqrt (Rmax t 0)) cmin); [lra|]. destruct (Rlt_dec cmax (2 * sqrt (Rmax t 0))); lra.
  - unfold Rmax. destruct (Rle_dec t 0), (Rlt_dec t 0); lra.
Qed.
Lemma dynamic_relax_raises ev P rest : dynamic_relax_solve ev P rest = Err UnboundLocalError.
Proof. reflexivity. Qed.
Close Scope R_scope.
