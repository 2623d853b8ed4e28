(** * Dynamic relaxation of linear problems ends. *)
From Coq Require Import Lra Lia FunctionalExtensionality.
From Verif Require Import Prelude PreludeFacts FemModel FemFacts MatProofs SolverModel SolverSpec SolverAdProofs LinFacts RlxModel RlxSpec RlxProofs.
Open Scope R_scope.
Open Scope list_scope.

Lemma reached_fun N asm_R asm_K nK u n st st' : reached N asm_R asm_K nK u n st -> reached N asm_R asm_K nK u n st' -> st = st'.
Proof.
  intros H. revert st'. induction H as [|n st v Hr IH Hv]; intros st' H'; inversion H' as [|n' st2 v2 Hr2 Hv2]; subst; [reflexivity|].
  specialize (IH _ Hr2). subst st2. rewrite Hv in Hv2. injection Hv2 as <-. reflexivity.
Qed.
Lemma running N asm_R asm_K nK u tol fuel st n : reached N asm_R asm_K nK u n st -> relax_loop N asm_R asm_K tol nK fuel st = None ->
  forall j, (j <= fuel)%nat -> exists st', reached N asm_R asm_K nK u (n + j) st' /\ tol < rs_error st' /\ ((j < fuel)%nat -> exists v, rs_qdot st' = Some v).
Proof.
  revert st n. induction fuel as [|fuel IH]; intros st n Hr; cbn [relax_loop]; unfold Rltb; destruct (Rlt_dec tol (rs_error st)) as [Ht|Ht]; try discriminate; intros H j Hj.
  - exists st. replace (n + j)%nat with n by lia. split; [exact Hr|]. split; [exact Ht|]. lia.
  - destruct (rs_qdot st) as [v|] eqn:Ev; [|discriminate]. destruct j as [|j].
    + exists st. replace (n + 0)%nat with n by lia. split; [exact Hr|]. split; [exact Ht|]. eauto.
    + destruct (IH _ _ (reached_S N asm_R asm_K nK u n st v Hr Ev) H j ltac:(lia)) as (st' & H1 & H2 & H3). exists st'. replace (n + S j)%nat with (S n + j)%nat by lia. split; [exact H1|]. split; [exact H2|]. intros. apply H3. lia.
Qed.

Lemma above (x : R) : exists n, INR n > x.
Proof. exists (Z.abs_nat (up x)). rewrite INR_IZR_INZ, Zabs2Nat.id_abs. pose proof (proj1 (archimed x)). assert (IZR (up x) <= IZR (Z.abs (up x))) by (apply IZR_le; lia). lra. Qed.
Section Linear.
Variable N : nat.
Variable fixed : nat -> bool.
Variable K : mat.
Variable f : vector.
Variable asm_R : vector -> vector.
Variable asm_K : vector -> mat.
Variable nKMat : nat.
Hypothesis Hlin : linear_forces N fixed K f asm_R asm_K.
Hypothesis Hspd : free_spd N fixed K.
Local Notation Mc := (mass N (asm_K vzero)).
Local Notation supp := (supported N fixed).
Local Notation bil := (form N K).
Local Notation wt := (weighted N Mc).
Lemma equilibrium_exists u : exists s, equilibrium N fixed asm_R u s.
Proof.
  set (A := fun x i => if fixed i then x i else sumN N (fun j => K i j * x j)).
  assert (HA : linear_map N N A).
  { split; [|split].
    - intros i x y _. unfold A. destruct (fixed i); [reflexivity|]. rewrite <- sumN_add. apply sumN_ext. intros; ring.
    - intros i c x _. unfold A. destruct (fixed i); [reflexivity|]. rewrite <- sumN_scal. apply sumN_ext. intros; ring.
    - intros x y H i Hi. unfold A. destruct (fixed i); [exact (H i Hi)|]. apply sumN_ext. intros j Hj. now rewrite (H j Hj). }
  assert (Hinj : forall x, same N (A x) vzero -> same N x vzero).
  { intros x Hx. assert (Sx : supp x) by (intros i Hi Hf; specialize (Hx i Hi); unfold A in Hx; rewrite Hf in Hx; exact Hx).
    destruct (Classical_Prop.classic (exists i, (i < N)%nat /\ x i <> 0)) as [H|H].
    - pose proof (proj2 Hspd x Sx H) as Hp. exfalso. assert (E : bil x x = 0); [|lra]. unfold form. apply sumN_zero. intros i Hi.
      rewrite (sumN_ext N _ (fun j => x i * (K i j * x j))), sumN_scal by (intros; ring). destruct (fixed i) eqn:Fi; [rewrite (Sx i Hi Fi); ring|]. specialize (Hx i Hi). unfold A in Hx. rewrite Fi in Hx. rewrite Hx. unfold vzero. ring.
    - intros i Hi. destruct (Req_dec (x i) 0) as [E|E]; [exact E|]. destruct H. eauto. }
  destruct (injective_surjective N A HA Hinj (fun i => if fixed i then u i else f i)) as (s & Hs0). exists s. split.
  - intros i Hi Hf. specialize (Hs0 i Hi). unfold A in Hs0. rewrite Hf in Hs0. exact Hs0.
  - intros i Hi. rewrite (proj1 Hlin) by exact Hi. specialize (Hs0 i Hi). unfold A in Hs0. destruct (fixed i); [reflexivity|]. lra.
Qed.
(** a state whose velocities are not finite follows one whose velocities are zero *)
Variable u : vector.
Local Notation reach := (reached N asm_R asm_K nKMat u).
Lemma stopped n st : reach n st -> rs_qdot st = None -> exists m st0 v, n = S m /\ reach m st0 /\ rs_qdot st0 = Some v /\ (forall i, (i < N)%nat -> v i = 0) /\ forall i, (i < N)%nat -> rs_q st i = rs_q st0 i.
Proof.
  intros Hr Hn. inversion Hr as [H0 H1|m st0 v Hr0 Hv H0 H1]; subst n st.
  - cbn [relax_init rs_qdot] in Hn. rewrite (no_zero N fixed K f asm_R asm_K Hlin Hspd _ (mass_const N fixed K f asm_R asm_K Hlin u)) in Hn. discriminate.
  - exists m, st0, v. repeat split; auto.
    + assert (HM := mass_reached N fixed K f asm_R asm_K nKMat Hlin u _ _ Hr). cbn [relax_step rs_qdot rs_M] in Hn, HM. rewrite (no_zero N fixed K f asm_R asm_K Hlin Hspd _ HM), Bool.orb_false_r in Hn. destruct (Reqb _ 0) eqn:E; [|discriminate].
      apply Reqb_true in E. intros i Hi. pose proof (mass_reached N fixed K f asm_R asm_K nKMat Hlin u _ _ Hr0) as HM0. pose proof (sumN_zero_each N (fun i => v i * rs_M st0 i * v i)) as HZ.
      assert (Hp : forall j, (j < N)%nat -> 0 <= v j * rs_M st0 j * v j) by (intros j Hj; rewrite (HM0 j Hj); pose proof (mass_pos N fixed K f asm_R asm_K Hlin Hspd j Hj); nra).
      specialize (HZ Hp E i Hi). cbv beta in HZ. rewrite (HM0 i Hi) in HZ. pose proof (mass_pos N fixed K f asm_R asm_K Hlin Hspd i Hi). assert (v i * v i = 0) by nra. nra.
    + intros i Hi. cbn [relax_step rs_q]. revert i Hi. assert (HM := mass_reached N fixed K f asm_R asm_K nKMat Hlin u _ _ Hr). cbn [relax_step rs_qdot rs_M] in Hn, HM. rewrite (no_zero N fixed K f asm_R asm_K Hlin Hspd _ HM), Bool.orb_false_r in Hn. destruct (Reqb _ 0) eqn:E; [|discriminate].
      apply Reqb_true in E. intros i Hi. pose proof (mass_reached N fixed K f asm_R asm_K nKMat Hlin u _ _ Hr0) as HM0. pose proof (sumN_zero_each N (fun i => v i * rs_M st0 i * v i)) as HZ.
      assert (Hp : forall j, (j < N)%nat -> 0 <= v j * rs_M st0 j * v j) by (intros j Hj; rewrite (HM0 j Hj); pose proof (mass_pos N fixed K f asm_R asm_K Hlin Hspd j Hj); nra).
      specialize (HZ Hp E i Hi). cbv beta in HZ. rewrite (HM0 i Hi) in HZ. pose proof (mass_pos N fixed K f asm_R asm_K Hlin Hspd i Hi). assert (v i * v i = 0) by nra. assert (v i = 0) by nra. unfold hstep. lra.
Qed.
Variable s : vector.
Hypothesis Hs : equilibrium N fixed asm_R u s.
Variable tol : R.
Hypothesis Htol : 0 < tol.
Local Notation Mtop := (sumN N Mc + 1).
Lemma Mtop_pos : 1 <= Mtop.
Proof. assert (0 <= sumN N Mc); [|lra]. apply sumN_nonneg. intros i Hi. pose proof (mass_pos N fixed K f asm_R asm_K Hlin Hspd i Hi). lra. Qed.
Lemma Mc_le i : (i < N)%nat -> Mc i <= Mtop.
Proof.
  intros Hi. apply Rle_trans with (sumN N Mc); [|lra]. rewrite <- (sumN_pick N i Mc Hi). apply sumN_le. intros j Hj. pose proof (mass_pos N fixed K f asm_R asm_K Hlin Hspd j Hj). destruct (Nat.eqb j i); lra.
Qed.
Lemma wt_each x i : (i < N)%nat -> Mc i * x i ^ 2 <= wt x.
Proof.
  intros Hi. unfold weighted. rewrite <- (sumN_pick N i (fun i => Mc i * x i ^ 2) Hi). apply sumN_le. intros j Hj. pose proof (mass_pos N fixed K f asm_R asm_K Hlin Hspd j Hj). pose proof (pow2_ge_0 (x j)). destruct (Nat.eqb j i); nra.
Qed.
Lemma wt_lin p q a b B C : 0 <= B -> 0 <= C -> (forall i, (i < N)%nat -> (p * a i + q * b i) ^ 2 <= B * a i ^ 2 + C * b i ^ 2) -> wt (fun i => p * a i + q * b i) <= B * wt a + C * wt b.
Proof.
  intros HB HC H. unfold weighted. rewrite <- !sumN_scal, <- sumN_add. apply sumN_le. intros i Hi. pose proof (mass_pos N fixed K f asm_R asm_K Hlin Hspd i Hi). specialize (H i Hi).
  replace (B * (Mc i * a i ^ 2) + C * (Mc i * b i ^ 2)) with (Mc i * (B * a i ^ 2 + C * b i ^ 2)) by ring. apply Rmult_le_compat_l; [lra|exact H].
Qed.
(** two steps of small change have small forces in between *)
Lemma small_force n st v v1 v2 : reach n st -> rs_qdot st = Some v -> rs_qdot (relax_step N asm_R asm_K nKMat st v) = Some v1 ->
  rs_qdot (relax_step N asm_R asm_K nKMat (relax_step N asm_R asm_K nKMat st v) v1) = Some v2 ->
  forall i, (i < N)%nat -> asm_R (fun j => rs_q st j + v j) i ^ 2 <= 310 * Mtop * (wt (fun i => v1 i + v i) + wt (fun i => v2 i + v1 i)).
Proof.
  intros Hr Hv Hv1 Hv2. pose proof (reached_S N asm_R asm_K nKMat u n st v Hr Hv) as Hr1. pose proof (reached_S N asm_R asm_K nKMat u _ _ v1 Hr1 Hv1) as Hr2.
  destruct (step_eq N fixed K f asm_R asm_K nKMat Hlin Hspd u n st v v1 Hr Hv Hv1) as (c & Hc & He). destruct (step_eq N fixed K f asm_R asm_K nKMat Hlin Hspd u _ _ v1 v2 Hr1 Hv1 Hv2) as (c' & Hc' & He').
  cbn [relax_step rs_q] in He'. unfold hstep in He'. replace (fun i => rs_q st i + 1 * v i) with (fun i => rs_q st i + v i) in He' by (apply functional_extensionality; intros; ring).
  set (q1 := fun j => rs_q st j + v j) in *. change (fun j => rs_q st j + 1 * v j + v1 j) with (fun j => rs_q st j + 1 * v j + v1 j) in He'.
  pose proof (vel_supp N fixed K f asm_R asm_K nKMat Hlin u _ _ v1 Hr1 Hv1) as Sw.
  set (a := fun i => v1 i + v i). set (b := fun i => v2 i + v1 i). set (A := wt a). set (B := wt b).
  pose proof (wt_nonneg N fixed K f asm_R asm_K Hlin Hspd a) as HA. pose proof (wt_nonneg N fixed K f asm_R asm_K Hlin Hspd b) as HB. fold A in HA. fold B in HB.
  set (d := fun i => (1 - c / 2) * a i + (1 + c' / 2) * b i).
  unfold cmin, cmax in Hc, Hc'.
  assert (Hd : wt d <= 2 * A + 18 * B).
  { apply wt_lin; [lra|lra|]. intros i _. assert ((1 - c / 2) ^ 2 <= 1) by nra. assert ((1 + c' / 2) ^ 2 <= 9) by nra. pose proof (pow2_ge_0 ((1 - c / 2) * a i - (1 + c' / 2) * b i)). pose proof (pow2_ge_0 (a i)). pose proof (pow2_ge_0 (b i)).
    assert (((1 - c / 2) * a i) ^ 2 <= a i ^ 2) by nra. assert (((1 + c' / 2) * b i) ^ 2 <= 9 * b i ^ 2) by nra. nra. }
  assert (Hw : 4 * wt v1 - bil v1 v1 = sumN N (fun i => Mc i * d i * v1 i)).
  { assert (E : bil v1 v1 = sumN N (fun i => v1 i * (asm_R (fun j => q1 j + v1 j) i - asm_R q1 i))).
    { rewrite (sumN_ext N _ (fun i => v1 i * asm_R (fun j => q1 j + v1 j) i - v1 i * asm_R q1 i)), sumN_sub by (intros; ring). rewrite !(force_work N fixed K f asm_R asm_K Hlin u s Hs v1 _ Sw).
      assert (E : bil v1 (fun j => q1 j + v1 j - s j) = bil v1 (fun j => q1 j - s j) + bil v1 v1); [|lra]. rewrite <- bil_add_r. f_equal. apply functional_extensionality. intros; ring. }
    rewrite E. unfold weighted. rewrite <- sumN_scal, <- sumN_sub. apply sumN_ext. intros i Hi. specialize (He i Hi). specialize (He' i Hi). change (fun j => q1 j + v1 j) with (fun j => rs_q st j + v j + v1 j).
    replace (fun j => rs_q st j + 1 * v j + v1 j) with (fun j => rs_q st j + v j + v1 j) in He' by (apply functional_extensionality; intros; ring).
    replace (asm_R (fun j => rs_q st j + v j + v1 j) i) with (- (Mc i * (v2 i - v1 i) + c' / 2 * Mc i * (v2 i + v1 i))) by lra. replace (asm_R q1 i) with (- (Mc i * (v1 i - v i) + c / 2 * Mc i * (v1 i + v i))) by lra. unfold d, a, b. field. }
  assert (Hyoung : sumN N (fun i => Mc i * d i * v1 i) <= 42 / 121 * wt v1 + 121 / 168 * wt d).
  { unfold weighted. rewrite <- !sumN_scal, <- sumN_add. apply sumN_le. intros i Hi. pose proof (mass_pos N fixed K f asm_R asm_K Hlin Hspd i Hi). pose proof (pow2_ge_0 (84 / 121 * v1 i - d i)).
    replace (42 / 121 * (Mc i * v1 i ^ 2) + 121 / 168 * (Mc i * d i ^ 2)) with (Mc i * d i * v1 i + Mc i * (121 / 168 * (84 / 121 * v1 i - d i) ^ 2)) by field. assert (0 <= Mc i * (121 / 168 * (84 / 121 * v1 i - d i) ^ 2)) by (apply Rmult_le_pos; lra). lra. }
  pose proof (gershgorin N fixed K f asm_R asm_K Hlin Hspd v1 Sw) as Hg.
  assert (Hw2 : wt v1 <= 38 * (A + B)) by lra.
  intros i Hi. specialize (He i Hi). set (g := fun i => 2 * v1 i + - (1 - c / 2) * a i).
  assert (Er : asm_R q1 i = - (Mc i * g i)) by (unfold g, a; lra). rewrite Er.
  assert (Hg2 : wt g <= 8 * wt v1 + 2 * A). { apply wt_lin; [lra|lra|]. intros j _. assert ((1 - c / 2) ^ 2 <= 1) by nra. pose proof (pow2_ge_0 (2 * v1 j + (1 - c / 2) * a j)). pose proof (pow2_ge_0 (a j)). assert (((1 - c / 2) * a j) ^ 2 <= a j ^ 2) by nra. nra. }
  pose proof (wt_each g i Hi) as Hge. pose proof (Mc_le i Hi). pose proof (mass_pos N fixed K f asm_R asm_K Hlin Hspd i Hi). pose proof (pow2_ge_0 (g i)).
  apply Rle_trans with (Mtop * (Mc i * g i ^ 2)); [replace ((- (Mc i * g i)) ^ 2) with (Mc i * (Mc i * g i ^ 2)) by ring; apply Rmult_le_compat_r; [apply Rmult_le_pos; lra|assumption]|].
  replace (310 * Mtop * (A + B)) with (Mtop * (310 * (A + B))) by ring. apply Rmult_le_compat_l; [pose proof Mtop_pos; lra|]. lra.
Qed.
Local Notation drop := (cmin / 4 * (tol ^ 2 / (310 * Mtop))).
Local Notation W st v := (energy N K asm_K s (rs_q st) v).
Lemma two_steps n st v v1 v2 : reach n st -> rs_qdot st = Some v -> rs_qdot (relax_step N asm_R asm_K nKMat st v) = Some v1 ->
  rs_qdot (relax_step N asm_R asm_K nKMat (relax_step N asm_R asm_K nKMat st v) v1) = Some v2 ->
  tol < rs_error (relax_step N asm_R asm_K nKMat st v) -> W (relax_step N asm_R asm_K nKMat (relax_step N asm_R asm_K nKMat st v) v1) v2 <= W st v - drop.
Proof.
  intros Hr Hv Hv1 Hv2 Ht. pose proof (small_force n st v v1 v2 Hr Hv Hv1 Hv2) as Hf.
  pose proof (reached_S N asm_R asm_K nKMat u n st v Hr Hv) as Hr1.
  pose proof (energy_step N fixed K f asm_R asm_K nKMat Hlin Hspd u s Hs n st v v1 Hr Hv Hv1) as E1. pose proof (energy_step N fixed K f asm_R asm_K nKMat Hlin Hspd u s Hs _ _ v1 v2 Hr1 Hv1 Hv2) as E2.
  assert (Q1 : rs_q (relax_step N asm_R asm_K nKMat st v) = fun i => rs_q st i + v i) by (cbn [relax_step rs_q]; unfold hstep; apply functional_extensionality; intros; ring).
  assert (Q2 : rs_q (relax_step N asm_R asm_K nKMat (relax_step N asm_R asm_K nKMat st v) v1) = fun i => rs_q (relax_step N asm_R asm_K nKMat st v) i + v1 i) by (cbn [relax_step rs_q]; unfold hstep; apply functional_extensionality; intros; ring).
  rewrite Q2. rewrite <- Q1 in E1. set (AB := wt (fun i => v1 i + v i) + wt (fun i => v2 i + v1 i)) in *.
  assert (Hab : tol ^ 2 / (310 * Mtop) <= AB).
  { pose proof Mtop_pos. apply Rmult_le_reg_l with (310 * Mtop); [lra|]. replace (310 * Mtop * (tol ^ 2 / (310 * Mtop))) with (tol ^ 2) by (field; lra).
    destruct (Rle_lt_dec (tol ^ 2) (310 * Mtop * AB)) as [H0|H0]; [exact H0|]. exfalso.
    assert (Herr : rs_error (relax_step N asm_R asm_K nKMat st v) = max_abs N (asm_R (fun i => rs_q st i + v i))) by (rewrite <- Q1; reflexivity). rewrite Herr in Ht.
    apply (Rlt_not_le _ _ Ht). apply max_abs_le; [lra|]. intros i Hi. specialize (Hf i Hi). rewrite <- (Rabs_pos_eq tol) by lra. apply Rsqr_le_abs_0. unfold Rsqr. lra. }
  unfold cmin in *. unfold AB in Hab. lra.
Qed.
Lemma decreasing n : (forall m, (m <= n)%nat -> exists st, reach m st /\ tol < rs_error st /\ ((m < n)%nat -> exists v, rs_qdot st = Some v)) ->
  forall k st v, (2 * k < n)%nat -> reach (2 * k) st -> rs_qdot st = Some v -> W st v <= / 2 * bil (fun i => u i - s i) (fun i => u i - s i) - INR k * drop.
Proof.
  intros Hall. induction k as [|k IH]; intros st2 v2 Hk Hr2 Hv2.
  - pose proof (energy_bound N fixed K f asm_R asm_K nKMat Hlin Hspd u s Hs _ _ v2 Hr2 Hv2). cbn [INR]. lra.
  - replace (2 * S k)%nat with (S (S (2 * k))) in Hr2 by lia. inversion Hr2 as [|n1 st1 v1 Hr1 Hv1]; subst. inversion Hr1 as [|n0 st v Hr Hv]; subst.
    specialize (IH st v ltac:(lia) Hr Hv).
    assert (Ht : tol < rs_error (relax_step N asm_R asm_K nKMat st v)). { destruct (Hall (S (2 * k)) ltac:(lia)) as (st' & H1 & H2 & _). rewrite (reached_fun _ _ _ _ _ _ _ _ Hr1 H1). exact H2. }
    pose proof (two_steps _ st v v1 v2 Hr Hv Hv1 Hv2 Ht). rewrite S_INR. lra.
Qed.
Lemma ends : exists fuel out, DynamicRelaxSolve N asm_R asm_K tol nKMat fuel u = Some out.
Proof.
  assert (Hd : 0 < drop). { pose proof Mtop_pos. unfold cmin. apply Rmult_lt_0_compat; [lra|]. apply Rdiv_lt_0_compat; [|lra]. apply pow_lt. exact Htol. }
  set (E0 := / 2 * bil (fun i => u i - s i) (fun i => u i - s i)).
  destruct (above (E0 / drop)) as (k & Hk). exists (S (2 * k)). destruct (DynamicRelaxSolve N asm_R asm_K tol nKMat (S (2 * k)) u) as [out|] eqn:E; [exists out; reflexivity|]. exfalso.
  pose proof (running N asm_R asm_K nKMat u tol (S (2 * k)) _ 0 (reached_0 N asm_R asm_K nKMat u) E) as Hall.
  destruct (Hall (2 * k)%nat ltac:(lia)) as (st & Hr & _ & Hv). destruct (Hv ltac:(lia)) as (v & Hv'). cbn [plus] in Hr.
  pose proof (decreasing (S (2 * k)) Hall k st v ltac:(lia) Hr Hv') as HW.
  pose proof (energy_lower N fixed K f asm_R asm_K Hlin Hspd s (rs_q st) v (err_supp N fixed K f asm_R asm_K nKMat Hlin u s Hs _ st Hr) (vel_supp N fixed K f asm_R asm_K nKMat Hlin u _ st v Hr Hv')) as HL.
  pose proof (wt_nonneg N fixed K f asm_R asm_K Hlin Hspd v). 
  assert (Sm : supp (fun i => rs_q st i + v i / 2 - s i)). { intros i Hi Hf. pose proof (err_supp N fixed K f asm_R asm_K nKMat Hlin u s Hs _ st Hr i Hi Hf). pose proof (vel_supp N fixed K f asm_R asm_K nKMat Hlin u _ st v Hr Hv' i Hi Hf). cbv beta in *. lra. }
  pose proof (bil_nonneg N fixed K Hspd _ Sm). fold E0 in HW.
  assert (E0 < INR k * drop). { apply Rmult_gt_compat_r with (r := drop) in Hk; [|exact Hd]. replace (E0 / drop * drop) with E0 in Hk by (unfold Rdiv at 1; rewrite Rmult_assoc, Rinv_l; [ring|lra]). lra. }
  lra.
Qed.
End Linear.
Lemma loop_more N asm_R asm_K tol nK fuel st out more : relax_loop N asm_R asm_K tol nK fuel st = Some out -> relax_loop N asm_R asm_K tol nK (fuel + more) st = Some out.
Proof.
  revert st. induction fuel as [|fuel IH]; intros st; cbn [relax_loop plus].
  - destruct (Rltb tol (rs_error st)) eqn:E; [discriminate|]. destruct more; cbn [relax_loop]; rewrite E; auto.
  - destruct (Rltb tol (rs_error st)); [|auto]. destruct (rs_qdot st); [apply IH|auto].
Qed.
Lemma terminates N fixed K f asm_R asm_K nKMat tol u : linear_forces N fixed K f asm_R asm_K -> free_spd N fixed K -> 0 < tol < 1 ->
  exists fuel out, (forall more, DynamicRelaxSolve N asm_R asm_K tol nKMat (fuel + more) u = Some out) /\
  match out with
  | Converged q n => (forall i, (i < N)%nat -> fixed i = true -> q i = u i) /\ (forall i, (i < N)%nat -> Rabs (asm_R q i) <= tol) /\ (1 <= n)%nat
  | Failed n => exists m st v, reached N asm_R asm_K nKMat u m st /\ rs_qdot st = Some v /\ (forall i, (i < N)%nat -> v i = 0) /\ exists i, (i < N)%nat /\ tol < Rabs (asm_R (rs_q st) i)
  end.
Proof.
  intros Hlin Hspd [Ht0 Ht1]. destruct (equilibrium_exists N fixed K f asm_R asm_K Hlin Hspd u) as (s & Hs).
  destruct (ends N fixed K f asm_R asm_K nKMat Hlin Hspd u s Hs tol Ht0) as (fuel & out & H). exists fuel, out. split; [intros more; apply loop_more; exact H|]. destruct out as [q n|n].
  - destruct (solve_result N asm_R asm_K nKMat u fixed (fixed_force N fixed K f asm_R asm_K Hlin) tol fuel q n H) as [H1 H2]. destruct (H2 ltac:(lra)) as [H3 H4]. auto.
  - destruct (loop_reached N asm_R asm_K nKMat u tol fuel _ 0 _ (reached_0 N asm_R asm_K nKMat u) H) as (m & st & _ & Hr & Ht & Hn & _).
    destruct (stopped N fixed K f asm_R asm_K nKMat Hlin Hspd u m st Hr Hn) as (m0 & st0 & v & -> & Hr0 & Hv & Hv0 & Hq). exists m0, st0, v. repeat (split; [assumption|]).
    destruct (reached_counts N asm_R asm_K nKMat u _ st Hr) as (_ & H2 & H3). rewrite H3, H2 in Ht.
    destruct (Classical_Prop.classic (exists i, (i < N)%nat /\ tol < Rabs (asm_R (rs_q st0) i))) as [HE|HE]; [exact HE|]. exfalso. apply (Rlt_not_le _ _ Ht). apply max_abs_le; [lra|]. intros i Hi.
    assert (E : asm_R (rs_q st) i = asm_R (rs_q st0) i). { rewrite !(proj1 Hlin) by exact Hi. destruct (fixed i); [reflexivity|]. f_equal. apply sumN_ext. intros j Hj. now rewrite (Hq j Hj). }
    rewrite E. apply Rnot_lt_le. intros H0. apply HE. eauto.
Qed.
(** ** the copy in solver.py *)
Lemma rest_result P cr tol dofs sol : 0 <= tol -> relax_rest P cr tol dofs = Ok sol -> sol = reshape P dofs /\ exists Rv, assemble_vec P cr dofs = Ok Rv /\ forall i, (i < num_total_dofs P)%nat -> Rabs (Rv i) <= tol.
Proof.
  intros Ht. unfold relax_rest. destruct (assemble_vec P cr dofs) as [Rv|] eqn:E1; cbn [bind]; [|discriminate]. destruct (assemble_csr P dofs) as [K|]; cbn [bind]; [|discriminate].
  destruct (has_zero _ _); [discriminate|]. unfold Rltb. destruct (Rlt_dec tol (max_abs (num_total_dofs P) Rv)) as [H|H].
  - match goal with |- context [assemble_vec P cr ?x] => destruct (assemble_vec P cr x) end; cbn [bind]; intros Hx; discriminate Hx.
  - intros H'. injection H' as <-. split; [reflexivity|]. exists Rv. split; [reflexivity|]. apply max_abs_le; [exact Ht|]. lra.
Qed.
Lemma rest_raises P cr tol dofs Rv K : 0 <= tol -> assemble_vec P cr dofs = Ok Rv -> assemble_csr P dofs = Ok K -> (exists i, (i < num_total_dofs P)%nat /\ tol < Rabs (Rv i)) ->
  (forall d, exists r, cr d = Ok r) -> relax_rest P cr tol dofs = Err TypeError \/ (exists i, (i < num_total_dofs P)%nat /\ forall j, (j < num_total_dofs P)%nat -> K i j = 0) /\ relax_rest P cr tol dofs = Err AssertionError.
Proof.
  intros Ht H1 H2 (i & Hi & Hb) Hc. unfold relax_rest. rewrite H1, H2. cbn [bind]. destruct (has_zero _ _) eqn:E.
  - right. split; [|reflexivity]. unfold has_zero in E. apply existsb_exists in E as (a & Ha & Hz). apply in_seq in Ha. apply Reqb_true in Hz. exists a. split; [lia|]. intros j Hj.
    unfold mass, h_tilde in Hz. assert (Hsum : sumN (num_total_dofs P) (fun j => Rabs (K a j)) = 0) by lra. pose proof (sumN_zero_each _ (fun j => Rabs (K a j)) (fun j _ => Rabs_pos _) Hsum j Hj) as H0. cbv beta in H0. destruct (Req_dec (K a j) 0) as [E0|E0]; [exact E0|]. destruct (Rabs_no_R0 _ E0 H0).
  - left. unfold Rltb. destruct (Rlt_dec tol (max_abs (num_total_dofs P) Rv)) as [H|H].
    + unfold assemble_vec at 1. destruct (Hc (reshape P (fun i0 => dofs i0 + hstep * (- hstep / 2 * Rv i0 / mass (num_total_dofs P) K i0)))) as (r & ->). reflexivity.
    + apply Rnot_lt_le in H. rewrite (max_abs_le _ _ _ Ht) in H. specialize (H i Hi). lra.
Qed.
Close Scope R_scope.
