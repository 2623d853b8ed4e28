(** * Dynamic relaxation of linear problems: energy and termination. *)
From Coq Require Import Lra Lia FunctionalExtensionality.
From Verif Require Import Prelude PreludeFacts FemModel FemFacts MatProofs SolverModel SolverSpec SolverAdProofs LinFacts RlxModel RlxSpec.
Open Scope R_scope.
Open Scope list_scope.

(** ** maxima *)
Lemma max_abs_nonneg N v : 0 <= max_abs N v.
Proof. unfold max_abs. generalize (seq 0 N). induction l as [|a l IH]; cbn [fold_right]; [lra|]. apply Rle_trans with (1 := IH). apply Rmax_r. Qed.
Lemma max_abs_le N v t : 0 <= t -> (max_abs N v <= t <-> forall i, (i < N)%nat -> Rabs (v i) <= t).
Proof.
  intros Ht. unfold max_abs. assert (H : forall l, fold_right (fun i m => Rmax (Rabs (v i)) m) 0 l <= t <-> forall i, In i l -> Rabs (v i) <= t).
  { induction l as [|a l IH]; cbn [fold_right]; [split; [intros _ i []|intros _; exact Ht]|]. split.
    - intros H i [<-|Hi]; [exact (Rle_trans _ _ _ (Rmax_l _ _) H)|]. apply (proj1 IH); [exact (Rle_trans _ _ _ (Rmax_r _ _) H)|exact Hi].
    - intros H. apply Rmax_lub; [apply H; now left|]. apply (proj2 IH). intros i Hi. apply H. now right. }
  rewrite H. split; intros H1 i Hi; apply H1; [apply in_seq|apply in_seq in Hi]; lia.
Qed.
Lemma has_zero_false N M : has_zero N M = false <-> forall i, (i < N)%nat -> M i <> 0.
Proof.
  unfold has_zero. split.
  - intros H i Hi E. assert (Hx : existsb (fun i => Reqb (M i) 0) (seq 0 N) = true) by (apply existsb_exists; exists i; split; [apply in_seq; lia|now apply Reqb_true]). rewrite H in Hx. discriminate Hx.
  - intros H. destruct (existsb _ _) eqn:E; [|reflexivity]. apply existsb_exists in E as (i & Hi & Hz). apply Reqb_true in Hz. apply in_seq in Hi. destruct (H i ltac:(lia) Hz).
Qed.
(** ** every system: boundary, counters, exit *)
Section General.
Variable N : nat.
Variable asm_R : vector -> vector.
Variable asm_K : vector -> mat.
Variable nKMat : nat.
Variable u : vector.
Local Notation step := (relax_step N asm_R asm_K nKMat).
Local Notation reach := (reached N asm_R asm_K nKMat u).
Lemma loop_reached tol fuel st n out : reach n st -> relax_loop N asm_R asm_K tol nKMat fuel st = Some out ->
  exists m st', (n <= m)%nat /\ reach m st' /\
  match out with Converged q k => ~ tol < rs_error st' /\ q = rs_q st' /\ k = rs_nIters st' | Failed k => tol < rs_error st' /\ rs_qdot st' = None /\ k = S (rs_nIters st') end.
Proof.
  revert st n. induction fuel as [|fuel IH]; intros st n Hr; cbn [relax_loop]; unfold Rltb; destruct (Rlt_dec tol (rs_error st)) as [Ht|Ht].
  - discriminate.
  - intros H. injection H as <-. exists n, st. auto.
  - destruct (rs_qdot st) as [v|] eqn:Ev.
    + intros H. destruct (IH _ _ (reached_S N asm_R asm_K nKMat u n st v Hr Ev) H) as (m & st' & Hm & H'). exists m, st'. split; [lia|exact H'].
    + intros H. injection H as <-. exists n, st. auto.
  - intros H. injection H as <-. exists n, st. auto.
Qed.
Lemma reached_counts n st : reach n st -> rs_nIters st = n /\ rs_R st = asm_R (rs_q st) /\ rs_error st = match n with O => 1 | _ => max_abs N (rs_R st) end.
Proof. induction 1 as [|n st v Hr IH Hv]; [repeat split|]. destruct IH as (H1 & _). cbn [relax_step rs_nIters rs_R rs_q rs_error]. rewrite H1. auto. Qed.
Variable fixed : nat -> bool.
Hypothesis Hfix : forall q i, (i < N)%nat -> fixed i = true -> asm_R q i = 0.
Lemma reached_boundary n st : reach n st -> forall i, (i < N)%nat -> fixed i = true -> rs_q st i = u i /\ forall v, rs_qdot st = Some v -> v i = 0.
Proof.
  induction 1 as [|n st v Hr IH Hv]; intros i Hi Hf.
  - split; [reflexivity|]. intros v. cbn [relax_init rs_qdot]. destruct (has_zero _ _); [discriminate|]. intros H. injection H as <-. rewrite (Hfix u i Hi Hf). unfold Rdiv. ring.
  - destruct (IH i Hi Hf) as [H1 H2]. specialize (H2 v Hv). cbn [relax_step rs_q rs_qdot]. split; [rewrite H1, H2; ring|]. intros v'. destruct (_ || _)%bool; [discriminate|]. intros H. injection H as <-.
    rewrite H2, (Hfix _ i Hi Hf). unfold Rdiv. ring.
Qed.
Lemma solve_result tol fuel q k : DynamicRelaxSolve N asm_R asm_K tol nKMat fuel u = Some (Converged q k) ->
  (forall i, (i < N)%nat -> fixed i = true -> q i = u i) /\ (0 <= tol < 1 -> (1 <= k)%nat /\ forall i, (i < N)%nat -> Rabs (asm_R q i) <= tol).
Proof.
  intros H. destruct (loop_reached tol fuel _ 0 _ (reached_0 N asm_R asm_K nKMat u) H) as (m & st & _ & Hr & Ht & -> & ->).
  split; [intros i Hi Hf; exact (proj1 (reached_boundary m st Hr i Hi Hf))|]. intros [Ht0 Ht1]. destruct (reached_counts m st Hr) as (H1 & H2 & H3). rewrite H1.
  destruct m as [|m]; [rewrite H3 in Ht; lra|]. split; [lia|]. apply max_abs_le; [exact Ht0|]. rewrite <- H2, <- H3. lra.
Qed.
End General.
(** ** linear symmetric systems *)
Section Linear.
Variable N : nat.
Variable fixed : nat -> bool.
Variable K : mat.
Variable f : vector.
Variable asm_R : vector -> vector.
Variable asm_K : vector -> mat.
Variable nKMat : nat.
Hypothesis Hlin : linear_forces N fixed K f asm_R asm_K.
Hypothesis Hspd : free_spd N fixed K.
Local Notation Mc := (mass N (asm_K vzero)).
Local Notation supp := (supported N fixed).
Local Notation bil := (form N K).
Local Notation wt := (weighted N Mc).
Lemma mass_const q i : (i < N)%nat -> mass N (asm_K q) i = Mc i.
Proof. intros Hi. unfold mass. f_equal. apply sumN_ext. intros j Hj. rewrite !(proj2 Hlin) by assumption. reflexivity. Qed.
Lemma diag_pos i : (i < N)%nat -> fixed i = false -> 0 < K i i.
Proof.
  intros Hi Hf. set (x := fun j => if Nat.eqb j i then 1 else 0).
  assert (Hx : 0 < bil x x). { apply (proj2 Hspd); [intros j Hj Hfj; unfold x; destruct (Nat.eqb_spec j i) as [->|]; [congruence|reflexivity]|]. exists i. split; [exact Hi|]. unfold x. rewrite Nat.eqb_refl. lra. }
  assert (E : bil x x = K i i); [|lra]. unfold form. rewrite (sumN_ext N _ (fun a => if Nat.eqb a i then K a i else 0)); [exact (sumN_pick N i (fun a => K a i) Hi)|].
  intros a _. unfold x. destruct (Nat.eqb a i); [|apply sumN_zero; intros; ring]. rewrite (sumN_ext N _ (fun j => if Nat.eqb j i then K a j else 0)) by (intros j _; destruct (Nat.eqb j i); ring). exact (sumN_pick N i (fun j => K a j) Hi).
Qed.
Lemma abs_row_pos q i : (i < N)%nat -> 0 < sumN N (fun j => Rabs (asm_K q i j)).
Proof.
  intros Hi. apply Rlt_le_trans with (Rabs (asm_K q i i)).
  - apply Rabs_pos_lt. rewrite (proj2 Hlin) by assumption. rewrite Nat.eqb_refl. destruct (fixed i) eqn:Hf; [lra|]. pose proof (diag_pos i Hi Hf). lra.
  - apply Rle_trans with (sumN N (fun j => if Nat.eqb j i then Rabs (asm_K q i j) else 0)); [right; symmetry; exact (sumN_pick N i (fun j => Rabs (asm_K q i j)) Hi)|].
    apply sumN_le. intros j _. destruct (Nat.eqb j i); [lra|apply Rabs_pos].
Qed.
Lemma mass_pos i : (i < N)%nat -> 0 < Mc i.
Proof. intros Hi. unfold mass, h_tilde. pose proof (abs_row_pos vzero i Hi). lra. Qed.
Lemma wt_nonneg x : 0 <= wt x.
Proof. apply sumN_nonneg. intros i Hi. pose proof (mass_pos i Hi). apply Rmult_le_pos; [lra|apply pow2_ge_0]. Qed.
(** the form on supported vectors *)
Lemma bil_sym x y : supp x -> supp y -> bil x y = bil y x.
Proof.
  intros Hx Hy. unfold form. rewrite sumN_swap. apply sumN_ext. intros i Hi. apply sumN_ext. intros j Hj.
  destruct (fixed i) eqn:Fi; [rewrite (Hy i Hi Fi); ring|]. destruct (fixed j) eqn:Fj; [rewrite (Hx j Hj Fj); ring|]. rewrite (proj1 Hspd j i Hj Hi Fj Fi). ring.
Qed.
Lemma bil_add_r x y z : bil x (fun i => y i + z i) = bil x y + bil x z.
Proof. unfold form. rewrite <- sumN_add. apply sumN_ext. intros i _. rewrite <- sumN_add. apply sumN_ext. intros; ring. Qed.
Lemma bil_scal_r a x y : bil x (fun i => a * y i) = a * bil x y.
Proof. unfold form. rewrite <- sumN_scal. apply sumN_ext. intros i _. rewrite <- sumN_scal. apply sumN_ext. intros; ring. Qed.
Lemma bil_nonneg x : supp x -> 0 <= bil x x.
Proof.
  intros Hx. destruct (Classical_Prop.classic (exists i, (i < N)%nat /\ x i <> 0)) as [H|H]; [left; exact (proj2 Hspd x Hx H)|].
  right. symmetry. unfold form. apply sumN_zero. intros i Hi. apply sumN_zero. intros j Hj. destruct (Req_dec (x i) 0) as [->|Hn]; [ring|]. destruct H. eauto.
Qed.
(** Gershgorin *)
Lemma gershgorin x : supp x -> bil x x <= 400 / 121 * wt x.
Proof.
  intros Hx. apply Rle_trans with (sumN N (fun i => x i ^ 2 * sumN N (fun j => if fixed j then 0 else if fixed i then 0 else Rabs (K i j)))).
  - apply Rle_trans with (sumN N (fun i => sumN N (fun j => (if fixed j then 0 else if fixed i then 0 else Rabs (K i j)) * ((x i ^ 2 + x j ^ 2) / 2)))).
    + apply sumN_le. intros i Hi. apply sumN_le. intros j Hj. destruct (fixed j) eqn:Fj; [rewrite (Hx j Hj Fj); lra|]. destruct (fixed i) eqn:Fi; [rewrite (Hx i Hi Fi); lra|].
      pose proof (Rabs_pos (K i j)). pose proof (Rle_abs (K i j)). pose proof (Rle_abs (- K i j)). rewrite Rabs_Ropp in *. pose proof (pow2_ge_0 (x i - x j)). pose proof (pow2_ge_0 (x i + x j)). nra.
    + set (k := fun i j => if fixed j then 0 else if fixed i then 0 else Rabs (K i j)).
      assert (Hs : forall i j, (i < N)%nat -> (j < N)%nat -> k i j = k j i) by (intros i j Hi Hj; unfold k; destruct (fixed i) eqn:Fi, (fixed j) eqn:Fj; try reflexivity; f_equal; exact (proj1 Hspd i j Hi Hj Fi Fj)).
      right. change (sumN N (fun i => sumN N (fun j => k i j * ((x i ^ 2 + x j ^ 2) / 2))) = sumN N (fun i => x i ^ 2 * sumN N (k i))).
      transitivity (sumN N (fun i => sumN N (fun j => k i j * x i ^ 2 / 2)) + sumN N (fun i => sumN N (fun j => k i j * x j ^ 2 / 2))).
      { rewrite <- sumN_add. apply sumN_ext. intros i _. rewrite <- sumN_add. apply sumN_ext. intros; field. }
      rewrite (sumN_swap N N (fun i j => k i j * x j ^ 2 / 2)). rewrite (sumN_ext N (fun j => sumN N (fun i => k i j * x j ^ 2 / 2)) (fun i => sumN N (fun j => k i j * x i ^ 2 / 2))) by (intros i Hi; apply sumN_ext; intros j Hj; now rewrite (Hs j i Hj Hi)).
      rewrite <- sumN_add. apply sumN_ext. intros i _. rewrite <- sumN_add, <- sumN_scal. apply sumN_ext. intros; field.
  - unfold weighted. rewrite <- sumN_scal. apply sumN_le. intros i Hi. unfold mass, h_tilde.
    assert (H : sumN N (fun j => if fixed j then 0 else if fixed i then 0 else Rabs (K i j)) <= sumN N (fun j => Rabs (asm_K vzero i j))).
    { apply sumN_le. intros j Hj. rewrite (proj2 Hlin) by assumption. destruct (fixed j), (fixed i); try apply Rabs_pos; lra. }
    pose proof (pow2_ge_0 (x i)). nra.
Qed.
(** ** the dynamics *)
Variables (u s : vector).
Hypothesis Hs : equilibrium N fixed asm_R u s.
Local Notation reach := (reached N asm_R asm_K nKMat u).
Local Notation e st := (fun i => rs_q st i - s i).
Lemma force q i : (i < N)%nat -> asm_R q i = if fixed i then 0 else sumN N (fun j => K i j * (q j - s j)).
Proof.
  intros Hi. rewrite (proj1 Hlin) by exact Hi. destruct (fixed i) eqn:Fi; [reflexivity|]. pose proof (proj2 Hs i Hi) as H0. rewrite (proj1 Hlin), Fi in H0 by exact Hi.
  rewrite (sumN_ext N (fun j => K i j * (q j - s j)) (fun j => K i j * q j - K i j * s j)), sumN_sub by (intros; ring). lra.
Qed.
Lemma force_work x q : supp x -> sumN N (fun i => x i * asm_R q i) = bil x (fun j => q j - s j).
Proof.
  intros Hx. unfold form. apply sumN_ext. intros i Hi. rewrite (force q i Hi). destruct (fixed i) eqn:Fi.
  - rewrite (Hx i Hi Fi). symmetry. rewrite sumN_zero; [ring|intros; ring].
  - rewrite <- sumN_scal. apply sumN_ext. intros; ring.
Qed.
Lemma fixed_force q i : (i < N)%nat -> fixed i = true -> asm_R q i = 0.
Proof. intros Hi Hf. rewrite (proj1 Hlin), Hf by exact Hi. reflexivity. Qed.
Lemma err_supp n st : reach n st -> supp (e st).
Proof. intros Hr i Hi Hf. cbv beta. rewrite (proj1 (reached_boundary N asm_R asm_K nKMat u fixed fixed_force n st Hr i Hi Hf)), (proj1 Hs i Hi Hf). ring. Qed.
Lemma vel_supp n st v : reach n st -> rs_qdot st = Some v -> supp v.
Proof. intros Hr Hv i Hi Hf. exact (proj2 (reached_boundary N asm_R asm_K nKMat u fixed fixed_force n st Hr i Hi Hf) v Hv). Qed.
Lemma mass_reached n st : reach n st -> forall i, (i < N)%nat -> rs_M st i = Mc i.
Proof.
  induction 1 as [|n st v Hr IH Hv]; intros i Hi; cbn [relax_init relax_step rs_M]; [exact (mass_const u i Hi)|]. destruct (_ && _)%bool; [apply mass_const|apply IH]; exact Hi.
Qed.
Lemma no_zero M : (forall i, (i < N)%nat -> M i = Mc i) -> has_zero N M = false.
Proof. intros H. apply has_zero_false. intros i Hi. rewrite (H i Hi). pose proof (mass_pos i Hi). lra. Qed.
(** one step as an equation *)
Lemma step_eq n st v v' : reach n st -> rs_qdot st = Some v -> rs_qdot (relax_step N asm_R asm_K nKMat st v) = Some v' ->
  exists c, cmin <= c <= cmax /\ forall i, (i < N)%nat -> Mc i * (v' i - v i) + c / 2 * Mc i * (v' i + v i) = - asm_R (fun j => rs_q st j + v j) i.
Proof.
  intros Hr Hv Hv'. pose proof (mass_reached _ _ (reached_S N asm_R asm_K nKMat u n st v Hr Hv)) as HM. cbn [relax_step rs_M rs_qdot] in HM, Hv'. destruct (_ || _)%bool; [discriminate|]. injection Hv' as <-.
  match goal with |- context [calC ?t cmin cmax] => exists (calC t cmin cmax); set (c := calC t cmin cmax) end.
  assert (Hc : cmin <= c <= cmax) by (apply calC_within; unfold cmin, cmax; lra). split; [exact Hc|]. intros i Hi. cbv beta. rewrite (HM i Hi). unfold hstep.
  replace (fun i : nat => rs_q st i + 1 * v i) with (fun j : nat => rs_q st j + v j) by (apply functional_extensionality; intros; ring). pose proof (mass_pos i Hi). unfold cmin, cmax in Hc. field. lra.
Qed.
Definition energy (q v : vector) : R := / 2 * wt v + / 2 * bil (fun i => q i - s i) (fun i => q i - s i + v i).
Lemma energy_init v : rs_qdot (relax_init N asm_R asm_K u) = Some v -> energy u v = / 2 * bil (fun i => u i - s i) (fun i => u i - s i) - / 2 * wt v.
Proof.
  intros Hv. unfold energy. rewrite bil_add_r. set (e0 := fun i => u i - s i).
  assert (H0 : supp e0) by exact (err_supp 0 _ (reached_0 N asm_R asm_K nKMat u)). assert (H1 : supp v) by exact (vel_supp 0 _ v (reached_0 N asm_R asm_K nKMat u) Hv).
  assert (E : bil e0 v = -2 * wt v); [|lra]. rewrite (bil_sym e0 v H0 H1). unfold e0. rewrite <- (force_work v u H1). unfold weighted. rewrite <- sumN_scal. apply sumN_ext. intros i Hi.
  cbn [relax_init rs_qdot] in Hv. destruct (has_zero _ _); [discriminate|]. injection Hv as <-. cbv beta. rewrite (mass_const u i Hi). pose proof (mass_pos i Hi). unfold hstep. field. lra.
Qed.
Lemma energy_step n st v v' : reach n st -> rs_qdot st = Some v -> rs_qdot (relax_step N asm_R asm_K nKMat st v) = Some v' ->
  energy (fun i => rs_q st i + v i) v' <= energy (rs_q st) v - cmin / 4 * wt (fun i => v' i + v i).
Proof.
  intros Hr Hv Hv'. destruct (step_eq n st v v' Hr Hv Hv') as (c & Hc & He).
  pose proof (reached_S N asm_R asm_K nKMat u n st v Hr Hv) as Hr'. pose proof (vel_supp _ _ v Hr Hv) as Sv. pose proof (vel_supp _ _ v' Hr' Hv') as Sv'. pose proof (err_supp _ _ Hr) as Se.
  set (e0 := fun i => rs_q st i - s i) in *. set (q1 := fun i => rs_q st i + v i). set (e1 := fun i => q1 i - s i).
  assert (Se1 : supp e1) by (intros i Hi Hf; unfold e1, q1; specialize (Se i Hi Hf); specialize (Sv i Hi Hf); unfold e0 in Se; lra).
  assert (Ssum : supp (fun i => v' i + v i)) by (intros i Hi Hf; rewrite (Sv i Hi Hf), (Sv' i Hi Hf); ring).
  assert (E1 : sumN N (fun i => (v' i + v i) * asm_R q1 i) = bil e1 (fun i => v' i + v i)) by (rewrite (force_work _ q1 Ssum); apply bil_sym; assumption).
  assert (E2 : sumN N (fun i => (v' i + v i) * asm_R q1 i) = - (wt v' - wt v) - c / 2 * wt (fun i => v' i + v i)).
  { unfold weighted. rewrite <- sumN_sub, <- sumN_scal, <- sumN_opp, <- sumN_sub. apply sumN_ext. intros i Hi. specialize (He i Hi). fold q1 in He. replace (asm_R q1 i) with (- (Mc i * (v' i - v i) + c / 2 * Mc i * (v' i + v i))) by lra. ring. }
  unfold energy. fold e0 e1. replace (fun i => rs_q st i - s i + v i) with e1 by (unfold e1, q1; apply functional_extensionality; intros; ring).
  change (fun i => q1 i - s i + v' i) with (fun i => e1 i + v' i). rewrite bil_add_r. rewrite bil_add_r in E1.
  assert (E3 : bil e0 e1 = bil e1 e1 - bil e1 v).
  { rewrite (bil_sym e0 e1 Se Se1). assert (bil e1 e1 = bil e1 e0 + bil e1 v); [|lra]. rewrite <- bil_add_r. f_equal. unfold e1, e0, q1. apply functional_extensionality. intros; ring. }
  rewrite E3. pose proof (wt_nonneg (fun i => v' i + v i)). assert (c / 4 * wt (fun i => v' i + v i) >= cmin / 4 * wt (fun i => v' i + v i)) by nra. lra.
Qed.
Lemma energy_lower q v : supp (fun i => q i - s i) -> supp v -> / 2 * (21 / 121) * wt v + / 2 * bil (fun i => q i + v i / 2 - s i) (fun i => q i + v i / 2 - s i) <= energy q v.
Proof.
  intros Sq Sv. unfold energy. set (e0 := fun i => q i - s i) in *.
  replace (fun i => q i + v i / 2 - s i) with (fun i => e0 i + / 2 * v i) by (unfold e0; apply functional_extensionality; intros; field). set (m := fun i => e0 i + / 2 * v i).
  assert (Sm : supp m) by (intros i Hi Hf; unfold m; rewrite (Sq i Hi Hf), (Sv i Hi Hf); ring).
  change (fun i => q i - s i + v i) with (fun i => e0 i + v i). rewrite bil_add_r.
  assert (E : bil m m = bil e0 e0 + bil e0 v + / 4 * bil v v).
  { assert (E1 : bil m m = bil m e0 + / 2 * bil m v) by (rewrite <- bil_scal_r, <- bil_add_r; reflexivity). rewrite E1, (bil_sym m e0 Sm Sq), (bil_sym m v Sm Sv). unfold m. rewrite !bil_add_r, !bil_scal_r, (bil_sym v e0 Sv Sq). field. }
  rewrite E. pose proof (gershgorin v Sv). lra.
Qed.
Lemma energy_bound n st v : reach n st -> rs_qdot st = Some v -> energy (rs_q st) v <= / 2 * bil (fun i => u i - s i) (fun i => u i - s i).
Proof.
  intros Hr. revert v. induction Hr as [|n st v Hr IH Hv]; intros v' Hv'.
  - cbn [relax_init rs_q]. rewrite (energy_init v' Hv'). pose proof (wt_nonneg v'). lra.
  - pose proof (energy_step n st v v' Hr Hv Hv') as H. pose proof (wt_nonneg (fun i => v' i + v i)). specialize (IH v Hv). cbn [relax_step rs_q]. unfold hstep. replace (fun i => rs_q st i + 1 * v i) with (fun i => rs_q st i + v i) by (apply functional_extensionality; intros; ring).
    unfold cmin in H. lra.
Qed.
Lemma stable n st v : reach n st -> rs_qdot st = Some v ->
  21 / 121 * wt v + bil (fun i => rs_q st i + v i / 2 - s i) (fun i => rs_q st i + v i / 2 - s i) <= bil (fun i => u i - s i) (fun i => u i - s i).
Proof. intros Hr Hv. pose proof (energy_lower (rs_q st) v (err_supp n st Hr) (vel_supp n st v Hr Hv)). pose proof (energy_bound n st v Hr Hv). lra. Qed.
End Linear.
Close Scope R_scope.
