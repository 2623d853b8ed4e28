(** * Solvability and energy of the prediction and of the pressure equation of the CFD solver. *)
From Coq Require Import Lra Lia Psatz ZifyBool ZifyNat.
From Verif Require Import Prelude PreludeFacts GridFacts CfdMeshModel CfdMeshSpec CfdMeshProofs CfdModel CfdSpec CfdProofs CfdOpProofs CfdEqProofs CfdSolveProofs CfdRestProofs ProjSpec ProjProofs.
From Verif Require FemModel FemFacts SaddleProofs.
Open Scope R_scope.

Lemma nb_lt m n l : good_mesh m -> (n < cell_num m)%nat -> (nb m n l < cell_num m)%nat.
Proof.
  intros W Hn. destruct (idx_ex m n Hn) as (i & j & k & Hi & Hj & Hk & ->).
  pose proof (nb_eq (mkEqn m PyFalse None None (fun _ _ => 0)) i j k l Hi Hj Hk) as E. cbn [e_mesh] in E. rewrite E.
  do 7 (destruct l as [|l]; [cbn [nth]; apply idx_lt; lia|]). replace (nth _ _ 0%nat) with 0%nat by (destruct l; reflexivity).
  destruct W as (? & ? & ? & _). unfold cell_num. nia.
Qed.
Lemma solvable_or m v b : good_mesh m ->
  (exists x, forall n, (n < cell_num m)%nat -> linearized_residual m v x n = b n) \/
  (exists y, (forall x, sumR (seq 0 (cell_num m)) (fun n => y n * linearized_residual m v x n) = 0) /\ sumR (seq 0 (cell_num m)) (fun n => y n * b n) <> 0).
Proof.
  intros W. set (N := cell_num m). set (A := fun n j => sumR (seq 0 7) (fun l => if Nat.eqb (nb m n l) j then v n l else 0)).
  assert (E : forall x n, (n < N)%nat -> linearized_residual m v x n = sumR (seq 0 N) (fun j => A n j * x j)).
  { intros x n Hn. unfold linearized_residual, A. rewrite (sumR_ext (seq 0 N) _ (fun j => sumR (seq 0 7) (fun l => (if Nat.eqb (nb m n l) j then v n l else 0) * x j))) by (intros j _; now rewrite sumR_scal_r).
    rewrite sumR_swap. apply sumR_ext. intros l _.
    rewrite (sumR_ext (seq 0 N) _ (fun j => if Nat.eqb (nb m n l) j then v n l * x j else 0)) by (intros j _; destruct (Nat.eqb (nb m n l) j); ring).
    symmetry. exact (FemFacts.sumN_pick' N (nb m n l) (fun j => v n l * x j) (nb_lt m n l W Hn)). }
  destruct (SaddleProofs.fredholm N N A b) as [(x & Hx)|(y & Hy & Hb)].
  - left. exists x. intros n Hn. rewrite E by exact Hn. now apply Hx.
  - right. exists y. split; [|exact Hb]. intros x.
    rewrite (sumR_ext _ _ (fun n => sumR (seq 0 N) (fun j => x j * (y n * A n j)))) by (intros n Hn; apply in_seq in Hn; rewrite E by lia; rewrite <- sumR_scal; apply sumR_ext; intros; ring).
    rewrite sumR_swap. apply sumR_zero. intros j Hj. apply in_seq in Hj. rewrite sumR_scal. unfold FemModel.sumN in Hy. rewrite (Hy j) by lia. ring.
Qed.
Lemma lin_sub m v x y n : linearized_residual m v (fun n => x n - y n) n = linearized_residual m v x n - linearized_residual m v y n.
Proof. unfold linearized_residual. rewrite <- sumR_sub. apply sumR_ext. intros. ring. Qed.
Lemma sq_zero N (w y : fld) : (forall n, (n < N)%nat -> 0 < w n) -> sumR (seq 0 N) (fun n => w n * y n ^ 2) <= 0 -> forall n, (n < N)%nat -> y n = 0.
Proof.
  induction N as [|N IH]; intros Hw Hs n Hn; [lia|]. rewrite sumR_seq_S in Hs.
  assert (H0 : 0 <= sumR (seq 0 N) (fun n => w n * y n ^ 2)) by (apply sumR_nonneg; intros i Hi; apply in_seq in Hi; apply Rmult_le_pos; [apply Rlt_le, Hw; lia|apply pow2_ge_0]).
  pose proof (Hw N ltac:(lia)) as HN. pose proof (pow2_ge_0 (y N)). assert (0 <= w N * y N ^ 2) by (apply Rmult_le_pos; lra).
  destruct (Nat.eq_dec n N) as [-> |]; [assert (Z : w N * y N ^ 2 = 0) by lra; apply Rmult_integral in Z as [Z|Z]; [lra|]; rewrite <- Rsqr_pow2 in Z; now apply Rsqr_0_uniq|]. apply IH; [intros; apply Hw; lia|lra|lia].
Qed.

Section Pred.
Variables (a : amargs) (T : arr) (c : nat) (u0 conv gradp fl : fld).
Notation l := (a_local a).
Notation N := (cell_num l).
Hypothesis W : good_mesh l.
Hypothesis Hdt : 0 < a_dt a.
Hypothesis Hrho : 0 < a_rho a.
Hypothesis Hmu : 0 < a_visco a.
Hypothesis Hfl : forall n, (n < N)%nat -> 0 <= fl n.
Let e := mkEqn l PyFalse (Some (a_visco a)) None (vel_src a u0 conv gradp fl).
Let bc := vel_bc_scalar a T c.
Let s0 : nat -> R := fun n => a_rho a / a_dt a * pushed a u0 conv gradp n.
Let s1 : nat -> R := fun n => - a_rho a / a_dt a - 10 ^ 7 * a_rho a * (1 - fl n) ^ 2 / (fl n ^ 3 + 1 / 10 ^ 5).
Let We : good_mesh (e_mesh e). Proof. exact W. Qed.
Let Le : e_mufn e = None. Proof. reflexivity. Qed.
Let Ae : forall n u, e_src e n u = s0 n + s1 n * u.
Proof. intros n u. unfold e, s0, s1, pushed, vel_src. cbn [e_src]. set (q := _ / (_ + _)). field. lra. Qed.
Let Me : ok_mu e. Proof. exact (ok_mu_linear e _ eq_refl eq_refl). Qed.
Let Ge : good_bc (e_mesh e) bc. Proof. apply vel_bc_good. Qed.
Let Pw : 0 < dXx l /\ 0 < dXy l /\ 0 < dXz l. Proof. exact (widths e We). Qed.
Let HV : 0 < dV l. Proof. exact (dV_pos e We). Qed.
Lemma resistance_nonneg n : (n < N)%nat -> 0 <= resistance a (fl n).
Proof.
  intros Hn. unfold resistance. pose proof (Hfl n Hn). pose proof (pow_le (fl n) 3 H). assert (0 < 1 / 10 ^ 5) by (apply Rdiv_lt_0_compat; [lra|apply pow_lt; lra]).
  apply Rle_mult_inv_pos; [|lra]. apply Rmult_le_pos; [|apply pow2_ge_0]. apply Rmult_le_pos; [apply pow_le; lra|lra].
Qed.
Lemma eqn_is : vel_eqn a u0 conv gradp fl = Ok e. Proof. reflexivity. Qed.
Lemma defined U : exists r, compute_residual e (Some bc) U = Ok r.
Proof. destruct (vel_defined a u0 conv gradp fl T c (fun _ => 0) (fun _ _ => 0) U) as (e' & r & v & He & Hr & _). rewrite eqn_is in He. injection He as <-. exists r. exact Hr. Qed.
Lemma matrix : exists v, newton_values e (fun _ => 0) (fun n _ => s1 n) (Some bc) (fun _ => 0) = Ok v.
Proof. destruct (vel_defined a u0 conv gradp fl T c (fun _ => 0) (fun n _ => s1 n) (fun _ => 0)) as (e' & r & v & He & _ & Hv). rewrite eqn_is in He. injection He as <-. exists v. exact Hv. Qed.
(** faces *)
Let cells := faces_from l 0 bc.
Lemma face_parts U f : In f cells -> face_flux e U f = face_flux e (fun _ => 0) f - (if Nat.eqb (fty f) 0 then a_visco a * 2 / spacing l (fs f) * area l (fs f) * U (fc f) else 0).
Proof.
  intros Hf. destruct (faces_shape e bc Ge f Hf) as (Hs & Ht). rewrite !(face_flux_gain e We) by assumption. unfold face_gain, kappa_of. cbn [e_mesh e e_mu e_mufn].
  assert (0 < spacing l (fs f)) by (unfold spacing; destruct Pw as (? & ? & ?); destruct (fs f) as [|[|[|[|]]]]; assumption).
  destruct (fty f); cbn [Nat.eqb]; field; lra.
Qed.
Lemma area_pos s : 0 < area l s.
Proof. destruct Pw as (? & ? & ?). unfold area. destruct s as [|[|[|[|s]]]]; apply Rmult_lt_0_compat; assumption. Qed.
Lemma spacing_pos s : 0 < spacing l s.
Proof. destruct Pw as (? & ? & ?). unfold spacing. destruct s as [|[|[|[|s]]]]; assumption. Qed.
Lemma scatter_weighted (y : fld) g : sumR (seq 0 N) (fun n => y n * sumR cells (fun f => if Nat.eqb (fc f) n then g f else 0)) = sumR cells (fun f => y (fc f) * g f).
Proof.
  rewrite <- (sum_scatter N cells (fun f => y (fc f) * g f)) by (exact (faces_lt e We bc Ge)).
  apply sumR_ext. intros n _. rewrite <- sumR_scal. apply sumR_ext. intros f _. destruct (Nat.eqb_spec (fc f) n) as [-> |]; ring.
Qed.
Lemma coercive v y : newton_values e (fun _ => 0) (fun n _ => s1 n) (Some bc) (fun _ => 0) = Ok v ->
  dV l * sumR (seq 0 N) (fun n => (a_rho a / a_dt a + resistance a (fl n)) * y n ^ 2) <= sumR (seq 0 N) (fun n => y n * linearized_residual l v y n).
Proof.
  intros Hv. destruct (defined (fun _ => 0)) as (r0 & E0). destruct (defined y) as (r & Er).
  assert (GB : forall l', Some bc = Some l' -> good_bc (e_mesh e) l') by (intros l' E; injection E as <-; exact Ge).
  pose proof (residual_affine e (fun _ => 0) s0 s1 Le Ae (Some bc) y r0 r v Me GB E0 Er Hv) as A. cbn [e_mesh e] in A.
  rewrite (sumR_ext (seq 0 N) (fun n => y n * linearized_residual l v y n) (fun n => - (y n * laplace e y n) + dV l * ((a_rho a / a_dt a + resistance a (fl n)) * y n ^ 2) +
     y n * sumR cells (fun f => if Nat.eqb (fc f) n then (if Nat.eqb (fty f) 0 then a_visco a * 2 / spacing l (fs f) * area l (fs f) * y (fc f) else 0) else 0))).
  - rewrite !sumR_add, scatter_weighted, sumR_opp, sumR_scal.
    pose proof (lap_dissipative e We y) as D. cbn [e_mesh e] in D. specialize (D ltac:(intros; unfold face_mu; cbn [e_mufn e_mu e]; lra)).
    assert (F : 0 <= sumR cells (fun f => y (fc f) * (if Nat.eqb (fty f) 0 then a_visco a * 2 / spacing l (fs f) * area l (fs f) * y (fc f) else 0))).
    { apply sumR_nonneg. intros f _. destruct (Nat.eqb (fty f) 0); [|lra]. pose proof (area_pos (fs f)). pose proof (spacing_pos (fs f)).
      replace (y (fc f) * _) with ((a_visco a * 2 / spacing l (fs f)) * area l (fs f) * y (fc f) ^ 2) by ring.
      apply Rmult_le_pos; [|apply pow2_ge_0]. apply Rmult_le_pos; [|lra]. apply Rle_mult_inv_pos; lra. }
    lra.
  - intros n Hn. apply in_seq in Hn. specialize (A n ltac:(lia)).
    rewrite (residual_form e bc _ _ Me Ge E0 n), (residual_form e bc _ _ Me Ge Er n) in A. cbn [e_mesh e] in A. fold e in A. fold cells in A.
    pose proof (lap_const_zero e We (fun _ => 0) 0 ltac:(intros; reflexivity) n (proj2 Hn)) as L0. rewrite L0, !Ae in A.
    rewrite (sumR_ext cells (fun f => if Nat.eqb (fc f) n then face_flux e y f else 0) (fun f => (if Nat.eqb (fc f) n then face_flux e (fun _ => 0) f else 0) - (if Nat.eqb (fc f) n then (if Nat.eqb (fty f) 0 then a_visco a * 2 / spacing l (fs f) * area l (fs f) * y (fc f) else 0) else 0))) in A
      by (intros f Hf; destruct (Nat.eqb (fc f) n); [apply face_parts; exact Hf|ring]).
    rewrite sumR_sub in A. unfold s1 in A. fold (resistance a (fl n)) in A.
    set (S0 := sumR cells (fun f => if Nat.eqb (fc f) n then face_flux e (fun _ => 0) f else 0)) in A. set (S1 := sumR cells _) in A |- *.
    assert (EL : linearized_residual l v y n = - laplace e y n + dV l * ((a_rho a / a_dt a + resistance a (fl n)) * y n) + S1) by (unfold Rdiv in *; lra).
    rewrite EL. ring.
Qed.
Lemma weight_pos n : (n < N)%nat -> 0 < a_rho a / a_dt a + resistance a (fl n).
Proof. intros Hn. pose proof (resistance_nonneg n Hn). assert (0 < a_rho a / a_dt a) by (apply Rdiv_lt_0_compat; assumption). lra. Qed.
Lemma vel_exists : exists u, vel_solution a T c u0 conv gradp fl u.
Proof.
  destruct (defined (fun _ => 0)) as (r0 & E0). destruct matrix as (v & Hv).
  destruct (solvable_or l v (fun n => - r0 n) W) as [(x & Hx)|(y & Hy & Hb)].
  - exists x. destruct (defined x) as (r & Er). exists e, r. split; [reflexivity|]. split; [exact Er|]. intros n Hn.
    assert (GB : forall l', Some bc = Some l' -> good_bc (e_mesh e) l') by (intros l' E; injection E as <-; exact Ge).
    pose proof (residual_affine e (fun _ => 0) s0 s1 Le Ae (Some bc) x r0 r v Me GB E0 Er Hv n Hn) as A. cbn [e_mesh e] in A. rewrite A, (Hx n Hn). ring.
  - exfalso. apply Hb. pose proof (coercive v y Hv) as Q. rewrite (Hy y) in Q.
    assert (Z : forall n, (n < N)%nat -> y n = 0) by (apply (sq_zero N _ y weight_pos); nra).
    apply sumR_zero. intros n Hn. apply in_seq in Hn. rewrite Z by lia. ring.
Qed.
Lemma vel_unique u w : vel_solution a T c u0 conv gradp fl u -> vel_solution a T c u0 conv gradp fl w -> forall n, (n < N)%nat -> u n = w n.
Proof.
  intros (e1 & r & He1 & Er & Hr) (e2 & r' & He2 & Er' & Hr'). rewrite eqn_is in He1, He2. injection He1 as <-. injection He2 as <-.
  destruct (defined (fun _ => 0)) as (r0 & E0). destruct matrix as (v & Hv).
  assert (GB : forall l', Some bc = Some l' -> good_bc (e_mesh e) l') by (intros l' E; injection E as <-; exact Ge).
  pose proof (residual_affine e (fun _ => 0) s0 s1 Le Ae (Some bc) u r0 r v Me GB E0 Er Hv) as A. pose proof (residual_affine e (fun _ => 0) s0 s1 Le Ae (Some bc) w r0 r' v Me GB E0 Er' Hv) as B. cbn [e_mesh e] in A, B.
  pose proof (coercive v (fun n => u n - w n) Hv) as Q.
  rewrite (sumR_zero (seq 0 N) (fun n => (u n - w n) * _)) in Q.
  2:{ intros n Hn. apply in_seq in Hn. rewrite lin_sub. specialize (A n ltac:(lia)). specialize (B n ltac:(lia)). rewrite Hr in A by lia. rewrite Hr' in B by lia. replace (linearized_residual l v u n - linearized_residual l v w n) with 0 by lra. ring. }
  intros n Hn. assert (u n - w n = 0) by (apply (sq_zero N _ (fun n => u n - w n) weight_pos); [nra|exact Hn]). lra.
Qed.
Lemma vel_solved bicg : exact_bicg l bicg -> vel_solution a T c u0 conv gradp fl (vel_solve a bicg c u0 conv gradp fl bc).
Proof.
  intros HX. destruct (defined (fun _ => 0)) as (r0 & E0). destruct matrix as (v & Hv).
  assert (GB : forall l', Some bc = Some l' -> good_bc (e_mesh e) l') by (intros l' E; injection E as <-; exact Ge).
  destruct vel_exists as (x & e1 & r & He1 & Er & Hr). rewrite eqn_is in He1. injection He1 as <-.
  pose proof (residual_affine e (fun _ => 0) s0 s1 Le Ae (Some bc) x r0 r v Me GB E0 Er Hv) as A. cbn [e_mesh e] in A.
  destruct (linear_solve_exact e (fun _ => 0) s0 s1 Le Ae (Some bc) bicg r0 v Me GB E0 Hv) as (r' & Er' & Hr').
  { cbn [e_mesh e]. apply HX. exists x. intros n Hn. specialize (A n Hn). rewrite (Hr n Hn) in A. lra. }
  exists e, r'. split; [reflexivity|]. unfold vel_solve. rewrite eqn_is. fold bc in Er'. rewrite E0. unfold s1 in Hv. rewrite Hv. split; [exact Er'|exact Hr'].
Qed.
(** ** energy *)
Lemma combine_flat2 {A B} n1 n2 (f : nat -> nat -> A) (g : nat -> nat -> B) : combine (flat2 n1 n2 f) (flat2 n1 n2 g) = flat2 n1 n2 (fun i j => (f i j, g i j)).
Proof.
  unfold flat2. induction (seq 0 n1) as [|i r IH]; cbn [flat_map]; [reflexivity|]. rewrite <- IH. clear IH.
  generalize (flat_map (fun i => map (fun j => f i j) (seq 0 n2)) r) (flat_map (fun i => map (fun j => g i j) (seq 0 n2)) r). intros x y.
  induction (seq 0 n2) as [|j q IH]; cbn; [reflexivity|now rewrite IH].
Qed.
Lemma sum_flat2 {A} n1 n2 (f : nat -> nat -> A) (h : A -> R) : sumR (flat2 n1 n2 f) h = sumR (seq 0 n1) (fun i => sumR (seq 0 n2) (fun j => h (f i j))).
Proof. unfold flat2. induction (seq 0 n1) as [|i r IH]; cbn [flat_map sumR]; [reflexivity|]. now rewrite sumR_app, IH, sumR_map. Qed.
Lemma marangoni_z Ttop i j : ~ (c < 2)%nat -> marangoni_effect a Ttop c i j = 0.
Proof. intros H. destruct c as [|[|c']]; [lia|lia|reflexivity]. Qed.
Lemma face_work u : sumR cells (fun f => u (fc f) * face_flux e u f) <= dXx l * dXy l * top_power a T c u.
Proof.
  rewrite (sumR_ext cells _ (fun f => u (fc f) * face_gain l (fun _ => a_visco a) (fs f) (fty f) (fv f) (u (fc f)))).
  2:{ intros f Hf. destruct (faces_shape e bc Ge f Hf) as (Hs & Ht). now rewrite (face_flux_gain e We) by assumption. }
  unfold cells, bc. pose proof (faces_sum e (vel_bc_scalar a T c) 0 (fun s ty v n => u n * face_gain l (fun _ => a_visco a) s ty v (u n))) as E. cbn [e_mesh e] in E. rewrite E. clear E.
  unfold vel_bc_scalar. cbn [firstn surf_set_num map app length seq combine sumR fst snd].
  assert (Z : forall n s L, sumR (combine (repeat 0 n) L) (fun vc => u (snd vc) * face_gain l (fun _ => a_visco a) s 0 (fst vc) (u (snd vc))) <= 0).
  { intros n s L. revert n. induction L as [|x L IH]; intros [|n]; cbn [repeat combine sumR]; try lra. apply (Rle_trans _ (0 + 0)); [apply Rplus_le_compat; [|exact (IH n)]|lra]. cbn [fst snd face_gain]. pose proof (area_pos s). pose proof (spacing_pos s).
    assert (0 <= a_visco a / (spacing l s / 2) * area l s * u x ^ 2) by (apply Rmult_le_pos; [apply Rmult_le_pos; [apply Rle_mult_inv_pos; lra|lra]|apply pow2_ge_0]).
    replace (u x * (a_visco a * (0 - u x) / (spacing l s / 2) * area l s)) with (- (a_visco a / (spacing l s / 2) * area l s * u x ^ 2)) by (unfold Rdiv; ring). lra. }
  pose proof (Z (mNy l * mNz l)%nat 0%nat (side_of l 0)) as Z0. pose proof (Z (mNy l * mNz l)%nat 1%nat (side_of l 1)) as Z1. pose proof (Z (mNx l * mNz l)%nat 2%nat (side_of l 2)) as Z2.
  pose proof (Z (mNx l * mNz l)%nat 3%nat (side_of l 3)) as Z3. pose proof (Z (mNy l * mNx l)%nat 4%nat (side_of l 4)) as Z4.
  match goal with |- _ + (_ + (_ + (_ + (_ + (?t + 0))))) <= _ => enough (t <= dXx l * dXy l * top_power a T c u) by lra end.
  rewrite side_of_eq by lia. unfold side_cells. cbn [nth]. rewrite combine_flat2, sum_flat2. cbn [fst snd]. unfold top_power. rewrite <- sumR_scal. apply sumR_le. intros i _. rewrite <- sumR_scal. apply sumR_le. intros j _.
  destruct (Nat.ltb_spec c 2) as [Hc|Hc]; cbn [face_gain area]; [right; ring|]. rewrite marangoni_z by lia.
  set (x := u _). destruct Pw as (? & ? & ?). replace (dXx l * dXy l * _) with 0 by ring. cbn [spacing].
  assert (0 <= a_visco a / (dXz l / 2) * (dXx l * dXy l) * x ^ 2) by (apply Rmult_le_pos; [apply Rmult_le_pos; [apply Rle_mult_inv_pos; lra|nra]|apply pow2_ge_0]).
  match goal with |- ?t <= 0 => replace t with (- (a_visco a / (dXz l / 2) * (dXx l * dXy l) * x ^ 2)) by (unfold Rdiv; ring) end. lra.
Qed.
Lemma vel_energy u : vel_solution a T c u0 conv gradp fl u ->
  sumsq l u + 2 * (a_dt a / a_rho a) * sumR (seq 0 N) (fun n => resistance a (fl n) * u n ^ 2) <= sumsq l (pushed a u0 conv gradp) + 2 * a_dt a / (a_rho a * dXz l) * top_power a T c u.
Proof.
  intros (e1 & r & He1 & Er & Hr). rewrite eqn_is in He1. injection He1 as <-.
  pose proof (face_work u) as F. pose proof (lap_dissipative e We u) as D. cbn [e_mesh e] in D. specialize (D ltac:(intros; unfold face_mu; cbn [e_mufn e_mu e]; lra)). fold e in D.
  assert (E : sumR (seq 0 N) (fun n => u n * r n) = 0) by (apply sumR_zero; intros n Hn; apply in_seq in Hn; rewrite Hr by lia; ring).
  set (s := pushed a u0 conv gradp) in *. set (k := a_rho a / a_dt a) in *. assert (Hk : 0 < k) by (apply Rdiv_lt_0_compat; assumption).
  rewrite (sumR_ext _ _ (fun n => - (u n * laplace e u n) + (dV l * k * u n ^ 2 + (dV l * (resistance a (fl n) * u n ^ 2) + - (dV l * k * (s n * u n)))) - u n * sumR cells (fun f => if Nat.eqb (fc f) n then face_flux e u f else 0))) in E.
  2:{ intros n Hn. rewrite (residual_form e bc _ _ Me Ge Er n), Ae. cbn [e_mesh e]. fold e cells. unfold s1, s0. fold (resistance a (fl n)) s. unfold k, Rdiv. ring. }
  rewrite sumR_sub, !sumR_add, scatter_weighted, !sumR_opp, !sumR_scal in E. 
  change (sumR (seq 0 N) (fun n => u n ^ 2)) with (sumsq l u) in E. set (Dsum := sumR (seq 0 N) (fun n => resistance a (fl n) * u n ^ 2)) in *. set (SU := sumR (seq 0 N) (fun n => s n * u n)) in *.
  assert (Y : 2 * SU <= sumsq l s + sumsq l u).
  { unfold SU, sumsq. rewrite <- sumR_scal, <- sumR_add. apply sumR_le. intros n _. pose proof (pow2_ge_0 (s n - u n)). nra. }
  destruct Pw as (Hx & Hy & Hz).
  assert (B : dV l * (k * sumsq l u + Dsum - k * SU) <= dXx l * dXy l * top_power a T c u) by nra.
  assert (B2 : k * sumsq l u + Dsum - k * SU <= top_power a T c u / dXz l).
  { apply (Rmult_le_reg_l (dV l)); [exact HV|]. replace (dV l * (top_power a T c u / dXz l)) with (dXx l * dXy l * top_power a T c u) by (unfold dV; field; lra). exact B. }
  replace (a_dt a / a_rho a) with (/ k) by (unfold k; field; lra). replace (2 * a_dt a / (a_rho a * dXz l) * top_power a T c u) with (2 * / k * (top_power a T c u / dXz l)) by (unfold k; field; lra).
  assert (Ik : 0 < / k) by (apply Rinv_0_lt_compat; exact Hk).
  assert (B3 : / k * (k * sumsq l u + Dsum - k * SU) <= / k * (top_power a T c u / dXz l)) by (apply Rmult_le_compat_l; lra).
  replace (/ k * (k * sumsq l u + Dsum - k * SU)) with (sumsq l u + / k * Dsum - SU) in B3 by (field; lra). lra.
Qed.
End Pred.

(** ** the pressure equation *)
Section Press.
Variables (a : amargs) (T : arr) (vel : nat -> arr).
Notation l := (a_local a).
Notation N := (cell_num l).
Hypothesis W : good_mesh l.
Hypothesis Hdt : 0 < a_dt a.
Hypothesis Hrho : 0 < a_rho a.
Let dd := flat l (div_vel a (vel_BCs a T) vel).
Let e := mkEqn l PyFalse (Some 1) None (fun n _ => - dd n).
Let We : good_mesh (e_mesh e). Proof. exact W. Qed.
Let Le : e_mufn e = None. Proof. reflexivity. Qed.
Let Ae : forall n u, e_src e n u = (fun n => - dd n) n + (fun _ => 0) n * u. Proof. intros. cbn. ring. Qed.
Let Me : ok_mu e. Proof. exact (ok_mu_linear e _ eq_refl eq_refl). Qed.
Let HV : 0 < dV l. Proof. exact (dV_pos e We). Qed.
Let GB : forall l' : bclist, None = Some l' -> good_bc (e_mesh e) l'. Proof. intros l' E. discriminate. Qed.
Let v : nat -> nat -> R := fun n c => kernel_grad e (fun _ => 0) (fun _ _ => 0) n (fun _ => 0) c.
Let r0 : fld := fun n => - laplace e (fun _ => 0) n - e_src e n 0 * dV l.
Lemma r0_eq n : (n < N)%nat -> r0 n = dd n * dV l.
Proof. intros Hn. unfold r0. pose proof (lap_const_zero e We (fun _ => 0) 0 ltac:(intros; reflexivity) n Hn) as L0. rewrite L0. cbn [e_src e]. ring. Qed.
Lemma press_lin p n : (n < N)%nat -> linearized_residual l v p n = - laplace e p n.
Proof.
  intros Hn. pose proof (residual_affine e (fun _ => 0) (fun n => - dd n) (fun _ => 0) Le Ae None p r0 _ v Me GB eq_refl (residual_none e p) eq_refl n Hn) as A. cbn [e_mesh e] in A. fold e in A.
  rewrite r0_eq in A by exact Hn. cbn [e_src] in A. unfold e at 2 in A. cbn [e_src] in A. lra.
Qed.
Lemma press_form p : sumR (seq 0 N) (fun n => p n * laplace e p n) = - dV l * face_energy l p.
Proof.
  rewrite sum_cells3. transitivity (box_of l (fun i j k => dV l * (P3 a p i j k * compact a p i j k))).
  - apply box_sum_ext. intros i j k Hi Hj Hk. unfold e. rewrite laplace_compact by (try exact W; repeat split; assumption). unfold P3. ring.
  - rewrite box_scal, compact_energy by exact W. ring.
Qed.
Lemma press_iff p : pressure_solution a T vel p <-> forall n, (n < N)%nat -> linearized_residual l v p n = - r0 n.
Proof.
  assert (E : forall n, (n < N)%nat -> - laplace e p n - - dd n * dV l = linearized_residual l v p n + r0 n) by (intros n Hn; rewrite press_lin, r0_eq by exact Hn; ring).
  split.
  - intros (e1 & r & He1 & Er & Hr) n Hn. injection He1 as <-. injection Er as <-. enough (linearized_residual l v p n + r0 n = 0) by lra. rewrite <- (E n Hn). exact (Hr n Hn).
  - intros H. exists e, (fun n => - laplace e p n - e_src e n (p n) * dV (e_mesh e)). split; [reflexivity|]. split; [reflexivity|]. intros n Hn. cbn [e_src e_mesh e]. fold e. rewrite E by exact Hn. rewrite H by exact Hn. ring.
Qed.
Lemma press_exists : exists p, pressure_solution a T vel p.
Proof.
  destruct (solvable_or l v (fun n => - r0 n) W) as [(x & Hx)|(y & Hy & Hb)]; [exists x; now apply press_iff|]. exfalso. apply Hb.
  assert (F : face_energy l y = 0).
  { pose proof (press_form y) as P. specialize (Hy y). rewrite (sumR_ext _ _ (fun n => - (y n * laplace e y n))) in Hy by (intros n Hn; apply in_seq in Hn; rewrite press_lin by lia; ring).
    rewrite sumR_opp, P in Hy. pose proof (face_energy_nonneg a y). nra. }
  assert (N0 : (0 < N)%nat) by (destruct W as (? & ? & ? & _); unfold cell_num; nia).
  rewrite (sumR_ext _ _ (fun n => (- dV l * y 0%nat) * dd n)).
  2:{ intros n Hn. apply in_seq in Hn. rewrite r0_eq by lia. rewrite (face_energy_zero a T W y F n 0%nat) by (lia || exact N0). ring. }
  rewrite sumR_scal, sum_cells3. replace (sumR (seq 0 (mNx l)) _) with (box_sum (mNx l) (mNy l) (mNz l) (div_vel a (vel_BCs a T) vel)).
  - destruct W as (? & ? & ? & _). rewrite div_vel_sum by assumption. ring.
  - apply box_sum_ext. intros i j k Hi Hj Hk. unfold dd. symmetry. apply flat_idx. repeat split; assumption.
Qed.
Lemma press_solved bicg : exact_bicg l bicg -> pressure_solution a T vel (p_solve a bicg dd).
Proof.
  intros HX. apply press_iff. destruct press_exists as (x & Hx). rewrite press_iff in Hx. intros n Hn.
  change (p_solve a bicg dd) with (solver_linear bicg l v r0). unfold solver_linear.
  transitivity (linearized_residual l v (bicg (linearized_residual l v) (fun n => - r0 n)) n).
  - unfold linearized_residual at 1 3. apply sumR_ext. intros. ring.
  - apply (HX v (fun n => - r0 n)); [exists x; exact Hx|exact Hn].
Qed.
End Press.

(** ** the whole update *)
Lemma kinetic_sumsq a (vel : nat -> arr) (u : nat -> fld) : (forall c i j k, (c < 3)%nat -> in_box (a_local a) i j k -> vel c i j k = u c (cell_idx (a_local a) i j k)) ->
  kinetic (a_local a) vel = sumR (seq 0 3) (fun c => sumsq (a_local a) (u c)).
Proof.
  intros H. unfold kinetic. apply sumR_ext. intros c Hc. apply in_seq in Hc. unfold sumsq. rewrite sum_cells3. apply box_sum_ext. intros i j k Hi Hj Hk. rewrite H by (try lia; repeat split; assumption). reflexivity.
Qed.
Lemma update_energy a bicg (vel0 conv0 gradp0 : nat -> arr) (fl T : arr) : let l := a_local a in
  good_mesh l -> 0 < a_dt a -> 0 < a_rho a -> 0 < a_visco a -> (forall i j k, in_box l i j k -> 0 <= fl i j k) -> exact_bicg l bicg ->
  let u := fun c => vel_solve a bicg c (flat l (vel0 c)) (flat l (conv0 c)) (flat l (gradp0 c)) (flat l fl) (vel_bc_scalar a T c) in
  let '(vel, _, _) := vel_update a (vel_solve a bicg) (p_solve a bicg) vel0 conv0 gradp0 fl T in
  kinetic l vel <= sumR (seq 0 3) (fun c => sumsq l (pushed a (flat l (vel0 c)) (flat l (conv0 c)) (flat l (gradp0 c))) + 2 * a_dt a / (a_rho a * dXz l) * top_power a T c (u c)).
Proof.
  intros l W Hdt Hrho Hmu Hfl HX u. unfold vel_update. fold l. set (vel := fun c => unflat l (vel_solve a bicg c _ _ _ _ _)). set (p := p_solve a bicg (flat l (div_vel a (vel_BCs a T) vel))).
  pose proof (press_solved a T vel W bicg HX) as Hp. fold l p in Hp. change (correct_vel a vel (unflat l p)) with (corrected a vel p).
  pose proof (kinetic_correction a T W Hdt Hrho vel p Hp) as K. pose proof (grd_energy a W p) as Gp. pose proof (face_energy_nonneg a p) as F0. fold l in K, Gp, F0.
  pose proof (pow2_ge_0 (a_dt a / a_rho a)) as Q.
  apply (Rle_trans _ (kinetic l vel)); [nra|].
  pose proof (kinetic_sumsq a vel u ltac:(reflexivity)) as E0. fold l in E0. rewrite E0. apply sumR_le. intros c _.
  assert (Hfl' : forall n, (n < cell_num l)%nat -> 0 <= flat l fl n).
  { intros n Hn. destruct (idx_ex l n Hn) as (i & j & k & Hi & Hj & Hk & ->). unfold l. rewrite flat_idx by (repeat split; assumption). apply Hfl. repeat split; assumption. }
  pose proof (vel_energy a T c (flat l (vel0 c)) (flat l (conv0 c)) (flat l (gradp0 c)) (flat l fl) W Hdt Hrho Hmu Hfl' (u c) (vel_solved a T c _ _ _ _ W Hdt Hrho Hmu Hfl' bicg HX)) as E. fold l in E.
  assert (0 <= 2 * (a_dt a / a_rho a) * sumR (seq 0 (cell_num l)) (fun n => resistance a (flat l fl n) * u c n ^ 2)).
  { assert (0 < a_dt a / a_rho a) by (apply Rdiv_lt_0_compat; assumption). apply Rmult_le_pos; [lra|]. apply sumR_nonneg. intros n Hn. apply in_seq in Hn. apply Rmult_le_pos; [|apply pow2_ge_0].
    apply (resistance_nonneg a (flat l fl) Hrho Hfl'). fold l. lia. }
  lra.
Qed.
Close Scope R_scope.
