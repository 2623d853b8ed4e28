(** * Proofs about the assembled elastic and plastic problems. *)
From Coq Require Import Lra Lia.
From Verif Require Import Prelude PreludeFacts FemModel FemFacts FemSpec FemProofs FemAsmProofs FemGeoProofs MatModel MatSpec MatProofs MatPlasticProofs.
Open Scope R_scope.

Section Fem.
Context {V : Type}.
Variable F : fem V.
Local Notation E := (f_ele F).

Lemma grad_linear a u w c q i d : sol_to_grad F (fun n k => a * u n k + w n k) c q i d = a * sol_to_grad F u c q i d + sol_to_grad F w c q i d.
Proof. unfold sol_to_grad. rewrite <- sumN_scal, <- sumN_add. apply sumN_ext. intros b _. ring. Qed.
Lemma grad_sub u w c q i d : sol_to_grad F (fun n k => u n k - w n k) c q i d = sol_to_grad F u c q i d - sol_to_grad F w c q i d.
Proof. unfold sol_to_grad. rewrite <- sumN_sub. apply sumN_ext. intros b _. ring. Qed.
Lemma power_linear r r' a v : power F (fun n k => a * r n k + r' n k) v = a * power F r v + power F r' v.
Proof.
  unfold power. rewrite <- sumN_scal, <- sumN_add. apply sumN_ext. intros n _. rewrite <- sumN_scal, <- sumN_add. apply sumN_ext. intros k _. ring.
Qed.
Lemma power_sub r r' v : power F (fun n k => r n k - r' n k) v = power F r v - power F r' v.
Proof. unfold power. rewrite <- sumN_sub. apply sumN_ext. intros n _. rewrite <- sumN_sub. apply sumN_ext. intros k _. ring. Qed.
Lemma power_point r n k : (n < num_total_nodes F)%nat -> (k < vec F)%nat ->
  power F r (fun m l => if Nat.eqb m n && Nat.eqb l k then 1 else 0) = r n k.
Proof.
  intros Hn Hk. unfold power. rewrite (sumN_ext _ _ (fun m => if Nat.eqb m n then sumN (vec F) (fun l => if Nat.eqb l k then r m l else 0) else 0)).
  - rewrite sumN_pick by exact Hn. now rewrite sumN_pick.
  - intros m _. destruct (Nat.eqb m n); cbn [andb].
    + apply sumN_ext. intros l _. destruct (Nat.eqb l k); ring.
    + apply sumN_zero. intros. ring.
Qed.
Lemma power_ext r r' : (forall v, power F r v = power F r' v) -> forall n k, (n < num_total_nodes F)%nat -> (k < vec F)%nat -> r n k = r' n k.
Proof. intros H n k Hn Hk. rewrite <- (power_point r n k), <- (power_point r' n k) by assumption. apply H. Qed.

(** ** LinearElasticity *)
Section Elastic.
Hypothesis Hwf : wf_mesh F.
Variables (inds : list (list (nat * nat))) (iv : internal_vars V).
Hypothesis Hiv : iv_sized F iv.
Hypothesis Hc : (0 < num_cells F)%nat.
Hypothesis Ho : only_internal F iv.
Hypothesis Hf : forall sel, In sel inds -> faces_ok F sel.
Hypothesis Ht : tensor_map F = Some (fun _ => linear_elastic_stress (dim F)).
Hypothesis Hv : vec F = dim F.
Lemma elastic_work u : exists r, compute_residual_vars F inds u iv = Ok r /\ forall v,
  power F r v = sumN (num_cells F) (fun c => sumN (num_quads E) (fun q => JxW F c q *
     ddot (dim F) (linear_elastic_stress (dim F) (sol_to_grad F u c q)) (sol_to_grad F v c q))).
Proof.
  destruct (internal_only_work F Hwf inds iv u Hiv Hc Ho Hf) as (r & Hr & He). exists r. split; [exact Hr|]. intros v. unfold power. rewrite He.
  apply sumN_ext. intros c _. apply sumN_ext. intros q _. f_equal. unfold stress. rewrite Ht. unfold ddot. now rewrite Hv.
Qed.
Lemma elastic_stiffness u w a :
  exists ru rw rs, compute_residual_vars F inds u iv = Ok ru /\ compute_residual_vars F inds w iv = Ok rw
  /\ compute_residual_vars F inds (fun n k => a * u n k + w n k) iv = Ok rs
  /\ (forall n k, (n < num_total_nodes F)%nat -> (k < vec F)%nat -> rs n k = a * ru n k + rw n k)
  /\ power F ru w = power F rw u
  /\ (positive_weights F -> 0 <= power F ru u)
  /\ (positive_weights F -> power F ru u = 0 ->
        (forall c q, (c < num_cells F)%nat -> (q < num_quads E)%nat -> mskew (dim F) (sol_to_grad F u c q))
        /\ forall n k, (n < num_total_nodes F)%nat -> (k < vec F)%nat -> ru n k = 0).
Proof.
  destruct (elastic_work u) as (ru & Hu & Eu), (elastic_work w) as (rw & Hw & Ew), (elastic_work (fun n k => a * u n k + w n k)) as (rs & Hs & Es).
  exists ru, rw, rs. repeat split; try assumption.
  - apply (power_ext rs (fun n k => a * ru n k + rw n k)). intros v. rewrite power_linear, Es, Eu, Ew. rewrite <- sumN_scal, <- sumN_add.
    apply sumN_ext. intros c _. rewrite <- sumN_scal, <- sumN_add. apply sumN_ext. intros q _.
    rewrite (ddot_ext (dim F) _ (madd (mscal a (linear_elastic_stress (dim F) (sol_to_grad F u c q))) (linear_elastic_stress (dim F) (sol_to_grad F w c q))) _ (sol_to_grad F v c q)).
    + unfold madd, mscal. rewrite (ddot_add_l (dim F) (fun i j => a * linear_elastic_stress (dim F) (sol_to_grad F u c q) i j)), ddot_scal_l. ring.
    + intros i j Hi Hj. rewrite <- (lin_linear (dim F) a) by assumption. rewrite !lin_iso. apply iso_ext; try assumption.
      intros k l _ _. unfold strain, madd, mscal. now rewrite !grad_linear.
    + intros i j _ _. reflexivity.
  - rewrite Eu, Ew. apply sumN_ext. intros c _. apply sumN_ext. intros q _. f_equal. apply lin_work.
  - intros Hp. rewrite Eu. apply sumN_nonneg. intros c Hcc. apply sumN_nonneg. intros q Hq. specialize (Hp c q Hcc Hq).
    pose proof (lin_energy (dim F) (sol_to_grad F u c q)). nra.
  - rewrite Eu in H0. rename H into Hp.
    assert (Hnn : forall c, (c < num_cells F)%nat -> 0 <= sumN (num_quads E) (fun q => JxW F c q * ddot (dim F) (linear_elastic_stress (dim F) (sol_to_grad F u c q)) (sol_to_grad F u c q))).
    { intros c Hcc. apply sumN_nonneg. intros q Hq. specialize (Hp c q Hcc Hq). pose proof (lin_energy (dim F) (sol_to_grad F u c q)). nra. }
    intros c q Hcc Hq. pose proof (sumN_zero_each _ _ Hnn H0 c Hcc) as H1. cbn beta in H1.
    assert (H2 := sumN_zero_each _ _ (fun q Hq => Rmult_le_pos _ _ (Rlt_le _ _ (Hp c q Hcc Hq)) (lin_energy (dim F) (sol_to_grad F u c q))) H1 q Hq). cbn beta in H2.
    apply lin_energy_zero. specialize (Hp c q Hcc Hq). nra.
  - rewrite Eu in H0. rename H into Hp. intros n k Hn Hk.
    assert (Hnn : forall c, (c < num_cells F)%nat -> 0 <= sumN (num_quads E) (fun q => JxW F c q * ddot (dim F) (linear_elastic_stress (dim F) (sol_to_grad F u c q)) (sol_to_grad F u c q))).
    { intros c Hcc. apply sumN_nonneg. intros q Hq. specialize (Hp c q Hcc Hq). pose proof (lin_energy (dim F) (sol_to_grad F u c q)). nra. }
    apply (power_ext ru (fun _ _ => 0)); try assumption. intros v. rewrite Eu. transitivity 0.
    + apply sumN_zero. intros c Hcc. apply sumN_zero. intros q Hq. pose proof (sumN_zero_each _ _ Hnn H0 c Hcc) as H1. cbn beta in H1.
      assert (H2 := sumN_zero_each _ _ (fun q Hq => Rmult_le_pos _ _ (Rlt_le _ _ (Hp c q Hcc Hq)) (lin_energy (dim F) (sol_to_grad F u c q))) H1 q Hq). cbn beta in H2.
      assert (H3 : mskew (dim F) (sol_to_grad F u c q)) by (apply lin_energy_zero; specialize (Hp c q Hcc Hq); nra).
      rewrite (ddot_ext (dim F) _ mzero _ (sol_to_grad F v c q)) by (apply lin_skew, H3 || (intros i j _ _; reflexivity)).
      unfold ddot, mzero. rewrite sumN_zero; [ring|]. intros. apply sumN_zero. intros. ring.
    + symmetry. unfold power. apply sumN_zero. intros. apply sumN_zero. intros. ring.
Qed.
Lemma elastic_rigid b W u : small_dim (dim F) -> grads_sum_zero F -> invertible_cells F -> mskew (dim F) W ->
  exists ru rr, compute_residual_vars F inds u iv = Ok ru
  /\ compute_residual_vars F inds (fun n k => u n k + rigid_motion F b W n k) iv = Ok rr
  /\ forall n k, (n < num_total_nodes F)%nat -> (k < vec F)%nat -> rr n k = ru n k.
Proof.
  intros Hs Hg Hi HW. destruct (elastic_work u) as (ru & Hu & Eu), (elastic_work (fun n k => u n k + rigid_motion F b W n k)) as (rr & Hr & Er).
  exists ru, rr. repeat split; try assumption. apply (power_ext rr ru). intros v. rewrite Er, Eu. apply sumN_ext. intros c Hcc. apply sumN_ext. intros q Hq. f_equal.
  apply ddot_ext; [|intros i j _ _; reflexivity]. intros i j Hi' Hj'. rewrite !lin_iso. apply iso_ext; try assumption. intros k l Hk Hl.
  assert (Eg : forall k l, (k < dim F)%nat -> (l < dim F)%nat -> sol_to_grad F (fun n k => u n k + rigid_motion F b W n k) c q k l = sol_to_grad F u c q k l + W k l).
  { intros k' l' Hk' Hl'. unfold rigid_motion. rewrite <- (patch_test F c q b W k' l' Hs Hg Hq (Hi c q Hcc Hq) Hl').
    unfold sol_to_grad. rewrite <- sumN_add. apply sumN_ext. intros; ring. }
  unfold strain. rewrite !Eg by assumption. rewrite (HW k l) by assumption. ring.
Qed.
End Elastic.
End Fem.

(** ** Plasticity *)
Section Plastic.
Variable F : fem mat.
Local Notation E := (f_ele F).
Hypothesis Ht : tensor_map F = Some (plastic_tensor_map (dim F)).
Variable s : plastic.
Lemma plastic_vars_at c : (c < num_cells F)%nat -> vars_at (iv_laplace (plastic_vars (num_cells F) s)) c = [sigmas_old s c; epsilons_old s c].
Proof.
  intros Hc. unfold vars_at, plastic_vars. cbn [iv_laplace flat_map].
  rewrite !nth_error_map, !(nth_error_nth' (seq 0 (num_cells F)) 0%nat) by (now rewrite seq_length). cbn [option_map app]. now rewrite seq_nth.
Qed.
Lemma stored_stress sol c q : (c < num_cells F)%nat ->
  stress F (plastic_vars (num_cells F) s) sol c q = sigmas_old (update_stress_strain F sol s) c q.
Proof. intros Hc. unfold stress. rewrite Ht, plastic_vars_at by exact Hc. reflexivity. Qed.
Lemma plastic_sized : iv_sized F (plastic_vars (num_cells F) s).
Proof. split; [constructor|]. unfold sized, plastic_vars. cbn [iv_laplace]. repeat constructor; now rewrite map_length, seq_length. Qed.

Hypothesis Hwf : wf_mesh F.
Hypothesis Hm : mass_map F = None.
Hypothesis Hv : vec F = dim F.
Variable inds : list (list (nat * nat)).
Hypothesis Hn : neumann_ok F inds.
Hypothesis Hf : forall sel, In sel inds -> faces_ok F sel.
Hypothesis Hc : (0 < num_cells F)%nat.
Lemma plastic_work sol : exists r, compute_residual_vars F inds sol (plastic_vars (num_cells F) s) = Ok r /\ forall v,
  power F r v = sumN (num_cells F) (fun c => sumN (num_quads E) (fun q => JxW F c q *
      ddot (dim F) (sigmas_old (update_stress_strain F sol s) c q) (sol_to_grad F v c q)))
    + cauchy_power F sol v - body_power F (plastic_vars (num_cells F) s) v - neumann_power F inds (plastic_vars (num_cells F) s) v.
Proof.
  destruct (virtual_work F Hwf inds sol (plastic_vars (num_cells F) s) plastic_sized Hc Hn Hf) as (r & Hr & He). exists r. split; [exact Hr|].
  intros v. unfold power. rewrite He. do 3 f_equal. unfold internal_power. apply sumN_ext. intros c Hcc. apply sumN_ext. intros q _. f_equal.
  rewrite stored_stress by exact Hcc. unfold reaction, dot_vec. rewrite Hm. rewrite (sumN_zero (vec F) (fun k => 0 * _)) by (intros; ring).
  unfold ddot. rewrite Hv. ring.
Qed.
Lemma plastic_monotone u w : (0 < dim F)%nat -> cauchy_bc_info F = None -> positive_weights F ->
  (forall c q, msym (dim F) (sigmas_old s c q) /\ msym (dim F) (epsilons_old s c q)) ->
  exists ru rw, compute_residual_vars F inds u (plastic_vars (num_cells F) s) = Ok ru
  /\ compute_residual_vars F inds w (plastic_vars (num_cells F) s) = Ok rw
  /\ 0 <= power F (fun n k => ru n k - rw n k) (fun n k => u n k - w n k).
Proof.
  intros Hd Hb Hp Hsym. destruct (plastic_work u) as (ru & Hu & Eu), (plastic_work w) as (rw & Hw & Ew). exists ru, rw. repeat split; try assumption.
  rewrite power_sub, Eu, Ew.
  assert (C0 : forall x v, cauchy_power F x v = 0) by (intros; unfold cauchy_power, cauchy_faces; now rewrite Hb). rewrite !C0.
  match goal with |- 0 <= ?A + 0 - ?B - ?N - (?A' + 0 - ?B - ?N) => replace (A + 0 - B - N - (A' + 0 - B - N)) with (A - A') by ring end.
  rewrite <- sumN_sub. apply sumN_nonneg. intros c Hcc. rewrite <- sumN_sub. apply sumN_nonneg. intros q Hq. rewrite <- Rmult_minus_distr_l.
  apply Rmult_le_pos; [left; now apply Hp|]. rewrite <- ddot_sub_l.
  set (s1 := sigmas_old (update_stress_strain F u s) c q). set (s2 := sigmas_old (update_stress_strain F w s) c q).
  set (Gu := sol_to_grad F u c q). set (Gw := sol_to_grad F w c q).
  set (C1 := trial (dim F) Gu (sigmas_old s c q) (epsilons_old s c q)). set (C2 := trial (dim F) Gw (sigmas_old s c q) (epsilons_old s c q)).
  pose proof (return_strain_monotone (dim F) 250 70000 C1 C2 (strain Gu) (strain Gw) Hd ltac:(lra) ltac:(lra)) as M. cbv zeta in M.
  change (fst (radial_return (dim F) 250 C1)) with s1 in M. change (fst (radial_return (dim F) 250 C2)) with s2 in M.
  assert (HC : forall i j, C1 i j - C2 i j = iso_stress (dim F) 70000 (fun i j => strain Gu i j - strain Gw i j) i j).
  { intros i j. unfold C1, C2, trial. rewrite !iso_sub. ring. }
  specialize (M HC).
  assert (Hs12 : msym (dim F) (fun i j => s1 i j - s2 i j)).
  { destruct (Hsym c q) as (Hs & He). intros i j Hi Hj.
    assert (S1 : msym (dim F) s1) by (unfold s1; cbn [update_stress_strain sigmas_old]; rewrite srm_form; apply ret_sym; [lra|now apply trial_sym]).
    assert (S2 : msym (dim F) s2) by (unfold s2; cbn [update_stress_strain sigmas_old]; rewrite srm_form; apply ret_sym; [lra|now apply trial_sym]).
    now rewrite (S1 i j), (S2 i j). }
  rewrite <- ddot_strain_r by exact Hs12.
  rewrite (ddot_ext (dim F) _ (msub s1 s2) _ (msub (strain Gu) (strain Gw))); [exact M|intros i j _ _; reflexivity|].
  intros i j _ _. unfold strain, msub. rewrite !grad_sub. unfold strain, Gu, Gw. ring.
Qed.
End Plastic.

(** ** average stress *)
Section Avg.
Context {V : Type}.
Variable F : fem V.
Local Notation E := (f_ele F).
Definition wsum (f : nat -> nat -> R) : R := sumN (num_cells F) (fun c => sumN (num_quads E) (fun q => f c q * JxW F c q)).
Lemma wsum_lin a b f g : wsum (fun c q => a * f c q + b * g c q) = a * wsum f + b * wsum g.
Proof.
  unfold wsum. rewrite <- !sumN_scal, <- sumN_add. apply sumN_ext. intros c _. rewrite <- !sumN_scal, <- sumN_add. apply sumN_ext. intros q _. ring.
Qed.
Lemma wsum_sumN n (f : nat -> nat -> nat -> R) : wsum (fun c q => sumN n (fun i => f c q i)) = sumN n (fun i => wsum (fun c q => f c q i)).
Proof.
  unfold wsum. symmetry. rewrite sumN_swap. apply sumN_ext. intros c _. rewrite sumN_swap. apply sumN_ext. intros q _. now rewrite sumN_scal_r.
Qed.
Lemma avg_form s i j : compute_avg_stress F s i j = wsum (fun c q => sigmas_old s c q i j) / volume F.
Proof. reflexivity. Qed.
Lemma wsum_ext f g : (forall c q, (c < num_cells F)%nat -> (q < num_quads E)%nat -> f c q = g c q) -> wsum f = wsum g.
Proof. intros H. apply sumN_ext. intros c Hc. apply sumN_ext. intros q Hq. now rewrite H. Qed.
Lemma wsum_le f g : positive_weights F -> (forall c q, (c < num_cells F)%nat -> (q < num_quads E)%nat -> f c q <= g c q) -> wsum f <= wsum g.
Proof. intros Hp H. apply sumN_le. intros c Hc. apply sumN_le. intros q Hq. specialize (H c q Hc Hq). specialize (Hp c q Hc Hq). nra. Qed.
Lemma wsum_const a : wsum (fun _ _ => a) = a * volume F.
Proof. unfold wsum, volume. rewrite <- sumN_scal. apply sumN_ext. intros c _. now rewrite <- sumN_scal. Qed.
(** ddot with a fixed tensor commutes with the weighted sum *)
Lemma wsum_ddot d (A : nat -> nat -> mat) B : wsum (fun c q => ddot d (A c q) B) = ddot d (fun i j => wsum (fun c q => A c q i j)) B.
Proof.
  unfold ddot. rewrite wsum_sumN. apply sumN_ext. intros i _. rewrite wsum_sumN. apply sumN_ext. intros j _.
  unfold wsum. rewrite <- sumN_scal_r. apply sumN_ext. intros c _. rewrite <- sumN_scal_r. apply sumN_ext. intros q _. ring.
Qed.
Lemma wsum_scal a f : wsum (fun c q => a * f c q) = a * wsum f.
Proof. rewrite (wsum_ext _ (fun c q => a * f c q + 0 * 0)) by (intros; ring). rewrite (wsum_lin a 0 f (fun _ _ => 0)). ring. Qed.
Lemma dev_avg d s : meq d (dev d (compute_avg_stress F s)) (fun i j => wsum (fun c q => dev d (sigmas_old s c q) i j) / volume F).
Proof.
  intros i j _ _. unfold dev. rewrite avg_form.
  rewrite (wsum_ext (fun c q => sigmas_old s c q i j - pressure d (sigmas_old s c q) * identity i j) (fun c q => 1 * sigmas_old s c q i j + (- identity i j) * pressure d (sigmas_old s c q))) by (intros; ring).
  rewrite (wsum_lin 1 (- identity i j) (fun c q => sigmas_old s c q i j) (fun c q => pressure d (sigmas_old s c q))).
  assert (E0 : pressure d (compute_avg_stress F s) = wsum (fun c q => pressure d (sigmas_old s c q)) / volume F).
  { unfold pressure. unfold Rdiv.
    rewrite (wsum_ext (fun c q => sumN d (fun k => sigmas_old s c q k k) * / INR d) (fun c q => / INR d * sumN d (fun k => sigmas_old s c q k k))) by (intros; ring).
    rewrite wsum_scal, wsum_sumN. rewrite (sumN_ext d _ (fun k => wsum (fun c q => sigmas_old s c q k k) * / volume F)) by reflexivity. rewrite sumN_scal_r. ring. }
  rewrite E0. unfold Rdiv. ring.
Qed.
Lemma avg_von_mises d s k : positive_weights F -> 0 < volume F -> 0 <= k ->
  (forall c q, (c < num_cells F)%nat -> (q < num_quads E)%nat -> von_mises d (sigmas_old s c q) <= k) -> von_mises d (compute_avg_stress F s) <= k.
Proof.
  intros Hp Hvol Hk H. set (A := dev d (compute_avg_stress F s)). set (x := ddot d A A).
  assert (Hx0 : 0 <= x) by apply ddot_nonneg.
  assert (Hbound : forall c q, (c < num_cells F)%nat -> (q < num_quads E)%nat -> ddot d (dev d (sigmas_old s c q)) A <= sqrt x * (sqrt (2 / 3) * k)).
  { intros c q Hc Hq. rewrite ddot_comm. apply ddot_bound; [pose proof (sqrt_pos (2 / 3)); nra|].
    specialize (H c q Hc Hq). pose proof (von_mises_sqr d (sigmas_old s c q)) as E1. pose proof (von_mises_nonneg d (sigmas_old s c q)).
    apply le_of_sq; [pose proof (sqrt_pos (2 / 3)); nra|]. rewrite sqrt_sqrt by apply ddot_nonneg.
    replace (sqrt (2 / 3) * k * (sqrt (2 / 3) * k)) with (sqrt (2 / 3) * sqrt (2 / 3) * (k * k)) by ring. rewrite sqrt_sqrt by lra. nra. }
  assert (Hx : x * volume F <= sqrt x * (sqrt (2 / 3) * k) * volume F).
  { rewrite <- (wsum_const (sqrt x * (sqrt (2 / 3) * k))). replace (x * volume F) with (wsum (fun c q => ddot d (dev d (sigmas_old s c q)) A)); [apply wsum_le; assumption|].
    rewrite wsum_ddot. rewrite (ddot_ext d _ (fun i j => volume F * A i j) A A); [rewrite ddot_scal_l; unfold x; ring| |intros i j _ _; reflexivity].
    intros i j Hi Hj. unfold A. rewrite (dev_avg d s i j Hi Hj). field. lra. }
  assert (Hx' : x <= sqrt x * (sqrt (2 / 3) * k)) by nra.
  pose proof (sqrt_pos x) as Px. assert (Es : sqrt x * sqrt x = x) by now apply sqrt_sqrt.
  assert (Hs : sqrt x <= sqrt (2 / 3) * k).
  { destruct (Rle_dec (sqrt x) (sqrt (2 / 3) * k)); [assumption|]. exfalso. assert (0 < sqrt x) by (pose proof (sqrt_pos (2 / 3)); nra). nra. }
  apply le_of_sq; [assumption|]. rewrite von_mises_sqr. fold A x. assert (sqrt (2 / 3) * sqrt (2 / 3) = 2 / 3) by (apply sqrt_sqrt; lra).
  assert (x <= sqrt (2 / 3) * k * (sqrt (2 / 3) * k)) by nra. nra.
Qed.
Lemma avg_homogeneous s S i j : 0 < volume F -> (forall c q, (c < num_cells F)%nat -> (q < num_quads E)%nat -> sigmas_old s c q i j = S) ->
  compute_avg_stress F s i j = S.
Proof. intros Hv H. rewrite avg_form. rewrite (wsum_ext _ (fun _ _ => S)) by exact H. rewrite wsum_const. field. lra. Qed.
End Avg.
Close Scope R_scope.
