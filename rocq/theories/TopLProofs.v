(** * Proofs about the constraint functions of the topology optimisation drivers. *)
From Coq Require Import FunctionalExtensionality ClassicalEpsilon Lra Lia.
From Verif Require Import Prelude PreludeFacts FemModel FemFacts FemSpec MatModel MatSpec MatHyperProofs MmaProofs MmaOptProofs TopModel TopSpec.
Open Scope R_scope.

Local Notation A := max_allowed_stress.
Lemma A_pos : 0 < A. Proof. unfold A. lra. Qed.
Lemma max_largest l : l <> [] -> largest l (max_of l).
Proof. intros Hl. split; [exact (maxl_in l Hl)|]. intros x Hx. exact (maxl_ge l x Hx). Qed.
Lemma largest_unique l M M' : largest l M -> largest l M' -> M = M'.
Proof. intros (H1 & H2) (H3 & H4). specialize (H2 M' H3). specialize (H4 M H1). lra. Qed.
Lemma stresses_max n l : stresses n l -> largest l (max_of l) /\ 0 < max_of l /\ (0 < n)%nat.
Proof.
  intros (Hn & _ & x & Hx & Hp). assert (Hl : l <> []) by (intros ->; destruct Hx). destruct (max_largest l Hl) as (H1 & H2).
  split; [now split|]. split; [specialize (H2 x Hx); lra|]. destruct l; [congruence|]. cbn in Hn. lia.
Qed.

Lemma root_pow y : 0 < y -> Rpower (y ^ 12) (1 / 12) = y.
Proof.
  intros Hy. rewrite <- Rpower_pow by exact Hy. rewrite Rpower_mult. replace (INR 12 * (1 / 12)) with 1 by (rewrite INR_IZR_INZ; cbn; lra).
  now apply Rpower_1.
Qed.
Lemma root12_pos n : 0 < root12 n. Proof. apply exp_pos. Qed.
Lemma root12_ge_1 n : (0 < n)%nat -> 1 <= root12 n.
Proof.
  intros Hn. unfold root12. assert (1 <= INR n) by (apply (le_INR 1 n); lia). rewrite <- (Rpower_1 1) by lra. unfold Rpower. rewrite ln_1, Rmult_0_r.
  destruct (Rle_lt_or_eq_dec _ _ H) as [H1|H1].
  - left. apply exp_increasing. rewrite <- ln_1. pose proof (ln_increasing 1 (INR n) ltac:(lra) H1) as L. rewrite ln_1 in *. apply Rmult_lt_0_compat; lra.
  - rewrite <- H1, ln_1, Rmult_0_r. lra.
Qed.
Lemma sumR_ge_in (l : list R) f x : In x l -> (forall y, In y l -> 0 <= f y) -> f x <= sumR l f.
Proof.
  induction l as [|a l IH]; [intros []|]. intros Hx Hf. cbn [sumR]. assert (0 <= sumR l f).
  { clear IH Hx. induction l as [|b l IH]; cbn [sumR]; [lra|]. assert (0 <= f b) by (apply Hf; right; now left). assert (0 <= sumR l f); [|lra].
    apply IH. intros y [->|Hy]; apply Hf; [now left|right; now right]. }
  destruct Hx as [->|Hx]; [lra|]. assert (0 <= f a) by (apply Hf; now left). specialize (IH Hx (fun y Hy => Hf y (or_intror Hy))). lra.
Qed.
Lemma sumR_le_const (l : list R) f k : (forall y, In y l -> f y <= k) -> sumR l f <= INR (length l) * k.
Proof.
  induction l as [|a l IH]; intros Hf; [cbn; lra|]. cbn [sumR]. change (length (a :: l)) with (S (length l)). rewrite S_INR.
  specialize (IH (fun y Hy => Hf y (or_intror Hy))). specialize (Hf a (or_introl eq_refl)). lra.
Qed.
Lemma pow12_mono x y : 0 <= x <= y -> x ^ 12 <= y ^ 12.
Proof. intros H. now apply pow_incr. Qed.
Lemma PN_bounds n l : stresses n l -> max_of l / A <= vm_PN l <= root12 n * (max_of l / A).
Proof.
  intros H. destruct (stresses_max n l H) as ((Hin & Hub) & HM & Hn). destruct H as (Hl & H0 & _). pose proof A_pos as HA.
  set (M := max_of l) in *. set (m := M / A). assert (Hm : 0 < m) by (apply Rdiv_lt_0_compat; assumption).
  set (s := sumR l (fun x => (x / A) ^ 12)). assert (Hx : forall x, In x l -> 0 <= (x / A) ^ 12 <= m ^ 12).
  { intros x Hx. assert (0 <= x / A) by (apply Rmult_le_pos; [now apply H0|left; now apply Rinv_0_lt_compat]).
    split; [apply pow_le; assumption|]. apply pow12_mono. split; [assumption|]. unfold m, Rdiv. apply Rmult_le_compat_r; [left; now apply Rinv_0_lt_compat|now apply Hub]. }
  assert (Hs1 : m ^ 12 <= s) by (apply (sumR_ge_in l (fun x => (x / A) ^ 12) M Hin); intros y Hy; now apply Hx).
  assert (Hs2 : s <= INR n * m ^ 12) by (rewrite <- Hl; apply (sumR_le_const l (fun x => (x / A) ^ 12)); intros y Hy; now apply Hx).
  assert (Hmp : 0 < m ^ 12) by now apply pow_lt.
  unfold vm_PN. fold s. unfold Reqb. destruct (Req_EM_T s 0) as [E|E]; [lra|].
  assert (HN : 0 < INR n) by now apply lt_0_INR.
  split.
  - rewrite <- (root_pow m Hm). apply Rle_Rpower_l; lra.
  - apply Rle_trans with (Rpower (INR n * m ^ 12) (1 / 12)); [apply Rle_Rpower_l; lra|].
    rewrite <- Rpower_mult_distr by assumption. rewrite root_pow by exact Hm. unfold root12. replace (1 / 12) with (/ 12) by lra. lra.
Qed.
Lemma PN_pos n l : stresses n l -> 0 < vm_PN l.
Proof.
  intros H. pose proof (PN_bounds n l H) as (H1 & _). destruct (stresses_max n l H) as (_ & HM & _).
  assert (0 < max_of l / A) by (apply Rdiv_lt_0_compat; [assumption|apply A_pos]). lra.
Qed.
(** the ratio stored by a call *)
Lemma ratio_bounds n l : stresses n l -> / root12 n <= max_of l / (A * vm_PN l) <= 1.
Proof.
  intros H. pose proof (PN_pos n l H) as HP. pose proof (PN_bounds n l H) as (H1 & H2). destruct (stresses_max n l H) as (_ & HM & Hn). pose proof A_pos as HA. pose proof (root12_pos n) as Hr.
  assert (E : max_of l / (A * vm_PN l) = max_of l / A / vm_PN l) by (field; lra). rewrite E.
  assert (0 < max_of l / A) by (apply Rdiv_lt_0_compat; assumption).
  split; apply (Rmult_le_reg_r (vm_PN l)); try assumption; unfold Rdiv at 1; rewrite ?Rmult_assoc, ?Rinv_l by lra.
  - apply (Rmult_le_reg_l (root12 n)); [assumption|]. rewrite <- Rmult_assoc, Rinv_r by lra. lra.
  - replace (max_of l / A * (/ vm_PN l * vm_PN l)) with (max_of l / A) by (field; lra). lra.
Qed.
Lemma inv_root_le_1 n : (0 < n)%nat -> 0 < / root12 n <= 1.
Proof. intros Hn. pose proof (root12_ge_1 n Hn). split; [apply Rinv_0_lt_compat; lra|]. rewrite <- Rinv_1. apply Rinv_le_contravar; lra. Qed.

Section Calls.
Variable vm : list R -> list R.
Variable jacrev : (list R -> list R) -> list R -> list (list R).
Variable n : nat.
Hypothesis Hn : (0 < n)%nat.
Definition good (st : cstate) : Prop := / root12 n <= cs_cp st <= 1 /\ / root12 n <= cs_max st / (A * cs_PN st) <= 1.
Lemma good_init : good cs_init.
Proof.
  pose proof (inv_root_le_1 n Hn). split; cbn; [lra|]. assert (E : A / (A * 1) = 1) by (pose proof A_pos; field; lra). rewrite E. lra.
Qed.
Lemma good_cp st : good st -> / root12 n <= cp_of st <= 1.
Proof.
  intros (H1 & H2). unfold cp_of. replace (5 / 10 * cs_max st / (A * cs_PN st)) with (5 / 10 * (cs_max st / (A * cs_PN st))) by (unfold Rdiv; ring). lra.
Qed.
Lemma good_step st rho : good st -> stresses n (vm rho) -> good (snd (compute_constraints vm jacrev st rho)).
Proof. intros H Hs. split; cbn; [now apply good_cp|now apply ratio_bounds]. Qed.
Lemma good_calls rhos : (forall rho, In rho rhos -> stresses n (vm rho)) -> good (constraint_calls vm jacrev rhos).
Proof.
  unfold constraint_calls. generalize good_init. generalize cs_init. induction rhos as [|rho rhos IH]; intros st H0 H; [exact H0|].
  cbn [fold_left]. apply IH; [apply good_step; [exact H0|apply H; now left]|intros r Hr; apply H; now right].
Qed.
Lemma values_form rhos rho : values_after vm jacrev rhos rho = [mean rho / vf_half - 1; cp_of (constraint_calls vm jacrev rhos) * vm_PN (vm rho) - 1].
Proof. reflexivity. Qed.
Lemma calls_snoc rhos rho : constraint_calls vm jacrev (rhos ++ [rho]) = snd (compute_constraints vm jacrev (constraint_calls vm jacrev rhos) rho).
Proof. unfold constraint_calls. now rewrite fold_left_app. Qed.
Lemma value_bounds rhos rho M : (forall r, In r rhos -> stresses n (vm r)) -> stresses n (vm rho) -> largest (vm rho) M ->
  M / A / root12 n <= nth 1 (values_after vm jacrev rhos rho) 0 + 1 <= root12 n * (M / A).
Proof.
  intros Hr Hs HM. rewrite values_form. cbn [nth]. destruct (stresses_max n _ Hs) as (HM' & Hp & _). rewrite (largest_unique _ _ _ HM HM').
  pose proof (good_cp _ (good_calls rhos Hr)) as (H1 & H2). pose proof (PN_bounds n _ Hs) as (H3 & H4). pose proof (inv_root_le_1 n Hn) as (H5 & H6).
  set (cp := cp_of _) in *. set (P := vm_PN _) in *. set (m := max_of _ / A) in *. assert (0 < m) by (apply Rdiv_lt_0_compat; [exact Hp|apply A_pos]). split.
  - apply Rle_trans with (cp * P); [|lra]. unfold Rdiv. rewrite (Rmult_comm m). apply Rmult_le_compat; lra.
  - apply Rle_trans with (1 * (root12 n * m)); [|lra]. replace (cp * P - 1 + 1) with (cp * P) by ring. apply Rmult_le_compat; lra.
Qed.
(** a repeated design *)
Lemma repeat_snoc {X} (x : X) k : repeat x (S k) = repeat x k ++ [x].
Proof. induction k as [|k IH]; [reflexivity|]. cbn [repeat app] in *. now rewrite <- IH. Qed.
Lemma repeated_cp rhos rho k : stresses n (vm rho) ->
  let r := max_of (vm rho) / (A * vm_PN (vm rho)) in
  cp_of (constraint_calls vm jacrev (rhos ++ repeat rho (S k))) - r = (cp_of (constraint_calls vm jacrev (rhos ++ [rho])) - r) / 2 ^ k.
Proof.
  intros Hs r. induction k as [|k IH]; [cbn [repeat pow]; field|].
  assert (E : cp_of (constraint_calls vm jacrev (rhos ++ repeat rho (S (S k)))) = / 2 * r + / 2 * cp_of (constraint_calls vm jacrev (rhos ++ repeat rho (S k)))).
  { rewrite (repeat_snoc rho (S k)), app_assoc, calls_snoc. unfold cp_of at 1. cbn [compute_constraints constraint_full snd cs_max cs_PN cs_cp].
    unfold r. unfold Rdiv. rewrite Rmult_assoc. lra. }
  rewrite E. cbn [pow]. replace ((cp_of (constraint_calls vm jacrev (rhos ++ [rho])) - r) / (2 * 2 ^ k)) with (/ 2 * ((cp_of (constraint_calls vm jacrev (rhos ++ [rho])) - r) / 2 ^ k))
    by (field; apply pow_nonzero; lra). rewrite <- IH. field.
Qed.
Lemma repeated_values rhos rho M k : stresses n (vm rho) -> largest (vm rho) M ->
  nth 1 (values_after vm jacrev (rhos ++ repeat rho (S k)) rho) 0 - (M / A - 1) = (nth 1 (values_after vm jacrev (rhos ++ [rho]) rho) 0 - (M / A - 1)) / 2 ^ k.
Proof.
  intros Hs HM. rewrite !values_form. cbn [nth]. pose proof (repeated_cp rhos rho k Hs) as H. cbv zeta in H.
  destruct (stresses_max n _ Hs) as (HM' & _). rewrite (largest_unique _ _ _ HM HM'). pose proof (PN_pos n _ Hs) as HP. pose proof A_pos.
  set (c0 := cp_of (constraint_calls vm jacrev (rhos ++ [rho]))) in *. set (ck := cp_of (constraint_calls vm jacrev (rhos ++ repeat rho (S k)))) in *. set (P := vm_PN _) in *. set (m := max_of _) in *.
  assert (Ek : ck = m / (A * P) + (c0 - m / (A * P)) / 2 ^ k) by (rewrite <- H; ring). rewrite Ek. field. repeat split; try lra. apply pow_nonzero; lra.
Qed.
End Calls.

(** ** gradients *)
Lemma nudge_length rho j t : length (nudge rho j t) = length rho. Proof. unfold nudge. now rewrite map_length, seq_length. Qed.
Lemma sumR_sumN l : sumR l (fun x => x) = sumN (length l) (fun i => nth i l 0).
Proof.
  induction l as [|a l IH]; [reflexivity|]. cbn [sumR length]. rewrite IH. unfold sumN. cbn [seq sumR nth]. f_equal.
  rewrite <- seq_shift. induction (seq 0 (length l)) as [|i s IHs]; [reflexivity|]. cbn [map sumR nth]. now rewrite IHs.
Qed.
Lemma nudge_nth rho j t i : (i < length rho)%nat -> nth i (nudge rho j t) 0 = nth i rho 0 + (if Nat.eqb i j then t else 0).
Proof.
  intros Hi. unfold nudge. rewrite (nth_indep _ 0 ((fun i => nth i rho 0 + (if Nat.eqb i j then t else 0)) 0%nat)) by (rewrite map_length, seq_length; exact Hi).
  rewrite (map_nth (fun i => nth i rho 0 + (if Nat.eqb i j then t else 0))). now rewrite seq_nth by exact Hi.
Qed.
Lemma nudge_0 rho j : nudge rho j 0 = rho.
Proof.
  apply nth_ext with 0 0; [apply nudge_length|]. intros i Hi. rewrite nudge_length in Hi. rewrite nudge_nth by exact Hi. destruct (Nat.eqb i j); ring.
Qed.
Lemma mean_nudge rho j t : (j < length rho)%nat -> mean (nudge rho j t) = mean rho + t / INR (length rho).
Proof.
  intros Hj. unfold mean. rewrite nudge_length, !sumR_sumN, nudge_length.
  assert (E : sumN (length rho) (fun i => nth i (nudge rho j t) 0) = sumN (length rho) (fun i => nth i rho 0) + t).
  { rewrite (sumN_ext _ _ (fun i => nth i rho 0 + (if Nat.eqb i j then t else 0))) by (intros i Hi; now apply nudge_nth).
    rewrite sumN_add. f_equal. exact (sumN_pick (length rho) j (fun _ => t) Hj). }
  rewrite E. unfold Rdiv. ring.
Qed.
Section Grad.
Variable vm : list R -> list R.
Variable jacrev : (list R -> list R) -> list R -> list (list R).
Hypothesis Hj : jacobian_of jacrev.
Lemma volume_row rhos rho j : (j < length rho)%nat ->
  derivable_pt_lim (fun t => nth 0 (values_after vm jacrev rhos (nudge rho j t)) 0) 0 (/ INR (length rho) / vf_half)
  /\ nth j (nth 0 (gradients_after vm jacrev rhos rho) []) 0 = / INR (length rho) / vf_half.
Proof.
  intros Hjl. assert (D : derivable_pt_lim (fun t => mean (nudge rho j t) / vf_half - 1) 0 (/ INR (length rho) / vf_half)).
  { eapply dl_eq; [exact (dl_add _ _ 0 _ _ (dl_const (mean rho / vf_half - 1) 0) (dl_scal (/ INR (length rho) / vf_half) _ 0 _ (derivable_pt_lim_id 0)))| |].
    - intros t. cbn beta. rewrite mean_nudge by exact Hjl. unfold id, Rdiv. ring.
    - ring. }
  split; [exact D|]. apply Hj; [cbn; lia|exact Hjl|]. exact D.
Qed.
Lemma stress_row rhos rho j d : (j < length rho)%nat -> derivable_pt_lim (fun t => vm_PN (vm (nudge rho j t))) 0 d ->
  derivable_pt_lim (fun t => nth 1 (values_after vm jacrev rhos (nudge rho j t)) 0) 0 (cp_of (constraint_calls vm jacrev rhos) * d)
  /\ nth j (nth 1 (gradients_after vm jacrev rhos rho) []) 0 = cp_of (constraint_calls vm jacrev (rhos ++ [rho])) * d.
Proof.
  intros Hjl Hd. assert (D : forall c, derivable_pt_lim (fun t => c * vm_PN (vm (nudge rho j t)) - 1) 0 (c * d)).
  { intros c. eapply dl_eq; [exact (dl_sub _ _ 0 _ _ (dl_scal c _ 0 _ Hd) (dl_const 1 0))|intros t; reflexivity|ring]. }
  split; [apply D|]. rewrite calls_snoc. apply Hj; [cbn; lia|exact Hjl|]. apply D.
Qed.
End Grad.

(** such a jacrev exists *)
Lemma jacobian_exists : exists jacrev, jacobian_of jacrev.
Proof.
  exists (fun f rho => map (fun i => map (fun j => epsilon (inhabits 0) (fun d => derivable_pt_lim (fun t => nth i (f (nudge rho j t)) 0) 0 d)) (seq 0 (length rho))) (seq 0 (length (f rho)))).
  intros f rho i j d Hi Hj Hd.
  rewrite (nth_indep _ [] ((fun i => map (fun j => epsilon (inhabits 0) (fun d => derivable_pt_lim (fun t => nth i (f (nudge rho j t)) 0) 0 d)) (seq 0 (length rho))) 0%nat)) by (rewrite map_length, seq_length; exact Hi).
  rewrite (map_nth (fun i => map (fun j => epsilon (inhabits 0) (fun d => derivable_pt_lim (fun t => nth i (f (nudge rho j t)) 0) 0 d)) (seq 0 (length rho)))), seq_nth by exact Hi. cbn [plus].
  rewrite (nth_indep _ 0 ((fun j => epsilon (inhabits 0) (fun d => derivable_pt_lim (fun t => nth i (f (nudge rho j t)) 0) 0 d)) 0%nat)) by (rewrite map_length, seq_length; exact Hj).
  rewrite (map_nth (fun j => epsilon (inhabits 0) (fun d => derivable_pt_lim (fun t => nth i (f (nudge rho j t)) 0) 0 d))), seq_nth by exact Hj. cbn [plus].
  assert (S := epsilon_spec (inhabits 0) (fun d => derivable_pt_lim (fun t => nth i (f (nudge rho j t)) 0) 0 d) (ex_intro _ d Hd)).
  exact (dl_unique _ _ _ _ S Hd).
Qed.
(** ** witnesses *)
Lemma PN_two x : 0 < x -> vm_PN [A * x; A * x] = root12 2 * x.
Proof.
  intros Hx. pose proof A_pos. unfold vm_PN. cbn [sumR]. replace (A * x / A) with x by (field; lra). assert (0 < x ^ 12) by now apply pow_lt.
  unfold Reqb. destruct (Req_EM_T (x ^ 12 + (x ^ 12 + 0)) 0) as [E|E]; [lra|]. replace (x ^ 12 + (x ^ 12 + 0)) with (INR 2 * x ^ 12) by (cbn [INR]; ring).
  rewrite <- Rpower_mult_distr by (cbn [INR]; lra). rewrite root_pow by exact Hx. unfold root12. now replace (1 / 12) with (/ 12) by lra.
Qed.
Lemma PN_one x : 0 < x -> vm_PN [A * x; 0] = x.
Proof.
  intros Hx. pose proof A_pos. unfold vm_PN. cbn [sumR]. replace (A * x / A) with x by (field; lra). assert (0 < x ^ 12) by now apply pow_lt.
  unfold Reqb. replace (x ^ 12 + ((0 / A) ^ 12 + 0)) with (x ^ 12) by (cbn [pow]; unfold Rdiv; ring). destruct (Req_EM_T (x ^ 12) 0) as [E|E]; [lra|]. now apply root_pow.
Qed.
Lemma root12_2 : 1 < root12 2.
Proof.
  unfold root12, Rpower. rewrite <- exp_0. apply exp_increasing. assert (0 < ln (INR 2)) by (rewrite <- ln_1; apply ln_increasing; cbn [INR]; lra). lra.
Qed.
(** two cells with the same stress, proportional to the only design variable *)
Definition vm_uniform (rho : list R) : list R := [A * nth 0 rho 0; A * nth 0 rho 0].
Lemma uniform_stresses rho : 0 < nth 0 rho 0 -> stresses 2 (vm_uniform rho).
Proof.
  intros H. pose proof A_pos as HA. assert (0 < A * nth 0 rho 0) by now apply Rmult_lt_0_compat.
  split; [reflexivity|]. split; [intros x [<-|[<-|[]]]; lra|]. exists (A * nth 0 rho 0). split; [now left|assumption].
Qed.
Lemma cp_after_uniform jacrev x : 0 < x -> cp_of (constraint_calls vm_uniform jacrev [[x]]) = / 2 / root12 2 + / 2.
Proof.
  intros Hx. pose proof A_pos. pose proof (root12_pos 2). unfold constraint_calls. cbn [fold_left compute_constraints constraint_full snd]. unfold cp_of at 1. cbn [cs_max cs_PN cs_cp]. unfold vm_uniform. cbn [nth].
  rewrite PN_two by exact Hx. cbn [max_of fold_left]. rewrite Rmax_left by lra. unfold cp_of, cs_init. cbn [cs_max cs_PN cs_cp]. field. repeat split; lra.
Qed.
Lemma uniform_derivative : derivable_pt_lim (fun t => vm_PN (vm_uniform (nudge [1 / 2] 0 t))) 0 (root12 2).
Proof.
  apply (dl_local (fun t => root12 2 * (1 / 2 + t))).
  - exists (1 / 2). split; [lra|]. intros t Ht. assert (Ht' : - (1 / 2) < t) by (apply Rabs_def2 in Ht; lra). symmetry. unfold vm_uniform, nudge. cbn [length seq map nth Nat.eqb]. rewrite PN_two by lra. reflexivity.
  - eapply dl_eq; [exact (dl_scal (root12 2) _ 0 _ (dl_add _ _ 0 _ _ (dl_const (1 / 2) 0) (dl_id 0)))|intros t; reflexivity|ring].
Qed.

(** the same stress in both cells for the design 1, one loaded cell otherwise *)
Definition y_conc : R := / (/ 2 / root12 2 + / 2).
Definition vm_two (rho : list R) : list R := if Reqb (nth 0 rho 0) 1 then [A; A] else [A * y_conc; 0].
Lemma y_conc_gt : 1 < y_conc.
Proof.
  unfold y_conc. pose proof root12_2 as H. assert (/ root12 2 < 1) by (rewrite <- Rinv_1; apply Rinv_lt_contravar; lra). assert (0 < / root12 2) by (apply Rinv_0_lt_compat; lra).
  rewrite <- Rinv_1 at 1. apply Rinv_lt_contravar; unfold Rdiv; lra.
Qed.
Lemma two_first rho : nth 0 rho 0 = 1 -> vm_two rho = [A * 1; A * 1].
Proof. intros H. unfold vm_two. rewrite H. unfold Reqb. destruct (Req_EM_T 1 1); [now rewrite Rmult_1_r|congruence]. Qed.
Lemma two_second : vm_two [1 / 2] = [A * y_conc; 0].
Proof. unfold vm_two. cbn [nth]. unfold Reqb. destruct (Req_EM_T (1 / 2) 1); [lra|reflexivity]. Qed.
Lemma two_stresses rho : stresses 2 (vm_two rho).
Proof.
  pose proof A_pos as HA. pose proof y_conc_gt. assert (0 < A * y_conc) by (apply Rmult_lt_0_compat; lra). unfold vm_two. destruct (Reqb (nth 0 rho 0) 1).
  - split; [reflexivity|]. split; [intros x [<-|[<-|[]]]; lra|]. exists A. split; [now left|assumption].
  - split; [reflexivity|]. split; [intros x [<-|[<-|[]]]; lra|]. exists (A * y_conc). split; [now left|assumption].
Qed.
Lemma two_value jacrev : nth 1 (values_after vm_two jacrev [[1]] [1 / 2]) 0 = 0.
Proof.
  pose proof A_pos as HA. pose proof y_conc_gt. pose proof (root12_pos 2) as Hr. rewrite values_form. cbn [nth]. rewrite two_second, PN_one by lra.
  unfold constraint_calls. cbn [fold_left compute_constraints constraint_full snd]. unfold cp_of at 1. cbn [cs_max cs_PN cs_cp]. rewrite two_first by reflexivity.
  rewrite PN_two by lra. cbn [max_of fold_left]. rewrite Rmax_left by lra. unfold cp_of, cs_init. cbn [cs_max cs_PN cs_cp].
  assert (E : 5 / 10 * (A * 1) / (A * (root12 2 * 1)) + (1 - 5 / 10) * (5 / 10 * A / (A * 1) + (1 - 5 / 10) * 1) = / 2 / root12 2 + / 2) by (field; lra).
  rewrite E. unfold y_conc. rewrite Rinv_r; [lra|]. assert (0 < / root12 2) by now apply Rinv_0_lt_compat. unfold Rdiv. lra.
Qed.

(** ** volume constraints with two variables per cell *)
Lemma map_index {X} (l : list X) d : map (fun i => nth i l d) (seq 0 (length l)) = l.
Proof.
  apply nth_ext with d d; [now rewrite map_length, seq_length|]. intros i Hi. rewrite map_length, seq_length in Hi.
  rewrite (nth_indep _ d ((fun i => nth i l d) 0%nat)) by (rewrite map_length, seq_length; exact Hi). rewrite (map_nth (fun i => nth i l d)). now rewrite seq_nth.
Qed.
Lemma sumR_index {X} (l : list X) d f : sumR l f = sumN (length l) (fun i => f (nth i l d)).
Proof. rewrite <- (map_index l d) at 1. rewrite sumR_map. reflexivity. Qed.
Lemma nudge1_sum rho j t f : sumR (nudge1 rho j t) f = sumN (length rho) (fun i => f (fst (nth i rho (0, 0)) + (if Nat.eqb i j then t else 0), snd (nth i rho (0, 0)))).
Proof. unfold nudge1. now rewrite sumR_map. Qed.
Lemma nudge2_sum rho j t f : sumR (nudge2 rho j t) f = sumN (length rho) (fun i => f (fst (nth i rho (0, 0)), snd (nth i rho (0, 0)) + (if Nat.eqb i j then t else 0))).
Proof. unfold nudge2. now rewrite sumR_map. Qed.
Lemma nudge12_length rho j t : length (nudge1 rho j t) = length rho /\ length (nudge2 rho j t) = length rho.
Proof. unfold nudge1, nudge2. now rewrite !map_length, seq_length. Qed.
Lemma pick_shift m j t f g : (j < m)%nat -> sumN m (fun i => f i + (if Nat.eqb i j then t else 0) * g i) = sumN m f + t * g j.
Proof.
  intros Hj. rewrite sumN_add. f_equal. rewrite <- (sumN_pick m j (fun i => t * g i) Hj). apply sumN_ext. intros i _. destruct (Nat.eqb i j); ring.
Qed.
Lemma multi_nudge1 rho j t : (j < length rho)%nat ->
  multi_constraint (nudge1 rho j t) = multi_constraint rho + t * ((4 + 6 * snd (nth j rho (0, 0))) / 3 / INR (length rho)).
Proof.
  intros Hj. unfold multi_constraint. rewrite (proj1 (nudge12_length rho j t)), nudge1_sum, (sumR_index rho (0, 0)).
  rewrite (sumN_ext _ _ (fun i => fst (nth i rho (0, 0)) * (snd (nth i rho (0, 0)) * 1 + (1 - snd (nth i rho (0, 0))) * (4 / 10))
    + (if Nat.eqb i j then t else 0) * (snd (nth i rho (0, 0)) * 1 + (1 - snd (nth i rho (0, 0))) * (4 / 10)))) by (intros i _; cbn [fst snd]; ring).
  rewrite pick_shift by exact Hj. assert (INR (length rho) <> 0) by (apply not_0_INR; lia). field. assumption.
Qed.
Lemma multi_nudge2 rho j t : (j < length rho)%nat ->
  multi_constraint (nudge2 rho j t) = multi_constraint rho + t * (2 * fst (nth j rho (0, 0)) / INR (length rho)).
Proof.
  intros Hj. unfold multi_constraint. rewrite (proj2 (nudge12_length rho j t)), nudge2_sum, (sumR_index rho (0, 0)).
  rewrite (sumN_ext _ _ (fun i => fst (nth i rho (0, 0)) * (snd (nth i rho (0, 0)) * 1 + (1 - snd (nth i rho (0, 0))) * (4 / 10))
    + (if Nat.eqb i j then t else 0) * (fst (nth i rho (0, 0)) * (6 / 10)))) by (intros i _; cbn [fst snd]; field).
  rewrite pick_shift by exact Hj. assert (INR (length rho) <> 0) by (apply not_0_INR; lia). field. assumption.
Qed.
Lemma list2_eq (a b a' b' : R) : a = a' -> b = b' -> [a; b] = [a'; b']. Proof. now intros -> ->. Qed.
Lemma plastic_nudge rho j t : (j < length rho)%nat ->
  plastic_constraints (nudge1 rho j t) = [nth 0 (plastic_constraints rho) 0 + t * (2 / INR (length rho)); nth 1 (plastic_constraints rho) 0]
  /\ plastic_constraints (nudge2 rho j t) = [nth 0 (plastic_constraints rho) 0; nth 1 (plastic_constraints rho) 0 + t * (4 / INR (length rho))].
Proof.
  intros Hj. assert (Hn : INR (length rho) <> 0) by (apply not_0_INR; lia).
  assert (E : forall h t, sumN (length rho) (fun i => h (nth i rho (0, 0)) + (if Nat.eqb i j then t else 0)) = sumN (length rho) (fun i => h (nth i rho (0, 0))) + t).
  { intros h s. rewrite (sumN_ext _ _ (fun i => h (nth i rho (0, 0)) + (if Nat.eqb i j then s else 0) * 1)) by (intros; ring). rewrite (pick_shift (length rho) j s (fun i => h (nth i rho (0, 0))) (fun _ => 1) Hj). ring. }
  unfold plastic_constraints. rewrite (proj1 (nudge12_length rho j t)), (proj2 (nudge12_length rho j t)), !nudge1_sum, !nudge2_sum, !(sumR_index rho (0, 0)). cbn [fst snd nth].
  rewrite (E fst t), (E snd t). split; apply list2_eq; try reflexivity; field; exact Hn.
Qed.
Lemma multi_mean rho : unit_rows rho -> rho <> [] ->
  (4 / 3) * (sumR rho fst / INR (length rho)) <= multi_constraint rho + 1 <= (10 / 3) * (sumR rho fst / INR (length rho)).
Proof.
  intros Hu Hr. assert (Hn : 0 < INR (length rho)) by (apply lt_0_INR; destruct rho; [congruence|cbn; lia]).
  assert (E : multi_constraint rho + 1 = 10 / 3 * (sumR rho (fun r => fst r * (snd r * 1 + (1 - snd r) * (4 / 10))) / INR (length rho))) by (unfold multi_constraint; field; lra).
  rewrite E. set (S := sumR rho (fun r => fst r * (snd r * 1 + (1 - snd r) * (4 / 10)))). assert (HS : 4 / 10 * sumR rho fst <= S <= sumR rho fst).
  { unfold S. clear - Hu. induction rho as [|r rho IH]; [cbn; lra|]. cbn [sumR]. specialize (IH (fun x Hx => Hu x (or_intror Hx))). destruct (Hu r (or_introl eq_refl)) as (H1 & H2).
    assert (4 / 10 * fst r <= fst r * (snd r * 1 + (1 - snd r) * (4 / 10)) <= fst r) by nra. lra. }
  assert (Hi : 0 < / INR (length rho)) by now apply Rinv_0_lt_compat. pose proof (Rmult_le_compat_r _ _ _ (Rlt_le _ _ Hi) (proj1 HS)). pose proof (Rmult_le_compat_r _ _ _ (Rlt_le _ _ Hi) (proj2 HS)). clearbody S. unfold Rdiv in *. rewrite !Rmult_assoc in *. lra.
Qed.
Lemma sumR_repeat {X} (f : X -> R) x m : sumR (repeat x m) f = INR m * f x.
Proof. induction m as [|m IH]; [cbn; ring|]. change (repeat x (S m)) with (x :: repeat x m). cbn [sumR]. rewrite IH, S_INR. ring. Qed.
Lemma initial_values m : (0 < m)%nat -> multi_constraint (multi_rho_ini m) = - (3 / 10) /\ plastic_constraints (plastic_rho_ini m) = [0; 0].
Proof.
  intros Hm. assert (INR m <> 0) by (apply not_0_INR; lia). unfold multi_constraint, plastic_constraints, multi_rho_ini, plastic_rho_ini. rewrite !repeat_length, !sumR_repeat. cbn [fst snd].
  split; [field; assumption|]. apply list2_eq; field; assumption.
Qed.
Close Scope R_scope.
