From Coq Require Import Lra Lia Psatz FunctionalExtensionality.
From Verif Require Import Prelude PreludeFacts FemModel FemFacts FemSpec FemProofs FemAsmProofs FemMatProofs MatModel WellSpec WellProofs CurModel CurSpec.
Open Scope R_scope.

Lemma E_range t : 0 <= t <= 1 -> 70 <= cur_E t <= 70000.
Proof. intros H. unfold cur_E. assert (0 <= t ^ 3 <= 1) by (split; [apply pow_le; lra|rewrite <- (pow1 3); apply pow_incr; lra]). lra. Qed.
Lemma E_mono s t : 0 <= s <= t -> cur_E s <= cur_E t.
Proof. intros H. unfold cur_E. assert (s ^ 3 <= t ^ 3) by (apply pow_incr; lra). lra. Qed.
(** the stress for modulus one *)
Definition unit_stress (G : mat) : mat := fun i j => cur_stress 1 G i j / 70000.
Lemma stress_scale t G i j : cur_stress t G i j = cur_E t * unit_stress G i j.
Proof. unfold unit_stress, cur_stress. assert (cur_E 1 = 70000) as -> by (unfold cur_E; field). destruct i, j; field. Qed.
Definition dens (G H : mat) : R := sumN 2 (fun k => sumN 2 (fun d => unit_stress G k d * H k d)).
Lemma dens_eq G H : dens G H = 100 / 91 * ((G 0%nat 0%nat + 3 / 10 * G 1%nat 1%nat) * H 0%nat 0%nat + (3 / 10 * G 0%nat 0%nat + G 1%nat 1%nat) * H 1%nat 1%nat) + 5 / 13 * (G 0%nat 1%nat + G 1%nat 0%nat) * (H 0%nat 1%nat + H 1%nat 0%nat).
Proof. unfold dens, unit_stress, cur_stress, sumN. cbn [seq sumR]. assert (cur_E 1 = 70000) as -> by (unfold cur_E; field). field. Qed.
Lemma dens_sym G H : dens G H = dens H G.
Proof. rewrite !dens_eq. field. Qed.
Lemma dens_pos G : 0 <= dens G G.
Proof.
  rewrite dens_eq. set (x := G 0%nat 0%nat). set (y := G 1%nat 1%nat). set (z := G 0%nat 1%nat + G 1%nat 0%nat).
  replace (_ + _) with (100 / 91 * (7 / 10 * (x ^ 2 + y ^ 2) + 3 / 10 * (x + y) ^ 2) + 5 / 13 * z ^ 2) by field.
  pose proof (pow2_ge_0 x). pose proof (pow2_ge_0 y). pose proof (pow2_ge_0 (x + y)). pose proof (pow2_ge_0 z). lra.
Qed.
Lemma full_at_gen l : forall k f c, (k <= c < k + length l)%nat -> fold_left (fun f (u : nat * R) => fun c => if Nat.eqb c (fst u) then snd u else f c) (combine (seq k (length l)) l) f c = nth (c - k) l 0.
Proof.
  induction l as [|x l IH]; intros k f c Hc; cbn [length] in Hc; [lia|]. cbn [length seq combine fold_left fst snd]. destruct (Nat.eq_dec c k) as [->|Hne].
  - rewrite Nat.sub_diag. cbn [nth].
    assert (G : forall m (h : nat -> R) k', (k < k')%nat -> fold_left (fun f (u : nat * R) => fun c => if Nat.eqb c (fst u) then snd u else f c) (combine (seq k' (length m)) m) h k = h k).
    { induction m as [|y m IHm]; intros h k' Hk; [reflexivity|]. cbn [length seq combine fold_left fst snd]. rewrite IHm by lia. now rewrite (proj2 (Nat.eqb_neq k k')) by lia. }
    rewrite G by lia. now rewrite Nat.eqb_refl.
  - rewrite IH by lia. replace (c - k)%nat with (S (c - S k)) by lia. reflexivity.
Qed.
Lemma full_at n params c : length params = n -> (c < n)%nat -> full_params (seq 0 n) params c = nth c params 0.
Proof. intros <- Hc. unfold full_params. rewrite full_at_gen by lia. now rewrite Nat.sub_0_r. Qed.
Lemma design_at n params c : length params = n -> Forall (fun r => 0 <= r <= 1) params -> (c < n)%nat -> 0 <= nth c params 0 <= 1.
Proof. intros <- H Hc. rewrite Forall_forall in H. apply H. now apply nth_In. Qed.
Section Beam.
Variable F : fem (list R).
Hypothesis HF : beam F.
Local Notation E := (f_ele F).
Lemma vars_here params c : length params = num_cells F -> (c < num_cells F)%nat -> vars_at (iv_laplace (cur_vars F params)) c = [fun _ : nat => [nth c params 0]].
Proof.
  intros Hp Hc. unfold vars_at, cur_vars. cbn [iv_laplace flat_map]. rewrite nth_error_map. rewrite (nth_error_nth' (seq 0 (num_cells F)) 0%nat) by (now rewrite seq_length).
  rewrite seq_nth by exact Hc. cbn [option_map app Nat.add]. now rewrite full_at.
Qed.
Lemma form_eq params u v : length params = num_cells F ->
  energy_form F (cur_vars F params) u v = sumN (num_cells F) (fun c => sumN (num_quads E) (fun q => JxW F c q * (cur_E (nth c params 0) * dens (sol_to_grad F u c q) (sol_to_grad F v c q)))).
Proof.
  intros Hp. destruct HF as (Htm & _ & _ & _ & _ & Hv & Hd & _). unfold energy_form. apply sumN_ext. intros c Hc. apply sumN_ext. intros q _. f_equal. unfold stress. rewrite Htm, Hv, Hd, vars_here by assumption.
  cbn [map cur_map nth]. unfold dens. rewrite <- sumN_scal. apply sumN_ext. intros k _. rewrite <- sumN_scal. apply sumN_ext. intros d _. rewrite stress_scale. ring.
Qed.
Lemma cur_sym params : length params = num_cells F -> forall u v, energy_form F (cur_vars F params) u v = energy_form F (cur_vars F params) v u.
Proof. intros Hp u v. rewrite !form_eq by exact Hp. apply sumN_ext. intros c _. apply sumN_ext. intros q _. now rewrite dens_sym. Qed.
Lemma stored_le params params' k u : length params = num_cells F -> length params' = num_cells F -> (forall c, (c < num_cells F)%nat -> cur_E (nth c params 0) <= k * cur_E (nth c params' 0)) ->
  stored F params u <= k * stored F params' u.
Proof.
  intros Hp Hp' H. destruct HF as (_ & _ & _ & _ & _ & _ & _ & _ & _ & HJ). unfold stored. rewrite !form_eq, <- sumN_scal by assumption. apply sumN_le. intros c Hc. rewrite <- sumN_scal. apply sumN_le. intros q Hq.
  replace (k * (JxW F c q * (cur_E (nth c params' 0) * dens (sol_to_grad F u c q) (sol_to_grad F u c q)))) with (JxW F c q * (k * cur_E (nth c params' 0) * dens (sol_to_grad F u c q) (sol_to_grad F u c q))) by ring.
  apply Rmult_le_compat_l; [now apply HJ|]. apply Rmult_le_compat_r; [apply dens_pos|now apply H].
Qed.
Lemma stored_nonneg params u : design F params -> 0 <= stored F params u.
Proof.
  intros (Hp & Hr). destruct HF as (_ & _ & _ & _ & _ & _ & _ & _ & _ & HJ). unfold stored. rewrite form_eq by exact Hp. apply sumN_nonneg. intros c Hc. apply sumN_nonneg. intros q Hq.
  apply Rmult_le_pos; [now apply HJ|]. pose proof (E_range _ (design_at _ _ c Hp Hr Hc)). apply Rmult_le_pos; [lra|apply dens_pos].
Qed.
Lemma cur_lin : linear_tensor F cur_map.
Proof.
  intros vars a G H k d _ _. destruct vars as [|r vars]; cbn [cur_map]; unfold cur_stress; destruct k, d; field.
Qed.
Lemma no_load params v : load_work F [] (cur_vars F params) v = 0.
Proof.
  destruct HF as (_ & _ & _ & _ & Hs & _). unfold load_work, neumann_power. cbn [indexed combine seq length sumR]. unfold body_power, body_load. cbn [cur_vars iv_body]. rewrite Hs, Rplus_0_r.
  apply sumN_zero. intros c _. apply sumN_zero. intros q _. unfold dot_vec. rewrite sumN_zero; [ring|]. intros; ring.
Qed.
Lemma cur_sized params : iv_sized F (cur_vars F params).
Proof. split; [constructor|]. constructor; [|constructor]. now rewrite map_length, seq_length. Qed.
Variables (locs : list (point -> bool)) (vecs : list nat) (fns : list (point -> R)).
Lemma least params u w : design F params -> discrete_solution F locs vecs fns [] (cur_vars F params) u -> takes_values F locs vecs fns w -> stored F params u <= stored F params w.
Proof.
  intros Hd Hu Hw. destruct HF as (Htm & Hm & Hc & Hn & Hs & Hv & Hdim & Hwf & H0 & HJ).
  pose proof (potential_excess F cur_map Htm cur_lin Hm Hc [] (cur_vars F params) Hwf (cur_sized params) H0 ltac:(unfold neumann_ok; now rewrite Hn) ltac:(intros s []) locs vecs fns (cur_sym params (proj1 Hd)) u w Hu Hw) as H.
  unfold potential in H. rewrite !no_load in H. pose proof (stored_nonneg params (fun n k => -1 * u n k + w n k) Hd) as Hp. unfold stored in *. lra.
Qed.
Lemma stiffer params params' u u' : design F params -> design F params' -> (forall c, (c < num_cells F)%nat -> nth c params 0 <= nth c params' 0) ->
  discrete_solution F locs vecs fns [] (cur_vars F params) u -> discrete_solution F locs vecs fns [] (cur_vars F params') u' -> stored F params u <= stored F params' u'.
Proof.
  intros Hd Hd' Hle Hu Hu'. apply Rle_trans with (stored F params u'); [apply (least params u u' Hd Hu (proj1 Hu'))|].
  rewrite <- (Rmult_1_l (stored F params' u')). apply stored_le; [apply Hd|apply Hd'|]. intros c Hc. rewrite Rmult_1_l. apply E_mono. split; [|now apply Hle].
  apply (design_at _ _ c (proj1 Hd) (proj2 Hd) Hc).
Qed.
Lemma floor params params' u u' : design F params -> design F params' ->
  discrete_solution F locs vecs fns [] (cur_vars F params) u -> discrete_solution F locs vecs fns [] (cur_vars F params') u' -> stored F params u <= 1000 * stored F params' u'.
Proof.
  intros Hd Hd' Hu Hu'. apply Rle_trans with (stored F params u'); [apply (least params u u' Hd Hu (proj1 Hu'))|]. apply stored_le; [apply Hd|apply Hd'|]. intros c Hc.
  pose proof (E_range _ (design_at _ _ c (proj1 Hd) (proj2 Hd) Hc)). pose proof (E_range _ (design_at _ _ c (proj1 Hd') (proj2 Hd') Hc)). lra.
Qed.
(** ** designs whose moduli are proportional *)
Lemma residual_scale params params' k u r : length params = num_cells F -> length params' = num_cells F -> (forall c, (c < num_cells F)%nat -> cur_E (nth c params 0) = k * cur_E (nth c params' 0)) ->
  compute_residual_vars F [] u (cur_vars F params') = Ok r -> exists r', compute_residual_vars F [] u (cur_vars F params) = Ok r' /\ forall n i, r' n i = k * r n i.
Proof.
  intros Hp Hp' HE Hr. destruct HF as (Htm & Hm & Hc & Hn & Hs & Hv & Hdim & Hwf & H0 & HJ).
  assert (HN : forall q, compute_Neumann_integral_vars F [] (iv_neumann (cur_vars F q)) = Ok zeros) by (intros q; unfold compute_Neumann_integral_vars; now rewrite Hn).
  destruct (residual_eq F Hwf [] u (cur_vars F params) zeros (cur_sized params) H0 (HN _)) as (r1 & H1 & E1).
  destruct (residual_eq F Hwf [] u (cur_vars F params') zeros (cur_sized params') H0 (HN _)) as (r2 & H2 & E2). rewrite Hr in H2. injection H2 as <-.
  exists r1. split; [exact H1|]. intros n i. rewrite E1, E2. cbn [cur_vars iv_body]. unfold compute_body_force_by_fn. rewrite Hs. unfold zeros, cauchy_faces. rewrite Hc.
  unfold corners. cbn [sumR]. replace (k * _) with (k * sumR (all_cells F) (fun x => sumN (num_nodes E) (fun a => if Nat.eqb (cell_node F x a) n then cell_force F (cur_vars F params') u x a i else 0))) by ring.
  rewrite <- sumR_scal. rewrite !Rminus_0_r, Rplus_0_r. apply sumR_ext. intros c Hcc. apply in_seq in Hcc. rewrite <- sumN_scal. apply sumN_ext. intros a _. destruct (Nat.eqb _ n); [|ring].
  unfold cell_force, kernel. rewrite Htm, Hm, !vars_here by (assumption || lia). unfold laplace_kernel. rewrite !Rplus_0_r, <- sumN_scal. apply sumN_ext. intros q _. rewrite <- sumN_scal. apply sumN_ext. intros d _.
  cbn [map cur_map nth]. rewrite !(stress_scale (nth c _ 0)), HE by lia. ring.
Qed.
Lemma same_solutions params params' k u : length params = num_cells F -> length params' = num_cells F -> (forall c, (c < num_cells F)%nat -> cur_E (nth c params 0) = k * cur_E (nth c params' 0)) ->
  discrete_solution F locs vecs fns [] (cur_vars F params') u -> discrete_solution F locs vecs fns [] (cur_vars F params) u.
Proof.
  intros Hp Hp' HE (Ht & r & Hr & Hz). split; [exact Ht|]. destruct (residual_scale params params' k u r Hp Hp' HE Hr) as (r' & Hr' & Hs). exists r'. split; [exact Hr'|].
  intros n i Hn Hi Hf. rewrite Hs, Hz by assumption. ring.
Qed.
Lemma uniform s t u : 0 <= s <= 1 -> 0 <= t <= 1 -> discrete_solution F locs vecs fns [] (cur_vars F (repeat s (num_cells F))) u -> discrete_solution F locs vecs fns [] (cur_vars F (repeat t (num_cells F))) u.
Proof.
  intros Hs Ht. pose proof (E_range s Hs). pose proof (E_range t Ht). apply (same_solutions _ _ (cur_E t / cur_E s)); [apply repeat_length|apply repeat_length|].
  intros c Hc. rewrite !(nth_indep _ 0 s), !(nth_repeat) by (now rewrite repeat_length). rewrite (nth_indep _ s t), nth_repeat by (now rewrite repeat_length). field. lra.
Qed.
End Beam.
(** ** the parameters, the constraint and the error *)
Lemma full_out inds : forall ps f c, ~ In c inds -> fold_left (fun f (u : nat * R) => fun c => if Nat.eqb c (fst u) then snd u else f c) (combine inds ps) f c = f c.
Proof.
  induction inds as [|k inds IH]; intros ps f c Hc; [reflexivity|]. destruct ps as [|p ps]; [reflexivity|]. cbn [combine fold_left fst snd]. rewrite IH by (intros H; apply Hc; now right).
  rewrite (proj2 (Nat.eqb_neq c k)); [reflexivity|]. intros ->. apply Hc. now left.
Qed.
Lemma full_in inds : forall ps f i, NoDup inds -> length ps = length inds -> (i < length inds)%nat ->
  fold_left (fun f (u : nat * R) => fun c => if Nat.eqb c (fst u) then snd u else f c) (combine inds ps) f (nth i inds 0%nat) = nth i ps 0.
Proof.
  induction inds as [|k inds IH]; intros ps f i Hn Hl Hi; cbn [length] in *; [lia|]. destruct ps as [|p ps]; [discriminate Hl|]. inversion Hn as [|? ? Hk Hn']; subst. cbn [combine fold_left fst snd].
  destruct i as [|i]; cbn [nth].
  - rewrite full_out by exact Hk. now rewrite Nat.eqb_refl.
  - apply IH; [exact Hn'|now injection Hl|lia].
Qed.
Lemma sum_le_len l : Forall (fun r => 0 <= r <= 1) l -> sumR l (fun r => r) <= INR (length l) /\ (sumR l (fun r => r) = INR (length l) -> Forall (fun r => r = 1) l).
Proof.
  induction l as [|x l IH]; intros H; [split; [cbn; lra|constructor]|]. inversion H as [|? ? Hx Hl]; subst. destruct (IH Hl) as [H1 H2]. cbn [length sumR]. rewrite S_INR. split; [lra|].
  intros E. constructor; [lra|]. apply H2. lra.
Qed.
Lemma constraint_le l : l <> [] -> Forall (fun r => 0 <= r <= 1) l -> cur_constraint l <= 0 /\ (cur_constraint l = 0 <-> Forall (fun r => r = 1) l).
Proof.
  intros Hl H. destruct (sum_le_len l H) as [H1 H2]. assert (0 < INR (length l)) as Hp by (apply lt_0_INR; destruct l; [congruence|cbn; lia]).
  unfold cur_constraint. set (n := INR (length l)) in *. set (S := sumR l (fun r => r)) in *. assert (E : S / n / 1 - 1 = - ((n - S) * / n)) by (field; lra). rewrite E. pose proof (Rinv_0_lt_compat n Hp) as Hi. split; [|split].
  - pose proof (Rmult_le_pos (n - S) (/ n) ltac:(lra) ltac:(lra)). lra.
  - intros Hz. apply H2. assert ((n - S) * / n * n = 0) as Hm by (replace ((n - S) * / n) with 0 by lra; ring). rewrite Rmult_assoc, Rinv_l in Hm by lra. lra.
  - intros Ha. assert (S = n) as ->; [|ring]. unfold S, n. clear - Ha. induction Ha as [|x l Hx Ha IH]; [reflexivity|]. cbn [length sumR]. rewrite S_INR, IH, Hx. ring.
Qed.
Lemma sum_sq_zero {A} (l : list A) f : 0 <= sumR l (fun x => f x ^ 2) /\ (sumR l (fun x => f x ^ 2) = 0 <-> forall x, In x l -> f x = 0).
Proof.
  induction l as [|x l [H0 [H1 H2]]]; [split; [cbn; lra|split; [intros _ x []|reflexivity]]|]. cbn [sumR]. pose proof (pow2_ge_0 (f x)) as Hx. split; [lra|]. split.
  - intros E y [<-|Hy]; [|apply H1; [lra|exact Hy]]. assert (f x ^ 2 = 0) by lra. nra.
  - intros Ha. rewrite H2 by (intros y Hy; apply Ha; now right). rewrite (Ha x) by (now left). ring.
Qed.
Close Scope R_scope.
