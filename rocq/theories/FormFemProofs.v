(** * Finite-strain plasticity on a body: histories, balance of moments, rigid motions, boundary values. *)
From Coq Require Import FunctionalExtensionality Lra Lia Setoid Morphisms.
From Verif Require Import Prelude PreludeFacts FemModel FemFacts FemSpec FemAsmProofs FemGeoProofs MatModel MatSpec MatProofs MatHyperProofs CrysModel CrysSpec CrysTensorProofs CrysProofs CrysFemProofs FormModel FormSpec FormProofs FormHistProofs.
Open Scope R_scope.

Section Body.
Variable F : fem fstate.
Local Notation E := (f_ele F).
Hypothesis Ht : tensor_map F = Some form_tensor_map.
Definition def_grad (sol : nodal) (c q : nat) : mat := grad_to_F (sol_to_grad F sol c q).
Lemma grad_of_def sol c q : grad_of (def_grad sol c q) = sol_to_grad F sol c q.
Proof. extensionality i. extensionality j. unfold grad_of, def_grad, grad_to_F, eye, identity. ring. Qed.
Lemma run_history v sols c q : form_run F v sols c q = history (v c q) (map (fun sol => def_grad sol c q) sols).
Proof.
  revert v. induction sols as [|sol sols IH]; intros v; [reflexivity|]. unfold form_run in *. cbn [fold_left map]. rewrite IH.
  unfold history. cbn [fold_left form_step fst]. unfold FormModel.update_int_vars_gp. now rewrite grad_of_def.
Qed.
Lemma form_vars_at v c : (c < num_cells F)%nat -> vars_at (iv_laplace (form_internal F v)) c = [v c].
Proof.
  intros Hc. unfold vars_at, form_internal. cbn [iv_laplace flat_map].
  rewrite !nth_error_map, !(nth_error_nth' (seq 0 (num_cells F)) 0%nat) by (now rewrite seq_length). cbn [option_map app]. now rewrite seq_nth.
Qed.
Lemma form_stress v sol c q : (c < num_cells F)%nat -> stress F (form_internal F v) sol c q = PK_stress (v c q) (sol_to_grad F sol c q).
Proof. intros Hc. unfold stress. rewrite Ht, form_vars_at by exact Hc. reflexivity. Qed.
Lemma form_sized v : iv_sized F (form_internal F v).
Proof. split; [constructor|]. unfold sized, form_internal. cbn [iv_laplace]. repeat constructor; now rewrite map_length, seq_length. Qed.
Hypothesis Hwf : wf_mesh F.
Variable inds : list (list (nat * nat)).
Hypothesis H3 : dim F = 3%nat.
Hypothesis Hv : vec F = 3%nat.
Hypothesis Hc : (0 < num_cells F)%nat.
Hypothesis Hf : forall sel, In sel inds -> faces_ok F sel.
Lemma form_moments v sol i j : only_internal F (form_internal F v) -> grads_sum_zero F -> invertible_cells F ->
  (forall c q, (c < num_cells F)%nat -> (q < num_quads E)%nat -> admissible (v c q) /\ det 3 (def_grad sol c q) <> 0) ->
  (i < 3)%nat -> (j < 3)%nat ->
  exists r, compute_residual_vars F inds sol (form_internal F v) = Ok r /\
  sumN (num_total_nodes F) (fun n => (points F n i + sol n i) * r n j - (points F n j + sol n j) * r n i) = 0.
Proof.
  intros Ho Hg Hinv Hadm Hi Hj. apply (moment_free_deformed F Hwf); try assumption; try (rewrite H3; assumption).
  - rewrite H3. unfold small_dim. auto.
  - apply form_sized.
  - intros c q Hcc Hq. destruct (Hadm c q Hcc Hq) as (Ha & Hd). rewrite H3, form_stress by exact Hcc.
    pose proof (kirchhoff_sym (v c q) (def_grad sol c q) Ha Hd) as Hs. rewrite grad_of_def in Hs. exact Hs.
Qed.
(** ** a rigid motion on top of the deformation *)
Definition moved (Q : mat) (b : nat -> R) (sol : nodal) : nodal := fun n k => sumN 3 (fun l => Q k l * (points F n l + sol n l)) + b k - points F n k.
Lemma moved_grad Q b sol c q i d : grads_sum_zero F -> jacobian_det F c q <> 0 -> (q < num_quads E)%nat -> (i < 3)%nat -> (d < 3)%nat ->
  def_grad (moved Q b sol) c q i d = matmul 3 Q (def_grad sol c q) i d.
Proof.
  intros Hg Hd Hq Hi Hdd.
  assert (Em : moved Q b sol = (fun n k => affine_field F b (fun k l => Q k l - identity k l) n k + sumN 3 (fun l => Q k l * sol n l)
      + (sumN 3 (fun l => identity k l * points F n l) - points F n k))).
  { extensionality n. extensionality k. unfold moved, affine_field. rewrite H3.
    rewrite (sumN_ext 3 (fun l => Q k l * (points F n l + sol n l)) (fun l => Q k l * points F n l + Q k l * sol n l)) by (intros; ring).
    rewrite (sumN_ext 3 (fun m => (Q k m - identity k m) * points F n m) (fun l => Q k l * points F n l - identity k l * points F n l)) by (intros; ring).
    rewrite sumN_add, sumN_sub. ring. }
  assert (Hz : sol_to_grad F (fun n k => sumN 3 (fun l => identity k l * points F n l) - points F n k) c q i d = 0).
  { unfold sol_to_grad. apply sumN_zero. intros a _. replace (sumN 3 (fun l => identity i l * points F (cell_node F c a) l)) with (points F (cell_node F c a) i); [ring|]. by3; sums; unfold identity; cbn [Nat.eqb]; ring. }
  unfold def_grad, grad_to_F. rewrite Em, !grad_add, Hz, grad_lin, patch_test by (try assumption; try (rewrite H3; unfold small_dim; auto)).
  unfold matmul, eye. sums. unfold identity. by3; cbn [Nat.eqb]; ring.
Qed.
Definition turned_vars (Q : mat) (v1 v2 : form_vars) : Prop := forall c q, (c < num_cells F)%nat -> (q < num_quads E)%nat -> related Q (v1 c q) (v2 c q).
Definition regular (v : form_vars) (sol : nodal) : Prop := forall c q, (c < num_cells F)%nat -> (q < num_quads E)%nat -> admissible (v c q) /\ 0 < det 3 (def_grad sol c q).
Lemma moved_step Q Q' b v1 v2 sol c q : rotation 3 Q -> rotation 3 Q' -> grads_sum_zero F -> invertible_cells F -> turned_vars Q v1 v2 -> regular v1 sol ->
  (c < num_cells F)%nat -> (q < num_quads E)%nat ->
  related Q' (fst (form_step F v1 sol) c q) (fst (form_step F v2 (moved Q' b sol)) c q)
  /\ meq 3 (PK_stress (v2 c q) (sol_to_grad F (moved Q' b sol) c q)) (matmul 3 Q' (PK_stress (v1 c q) (sol_to_grad F sol c q))).
Proof.
  intros HQ HQ' Hg Hinv Hrel Hreg Hcc Hq. destruct (Hreg c q Hcc Hq) as ((Hd & _) & HF).
  cbn [form_step fst]. unfold FormModel.update_int_vars_gp. rewrite <- !grad_of_def.
  apply (step_turned Q Q'); auto; try lra. intros i j Hi Hj. apply moved_grad; auto.
Qed.
Lemma moved_residual Q Q' b v1 v2 sol : rotation 3 Q -> rotation 3 Q' -> grads_sum_zero F -> invertible_cells F -> turned_vars Q v1 v2 -> regular v1 sol ->
  only_internal F (form_internal F v1) ->
  exists r1 r2, compute_residual_vars F inds sol (form_internal F v1) = Ok r1 /\ compute_residual_vars F inds (moved Q' b sol) (form_internal F v2) = Ok r2
  /\ forall n k, (n < num_total_nodes F)%nat -> (k < 3)%nat -> r2 n k = sumN 3 (fun l => Q' k l * r1 n l).
Proof.
  intros HQ HQ' Hg Hinv Hrel Hreg Ho. assert (Ho2 : only_internal F (form_internal F v2)) by exact Ho.
  destruct (internal_only_work F Hwf inds _ sol (form_sized v1) Hc Ho Hf) as (r1 & R1 & W1).
  destruct (internal_only_work F Hwf inds _ (moved Q' b sol) (form_sized v2) Hc Ho2 Hf) as (r2 & R2 & W2).
  exists r1, r2. split; [exact R1|]. split; [exact R2|]. intros n k Hn Hk. rewrite Hv in W1, W2. rewrite H3 in W1, W2.
  set (w := fun n' k' => delta n' n * delta k' k). specialize (W2 w). specialize (W1 (fun n' k' => sumN 3 (fun l => transpose Q' k' l * w n' l))).
  assert (E2 : sumN (num_total_nodes F) (fun n' => sumN 3 (fun k' => w n' k' * r2 n' k')) = r2 n k).
  { rewrite (sumN_ext _ _ (fun n' => r2 n' k * delta n' n)); [now rewrite sumN_delta|]. intros n' _. unfold w.
    rewrite (sumN_ext 3 _ (fun k' => delta n' n * r2 n' k' * delta k' k)) by (intros; ring). rewrite sumN_delta by exact Hk. ring. }
  assert (E1 : sumN (num_total_nodes F) (fun n' => sumN 3 (fun k' => sumN 3 (fun l => transpose Q' k' l * w n' l) * r1 n' k')) = sumN 3 (fun l => Q' k l * r1 n l)).
  { rewrite (sumN_ext _ _ (fun n' => sumN 3 (fun l => Q' k l * r1 n' l) * delta n' n)); [now rewrite sumN_delta|]. intros n' _.
    rewrite <- sumN_scal_r. apply sumN_ext. intros k' _. unfold w, transpose.
    rewrite (sumN_ext 3 _ (fun l => Q' l k' * delta n' n * delta l k)) by (intros; ring). rewrite sumN_delta by exact Hk. ring. }
  rewrite <- E2, W2, <- E1, W1. apply sumN_ext. intros c Hcc. apply sumN_ext. intros q Hq. f_equal.
  rewrite !form_stress by exact Hcc. destruct (moved_step Q Q' b v1 v2 sol c q HQ HQ' Hg Hinv Hrel Hreg Hcc Hq) as (_ & HP).
  set (P2 := PK_stress (v2 c q) (sol_to_grad F (moved Q' b sol) c q)) in *. set (P1 := PK_stress (v1 c q) (sol_to_grad F sol c q)) in *.
  rewrite (sumN_ext 3 _ (fun i => sumN 3 (fun d => matmul 3 Q' P1 i d * sol_to_grad F w c q i d))) by (intros i Hi; apply sumN_ext; intros d Hdd; now rewrite (HP i d Hi Hdd)).
  rewrite (sumN_ext 3 (fun i => sumN 3 (fun d => P1 i d * sol_to_grad F (fun n' k' => sumN 3 (fun l => transpose Q' k' l * w n' l)) c q i d))
    (fun i => sumN 3 (fun d => P1 i d * sumN 3 (fun l => transpose Q' i l * sol_to_grad F w c q l d)))) by (intros i Hi; apply sumN_ext; intros d Hdd; now rewrite grad_lin).
  unfold matmul, transpose. sums. ring.
Qed.
End Body.

(** ** boundary values *)
Lemma sdf_nonneg a b c d : 0 <= a -> 0 <= b -> 0 <= c -> 0 <= d -> 0 <= Rmin (Rmin (Rmin a b) c) d.
Proof. intros. repeat apply Rmin_glb; assumption. Qed.
Lemma top_closed Lx Ly scale p : 0 < Lx -> 0 < Ly ->
  dirichlet_top Lx Ly scale p = - scale * Lx * (Rmin (Rmin (Rmin (Rabs (p 0%nat)) (Rabs (Lx - p 0%nat))) (Rabs (p 1%nat))) (Rabs (Ly - p 1%nat)) / (/ 2 * Rmin Lx Ly) + / 10 ^ 10).
Proof.
  intros Hx Hy. unfold dirichlet_top. cbv zeta. set (m := Rmin (Rmin (Rmin _ _) _) _). assert (Hm : 0 <= m) by (apply sdf_nonneg; apply Rabs_pos).
  assert (HL : 0 < / 2 * Rmin Lx Ly) by (apply Rmult_lt_0_compat; [lra|]; now apply Rmin_glb_lt).
  assert (Hq : 0 <= m / (/ 2 * Rmin Lx Ly)) by (apply Rmult_le_pos; [exact Hm|]; left; now apply Rinv_0_lt_compat).
  assert (He : 0 < / 10 ^ 10) by (apply Rinv_0_lt_compat; lra). set (x := m / (/ 2 * Rmin Lx Ly) + / 10 ^ 10). assert (0 < x) by (unfold x; lra). field. lra.
Qed.
Lemma linspace_len a b n : length (linspace a b n) = n. Proof. unfold linspace. now rewrite map_length, seq_length. Qed.
Lemma linspace_nth a b n i : (i < n)%nat -> nth i (linspace a b n) 0 = a + INR i * ((b - a) / INR (n - 1)).
Proof.
  intros Hi. unfold linspace. rewrite (nth_indep _ 0 (a + INR 0 * ((b - a) / INR (n - 1)))) by (now rewrite map_length, seq_length).
  rewrite (map_nth (fun i => a + INR i * ((b - a) / INR (n - 1)))), seq_nth by exact Hi. reflexivity.
Qed.
Lemma scales_nth top n i : (2 <= n)%nat -> (i < 2 * n)%nat ->
  nth i (scales top n) 0 = top * (INR (if (i <? n)%nat then i else (2 * n - 1 - i)%nat) / INR (n - 1)).
Proof.
  intros Hn Hi. assert (HR : INR (n - 1) <> 0) by (apply not_0_INR; lia). unfold scales.
  transitivity (top * nth i (linspace 0 1 n ++ linspace 1 0 n) 0); [rewrite <- (map_nth (Rmult top)); f_equal; ring|]. f_equal. destruct (Nat.ltb_spec i n).
  - rewrite app_nth1, linspace_nth by (rewrite ?linspace_len; assumption). field. exact HR.
  - rewrite app_nth2, linspace_len, linspace_nth by (rewrite ?linspace_len; lia).
    replace (2 * n - 1 - i)%nat with ((n - 1) - (i - n))%nat by lia. rewrite (minus_INR (n - 1) (i - n)) by lia. field. exact HR.
Qed.
Close Scope R_scope.
