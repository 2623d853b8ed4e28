(** * Crystal plasticity on a body: balance of forces and moments about the deformed positions. *)
From Coq Require Import Lra Lia.
From Verif Require Import Prelude PreludeFacts FemModel FemFacts FemSpec FemAsmProofs FemGeoProofs MatModel MatSpec MatProofs MatHyperProofs CrysModel CrysSpec CrysTensorProofs CrysProofs.
Open Scope R_scope.

Section Finite.
Context {V : Type}.
Variable F : fem V.
Local Notation E := (f_ele F).
Hypothesis Hwf : wf_mesh F.
Lemma grad_add u v c q i d : sol_to_grad F (fun n k => u n k + v n k) c q i d = sol_to_grad F u c q i d + sol_to_grad F v c q i d.
Proof. unfold sol_to_grad. rewrite <- sumN_add. apply sumN_ext. intros; ring. Qed.
Lemma grad_lin G m u c q i d : sol_to_grad F (fun n k => sumN m (fun l => G k l * u n l)) c q i d = sumN m (fun l => G i l * sol_to_grad F u c q l d).
Proof.
  unfold sol_to_grad. transitivity (sumN m (fun l => sumN (num_nodes E) (fun a => G i l * (u (cell_node F c a) l * shape_grads F c q a d)))).
  - rewrite sumN_swap. apply sumN_ext. intros a _. rewrite <- sumN_scal_r. apply sumN_ext. intros; ring.
  - apply sumN_ext. intros l _. now rewrite sumN_scal.
Qed.
(** stress P with P F^T symmetric, F = I + grad u: no moment about the deformed positions *)
Lemma moment_free_deformed inds iv sol i j : small_dim (dim F) -> vec F = dim F -> grads_sum_zero F -> invertible_cells F ->
  iv_sized F iv -> (0 < num_cells F)%nat -> only_internal F iv -> (forall sel, In sel inds -> faces_ok F sel) ->
  (forall c q, (c < num_cells F)%nat -> (q < num_quads E)%nat -> msym (dim F) (matmul (dim F) (stress F iv sol c q) (transpose (F_of (sol_to_grad F sol c q))))) ->
  (i < dim F)%nat -> (j < dim F)%nat ->
  exists r, compute_residual_vars F inds sol iv = Ok r /\
  sumN (num_total_nodes F) (fun n => (points F n i + sol n i) * r n j - (points F n j + sol n j) * r n i) = 0.
Proof.
  intros Hd Hvec Hg Hinv Hiv H0 Ho Hs Hsym Hi Hj.
  destruct (internal_only_work F Hwf inds iv sol Hiv H0 Ho Hs) as (r & Hr & He). exists r. split; [exact Hr|].
  set (G := fun k m => delta k j * delta m i - delta k i * delta m j).
  specialize (He (fun n k => affine_field F (fun _ => 0) G n k + sumN (dim F) (fun l => G k l * sol n l))).
  assert (EG : forall (w : nat -> R) k, sumN (dim F) (fun m => G k m * w m) = delta k j * w i - delta k i * w j).
  { intros w k. unfold G. rewrite (sumN_ext (dim F) _ (fun m => delta k j * (w m * delta m i) - delta k i * (w m * delta m j))) by (intros; ring).
    rewrite sumN_sub, !sumN_scal, !sumN_delta by assumption. ring. }
  transitivity (sumN (num_total_nodes F) (fun n => sumN (vec F) (fun k => (affine_field F (fun _ => 0) G n k + sumN (dim F) (fun l => G k l * sol n l)) * r n k))).
  - apply sumN_ext. intros n _. rewrite Hvec. unfold affine_field.
    rewrite (sumN_ext (dim F) _ (fun k => (points F n i + sol n i) * r n k * delta k j - (points F n j + sol n j) * r n k * delta k i)).
    + rewrite sumN_sub. rewrite !sumN_delta by assumption. reflexivity.
    + intros k Hk. rewrite Rplus_0_l, !EG. ring.
  - rewrite He. apply sumN_zero. intros c Hc. apply sumN_zero. intros q Hq. rewrite Hvec.
    set (P := stress F iv sol c q). set (D := F_of (sol_to_grad F sol c q)).
    rewrite (sumN_ext (dim F) _ (fun k => sumN (dim F) (fun d => P k d * D i d) * delta k j - sumN (dim F) (fun d => P k d * D j d) * delta k i)).
    + rewrite sumN_sub, !sumN_delta by assumption. pose proof (Hsym c q Hc Hq j i Hj Hi) as Hji. unfold matmul, transpose in Hji. fold P D in Hji. rewrite Hji. ring.
    + intros k Hk. rewrite <- !sumN_scal_r, <- sumN_sub. apply sumN_ext. intros d Hdd. rewrite grad_add, grad_lin, EG, patch_test; auto. unfold G, D, F_of, delta, eye.
      rewrite (Nat.eqb_sym d i), (Nat.eqb_sym d j). unfold P. ring.
Qed.
End Finite.

Section Crystal.
Variable F : fem crystal.
Local Notation E := (f_ele F).
Variables (rows : list slip_row) (qm : nat -> nat -> R) (dt : R) (local : crystal -> mat -> mat).
Hypothesis Ht : tensor_map F = Some (crystal_tensor_map rows dt local).
Variable params : nat -> nat -> crystal.
Lemma crystal_vars_at c : (c < num_cells F)%nat -> vars_at (iv_laplace (crystal_vars F params)) c = [params c].
Proof.
  intros Hc. unfold vars_at, crystal_vars. cbn [iv_laplace flat_map].
  rewrite !nth_error_map, !(nth_error_nth' (seq 0 (num_cells F)) 0%nat) by (now rewrite seq_length). cbn [option_map app]. now rewrite seq_nth.
Qed.
Lemma crystal_stress sol c q : (c < num_cells F)%nat ->
  stress F (crystal_vars F params) sol c q = PK_of rows dt (params c q) (sol_to_grad F sol c q) (local (params c q) (sol_to_grad F sol c q)).
Proof. intros Hc. unfold stress. rewrite Ht, crystal_vars_at by exact Hc. reflexivity. Qed.
Lemma crystal_sized : iv_sized F (crystal_vars F params).
Proof. split; [constructor|]. unfold sized, crystal_vars. cbn [iv_laplace]. repeat constructor; now rewrite map_length, seq_length. Qed.
Hypothesis Hwf : wf_mesh F.
Variable inds : list (list (nat * nat)).
Hypothesis H3 : dim F = 3%nat.
Hypothesis Hv : vec F = 3%nat.
Hypothesis Hc : (0 < num_cells F)%nat.
Hypothesis Ho : only_internal F (crystal_vars F params).
Hypothesis Hf : forall sel, In sel inds -> faces_ok F sel.
Lemma crystal_moments sol i j : grads_sum_zero F -> invertible_cells F ->
  (forall c q, (c < num_cells F)%nat -> (q < num_quads E)%nat -> det 3 (F_of (sol_to_grad F sol c q)) <> 0 /\ msym 3 (local (params c q) (sol_to_grad F sol c q))) ->
  (i < 3)%nat -> (j < 3)%nat ->
  exists r, compute_residual_vars F inds sol (crystal_vars F params) = Ok r /\
  sumN (num_total_nodes F) (fun n => (points F n i + sol n i) * r n j - (points F n j + sol n j) * r n i) = 0.
Proof.
  intros Hg Hinv Hloc Hi Hj. apply (moment_free_deformed F Hwf); try assumption; try (rewrite H3; assumption).
  - rewrite H3. unfold small_dim. auto.
  - apply crystal_sized.
  - intros c q Hcc Hq. rewrite H3, crystal_stress by exact Hcc. destruct (Hloc c q Hcc Hq). now apply PK_moment_free.
Qed.
End Crystal.
Close Scope R_scope.
