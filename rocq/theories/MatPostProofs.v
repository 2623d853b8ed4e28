(** * Proofs about surface integrals and error norms. *)
From Coq Require Import Lra Lia.
From Verif Require Import Prelude PreludeFacts FemModel FemFacts FemSpec FemProofs FemAsmProofs FemGeoProofs MatModel MatSpec MatProofs MatFemProofs.
Open Scope R_scope.

Section Post.
Context {V : Type}.
Variable F : fem V.
Local Notation E := (f_ele F).

(** ** surface integrals *)
Lemma surface_sum loc fn sol k : surface_integral F loc fn sol k
  = sumN (length (boundary_inds F loc)) (fun j => sumN (num_face_quads E) (fun p =>
      fn (fun j p => face_grad F sol (nth j (boundary_inds F loc) (0, 0)%nat) p) j p k * nanson_scale F (nth j (boundary_inds F loc) (0, 0)%nat) p)).
Proof. reflexivity. Qed.
Lemma area_form loc sol k : compute_surface_area F loc sol k = area F loc.
Proof.
  unfold compute_surface_area, area. rewrite surface_sum, (sumR_nth _ (0, 0)%nat). apply sumN_ext. intros j _. apply sumN_ext. intros p _. ring.
Qed.
Lemma traction_form loc sol :
  compute_traction F loc sol = match tensor_map F with
    | None => Err AttributeError
    | Some tm => if Nat.eqb (dim F) 3 then compute_traction F loc sol else Err TypeError end.
Proof. unfold compute_traction. destruct (tensor_map F); [|reflexivity]. destruct (Nat.eqb (dim F) 3); reflexivity. Qed.
Lemma traction_ok loc sol tm : tensor_map F = Some tm -> dim F = 3%nat -> exists t, compute_traction F loc sol = Ok t
  /\ forall k, t k = sumR (boundary_inds F loc) (fun s => sumN (num_face_quads E) (fun p => tm [] (face_grad F sol s p) k 2%nat * nanson_scale F s p)).
Proof.
  intros Ht H3. unfold compute_traction. rewrite Ht, H3. cbn [Nat.eqb]. eexists. split; [reflexivity|]. intros k.
  rewrite surface_sum, (sumR_nth _ (0, 0)%nat). apply sumN_ext. intros j _. apply sumN_ext. intros p _. f_equal. unfold sumN. cbn [seq sumR]. ring.
Qed.
Lemma traction_force loc sol tm : tensor_map F = Some tm -> dim F = 3%nat ->
  (forall s p, In s (boundary_inds F loc) -> (p < num_face_quads E)%nat -> unit_normal F s p 0%nat = 0 /\ unit_normal F s p 1%nat = 0 /\ unit_normal F s p 2%nat = 1) ->
  exists t, compute_traction F loc sol = Ok t /\ forall k, t k = surface_force F (tm []) loc sol k.
Proof.
  intros Ht H3 Hn. destruct (traction_ok loc sol tm Ht H3) as (t & Et & Hk). exists t. split; [exact Et|]. intros k. rewrite Hk.
  unfold surface_force. apply sumR_ext. intros s Hs. apply sumN_ext. intros p Hp. f_equal. rewrite H3. destruct (Hn s p Hs Hp) as (A & B & C).
  unfold sumN. cbn [seq sumR]. rewrite A, B, C. ring.
Qed.
Lemma face_patch s p b G i d : small_dim (dim F) -> face_grads_sum_zero F -> (snd s < length (face_inds E))%nat -> (p < num_face_quads E)%nat ->
  det (dim F) (face_jacobian F s p) <> 0 -> (d < dim F)%nat -> face_grad F (affine_field F b G) s p i d = G i d.
Proof.
  intros Hs Hg Hf Hp Hd Hdd. unfold face_grad, affine_field.
  assert (S0 : sumN (num_nodes E) (fun a => face_shape_grads F s p a d) = 0).
  { unfold face_shape_grads. rewrite sumN_swap. apply sumN_zero. intros j Hj. rewrite sumN_scal_r, Hg by assumption. ring. }
  assert (S1 : forall m, (m < dim F)%nat -> sumN (num_nodes E) (fun a => physical_coos F (fst s) a m * face_shape_grads F s p a d) = delta m d).
  { intros m Hm. unfold face_shape_grads.
    rewrite (sumN_ext _ _ (fun a => sumN (dim F) (fun j => physical_coos F (fst s) a m * face_shape_grads_ref E (snd s) p a j * inv (dim F) (face_jacobian F s p) j d))).
    - rewrite sumN_swap. rewrite (sumN_ext (dim F) _ (fun j => face_jacobian F s p m j * inv (dim F) (face_jacobian F s p) j d)); [now apply mat_mul_inv|].
      intros j _. now rewrite sumN_scal_r.
    - intros a _. rewrite <- sumN_scal. apply sumN_ext. intros j _. ring. }
  rewrite (sumN_ext _ _ (fun a => b i * face_shape_grads F s p a d + sumN (dim F) (fun m => G i m * (physical_coos F (fst s) a m * face_shape_grads F s p a d)))).
  - rewrite sumN_add, sumN_scal, S0, sumN_swap.
    rewrite (sumN_ext (dim F) _ (fun m => G i m * delta m d)); [rewrite sumN_delta by assumption; ring|]. intros m Hm. now rewrite sumN_scal, S1.
  - intros a _. rewrite Rmult_plus_distr_r, <- sumN_scal_r. f_equal. apply sumN_ext. intros m _. unfold physical_coos. ring.
Qed.
Lemma traction_affine loc b G tm : tensor_map F = Some tm -> dim F = 3%nat -> face_grads_sum_zero F ->
  (forall A B, (forall i d, (d < 3)%nat -> A i d = B i d) -> forall k d, tm [] A k d = tm [] B k d) ->
  (forall s p, In s (boundary_inds F loc) -> (p < num_face_quads E)%nat -> det 3 (face_jacobian F s p) <> 0) ->
  exists t, compute_traction F loc (affine_field F b G) = Ok t /\ forall k, t k = tm [] G k 2%nat * area F loc.
Proof.
  intros Ht H3 Hg He Hd. destruct (traction_ok loc (affine_field F b G) tm Ht H3) as (t & Et & Hk). exists t. split; [exact Et|]. intros k. rewrite Hk.
  unfold area. rewrite <- sumR_scal. apply sumR_ext. intros s Hs. rewrite <- sumN_scal. apply sumN_ext. intros p Hp. f_equal.
  apply He. intros i d Hdd. apply in_boundary_inds in Hs as Hs'. destruct Hs' as (_ & Hf & _).
  apply face_patch; rewrite ?H3; auto. unfold small_dim; auto.
Qed.

(** ** error norms *)
Section Norms.
Hypothesis Hw : positive_weights F.
Definition l2_ip (f g : nat -> nat -> nat -> R) : R :=
  sumN (num_cells F) (fun c => sumN (num_quads E) (fun q => sumN (vec F) (fun i => f c q i * g c q i * JxW F c q))).
Lemma l2_sq_nonneg f : 0 <= l2_sq F f.
Proof. apply sumN_nonneg. intros c Hc. apply sumN_nonneg. intros q Hq. apply sumN_nonneg. intros i _. pose proof (Hw c q Hc Hq). pose proof (pow2_ge_0 (f c q i)). nra. Qed.
Lemma l2_sq_line f g t : l2_sq F (fun c q i => f c q i + t * g c q i) = l2_sq F f + 2 * t * l2_ip f g + t ^ 2 * l2_sq F g.
Proof.
  unfold l2_sq, l2_ip. rewrite <- !sumN_scal, <- !sumN_add. apply sumN_ext. intros c _. rewrite <- !sumN_scal, <- !sumN_add. apply sumN_ext. intros q _.
  rewrite <- !sumN_scal, <- !sumN_add. apply sumN_ext. intros i _. ring.
Qed.
Lemma sqrt_mink a b c : 0 <= a -> 0 <= c -> b * b <= a * c -> sqrt (a + 2 * b + c) <= sqrt a + sqrt c.
Proof.
  intros Ha Hc Hb. pose proof (sqrt_pos a). pose proof (sqrt_pos c). pose proof (sqrt_sqrt a Ha) as Ea. pose proof (sqrt_sqrt c Hc) as Ec.
  assert (b <= sqrt a * sqrt c). { apply le_of_sq; [now apply Rmult_le_pos|]. replace (sqrt a * sqrt c * (sqrt a * sqrt c)) with ((sqrt a * sqrt a) * (sqrt c * sqrt c)) by ring. now rewrite Ea, Ec. }
  rewrite <- (sqrt_square (sqrt a + sqrt c)) by lra. apply sqrt_le_1_alt. nra.
Qed.
Lemma l2_triangle f g : sqrt (l2_sq F (fun c q i => f c q i + g c q i)) <= sqrt (l2_sq F f) + sqrt (l2_sq F g).
Proof.
  replace (l2_sq F (fun c q i => f c q i + g c q i)) with (l2_sq F f + 2 * l2_ip f g + l2_sq F g).
  - apply sqrt_mink; try apply l2_sq_nonneg. apply discriminant; [|apply l2_sq_nonneg]. intros t. rewrite <- l2_sq_line. apply l2_sq_nonneg.
  - transitivity (l2_sq F (fun c q i => f c q i + 1 * g c q i)); [rewrite l2_sq_line; ring|].
    unfold l2_sq. apply sumN_ext. intros c _. apply sumN_ext. intros q _. apply sumN_ext. intros i _. ring.
Qed.
Lemma l2_form sol u : compute_l2_norm_error F sol u = sqrt (l2_sq F (fun c q i => at_quad F sol c q i - u (physical_quad_point F c q) i)).
Proof. reflexivity. Qed.
Lemma l2_ext f g : (forall c q i, (c < num_cells F)%nat -> (q < num_quads E)%nat -> (i < vec F)%nat -> f c q i = g c q i) -> l2_sq F f = l2_sq F g.
Proof. intros H. unfold l2_sq. apply sumN_ext. intros c Hc. apply sumN_ext. intros q Hq. apply sumN_ext. intros i Hi. now rewrite H. Qed.
Lemma at_quad_sub u v c q i : at_quad F (fun n k => u n k - v n k) c q i = at_quad F u c q i - at_quad F v c q i.
Proof. unfold at_quad, convert_from_dof_to_quad. rewrite <- sumN_sub. apply sumN_ext. intros. ring. Qed.
Lemma at_quad_scal a u c q i : at_quad F (fun n k => a * u n k) c q i = a * at_quad F u c q i.
Proof. unfold at_quad, convert_from_dof_to_quad. rewrite <- sumN_scal. apply sumN_ext. intros. ring. Qed.
Lemma l2_error_triangle sol sol' u : compute_l2_norm_error F sol u <= compute_l2_norm_error F sol' u + compute_l2_norm_error F (fun n k => sol n k - sol' n k) (fun _ _ => 0).
Proof.
  rewrite !l2_form.
  rewrite (l2_ext (fun c q i => at_quad F sol c q i - _) (fun c q i => (at_quad F sol' c q i - u (physical_quad_point F c q) i) + (at_quad F (fun n k => sol n k - sol' n k) c q i - 0)))
    by (intros; rewrite at_quad_sub; ring). apply l2_triangle.
Qed.
Lemma l2_error_scale a sol u : compute_l2_norm_error F (fun n k => a * sol n k) (fun x i => a * u x i) = Rabs a * compute_l2_norm_error F sol u.
Proof.
  rewrite !l2_form. rewrite <- sqrt_Rsqr_abs. rewrite <- sqrt_mult_alt by apply Rle_0_sqr. f_equal. unfold l2_sq, Rsqr.
  rewrite <- !sumN_scal. apply sumN_ext. intros c _. rewrite <- !sumN_scal. apply sumN_ext. intros q _.
  rewrite <- !sumN_scal. apply sumN_ext. intros i _. rewrite at_quad_scal. ring.
Qed.
Lemma l2_sq_zero f : l2_sq F f = 0 <-> forall c q i, (c < num_cells F)%nat -> (q < num_quads E)%nat -> (i < vec F)%nat -> f c q i = 0.
Proof.
  split.
  - intros H c q i Hc Hq Hi. unfold l2_sq in H.
    assert (Hnn : forall c q i, (c < num_cells F)%nat -> (q < num_quads E)%nat -> 0 <= f c q i ^ 2 * JxW F c q)
      by (intros c' q' i' Hc' Hq'; pose proof (Hw c' q' Hc' Hq'); pose proof (pow2_ge_0 (f c' q' i')); nra).
    assert (H1 := sumN_zero_each _ _ (fun c' Hc' => sumN_nonneg _ _ (fun q' Hq' => sumN_nonneg _ _ (fun i' _ => Hnn c' q' i' Hc' Hq'))) H c Hc).
    assert (H2 := sumN_zero_each _ _ (fun q' Hq' => sumN_nonneg _ _ (fun i' _ => Hnn c q' i' Hc Hq')) H1 q Hq).
    assert (H3 := sumN_zero_each _ _ (fun i' _ => Hnn c q i' Hc Hq) H2 i Hi). cbn beta in H3.
    pose proof (Hw c q Hc Hq). assert (f c q i ^ 2 = 0) by (apply Rmult_integral in H3; destruct H3; [assumption|lra]). nra.
  - intros H. unfold l2_sq. apply sumN_zero. intros c Hc. apply sumN_zero. intros q Hq. apply sumN_zero. intros i Hi. rewrite H by assumption. ring.
Qed.
Lemma l2_error_zero sol u : compute_l2_norm_error F sol u = 0 <->
  forall c q i, (c < num_cells F)%nat -> (q < num_quads E)%nat -> (i < vec F)%nat -> at_quad F sol c q i = u (physical_quad_point F c q) i.
Proof.
  rewrite l2_form. split.
  - intros H c q i Hc Hq Hi. apply sqrt_eq_0 in H; [|apply l2_sq_nonneg]. apply (proj1 (l2_sq_zero _)) with (c := c) (q := q) (i := i) in H; auto. lra.
  - intros H. assert (Z : l2_sq F (fun c q i => at_quad F sol c q i - u (physical_quad_point F c q) i) = 0).
    { apply l2_sq_zero. intros c q i Hc Hq Hi. rewrite H by assumption. ring. }
    rewrite Z. apply sqrt_0.
Qed.
Lemma h1_sq_nonneg f : 0 <= h1_sq F f.
Proof. apply sumN_nonneg. intros c Hc. apply sumN_nonneg. intros q Hq. apply sumN_nonneg. intros i _. apply sumN_nonneg. intros d _. pose proof (Hw c q Hc Hq). pose proof (pow2_ge_0 (f c q i d)). nra. Qed.
Lemma h1_form sol u g : compute_h1_norm_error F sol u g = sqrt (l2_sq F (fun c q i => at_quad F sol c q i - u (physical_quad_point F c q) i))
  + sqrt (h1_sq F (fun c q i d => sol_to_grad F sol c q i d - g (physical_quad_point F c q) i d)).
Proof. reflexivity. Qed.
Lemma sqrt_sum_bounds a b : 0 <= a -> 0 <= b -> sqrt (a + b) <= sqrt a + sqrt b /\ sqrt a + sqrt b <= sqrt 2 * sqrt (a + b).
Proof.
  intros Ha Hb. pose proof (sqrt_pos a). pose proof (sqrt_pos b). pose proof (sqrt_sqrt a Ha). pose proof (sqrt_sqrt b Hb). split.
  - rewrite <- (sqrt_square (sqrt a + sqrt b)) by lra. apply sqrt_le_1_alt. nra.
  - rewrite <- sqrt_mult_alt by lra. rewrite <- (sqrt_square (sqrt a + sqrt b)) by lra. apply sqrt_le_1_alt. pose proof (pow2_ge_0 (sqrt a - sqrt b)). nra.
Qed.
Lemma h1_equivalent sol u g :
  let h1 := sqrt (l2_sq F (fun c q i => at_quad F sol c q i - u (physical_quad_point F c q) i)
                  + h1_sq F (fun c q i d => sol_to_grad F sol c q i d - g (physical_quad_point F c q) i d)) in
  h1 <= compute_h1_norm_error F sol u g /\ compute_h1_norm_error F sol u g <= sqrt 2 * h1.
Proof. cbv zeta. rewrite h1_form. apply sqrt_sum_bounds; [apply l2_sq_nonneg|apply h1_sq_nonneg]. Qed.
Lemma h1_ge_l2 sol u g : compute_l2_norm_error F sol u <= compute_h1_norm_error F sol u g.
Proof. rewrite h1_form, l2_form. pose proof (sqrt_pos (h1_sq F (fun c q i d => sol_to_grad F sol c q i d - g (physical_quad_point F c q) i d))). lra. Qed.
Lemma errors_affine b G sol : vals_sum_one F -> grads_sum_zero F -> small_dim (dim F) -> invertible_cells F ->
  (forall n k, sol n k = affine_field F b G n k) ->
  compute_l2_norm_error F sol (fun x i => b i + sumN (dim F) (fun m => G i m * x m)) = 0
  /\ compute_h1_norm_error F sol (fun x i => b i + sumN (dim F) (fun m => G i m * x m)) (fun _ => G) = 0.
Proof.
  intros Hv Hg Hs Hi Hsol.
  assert (A : compute_l2_norm_error F sol (fun x i => b i + sumN (dim F) (fun m => G i m * x m)) = 0).
  { apply l2_error_zero. intros c q i Hc Hq _. unfold at_quad. rewrite <- affine_at_quad by assumption.
    unfold convert_from_dof_to_quad. apply sumN_ext. intros a _. now rewrite Hsol. }
  split; [exact A|].
  change (compute_l2_norm_error F sol (fun x i => b i + sumN (dim F) (fun m => G i m * x m)) + sqrt (h1_sq F (fun c q i d => sol_to_grad F sol c q i d - G i d)) = 0). rewrite A.
  assert (Z : h1_sq F (fun c q i d => sol_to_grad F sol c q i d - G i d) = 0); [|now rewrite Z, sqrt_0, Rplus_0_l].
  unfold h1_sq. apply sumN_zero. intros c Hc. apply sumN_zero. intros q Hq. apply sumN_zero. intros i Hii. apply sumN_zero. intros d Hd.
  replace (sol_to_grad F sol c q i d) with (G i d); [ring|]. rewrite <- (patch_test F c q b G i d) by (assumption || now apply Hi).
  unfold sol_to_grad. apply sumN_ext. intros a _. now rewrite Hsol.
Qed.
End Norms.
End Post.
Close Scope R_scope.
