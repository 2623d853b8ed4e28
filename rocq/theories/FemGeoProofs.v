From Coq Require Import Lra FunctionalExtensionality Sorted.
From Verif Require Import Prelude PreludeFacts GridFacts FemModel FemFacts FemSpec FemProofs FemAsmProofs.
Open Scope R_scope.

Section Geo.
Context {V : Type}.
Variable F : fem V.
Local Notation E := (f_ele F).
Local Notation nn := (num_nodes (f_ele F)).

(** ** C43 *)
Lemma shape_grads_sum c q d : grads_sum_zero F -> (q < num_quads E)%nat -> (d < dim F)%nat ->
  sumN nn (fun a => shape_grads F c q a d) = 0.
Proof.
  intros Hg Hq Hd. unfold shape_grads. rewrite sumN_swap.
  rewrite (sumN_ext (dim F) _ (fun _ => 0)); [now apply sumN_zero|].
  intros i Hi. rewrite sumN_scal_r, Hg by assumption. ring.
Qed.
Lemma grad_of_coordinates c q m d : small_dim (dim F) -> jacobian_det F c q <> 0 -> (m < dim F)%nat -> (d < dim F)%nat ->
  sumN nn (fun a => physical_coos F c a m * shape_grads F c q a d) = delta m d.
Proof.
  intros Hs Hd Hm Hdd. unfold shape_grads.
  rewrite (sumN_ext nn _ (fun a => sumN (dim F) (fun i => physical_coos F c a m * shape_grads_ref E q a i * jacobian_deta_dx F c q i d))).
  - rewrite sumN_swap. rewrite (sumN_ext (dim F) _ (fun i => jacobian_dx_deta F c q m i * jacobian_deta_dx F c q i d)).
    + apply mat_mul_inv; assumption.
    + intros i _. now rewrite sumN_scal_r.
  - intros a _. rewrite <- sumN_scal. apply sumN_ext. intros i _. ring.
Qed.
Lemma patch_test c q b G i d : small_dim (dim F) -> grads_sum_zero F -> (q < num_quads E)%nat -> jacobian_det F c q <> 0 -> (d < dim F)%nat ->
  sol_to_grad F (affine_field F b G) c q i d = G i d.
Proof.
  intros Hs Hg Hq Hd Hdd. unfold sol_to_grad, affine_field.
  rewrite (sumN_ext nn _ (fun a => b i * shape_grads F c q a d + sumN (dim F) (fun m => G i m * (physical_coos F c a m * shape_grads F c q a d)))).
  - rewrite sumN_add, sumN_scal, shape_grads_sum by assumption. rewrite sumN_swap.
    rewrite (sumN_ext (dim F) _ (fun m => G i m * delta m d)).
    + rewrite sumN_delta by assumption. ring.
    + intros m Hm. rewrite sumN_scal, grad_of_coordinates by assumption. reflexivity.
  - intros a _. rewrite Rmult_plus_distr_r, <- sumN_scal_r. f_equal. apply sumN_ext. intros m _. unfold physical_coos. ring.
Qed.
Lemma affine_at_quad c q b G i : vals_sum_one F -> (q < num_quads E)%nat ->
  convert_from_dof_to_quad F (affine_field F b G) c q i = b i + sumN (dim F) (fun m => G i m * physical_quad_point F c q m).
Proof.
  intros Hv Hq. unfold convert_from_dof_to_quad, affine_field, physical_quad_point.
  rewrite (sumN_ext nn _ (fun a => b i * shape_vals E q a + sumN (dim F) (fun m => G i m * (shape_vals E q a * physical_coos F c a m)))).
  - rewrite sumN_add, sumN_scal, Hv by assumption. rewrite sumN_swap, Rmult_1_r. f_equal. apply sumN_ext. intros m _. now rewrite sumN_scal.
  - intros a _. rewrite Rmult_plus_distr_r, <- sumN_scal_r. f_equal. apply sumN_ext. intros m _. unfold physical_coos. ring.
Qed.
Lemma linear_jacobian_error : (exists c q, (c < num_cells F)%nat /\ (q < num_quads E)%nat /\ jacobian_det F c q = 0) <->
  get_shape_grads F = Err LinAlgError.
Proof.
  unfold get_shape_grads. destruct (existsb _ _) eqn:Ex.
  - split; [reflexivity|]. intros _. apply existsb_exists in Ex. destruct Ex as (c & Hc & Ex). apply existsb_exists in Ex.
    destruct Ex as (q & Hq & Ex). apply in_seq in Hc, Hq. apply Reqb_true in Ex. exists c, q. repeat split; auto; lia.
  - split; [|discriminate]. intros (c & q & Hc & Hq & H0). exfalso.
    rewrite <- not_true_iff_false in Ex. apply Ex. apply existsb_exists. exists c. split; [apply in_seq; lia|].
    apply existsb_exists. exists q. split; [apply in_seq; lia|]. now apply Reqb_true.
Qed.

(** ** C42, C53: balance *)
Lemma unit_grad k c q i d : grads_sum_zero F -> (q < num_quads E)%nat -> (d < dim F)%nat -> sol_to_grad F (unit_field k) c q i d = 0.
Proof. intros Hg Hq Hd. unfold sol_to_grad, unit_field. rewrite sumN_scal, shape_grads_sum by assumption. ring. Qed.
Lemma unit_at_quad k c q i : vals_sum_one F -> (q < num_quads E)%nat -> at_quad F (unit_field k) c q i = if Nat.eqb i k then 1 else 0.
Proof. intros Hg Hq. unfold at_quad, convert_from_dof_to_quad, unit_field. rewrite sumN_scal, Hg by assumption. ring. Qed.
Lemma unit_at_face k s p i : face_vals_sum_one F -> (snd s < length (face_inds E))%nat -> (p < num_face_quads E)%nat ->
  at_face F (unit_field k) s p i = if Nat.eqb i k then 1 else 0.
Proof. intros Hg Hs Hp. unfold at_face, convert_neumann_from_dof, unit_field. rewrite sumN_scal, Hg by assumption. ring. Qed.
Lemma dot_unit f g k : (k < vec F)%nat -> (forall i, (i < vec F)%nat -> g i = if Nat.eqb i k then 1 else 0) -> dot_vec F f g = f k.
Proof.
  intros Hk Hg. unfold dot_vec. rewrite <- (sumN_pick (vec F) k f Hk). apply sumN_ext. intros i Hi. rewrite Hg by exact Hi.
  destruct (Nat.eqb i k); ring.
Qed.
Lemma test_unit (r : nodal) k : (k < vec F)%nat ->
  sumN (num_total_nodes F) (fun n => sumN (vec F) (fun l => unit_field k n l * r n l)) = sumN (num_total_nodes F) (fun n => r n k).
Proof.
  intros Hk. apply sumN_ext. intros n _. rewrite <- (sumN_pick (vec F) k (fun l => r n l) Hk). apply sumN_ext. intros l _.
  unfold unit_field. destruct (Nat.eqb l k); ring.
Qed.
Lemma body_power_unit iv k : vals_sum_one F -> (k < vec F)%nat ->
  body_power F iv (unit_field k) = sumN (num_cells F) (fun c => sumN (num_quads E) (fun q => JxW F c q * body_load F iv c q k)).
Proof.
  intros Hv Hk. unfold body_power. apply sumN_ext. intros c _. apply sumN_ext. intros q Hq. f_equal.
  apply dot_unit; [exact Hk|]. intros i _. now apply unit_at_quad.
Qed.
Lemma neumann_power_unit inds iv k : face_vals_sum_one F -> (k < vec F)%nat -> (forall sel, In sel inds -> faces_ok F sel) ->
  neumann_power F inds iv (unit_field k) = sumR (indexed inds) (fun isel => sumR (indexed (snd isel)) (fun js => sumN (num_face_quads E) (fun p =>
    nanson_scale F (snd js) p * traction F iv (fst isel) (fst js) (snd js) p k))).
Proof.
  intros Hv Hk Hs. unfold neumann_power. apply sumR_ext. intros isel Hi. apply sumR_ext. intros js Hj. apply sumN_ext. intros p Hp. f_equal.
  apply dot_unit; [exact Hk|]. intros i _. apply unit_at_face; auto.
  apply in_indexed_snd in Hi, Hj. specialize (Hs _ Hi). unfold faces_ok in Hs. rewrite Forall_forall in Hs. now apply Hs.
Qed.
Lemma cauchy_faces_ok : forall x, In x (cauchy_faces F) -> (fst (fst x) < num_cells F)%nat /\ (snd (fst x) < length (face_inds E))%nat.
Proof.
  intros x Hx. unfold cauchy_faces in Hx. destruct (cauchy_bc_info F) as [[locs fns]|]; [|contradiction].
  unfold cauchy_selection in Hx. apply in_flat_map in Hx. destruct Hx as (lf & _ & Hx). apply in_map_iff in Hx. destruct Hx as (s & <- & Hs).
  cbn. unfold boundary_inds in Hs. apply filter_In in Hs. destruct Hs as (Hs & _). apply in_flat2 in Hs. destruct Hs as (c & f & Hc & Hf & ->). auto.
Qed.
Lemma cauchy_power_unit sol k : face_vals_sum_one F -> (k < vec F)%nat ->
  cauchy_power F sol (unit_field k) = sumR (cauchy_faces F) (fun x => sumN (num_face_quads E) (fun p =>
    nanson_scale F (fst x) p * snd x (at_face F sol (fst x) p) k)).
Proof.
  intros Hv Hk. unfold cauchy_power. apply sumR_ext. intros x Hx. apply sumN_ext. intros p Hp. f_equal. apply dot_unit; [exact Hk|].
  intros i _. apply unit_at_face; auto. now apply cauchy_faces_ok.
Qed.
Lemma internal_power_unit iv sol k : grads_sum_zero F -> vals_sum_one F -> (k < vec F)%nat ->
  internal_power F iv sol (unit_field k) = sumN (num_cells F) (fun c => sumN (num_quads E) (fun q => JxW F c q * reaction F iv sol c q k)).
Proof.
  intros Hg Hv Hk. unfold internal_power. apply sumN_ext. intros c _. apply sumN_ext. intros q Hq. f_equal.
  rewrite (sumN_zero (vec F)).
  - rewrite Rplus_0_l. apply dot_unit; [exact Hk|]. intros i _. now apply unit_at_quad.
  - intros i _. apply sumN_zero. intros d Hd. rewrite unit_grad by assumption. ring.
Qed.

Hypothesis Hwf : wf_mesh F.

Lemma resultant inds sol iv k :
  grads_sum_zero F -> vals_sum_one F -> face_vals_sum_one F -> (k < vec F)%nat ->
  iv_sized F iv -> (0 < num_cells F)%nat -> neumann_ok F inds -> (forall sel, In sel inds -> faces_ok F sel) ->
  exists r, compute_residual_vars F inds sol iv = Ok r /\
  sumN (num_total_nodes F) (fun n => r n k)
  = sumN (num_cells F) (fun c => sumN (num_quads E) (fun q => JxW F c q * (reaction F iv sol c q k - body_load F iv c q k)))
    + sumR (cauchy_faces F) (fun x => sumN (num_face_quads E) (fun p => nanson_scale F (fst x) p * snd x (at_face F sol (fst x) p) k))
    - sumR (indexed inds) (fun isel => sumR (indexed (snd isel)) (fun js => sumN (num_face_quads E) (fun p =>
        nanson_scale F (snd js) p * traction F iv (fst isel) (fst js) (snd js) p k))).
Proof.
  intros Hg Hv Hfv Hk Hiv H0 Hn Hs. destruct (virtual_work F Hwf inds sol iv Hiv H0 Hn Hs) as (r & Hr & He). exists r. split; [exact Hr|].
  rewrite <- test_unit, He by exact Hk.
  rewrite internal_power_unit, cauchy_power_unit, body_power_unit, neumann_power_unit by assumption.
  rewrite (sumN_ext (num_cells F) (fun c => sumN _ (fun q => JxW F c q * (_ - _)))
    (fun c => sumN (num_quads E) (fun q => JxW F c q * reaction F iv sol c q k) - sumN (num_quads E) (fun q => JxW F c q * body_load F iv c q k))).
  - rewrite sumN_sub. ring.
  - intros c _. rewrite <- sumN_sub. apply sumN_ext. intros q _. ring.
Qed.

(** The two load vectors by themselves. *)
Lemma body_force_resultant fn k : vals_sum_one F -> (k < vec F)%nat -> source_info F = Some fn ->
  sumN (num_total_nodes F) (fun n => compute_body_force_by_fn F n k)
  = sumN (num_cells F) (fun c => sumN (num_quads E) (fun q => fn (physical_quad_point F c q) k * JxW F c q)).
Proof.
  intros Hv Hk Hf. set (iv := mkIv [] [] None (fun _ => []) : internal_vars V).
  rewrite <- (test_unit (compute_body_force_by_fn F)) by exact Hk.
  pose proof (body_force_test F Hwf iv (unit_field k)) as H. cbn [iv_body iv] in H. rewrite H, body_power_unit by assumption.
  apply sumN_ext. intros c _. apply sumN_ext. intros q _. unfold body_load. cbn [iv_body iv]. rewrite Hf. ring.
Qed.
Lemma body_force_by_sol_resultant b k : vals_sum_one F -> (k < vec F)%nat ->
  sumN (num_total_nodes F) (fun n => compute_body_force_by_sol F b n k)
  = sumN (num_cells F) (fun c => sumN (num_quads E) (fun q => body_map F (convert_from_dof_to_quad F b c q) k * JxW F c q)).
Proof.
  intros Hv Hk. set (iv := mkIv [] [] (Some b) (fun _ => []) : internal_vars V).
  rewrite <- (test_unit (compute_body_force_by_sol F b)) by exact Hk.
  pose proof (body_force_test F Hwf iv (unit_field k)) as H. cbn [iv_body iv] in H. rewrite H, body_power_unit by assumption.
  apply sumN_ext. intros c _. apply sumN_ext. intros q _. unfold body_load. cbn [iv_body iv]. apply Rmult_comm.
Qed.
Lemma neumann_resultant inds iv fns k : face_vals_sum_one F -> (k < vec F)%nat -> neumann_bc_info F = Some fns -> (length inds <= length fns)%nat ->
  (forall sel, In sel inds -> faces_ok F sel) ->
  exists nm, compute_Neumann_integral_vars F inds (iv_neumann iv) = Ok nm /\
  sumN (num_total_nodes F) (fun n => nm n k) = sumR (indexed inds) (fun isel => sumR (indexed (snd isel)) (fun js => sumN (num_face_quads E) (fun p =>
     nth (fst isel) fns (fun _ _ _ => 0) (surface_quad_point F (snd js) p) (map (fun f => f (fst js) p) (iv_neumann iv (fst isel))) k * nanson_scale F (snd js) p))).
Proof.
  intros Hv Hk Hf Hl Hs. destruct (neumann_eq F Hwf inds iv) as (nm & Hnm & He); [unfold neumann_ok; now rewrite Hf|exact Hs|].
  exists nm. split; [exact Hnm|]. rewrite <- test_unit, He, neumann_power_unit by assumption.
  apply sumR_ext. intros isel _. apply sumR_ext. intros js _. apply sumN_ext. intros p _. unfold traction. rewrite Hf. cbv beta iota. ring.
Qed.

Lemma only_internal_work inds iv sol v : only_internal F iv ->
  cauchy_power F sol v = 0 /\ body_power F iv v = 0 /\ neumann_power F inds iv v = 0.
Proof.
  intros (Hm & Hs & Hn & Hc & Hb). repeat split.
  - unfold cauchy_power, cauchy_faces. now rewrite Hc.
  - unfold body_power. apply sumN_zero. intros c _. apply sumN_zero. intros q _.
    unfold dot_vec, body_load. rewrite Hb, Hs. rewrite (sumN_zero (vec F)); [ring|]. intros k _. ring.
  - unfold neumann_power. apply sumR_zero. intros isel _. apply sumR_zero. intros js _. apply sumN_zero. intros p _.
    unfold dot_vec, traction. rewrite Hn. rewrite (sumN_zero (vec F)); [ring|]. intros k _. ring.
Qed.
Lemma internal_only_work inds iv sol : iv_sized F iv -> (0 < num_cells F)%nat -> only_internal F iv -> (forall sel, In sel inds -> faces_ok F sel) ->
  exists r, compute_residual_vars F inds sol iv = Ok r /\ forall v,
  sumN (num_total_nodes F) (fun n => sumN (vec F) (fun k => v n k * r n k))
  = sumN (num_cells F) (fun c => sumN (num_quads E) (fun q => JxW F c q *
    sumN (vec F) (fun k => sumN (dim F) (fun d => stress F iv sol c q k d * sol_to_grad F v c q k d)))).
Proof.
  intros Hiv H0 Ho Hs.
  destruct (virtual_work F Hwf inds sol iv Hiv H0) as (r & Hr & He); [unfold neumann_ok; destruct Ho as (_ & _ & -> & _); exact I|exact Hs|].
  exists r. split; [exact Hr|]. intros v. rewrite He.
  destruct (only_internal_work inds iv sol v Ho) as (-> & -> & ->).
  transitivity (internal_power F iv sol v); [ring|].
  unfold internal_power. apply sumN_ext. intros c _. apply sumN_ext. intros q _. f_equal. unfold reaction, dot_vec.
  destruct Ho as (-> & _). rewrite (sumN_zero (vec F) (fun k => 0 * _)); [ring|]. intros k _. ring.
Qed.
Lemma self_equilibrated inds iv sol k : grads_sum_zero F -> iv_sized F iv -> (0 < num_cells F)%nat -> only_internal F iv ->
  (forall sel, In sel inds -> faces_ok F sel) -> (k < vec F)%nat ->
  exists r, compute_residual_vars F inds sol iv = Ok r /\ sumN (num_total_nodes F) (fun n => r n k) = 0.
Proof.
  intros Hg Hiv H0 Ho Hs Hk. destruct (internal_only_work inds iv sol Hiv H0 Ho Hs) as (r & Hr & He). exists r. split; [exact Hr|].
  rewrite <- test_unit, He by exact Hk. apply sumN_zero. intros c _. apply sumN_zero. intros q Hq.
  rewrite (sumN_zero (vec F)); [ring|]. intros i _. apply sumN_zero. intros d Hd. rewrite unit_grad by assumption. ring.
Qed.
(** moments: symmetric stress *)
Lemma moment_free inds iv sol i j : small_dim (dim F) -> vec F = dim F -> grads_sum_zero F -> invertible_cells F ->
  iv_sized F iv -> (0 < num_cells F)%nat -> only_internal F iv -> (forall sel, In sel inds -> faces_ok F sel) ->
  (forall c q k d, (c < num_cells F)%nat -> (q < num_quads E)%nat -> (k < dim F)%nat -> (d < dim F)%nat ->
      stress F iv sol c q k d = stress F iv sol c q d k) ->
  (i < dim F)%nat -> (j < dim F)%nat ->
  exists r, compute_residual_vars F inds sol iv = Ok r /\
  sumN (num_total_nodes F) (fun n => points F n i * r n j - points F n j * r n i) = 0.
Proof.
  intros Hd Hvec Hg Hinv Hiv H0 Ho Hs Hsym Hi Hj.
  destruct (internal_only_work inds iv sol Hiv H0 Ho Hs) as (r & Hr & He). exists r. split; [exact Hr|].
  set (G := fun k m => delta k j * delta m i - delta k i * delta m j).
  specialize (He (affine_field F (fun _ => 0) G)).
  transitivity (sumN (num_total_nodes F) (fun n => sumN (vec F) (fun k => affine_field F (fun _ => 0) G n k * r n k))).
  - apply sumN_ext. intros n _. rewrite Hvec. unfold affine_field.
    rewrite (sumN_ext (dim F) _ (fun k => points F n i * r n k * delta k j - points F n j * r n k * delta k i)).
    + rewrite sumN_sub. rewrite !sumN_delta by assumption. reflexivity.
    + intros k Hk. rewrite Rplus_0_l. unfold G.
      rewrite (sumN_ext (dim F) _ (fun m => delta k j * (points F n m * delta m i) - delta k i * (points F n m * delta m j))) by (intros; ring).
      rewrite sumN_sub, !sumN_scal, !sumN_delta by assumption. ring.
  - rewrite He. apply sumN_zero. intros c Hc. apply sumN_zero. intros q Hq.
    rewrite (sumN_ext (vec F) _ (fun k => sumN (dim F) (fun d => stress F iv sol c q k d * (delta k j * delta d i) - stress F iv sol c q k d * (delta k i * delta d j)))).
    + rewrite Hvec. rewrite (sumN_ext (dim F) _ (fun k => stress F iv sol c q k i * delta k j - stress F iv sol c q k j * delta k i)).
      * rewrite sumN_sub, !sumN_delta by assumption. rewrite (Hsym c q j i) by assumption. ring.
      * intros k _. rewrite sumN_sub.
        rewrite (sumN_ext (dim F) (fun d => stress F iv sol c q k d * (delta k j * delta d i)) (fun d => delta k j * (stress F iv sol c q k d * delta d i))) by (intros; ring).
        rewrite (sumN_ext (dim F) (fun d => stress F iv sol c q k d * (delta k i * delta d j)) (fun d => delta k i * (stress F iv sol c q k d * delta d j))) by (intros; ring).
        rewrite !sumN_scal, !sumN_delta by assumption. ring.
    + intros k _. apply sumN_ext. intros d Hdd. rewrite patch_test; auto. unfold G. ring.
Qed.

(** ** C48 *)
Lemma in_pts n P : In n (argwhere P (map (points F) (seq 0 (num_total_nodes F)))) <-> (n < num_total_nodes F)%nat /\ P (points F n) = true.
Proof.
  rewrite in_argwhere. split.
  - intros (x & Hx & HP). assert (Hn : (n < num_total_nodes F)%nat).
    { apply nth_error_Some_lt in Hx || (assert (nth_error (map (points F) (seq 0 (num_total_nodes F))) n <> None) as Hne by congruence;
        apply nth_error_Some in Hne; now rewrite map_length, seq_length in Hne). }
    rewrite (nth_error_map_seq (points F)) in Hx by exact Hn. injection Hx as <-. auto.
  - intros (Hn & HP). exists (points F n). split; [now apply nth_error_map_seq|exact HP].
Qed.
Lemma periodic_pair_ok A B mapping la lb : periodic_pair F A B mapping = Ok (la, lb) ->
  length la = length lb /\ NoDup la /\ StronglySorted lt la /\
  (forall n, In n la <-> (n < num_total_nodes F)%nat /\ A (points F n) = true) /\
  (forall i a, nth_error la i = Some a -> exists b, nth_error lb i = Some b /\ (b < num_total_nodes F)%nat /\ B (points F b) = true /\
     dist (dim F) (mapping (points F a)) (points F b) < EPS /\
     forall b', (b' < num_total_nodes F)%nat -> B (points F b') = true -> dist (dim F) (mapping (points F a)) (points F b') < EPS -> b' = b).
Proof.
  unfold periodic_pair.
  set (LA := argwhere A _). set (LB := argwhere B _).
  set (f := fun node_ind => filter _ LB).
  destruct (forallb _ _) eqn:Ef; [|discriminate]. destruct (Nat.eqb_spec (length LA) (length (concat (map f LA)))) as [El|]; [|discriminate].
  intros H. injection H as <- <-.
  split; [exact El|]. split; [apply argwhere_NoDup|]. split; [apply argwhere_sorted|]. split; [intros n; apply in_pts|].
  assert (H1 : Forall (fun l : list nat => length l = 1%nat) (map f LA)).
  { destruct LA as [|a0 LA'] eqn:EA; [constructor|]. cbn [map hd] in Ef. rewrite forallb_forall in Ef.
    assert (Hc : Forall (fun l : list nat => length l = length (f a0)) (map f (a0 :: LA'))).
    { apply Forall_forall. intros l Hl. apply Nat.eqb_eq. apply Ef. exact Hl. }
    pose proof (length_concat_const _ _ Hc) as Hlen. rewrite <- El, map_length in Hlen. cbn [length] in Hlen.
    assert (length (f a0) = 1%nat) by nia. eapply Forall_impl; [|exact Hc]. cbn. intros. congruence. }
  intros i a Ha.
  assert (Hcc : forall (l : list nat) i a, Forall (fun l : list nat => length l = 1%nat) (map f l) -> nth_error l i = Some a -> exists b, f a = [b] /\ nth_error (concat (map f l)) i = Some b).
  { clear. induction l as [|x l IH]; intros i a H Hi; [destruct i; discriminate|]. cbn in H. inversion H as [|? ? Hx Hl]; subst.
    cbn [map concat]. destruct (f x) as [|b [|? ?]] eqn:Ex; try discriminate. destruct i as [|i]; cbn in Hi |- *.
    - injection Hi as <-. exists b. auto.
    - now apply IH. }
  destruct (Hcc LA i a H1 Ha) as (b & Hb & Hn). exists b. split; [exact Hn|].
  assert (Hin : In b (f a)) by (rewrite Hb; now left). unfold f in Hin. apply filter_In in Hin. destruct Hin as (HB & Hd).
  unfold LB in HB. apply in_pts in HB. apply Rltb_true in Hd. split; [apply HB|]. split; [apply HB|]. split; [exact Hd|].
  intros b' Hb' HB' Hd'. assert (In b' (f a)).
  { unfold f. apply filter_In. split; [unfold LB; now apply in_pts|]. now apply Rltb_true. }
  rewrite Hb in H. destruct H as [<-|[]]. reflexivity.
Qed.

(** ** C49 *)
Lemma in_boundary_inds loc s : In s (boundary_inds F loc) <->
  (fst s < num_cells F)%nat /\ (snd s < length (face_inds E))%nat /\
  forall n, In n (face_nodes F s) -> loc (points F n) = true.
Proof.
  unfold boundary_inds. rewrite filter_In, in_flat2. unfold boundary_flag, face_nodes, physical_coos. rewrite forallb_forall. split.
  - intros ((c & f & Hc & Hf & ->) & H). cbn in *. repeat split; auto. intros n Hn. apply in_map_iff in Hn. destruct Hn as (a & <- & Ha). auto.
  - intros (Hc & Hf & H). split.
    + exists (fst s), (snd s). repeat split; auto. now destruct s.
    + intros a Ha. apply H. apply in_map_iff. eauto.
Qed.
Lemma flat2_sorted n1 n2 : StronglySorted lex (flat2 n1 n2 (fun c f => (c, f))).
Proof.
  unfold flat2.
  assert (G : forall k s, StronglySorted lex (flat_map (fun i => map (fun j => (i, j)) (seq 0 n2)) (seq s k)) /\
     Forall (fun p => (s <= fst p)%nat) (flat_map (fun i => map (fun j => (i, j)) (seq 0 n2)) (seq s k))).
  { induction k as [|k IH]; intros s; cbn; [split; constructor|]. destruct (IH (S s)) as (I1 & I2).
    split.
    - assert (R : forall m t, StronglySorted lex (map (fun j => (s, j)) (seq t m) ++ flat_map (fun i => map (fun j => (i, j)) (seq 0 n2)) (seq (S s) k))).
      { induction m as [|m IHm]; intros t; cbn; [exact I1|]. constructor; [apply IHm|]. apply Forall_app. split.
        - apply Forall_map, Forall_forall. intros j Hj. apply in_seq in Hj. right. cbn. lia.
        - eapply Forall_impl; [|exact I2]. intros p Hp. left. cbn in *. lia. }
      apply R.
    - apply Forall_app. split; [apply Forall_map, Forall_forall; intros; cbn; lia|]. eapply Forall_impl; [|exact I2]. cbn. intros. lia. }
  apply G.
Qed.
Lemma StronglySorted_filter {A} (P : A -> A -> Prop) f l : StronglySorted P l -> StronglySorted P (filter f l).
Proof.
  induction 1 as [|x l Hl IH Hx]; cbn; [constructor|]. destruct (f x); [|exact IH]. constructor; [exact IH|].
  rewrite Forall_forall in *. intros y Hy. apply filter_In in Hy. now apply Hx.
Qed.
Lemma boundary_inds_sorted loc : StronglySorted lex (boundary_inds F loc).
Proof. apply StronglySorted_filter, flat2_sorted. Qed.
Lemma lex_sorted_NoDup l : StronglySorted lex l -> NoDup l.
Proof.
  induction 1 as [|x l Hl IH Hx]; constructor; [|exact IH]. intros Hin. rewrite Forall_forall in Hx. specialize (Hx x Hin).
  unfold lex in Hx. lia.
Qed.
Lemma count_selected loc : count_selected_faces F loc = length (boundary_inds F loc).
Proof. reflexivity. Qed.

(** ** Dirichlet selection (part of C44) *)
Lemma dirichlet_ok locs vecs fns : length locs = length fns -> length fns = length vecs ->
  exists nl vl xl, Dirichlet_boundary_conditions F (Some (locs, vecs, fns)) = Ok (nl, vl, xl) /\
  length nl = length locs /\ length vl = length locs /\ length xl = length locs /\
  forall i loc, nth_error locs i = Some loc -> exists nodes,
    nth_error nl i = Some nodes /\ StronglySorted lt nodes /\
    (forall n, In n nodes <-> (n < num_total_nodes F)%nat /\ loc (points F n) = true) /\
    nth_error vl i = Some (map (fun _ => nth i vecs 0%nat) nodes) /\
    nth_error xl i = Some (map (fun n => nth i fns (fun _ => 0) (points F n)) nodes).
Proof.
  intros H1 H2. unfold Dirichlet_boundary_conditions. rewrite H1, H2, !Nat.eqb_refl. cbn [andb]. rewrite <- H2, <- H1.
  eexists. eexists. eexists. split; [reflexivity|]. rewrite !map_length, seq_length. split; [reflexivity|]. split; [reflexivity|]. split; [reflexivity|].
  intros i loc Hl. assert (Hi : (i < length locs)%nat) by (apply nth_error_Some; congruence).
  exists (argwhere loc (map (points F) (seq 0 (num_total_nodes F)))).
  rewrite !nth_error_map_seq by exact Hi. rewrite (nth_error_nth _ _ _ Hl).
  split; [reflexivity|]. split; [apply argwhere_sorted|]. split; [intros n; apply in_pts|]. split; reflexivity.
Qed.
Lemma dirichlet_mismatch locs vecs fns : length locs <> length fns \/ length fns <> length vecs ->
  Dirichlet_boundary_conditions F (Some (locs, vecs, fns)) = Err AssertionError.
Proof.
  intros H. unfold Dirichlet_boundary_conditions. destruct (Nat.eqb_spec (length locs) (length fns)), (Nat.eqb_spec (length fns) (length vecs)); cbn; try reflexivity.
  exfalso. tauto.
Qed.
End Geo.

(** ** Nanson scale is the area (length) scale of the surface map *)
Lemma sqrt_div_det s d : 0 < d -> 0 <= s -> sqrt (s / d ^ 2) * d = sqrt s.
Proof.
  intros Hd Hs. rewrite sqrt_div_alt by nra. replace (sqrt (d ^ 2)) with d; [field; lra|].
  rewrite <- Rsqr_pow2. symmetry. apply sqrt_Rsqr. lra.
Qed.
Section Nanson.
Context {V : Type}.
Variable F : fem V.
Local Notation E := (f_ele F).
Lemma nanson3 s p t1 t2 : dim F = 3%nat -> 0 < det 3 (face_jacobian F s p) ->
  (forall i, (i < 3)%nat -> face_normals E (snd s) i = cross t1 t2 i) ->
  nanson_scale F s p = norm3 (cross (push (face_jacobian F s p) 3 t1) (push (face_jacobian F s p) 3 t2)) * face_quad_weights E (snd s) p.
Proof.
  intros H3 Hd Hn. unfold nanson_scale. rewrite H3. f_equal. set (J := face_jacobian F s p) in *.
  set (D := det 3 J) in *. unfold norm3.
  rewrite <- (sqrt_div_det (_ + _) D) by (exact Hd || (apply Rplus_le_le_0_compat; [apply Rplus_le_le_0_compat|]; apply pow2_ge_0)).
  f_equal. f_equal. unfold sumN, inv. cbn [seq sumR]. rewrite !Hn by lia. fold D.
  unfold push, sumN. cbn [seq sumR cross adj]. field. lra.
Qed.
Lemma nanson2 s p t : dim F = 2%nat -> 0 < det 2 (face_jacobian F s p) ->
  face_normals E (snd s) 0%nat = t 1%nat -> face_normals E (snd s) 1%nat = - t 0%nat ->
  nanson_scale F s p = norm2 (push (face_jacobian F s p) 2 t) * face_quad_weights E (snd s) p.
Proof.
  intros H2 Hd Hn0 Hn1. unfold nanson_scale. rewrite H2. f_equal. set (J := face_jacobian F s p) in *.
  set (D := det 2 J) in *. unfold norm2.
  rewrite <- (sqrt_div_det (_ + _) D) by (exact Hd || (apply Rplus_le_le_0_compat; apply pow2_ge_0)).
  f_equal. f_equal. unfold sumN, inv. cbn [seq sumR]. rewrite Hn0, Hn1. fold D.
  unfold push, sumN. cbn [seq sumR adj]. field. lra.
Qed.
End Nanson.
Close Scope R_scope.
