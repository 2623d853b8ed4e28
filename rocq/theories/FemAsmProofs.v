From Coq Require Import Lra FunctionalExtensionality.
From Verif Require Import Prelude PreludeFacts GridFacts FemModel FemFacts FemSpec FemProofs.
Open Scope R_scope.

Section Asm.
Context {V : Type}.
Variable F : fem V.
Local Notation E := (f_ele F).
Local Notation nn := (num_nodes (f_ele F)).
Hypothesis Hwf : wf_mesh F.

Lemma cell_length c : (c < num_cells F)%nat -> length (nth c (cells F) []) = nn.
Proof. intros H. unfold wf_mesh in Hwf. rewrite Forall_forall in Hwf. apply Hwf, nth_In. exact H. Qed.
Lemma cell_node_lt c a : (c < num_cells F)%nat -> (a < nn)%nat -> (cell_node F c a < num_total_nodes F)%nat.
Proof.
  intros Hc Ha. unfold wf_mesh in Hwf. rewrite Forall_forall in Hwf.
  destruct (Hwf _ (nth_In _ [] Hc)) as (Hl & Hn). rewrite Forall_forall in Hn. apply Hn, nth_In.
  rewrite Hl. exact Ha.
Qed.
Lemma cells_as_map : cells F = map (fun c => nth c (cells F) []) (seq 0 (num_cells F)).
Proof. symmetry. apply map_nth_seq. Qed.

(** ** scatter-add *)
Lemma scatter_add_eq a upd n k :
  scatter_add a upd n k = a n k + sumR upd (fun u => if Nat.eqb n (fst u) then snd u k else 0).
Proof.
  unfold scatter_add. revert a. induction upd as [|u upd IH]; intros a; cbn [fold_left sumR]; [lra|].
  rewrite IH. destruct (Nat.eqb n (fst u)); lra.
Qed.
Lemma sum_rows {X} (l : list X) (cell : X -> nat) (g : X -> nodal) f :
  Forall (fun x => (cell x < num_cells F)%nat) l ->
  sumR (combine (concat (map (fun x => nth (cell x) (cells F) []) l)) (rows F (map g l))) f
  = sumR l (fun x => sumN nn (fun a => f (cell_node F (cell x) a, g x a))).
Proof.
  induction 1 as [|x l Hx Hl IH]; [reflexivity|].
  cbn [map concat sumR]. unfold rows in *. cbn [flat_map].
  rewrite combine_app by (rewrite map_length, seq_length; now apply cell_length).
  rewrite sumR_app, IH. f_equal.
  rewrite (sumR_nth _ (0%nat, g x 0%nat)). rewrite combine_length, map_length, seq_length, cell_length by assumption.
  rewrite Nat.min_id. apply sumN_ext. intros a Ha. f_equal.
  rewrite combine_nth by (rewrite map_length, seq_length; now apply cell_length).
  unfold cell_node. f_equal. rewrite map_nth, seq_nth by exact Ha. reflexivity.
Qed.
Lemma scatter_corners {X} a (l : list X) (cell : X -> nat) (g : X -> nodal) n k :
  Forall (fun x => (cell x < num_cells F)%nat) l ->
  scatter_add a (combine (concat (map (fun x => nth (cell x) (cells F) []) l)) (rows F (map g l))) n k
  = a n k + corners F l cell g n k.
Proof.
  intros H. rewrite scatter_add_eq. f_equal. rewrite sum_rows by exact H. unfold corners.
  apply sumR_ext. intros x _. apply sumN_ext. intros b _. cbn. now rewrite Nat.eqb_sym.
Qed.
Lemma all_cells_lt : Forall (fun c => (c < num_cells F)%nat) (all_cells F).
Proof. apply Forall_forall. intros c Hc. apply in_seq in Hc. lia. Qed.
Lemma scatter_cells a (g : nat -> nodal) n k :
  scatter_add a (combine (concat (cells F)) (rows F (map g (seq 0 (num_cells F))))) n k
  = a n k + corners F (all_cells F) (fun c => c) g n k.
Proof. rewrite cells_as_map. apply (scatter_corners a (all_cells F) (fun c => c) g). apply all_cells_lt. Qed.

(** testing a corner sum with a nodal field *)
Lemma corners_test {X} (l : list X) (cell : X -> nat) (g : X -> nodal) (v : nodal) :
  Forall (fun x => (cell x < num_cells F)%nat) l ->
  sumN (num_total_nodes F) (fun n => sumN (vec F) (fun k => v n k * corners F l cell g n k))
  = sumR l (fun x => sumN nn (fun a => sumN (vec F) (fun k => v (cell_node F (cell x) a) k * g x a k))).
Proof.
  intros H.
  rewrite (sumN_ext _ _ (fun n => sumR l (fun x => sumN nn (fun a => if Nat.eqb (cell_node F (cell x) a) n
       then sumN (vec F) (fun k => v n k * g x a k) else 0)))).
  - rewrite sumN_sumR_swap. apply sumR_ext. intros x Hx. rewrite sumN_swap. apply sumN_ext. intros a Ha.
    rewrite sumN_pick'; [reflexivity|]. rewrite Forall_forall in H. apply cell_node_lt; auto.
  - intros n _. unfold corners.
    rewrite (sumN_ext (vec F) _ (fun k => sumR l (fun x => sumN nn (fun a => if Nat.eqb (cell_node F (cell x) a) n then v n k * g x a k else 0)))).
    + rewrite sumN_sumR_swap. apply sumR_ext. intros x _. rewrite sumN_swap. apply sumN_ext. intros a _.
      destruct (Nat.eqb _ n); [reflexivity|]. now apply sumN_zero.
    + intros k _. rewrite <- sumR_scal. apply sumR_ext. intros x _. rewrite <- sumN_scal. apply sumN_ext. intros a _.
      destruct (Nat.eqb _ n); ring.
Qed.

(** ** The residual as a corner sum *)
Lemma the_inputs_sized sol iv : iv_sized F iv -> inputs_sized F (the_inputs F sol (iv_mass iv) (iv_laplace iv)).
Proof. intros (H1 & H2). unfold inputs_sized, the_inputs; cbn. rewrite !map_length, !seq_length. repeat split; auto. Qed.
Lemma nth_error_map_seq {X} (f : nat -> X) n c : (c < n)%nat -> nth_error (map f (seq 0 n)) c = Some (f c).
Proof. intros H. apply map_nth_error. now apply nth_error_seq0. Qed.
Lemma list_of_nth {X} (l : list X) n (f : nat -> X) : length l = n ->
  (forall c, (c < n)%nat -> nth_error l c = Some (f c)) -> l = map f (seq 0 n).
Proof.
  intros Hl H. apply list_ext. intros i. destruct (Nat.lt_ge_cases i n) as [Hi|Hi].
  - rewrite H by exact Hi. symmetry. now apply nth_error_map_seq.
  - rewrite (proj2 (nth_error_None _ _)), (proj2 (nth_error_None _ _)); [reflexivity| |]; rewrite ?map_length, ?seq_length; lia.
Qed.
Lemma split_the_inputs {B} fn sol iv : iv_sized F iv -> (0 < num_cells F)%nat ->
  split_and_compute_cell (B := B) F fn (the_inputs F sol (iv_mass iv) (iv_laplace iv))
  = Ok (map (fun c => fn (cells_sol F sol c) (shape_grads F c) (JxW F c) (v_grads_JxW F c) (vars_at (iv_mass iv) c) (vars_at (iv_laplace iv) c)) (all_cells F)).
Proof.
  intros Hiv H0. destruct (split_spec F fn _ (the_inputs_sized sol iv Hiv) H0) as (ys & -> & Hl & H).
  f_equal. apply list_of_nth; [exact Hl|]. intros c Hc. destruct (H c Hc) as (s & g & w & vg & H1 & H2 & H3 & H4 & H5).
  unfold the_inputs in H1, H2, H3, H4. cbn [in_sol in_grads in_JxW in_vg] in H1, H2, H3, H4.
  rewrite nth_error_map_seq in H1 by exact Hc. rewrite nth_error_map_seq in H2 by exact Hc.
  rewrite nth_error_map_seq in H3 by exact Hc. rewrite nth_error_map_seq in H4 by exact Hc. injection H1 as <-. injection H2 as <-. injection H3 as <-. injection H4 as <-. exact H5.
Qed.
Lemma cauchy_faces_lt : Forall (fun x => (fst (fst x) < num_cells F)%nat) (cauchy_faces F).
Proof.
  unfold cauchy_faces. destruct (cauchy_bc_info F) as [[locs fns]|]; [|constructor].
  unfold cauchy_selection. apply Forall_flat_map, Forall_forall. intros lf _. apply Forall_map, Forall_forall.
  intros s Hs. cbn. unfold boundary_inds in Hs. apply filter_In in Hs. destruct Hs as (Hs & _).
  apply in_flat2 in Hs. destruct Hs as (c & f & Hc & Hf & Hs). subst s. exact Hc.
Qed.
Lemma add_cauchy_eq sol r n k : add_cauchy F sol r n k = r n k + corners F (cauchy_faces F) (fun x => fst (fst x)) (cauchy_force F sol) n k.
Proof.
  pose proof cauchy_faces_lt as H. unfold add_cauchy, cauchy_faces in *. destruct (cauchy_bc_info F) as [[locs fns]|].
  - cbn. apply (scatter_corners r (cauchy_selection F locs fns) (fun x => fst (fst x)) (cauchy_force F sol)). exact H.
  - unfold corners. cbn. lra.
Qed.

Lemma residual_eq inds sol iv nm : iv_sized F iv -> (0 < num_cells F)%nat ->
  compute_Neumann_integral_vars F inds (iv_neumann iv) = Ok nm ->
  exists r, compute_residual_vars F inds sol iv = Ok r /\ forall n k,
  r n k = corners F (all_cells F) (fun c => c) (cell_force F iv sol) n k
        + corners F (cauchy_faces F) (fun x => fst (fst x)) (cauchy_force F sol) n k
        - (match iv_body iv with Some b => compute_body_force_by_sol F b | None => compute_body_force_by_fn F end) n k - nm n k.
Proof.
  intros Hiv H0 Hn. unfold compute_residual_vars. rewrite split_the_inputs by assumption. cbn [bind].
  unfold compute_residual_vars_helper. rewrite Hn. cbn [bind]. eexists. split; [reflexivity|]. intros n k. cbn beta.
  f_equal. f_equal. rewrite add_cauchy_eq. f_equal. unfold all_cells at 1. rewrite scatter_cells. unfold zeros. cbn.
  rewrite Rplus_0_l. reflexivity.
Qed.

(** ** body force *)
Lemma body_force_test iv v :
  sumN (num_total_nodes F) (fun n => sumN (vec F) (fun k => v n k *
    (match iv_body iv with Some b => compute_body_force_by_sol F b | None => compute_body_force_by_fn F end) n k))
  = body_power F iv v.
Proof.
  assert (K : forall load : nat -> nat -> nat -> R,
    sumR (all_cells F) (fun c => sumN nn (fun a => sumN (vec F) (fun k => v (cell_node F c a) k *
       sumN (num_quads E) (fun q => shape_vals E q a * load c q k * JxW F c q))))
    = sumN (num_cells F) (fun c => sumN (num_quads E) (fun q => JxW F c q * dot_vec F (load c q) (at_quad F v c q)))).
  { intros load. apply sumR_ext. intros c _. unfold dot_vec, at_quad, convert_from_dof_to_quad.
    rewrite (sumN_ext nn _ (fun a => sumN (num_quads E) (fun q => sumN (vec F) (fun k => v (cell_node F c a) k * (shape_vals E q a * load c q k * JxW F c q))))).
    - rewrite sumN_swap. apply sumN_ext. intros q _. rewrite sumN_swap, <- sumN_scal. apply sumN_ext. intros k _.
      rewrite <- !sumN_scal. apply sumN_ext. intros a _. ring.
    - intros a _. rewrite sumN_swap. apply sumN_ext. intros k _. now rewrite sumN_scal. }
  unfold body_power, body_load. destruct (iv_body iv) as [b|].
  - rewrite <- (K (fun c q => body_map F (at_quad F b c q))). unfold compute_body_force_by_sol.
    rewrite (sumN_ext _ _ (fun n => sumN (vec F) (fun k => v n k * corners F (all_cells F) (fun c => c)
      (fun c => mass_kernel F (fun _ => body_map F) (cells_sol F b c) (JxW F c) []) n k))).
    + rewrite corners_test by apply all_cells_lt. apply sumR_ext. intros c _. apply sumN_ext. intros a _.
      apply sumN_ext. intros k _. f_equal. unfold mass_kernel. apply sumN_ext. intros q _.
      unfold at_quad, convert_from_dof_to_quad, cells_sol. ring.
    + intros n _. apply sumN_ext. intros k _. f_equal. rewrite scatter_cells. unfold zeros. lra.
  - unfold compute_body_force_by_fn. destruct (source_info F) as [fn|].
    + rewrite <- (K (fun c q => fn (physical_quad_point F c q))). cbv zeta.
      rewrite (sumN_ext _ _ (fun n => sumN (vec F) (fun k => v n k * corners F (all_cells F) (fun c => c)
        (fun c a k => sumN (num_quads E) (fun q => shape_vals E q a * fn (physical_quad_point F c q) k * JxW F c q)) n k))).
      * rewrite corners_test by apply all_cells_lt. reflexivity.
      * intros n _. apply sumN_ext. intros k _. f_equal. rewrite scatter_cells. unfold zeros. rewrite Rplus_0_l. reflexivity.
    + rewrite (sumN_zero (num_total_nodes F)); [symmetry; apply sumN_zero|].
      * intros c _. apply sumN_zero. intros q _. unfold dot_vec. rewrite (sumN_zero (vec F)); [ring|]. intros k _. ring.
      * intros n _. apply sumN_zero. intros k _. unfold zeros. ring.
Qed.

(** ** Neumann *)
Definition face_load (iv : internal_vars V) (i : nat) (js : nat * (nat * nat)) : nodal :=
  fun a k => sumN (num_face_quads E) (fun p => face_shape_vals E (snd (snd js)) p a * traction F iv i (fst js) (snd js) p k * nanson_scale F (snd js) p).
Lemma indexed_snd {X} (l : list X) : map snd (indexed l) = l.
Proof.
  unfold indexed. generalize 0%nat as s. induction l as [|x l IH]; intros s; cbn; [reflexivity|]. now rewrite IH.
Qed.
Lemma in_indexed_snd {X} (l : list X) p : In p (indexed l) -> In (snd p) l.
Proof. intros H. rewrite <- (indexed_snd l). now apply in_map. Qed.
Lemma neumann_one_eq a fn iv i sel n k : Forall (fun s => (fst s < num_cells F)%nat) sel ->
  (forall j s p, traction F iv i j s p = fn (surface_quad_point F s p) (map (fun f => f j p) (iv_neumann iv i))) ->
  scatter_add a (neumann_one F fn (iv_neumann iv i) sel) n k
  = a n k + corners F (indexed sel) (fun js => fst (snd js)) (face_load iv i) n k.
Proof.
  intros Hs Hf. unfold neumann_one.
  rewrite <- (indexed_snd sel) at 1. rewrite map_map.
  rewrite <- (scatter_corners a (indexed sel) (fun js => fst (snd js)) (face_load iv i)).
  - unfold indexed. do 4 f_equal. apply map_ext. intros js. unfold face_load.
    apply functional_extensionality. intros b. apply functional_extensionality. intros l.
    apply sumN_ext. intros p _. now rewrite Hf.
  - apply Forall_forall. intros js Hj. apply in_indexed_snd in Hj. rewrite Forall_forall in Hs. auto.
Qed.
Lemma neumann_loop_eq fns iv inds : neumann_bc_info F = Some fns -> (forall sel, In sel inds -> Forall (fun s => (fst s < num_cells F)%nat) sel) ->
  forall i a, (i + length inds <= length fns)%nat -> exists r, neumann_loop F fns (iv_neumann iv) i inds a = Ok r /\
  forall n k, r n k = a n k + sumR (combine (seq i (length inds)) inds) (fun isel => corners F (indexed (snd isel)) (fun js => fst (snd js)) (face_load iv (fst isel)) n k).
Proof.
  intros Hf. induction inds as [|sel inds IH]; intros Hs i a Hi.
  - exists a. split; [reflexivity|]. intros n k. cbn. lra.
  - cbn [neumann_loop length seq combine sumR] in *. destruct (nth_error fns i) as [fn|] eqn:En.
    2: { apply nth_error_None in En. lia. }
    destruct (IH (fun s Hsl => Hs s (or_intror Hsl)) (S i) (scatter_add a (neumann_one F fn (iv_neumann iv i) sel))) as (r & -> & Hr); [lia|].
    exists r. split; [reflexivity|]. intros n k. rewrite Hr.
    rewrite (neumann_one_eq a fn iv i sel).
    + cbn [fst snd]. ring.
    + apply Hs. now left.
    + intros j s p. unfold traction. rewrite Hf. rewrite (nth_error_nth _ _ _ En). reflexivity.
Qed.
Lemma neumann_eq inds iv : neumann_ok F inds -> (forall sel, In sel inds -> faces_ok F sel) ->
  exists nm, compute_Neumann_integral_vars F inds (iv_neumann iv) = Ok nm /\
  forall v, sumN (num_total_nodes F) (fun n => sumN (vec F) (fun k => v n k * nm n k)) = neumann_power F inds iv v.
Proof.
  intros Ho Hs0. assert (Hs : forall sel, In sel inds -> Forall (fun s => (fst s < num_cells F)%nat) sel).
  { intros sel Hsel. eapply Forall_impl; [|apply Hs0; exact Hsel]. cbn. tauto. }
  unfold compute_Neumann_integral_vars, neumann_ok in *. destruct (neumann_bc_info F) as [fns|] eqn:Ef.
  - destruct (neumann_loop_eq fns iv inds Ef Hs 0 zeros) as (r & Hr & Hv); [lia|]. exists r. split; [exact Hr|]. intros v.
    rewrite (sumN_ext _ _ (fun n => sumR (indexed inds) (fun isel => sumN (vec F) (fun k => v n k *
        corners F (indexed (snd isel)) (fun js => fst (snd js)) (face_load iv (fst isel)) n k)))).
    2: { intros n _. rewrite <- sumN_sumR_swap. apply sumN_ext. intros k _. rewrite sumR_scal. f_equal. rewrite Hv.
         unfold zeros. apply Rplus_0_l. }
    rewrite sumN_sumR_swap. unfold neumann_power. apply sumR_ext. intros [i sel] Hi. cbn [fst snd].
    apply in_indexed_snd in Hi. cbn in Hi. rewrite corners_test.
    2: { apply Forall_forall. intros js Hj. apply in_indexed_snd in Hj. specialize (Hs _ Hi). rewrite Forall_forall in Hs. auto. }
    apply sumR_ext. intros js _. unfold face_load, dot_vec, at_face, convert_neumann_from_dof.
    rewrite (sumN_ext nn _ (fun a => sumN (num_face_quads E) (fun p => sumN (vec F) (fun k => v (cell_node F (fst (snd js)) a) k *
       (face_shape_vals E (snd (snd js)) p a * traction F iv i (fst js) (snd js) p k * nanson_scale F (snd js) p))))).
    + rewrite sumN_swap. apply sumN_ext. intros p _. rewrite sumN_swap, <- sumN_scal. apply sumN_ext. intros k _.
      rewrite <- !sumN_scal. apply sumN_ext. intros a _. ring.
    + intros a _. rewrite sumN_swap. apply sumN_ext. intros k _. now rewrite sumN_scal.
  - exists zeros. split; [reflexivity|]. intros v. rewrite (sumN_zero (num_total_nodes F)).
    2: { intros n _. apply sumN_zero. intros k _. unfold zeros. ring. }
    symmetry. unfold neumann_power. apply sumR_zero. intros isel _. apply sumR_zero. intros js _. apply sumN_zero. intros p _.
    unfold dot_vec, traction. rewrite Ef. rewrite (sumN_zero (vec F)); [ring|]. intros k _. ring.
Qed.

(** ** internal and Cauchy power *)
Lemma cell_force_test iv sol v c :
  sumN nn (fun a => sumN (vec F) (fun k => v (cell_node F c a) k * cell_force F iv sol c a k))
  = sumN (num_quads E) (fun q => JxW F c q *
      (sumN (vec F) (fun k => sumN (dim F) (fun d => stress F iv sol c q k d * sol_to_grad F v c q k d))
       + dot_vec F (reaction F iv sol c q) (at_quad F v c q))).
Proof.
  assert (L : forall S : nat -> mat,
    sumN nn (fun a => sumN (vec F) (fun k => v (cell_node F c a) k * sumN (num_quads E) (fun q => sumN (dim F) (fun d => S q k d * v_grads_JxW F c q a d))))
    = sumN (num_quads E) (fun q => JxW F c q * sumN (vec F) (fun k => sumN (dim F) (fun d => S q k d * sol_to_grad F v c q k d)))).
  { intros S.
    rewrite (sumN_ext nn _ (fun a => sumN (num_quads E) (fun q => sumN (vec F) (fun k => sumN (dim F) (fun d => v (cell_node F c a) k * (S q k d * v_grads_JxW F c q a d)))))).
    - rewrite sumN_swap. apply sumN_ext. intros q _. rewrite sumN_swap, <- sumN_scal. apply sumN_ext. intros k _.
      rewrite sumN_swap, <- sumN_scal. apply sumN_ext. intros d _. unfold sol_to_grad. rewrite <- !sumN_scal.
      apply sumN_ext. intros a _. unfold v_grads_JxW. ring.
    - intros a _. rewrite sumN_swap. apply sumN_ext. intros k _. rewrite <- sumN_scal. apply sumN_ext. intros q _. now rewrite sumN_scal. }
  assert (M : forall m : nat -> nat -> R,
    sumN nn (fun a => sumN (vec F) (fun k => v (cell_node F c a) k * sumN (num_quads E) (fun q => m q k * shape_vals E q a * JxW F c q)))
    = sumN (num_quads E) (fun q => JxW F c q * dot_vec F (m q) (at_quad F v c q))).
  { intros m. unfold dot_vec, at_quad, convert_from_dof_to_quad.
    rewrite (sumN_ext nn _ (fun a => sumN (num_quads E) (fun q => sumN (vec F) (fun k => v (cell_node F c a) k * (m q k * shape_vals E q a * JxW F c q))))).
    - rewrite sumN_swap. apply sumN_ext. intros q _. rewrite sumN_swap, <- sumN_scal. apply sumN_ext. intros k _.
      rewrite <- !sumN_scal. apply sumN_ext. intros a _. ring.
    - intros a _. rewrite sumN_swap. apply sumN_ext. intros k _. now rewrite sumN_scal. }
  rewrite (sumN_ext (num_quads E) _ (fun q => JxW F c q * sumN (vec F) (fun k => sumN (dim F) (fun d => stress F iv sol c q k d * sol_to_grad F v c q k d))
     + JxW F c q * dot_vec F (reaction F iv sol c q) (at_quad F v c q))) by (intros; ring).
  rewrite sumN_add, <- L, <- M, <- sumN_add. apply sumN_ext. intros a _. rewrite <- sumN_add. apply sumN_ext. intros k _.
  rewrite <- Rmult_plus_distr_l. f_equal. unfold cell_force, kernel, stress, reaction. f_equal.
  - destruct (tensor_map F) as [tm|].
    + reflexivity.
    + symmetry. apply sumN_zero. intros q _. apply sumN_zero. intros d _. ring.
  - destruct (mass_map F) as [mm|].
    + reflexivity.
    + symmetry. apply sumN_zero. intros q _. ring.
Qed.
Lemma cauchy_force_test sol v x :
  sumN nn (fun a => sumN (vec F) (fun k => v (cell_node F (fst (fst x)) a) k * cauchy_force F sol x a k))
  = sumN (num_face_quads E) (fun p => nanson_scale F (fst x) p * dot_vec F (snd x (at_face F sol (fst x) p)) (at_face F v (fst x) p)).
Proof.
  unfold cauchy_force, cauchy_values, cauchy_kernel, dot_vec.
  rewrite (sumN_ext nn _ (fun a => sumN (num_face_quads E) (fun p => sumN (vec F) (fun k => v (cell_node F (fst (fst x)) a) k *
    (snd x (at_face F sol (fst x) p) k * face_shape_vals E (snd (fst x)) p a * nanson_scale F (fst x) p))))).
  - rewrite sumN_swap. apply sumN_ext. intros p _. rewrite sumN_swap, <- sumN_scal. apply sumN_ext. intros k _.
    change (at_face F v (fst x) p k) with (sumN nn (fun a => v (cell_node F (fst (fst x)) a) k * face_shape_vals E (snd (fst x)) p a)). rewrite <- !sumN_scal. apply sumN_ext. intros a _. ring.
  - intros a _. rewrite sumN_swap. apply sumN_ext. intros k _. now rewrite sumN_scal.
Qed.

Lemma virtual_work inds sol iv :
  iv_sized F iv -> (0 < num_cells F)%nat -> neumann_ok F inds -> (forall sel, In sel inds -> faces_ok F sel) ->
  exists r, compute_residual_vars F inds sol iv = Ok r /\ forall v,
  sumN (num_total_nodes F) (fun n => sumN (vec F) (fun k => v n k * r n k))
  = internal_power F iv sol v + cauchy_power F sol v - body_power F iv v - neumann_power F inds iv v.
Proof.
  intros Hiv H0 Hn Hs. destruct (neumann_eq inds iv Hn Hs) as (nm & Hnm & Hv).
  destruct (residual_eq inds sol iv nm Hiv H0 Hnm) as (r & Hr & He). exists r. split; [exact Hr|]. intros v.
  rewrite <- Hv, <- body_force_test.
  replace (internal_power F iv sol v) with (sumN (num_total_nodes F) (fun n => sumN (vec F) (fun k => v n k * corners F (all_cells F) (fun c => c) (cell_force F iv sol) n k))).
  2: { rewrite corners_test by apply all_cells_lt. unfold internal_power. apply sumR_ext. intros c _. apply cell_force_test. }
  replace (cauchy_power F sol v) with (sumN (num_total_nodes F) (fun n => sumN (vec F) (fun k => v n k * corners F (cauchy_faces F) (fun x => fst (fst x)) (cauchy_force F sol) n k))).
  2: { rewrite corners_test by apply cauchy_faces_lt. unfold cauchy_power. apply sumR_ext. intros x _. apply cauchy_force_test. }
  rewrite <- sumN_add, <- !sumN_sub. apply sumN_ext. intros n _.
  rewrite <- sumN_add, <- !sumN_sub. apply sumN_ext. intros k _. rewrite He. ring.
Qed.
End Asm.
Close Scope R_scope.
