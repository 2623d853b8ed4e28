(** * A beam of three triangles that is stretched upwards, with one free node. *)
From Coq Require Import String FunctionalExtensionality Lra Lia.
From Verif Require Import Prelude PreludeFacts FemModel FemFacts FemSpec FemAsmProofs FemGeoProofs FemMatProofs BasisModel BasisSpec BasisProofs BasisQuadProofs BasisExamples MatModel SolverModel SolverSpec WellSpec WellProofs MaxSpec ConnSpec SaddleModel SaddleExamples RveExamples HeatWellProofs ConnMainProofs RobModel RobSpec RobWellProofs RobProofs RobExamples CurModel CurSpec CurProofs.
Open Scope R_scope.
Open Scope list_scope.

Definition bm : fem (list R) := mkFem tri_E 5 (fun n => nth n (map pt fan_pts) origin) fan_cells 2 (Some cur_map) None (fun u => u) None None None.
Lemma bm_det c q : (c < 3)%nat -> jacobian_det bm c q = nth c [1/2; 1; 1/2] 0.
Proof. exact (fan_det None None c q). Qed.
Lemma bm_weight c q : (c < 3)%nat -> (q < 1)%nat -> JxW bm c q = nth c [1/4; 1/2; 1/4] 0.
Proof. exact (fan_weight None None c q). Qed.
Lemma bm_wf : wf_mesh bm.
Proof. exact (fan_wf None None). Qed.
Lemma bm_neu : neumann_ok bm [].
Proof. exact I. Qed.
Lemma bm_beam : beam bm.
Proof.
  repeat (split; [first [reflexivity | exact bm_wf | cbn; lia]|]). intros c q Hc Hq. change (c < 3)%nat in Hc. change (q < 1)%nat in Hq. rewrite bm_weight by assumption.
  destruct c as [|[|[|c]]]; [| | |lia]; cbn; lra.
Qed.
Lemma bm_grad u c q b G i d : (c < 3)%nat -> (q < 1)%nat -> (d < 2)%nat ->
  (forall a, (a < 3)%nat -> u (cell_node bm c a) i = b + G 0%nat * points bm (cell_node bm c a) 0%nat + G 1%nat * points bm (cell_node bm c a) 1%nat) -> sol_to_grad bm u c q i d = G d.
Proof.
  intros Hc Hq Hd Hu. rewrite <- (patch_test bm c q (fun _ => b) (fun _ => G) i d).
  - unfold sol_to_grad. apply sumN_ext. intros a Ha. f_equal. change (a < 3)%nat in Ha. rewrite Hu by exact Ha. unfold affine_field, sumN. change (dim bm) with 2%nat. cbn [seq sumR]. ring.
  - right; left; reflexivity.
  - exact (lm_grads (fan None None) ex_basix "TRI3"%string (fan_mesh None None)).
  - exact Hq.
  - rewrite bm_det by exact Hc. destruct c as [|[|[|c]]]; [| | |lia]; cbn; lra.
  - exact Hd.
Qed.
(** the field (-0.3 x, y) and the displacement of the free node in one direction *)
Definition stretch : nodal := fun n i => match i with O => -3 / 10 * points bm n 0%nat | _ => points bm n 1%nat end.
Definition push (k : nat) : nodal := fun n i => if Nat.eqb n 4 then (if Nat.eqb i k then 1 else 0) else 0.
Definition G_stretch : mat := fun i j => match i, j with O, O => -3 / 10 | O, _ => 0 | S _, O => 0 | S _, S _ => 1 end.
Lemma stretch_grad c q i d : (c < 3)%nat -> (q < 1)%nat -> (d < 2)%nat -> sol_to_grad bm stretch c q i d = G_stretch i d.
Proof. intros Hc Hq Hd. apply bm_grad with (b := 0); try assumption. intros a Ha. unfold stretch, G_stretch. destruct i; ring. Qed.
Lemma push_grad k c q i d : (c < 3)%nat -> (q < 1)%nat -> (d < 2)%nat -> sol_to_grad bm (push k) c q i d = if Nat.eqb i k then slope_of c 0%nat d else 0.
Proof.
  intros Hc Hq Hd. destruct (Nat.eqb i k) eqn:E.
  - apply (bm_grad (push k) c q (INR c) (slope_of c 0%nat)); try assumption. intros a Ha. unfold push. rewrite E.
    destruct c as [|[|[|c]]]; [| | |lia]; destruct a as [|[|[|a]]]; try lia; unfold cell_node, slope_of; cbn; unfold pt; cbn; lra.
  - apply (bm_grad (push k) c q 0 (fun _ => 0)); try assumption. intros a Ha. unfold push. rewrite E. destruct (Nat.eqb _ 4); ring.
Qed.
Lemma stretch_work params k : length params = 3%nat -> (k < 2)%nat -> energy_form bm (cur_vars bm params) stretch (push k) = if Nat.eqb k 1 then (cur_E (nth 0 params 0) - cur_E (nth 2 params 0)) / 2 else 0.
Proof.
  intros Hp Hk. rewrite (form_eq bm bm_beam) by exact Hp. change (num_cells bm) with 3%nat. change (num_quads (f_ele bm)) with 1%nat. unfold sumN. cbn [seq sumR]. rewrite !bm_weight by lia.
  rewrite !dens_eq, !stretch_grad, !push_grad by lia. cbn [G_stretch nth]. destruct k as [|[|k]]; [| |lia]; cbn [Nat.eqb slope_of]; field.
Qed.
Lemma stretch_stored params : length params = 3%nat -> stored bm params stretch = (cur_E (nth 0 params 0) + 2 * cur_E (nth 1 params 0) + cur_E (nth 2 params 0)) / 4.
Proof.
  intros Hp. unfold stored. rewrite (form_eq bm bm_beam) by exact Hp. change (num_cells bm) with 3%nat. change (num_quads (f_ele bm)) with 1%nat. unfold sumN. cbn [seq sumR]. rewrite !bm_weight by lia.
  rewrite !dens_eq, !stretch_grad by lia. cbn [G_stretch nth]. field.
Qed.
(** the four corners are held at the values of the field *)
Definition corner : point -> bool := fun p => negb (Reqb (p 1%nat) (1/2)).
Definition ends_x : point -> R := fun p => -3 / 10 * p 0%nat.
Definition ends_y : point -> R := fun p => p 1%nat.
Lemma bm_corner n : (n < 5)%nat -> corner (points bm n) = negb (Nat.eqb n 4).
Proof. intros Hn. unfold corner. five n; cbn; unfold pt; cbn; first [rewrite (proj2 (Reqb_false _ _)) by lra; reflexivity | rewrite (proj2 (Reqb_true _ _)) by lra; reflexivity]. Qed.
Definition held : list (point -> bool) * list nat * list (point -> R) := ([corner; corner], [0; 1]%nat, [ends_x; ends_y]).
Lemma bm_fixed n k : (n < 5)%nat -> (k < 2)%nat -> n <> 4%nat -> fixed bm [corner; corner] [0; 1]%nat n k.
Proof.
  intros Hn Hk H4. exists k. split; [cbn; lia|]. split; [destruct k as [|[|k]]; [reflexivity|reflexivity|lia]|]. replace (nth k [corner; corner] (fun _ => false)) with corner by (destruct k as [|[|k]]; [reflexivity|reflexivity|lia]).
  rewrite bm_corner by exact Hn. rewrite (proj2 (Nat.eqb_neq _ _) H4). reflexivity.
Qed.
Lemma stretch_residual params r k : length params = 3%nat -> (k < 2)%nat -> compute_residual_vars bm [] stretch (cur_vars bm params) = Ok r -> r 4%nat k = if Nat.eqb k 1 then (cur_E (nth 0 params 0) - cur_E (nth 2 params 0)) / 2 else 0.
Proof.
  intros Hp Hk Hr. pose proof (full_residual bm [] (cur_vars bm params) bm_wf (cur_sized bm params) ltac:(cbn; lia) bm_neu ltac:(intros s []) stretch r Hr (push k)) as H.
  unfold full_power in H. rewrite (power_form bm eq_refl), no_load, stretch_work in H by (assumption || exact bm_beam).
  unfold cauchy_power, cauchy_faces in H. cbn [cauchy_bc_info bm sumR] in H.
  change (num_total_nodes bm) with 5%nat in H. change (vec bm) with 2%nat in H. unfold sumN, push in H. cbn [seq sumR Nat.eqb] in H. destruct k as [|[|k]]; [| |lia]; cbn [Nat.eqb] in H |- *; lra.
Qed.
Lemma stretch_solves params : length params = 3%nat -> cur_E (nth 0 params 0) = cur_E (nth 2 params 0) -> let '(locs, vecs, fns) := held in discrete_solution bm locs vecs fns [] (cur_vars bm params) stretch.
Proof.
  intros Hp HE. cbn [held]. split.
  - intros i n k Hn [(Hi & Hk & _) _]. cbn [length] in Hi. destruct i as [|[|i]]; [| |lia]; cbn in Hk; subst k; reflexivity.
  - destruct (virtual_work bm bm_wf [] stretch (cur_vars bm params) (cur_sized bm params) ltac:(cbn; lia) bm_neu ltac:(intros s [])) as (r & Hr & _). exists r. split; [exact Hr|].
    intros n k Hn Hk Hf. change (n < 5)%nat in Hn. change (k < 2)%nat in Hk. assert (n = 4%nat) by (destruct (Nat.eq_dec n 4) as [E|E]; [exact E|exfalso; apply Hf; now apply bm_fixed]). subst n.
    rewrite (stretch_residual params r k Hp Hk Hr), HE. destruct (Nat.eqb k 1); field.
Qed.
Lemma bm_free k : ~ fixed bm [corner; corner] [0; 1]%nat 4%nat k.
Proof.
  intros (i & Hi & _ & Hc). cbn [length] in Hi. replace (nth i [corner; corner] (fun _ => false)) with corner in Hc by (destruct i as [|[|i]]; [reflexivity|reflexivity|lia]). rewrite bm_corner in Hc by lia. discriminate Hc.
Qed.
Close Scope R_scope.
