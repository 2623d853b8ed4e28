(** * Concrete problems on box meshes for the examples. *)
From Coq Require Import String FunctionalExtensionality Lra Lia.
From Verif Require Import Prelude PreludeFacts FemModel FemFacts FemSpec FemGeoProofs FemMatProofs BasisModel BasisSpec BasisQuadProofs BasisExamples MatModel MatSpec MatProofs SolverModel SolverSpec SolverFemProofs SolverExamples RveSpec RveExamples CrysSpec BoxSpec BoxProofs BoxPatchProofs BoxRveProofs BoxExamples WellSpec WellProofs WellBoxProofs WellMainProofs.
From Verif Require MeshModel.
Open Scope R_scope.
Open Scope list_scope.

Lemma brick_hex {V} Nx Ny Nz Lx Ly Lz (tm : list V -> mat -> mat) neu : (0 < Nx)%nat -> (0 < Ny)%nat -> (0 < Nz)%nat -> 0 < Lx -> 0 < Ly -> 0 < Lz ->
  box_hex (brick Nx Ny Nz Lx Ly Lz tm neu) ex_basix Nx Ny Nz Lx Ly Lz.
Proof.
  intros Hx Hy Hz H1 H2 H3. repeat (split; [first [exact ex_documented | exact ex_exact_hex | assumption]|]).
  split; [exact (brick_mesh _ _ _ _ _ _ _ _)|]. split; [reflexivity|exact hex_E_ok].
Qed.
Definition near_end : point -> bool := fun p => Reqb (p 0%nat) 0.
(** LinearPoisson for three fields on the bar: all of them zero at x = 0, a flux of 1 into the first at x = 2 *)
Definition push1 : point -> list R -> nat -> R := fun _ _ k => match k with 0%nat => 1 | _ => 0 end.
Definition heat_bar : fem R := brick 1 2 3 2 3 1 (fun _ => poisson_map) (Some [push1]).
Definition held3 (f0 f1 f2 : point -> R) : list (point -> bool) * list nat * list (point -> R) := ([near_end; near_end; near_end], [0; 1; 2]%nat, [f0; f1; f2]).
Definition heat_inds := get_boundary_conditions_inds heat_bar [far_end].
Definition heat_problem : problem :=
  match fem_problem heat_bar heat_inds no_vars (unit_jac heat_bar) cjac0 (Some (held3 (fun _ => 0) (fun _ => 0) (fun _ => 0))) None None with Ok p => p | Err _ => per 4 end.
Lemma heat_ok : fem_problem heat_bar heat_inds no_vars (unit_jac heat_bar) cjac0 (Some (held3 (fun _ => 0) (fun _ => 0) (fun _ => 0))) None None = Ok heat_problem.
Proof. reflexivity. Qed.
Lemma heat_box : box_hex heat_bar ex_basix 1 2 3 2 3 1.
Proof. apply brick_hex; lia || lra. Qed.
Lemma heat_loads : loads_ok heat_bar heat_inds no_vars.
Proof.
  split; [split; constructor|]. split; [cbn; lia|]. intros s Hs. apply in_map_iff in Hs as (loc & <- & _). exact (sel_ok heat_bar 1 2 3 2 3 1 ltac:(lia) ltac:(lia) ltac:(lia) eq_refl loc).
Qed.
Lemma heat_jac : exact_jacobians heat_bar no_vars (unit_jac heat_bar).
Proof.
  apply (unit_jac_exact heat_bar (fun _ => poisson_map) eq_refl (poisson_linear heat_bar) eq_refl).
  intros vars G H k d HG Hk Hd. now apply HG.
Qed.
(** the node at the origin *)
Lemma near_fixed (F : fem R) f0 f1 f2 n k : points F n 0%nat = 0 -> (k < 3)%nat -> let '(l, v, _) := held3 f0 f1 f2 in fixed F l v n k.
Proof.
  intros Hp Hk. cbn [held3]. exists k. unfold applies. destruct k as [|[|[|k]]]; try lia; cbn [List.length nth]; (split; [lia|]; split; [reflexivity|]; apply Reqb_true; exact Hp).
Qed.
Lemma first_node : (0 < num_total_nodes heat_bar)%nat /\ points heat_bar 0 0%nat = 0.
Proof.
  split; [exact (hex_nodes heat_bar ex_basix 1 2 3 2 3 1 heat_box)|].
  pose proof (node_point heat_bar 1 2 3 2 3 1 ltac:(lia) ltac:(lia) ltac:(lia) (brick_mesh _ _ _ _ _ _ _ _) eq_refl 0 0 0 0 ltac:(lia) ltac:(lia) ltac:(lia) ltac:(lia)) as H.
  cbn [along INR] in H. replace (points heat_bar 0 0%nat) with (points heat_bar (node 2 3 0 0 0) 0%nat) by reflexivity. rewrite H. field.
Qed.
Lemma last_node : (12 < num_total_nodes heat_bar)%nat /\ points heat_bar 12 0%nat = 2.
Proof.
  split; [vm_compute; lia|].
  pose proof (node_point heat_bar 1 2 3 2 3 1 ltac:(lia) ltac:(lia) ltac:(lia) (brick_mesh _ _ _ _ _ _ _ _) eq_refl 1 0 0 0 ltac:(lia) ltac:(lia) ltac:(lia) ltac:(lia)) as H.
  cbn [along INR] in H. change (node 2 3 1 0 0) with 12%nat in H. rewrite H. field.
Qed.
(** LinearElasticity on the same bar, no loads, the side x = 0 turned by the small rotation that takes (x, y, z) to (-y, x, 0) *)
Definition turned_bar : fem R := brick 1 2 3 2 3 1 (fun _ => linear_elastic_stress 3) (Some []).
Definition turn : nodal := fun n k => match k with 0%nat => - points turned_bar n 1%nat | 1%nat => points turned_bar n 0%nat | _ => 0 end.
Definition turned_sides := held3 (fun p => - p 1%nat) (fun p => p 0%nat) (fun _ => 0).
Definition turned_problem : problem :=
  match fem_problem turned_bar [] no_vars (unit_jac turned_bar) cjac0 (Some turned_sides) None None with Ok p => p | Err _ => per 4 end.
Lemma turned_ok : fem_problem turned_bar [] no_vars (unit_jac turned_bar) cjac0 (Some turned_sides) None None = Ok turned_problem.
Proof. reflexivity. Qed.
Lemma turned_box : box_hex turned_bar ex_basix 1 2 3 2 3 1.
Proof. apply brick_hex; lia || lra. Qed.
Lemma turned_loads : loads_ok turned_bar [] no_vars.
Proof. split; [split; constructor|]. split; [cbn; lia|]. intros s []. Qed.
Lemma turned_jac : exact_jacobians turned_bar no_vars (unit_jac turned_bar).
Proof.
  destruct (box_dim ex_basix ex_documented turned_bar hex_E_ok) as [Ed _].
  apply (unit_jac_exact turned_bar (fun _ => linear_elastic_stress 3) eq_refl (elastic_linear ex_basix ex_documented turned_bar hex_E_ok eq_refl) eq_refl).
  intros vars G H k d HG Hk Hd. rewrite Ed in *. change (vec turned_bar) with 3%nat in *. unfold linear_elastic_stress, trace, sumN. cbn [seq sumR]. rewrite !HG by lia. reflexivity.
Qed.
Lemma held_solution (F : fem R) f0 f1 f2 u inds iv r : vec F = 3%nat ->
  (forall n, (n < num_total_nodes F)%nat -> points F n 0%nat = 0 -> u n 0%nat = f0 (points F n) /\ u n 1%nat = f1 (points F n) /\ u n 2%nat = f2 (points F n)) ->
  compute_residual_vars F inds u iv = Ok r -> (forall n k, (n < num_total_nodes F)%nat -> (k < 3)%nat -> points F n 0%nat <> 0 -> r n k = 0) ->
  let '(l, v, f) := held3 f0 f1 f2 in discrete_solution F l v f inds iv u.
Proof.
  intros Hv Hu Hr Hz. cbn [held3]. split.
  - intros i n k Hn [(Hi & Hk & Hl) _]. cbn [List.length] in Hi.
    destruct i as [|[|[|i]]]; [| | |lia]; cbn [nth] in *; apply Reqb_true in Hl; destruct (Hu n Hn Hl) as (H0 & H1 & H2); subst k; assumption.
  - exists r. split; [exact Hr|]. intros n k Hn Hk Hf. rewrite Hv in Hk. apply Hz; [exact Hn|exact Hk|]. intros Hp. apply Hf. exact (near_fixed F f0 f1 f2 n k Hp Hk).
Qed.
Close Scope R_scope.
