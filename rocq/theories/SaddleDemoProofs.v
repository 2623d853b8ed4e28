(** * The constraints of the periodic Poisson demo and of the multi-scale cell. *)
From Coq Require Import String FunctionalExtensionality Classical Lra Lia.
From Verif Require Import Prelude PreludeFacts FemModel FemFacts FemSpec FemProofs FemAsmProofs FemMatProofs FemGeoProofs BasisModel BasisSpec MatModel SolverModel SolverSpec SolverProofs SolverLmProofs SolverFemProofs RveModel RveSpec RveMeanProofs RveSolveProofs WellSpec WellProofs ConnSpec ConnRankProofs ConnMainProofs SaddleSpec SaddleModel SaddleProofs SaddleFemProofs.
From Verif Require MeshModel.
Open Scope R_scope.
Open Scope list_scope.

(** dependent constraints make the augmented matrix singular at every state *)
Section Dependent.
Context {V : Type}.
Variable F : fem V.
Variables (inds : list (list (nat * nat))) (iv : internal_vars V).
Variable jac : nodal -> (nat -> nat -> nat -> R) -> (nat -> R) -> (nat -> nat -> nat -> R) -> list (nat -> V) -> list (nat -> V) -> jac4.
Variable cjac : ((nat -> R) -> nat -> R) -> nodal -> (nat -> nat -> R) -> (nat -> R) -> jac4.
Variables (locs : list (point -> bool)) (vecs : list nat) (fns : list (point -> R)).
Variable info : list ((point -> bool) * (point -> bool) * (point -> point) * nat).
Variable eps : option R.
Variable P : problem.
Hypothesis HP : fem_problem F inds iv jac cjac (Some (locs, vecs, fns)) (Some info) eps = Ok P.
Hypothesis Hvecs : Forall (fun k => (k < vec F)%nat) vecs.
Hypothesis Hpv : Forall (fun t => (snd t < vec F)%nat) info.
Hypothesis Hwf : wf_mesh F.
Hypothesis Hloads : loads_ok F inds iv.
Hypothesis Hc : (0 < num_cells F)%nat.
Lemma sd_newton u : exists r ijv, newton_update P u = Ok (r, ijv).
Proof.
  destruct Hloads as (Hiv & Hneu & Hfc). pose proof (fem_problem_fields F inds iv jac cjac locs vecs fns (Some info) eps P HP) as (_ & _ & _ & _ & Hnu & _).
  rewrite Hnu. destruct (newton_spec F Hwf jac cjac inds u iv Hiv Hc Hneu Hfc) as (r & j & H & _). eauto.
Qed.
Lemma sd_singular x : ~ independent_constraints P -> ~ solvable_augmented P x.
Proof.
  intros Hn Hs. apply Hn. destruct (sd_newton (fun _ _ => 0)) as (r & ijv & Hr).
  exact (regular_independent P (sf_bc F inds iv jac cjac locs vecs fns info eps P HP Hvecs) (sf_per F inds iv jac cjac locs vecs fns info eps P HP Hpv) x _ r ijv
    (sf_mat F inds iv jac cjac locs vecs fns info eps P HP Hwf Hloads Hc) Hr Hs).
Qed.
End Dependent.

(** ** the demo *)
Section Demo.
Context {V : Type}.
Variable F : fem V.
Variables (inds : list (list (nat * nat))) (iv : internal_vars V).
Variable jac : nodal -> (nat -> nat -> nat -> R) -> (nat -> R) -> (nat -> nat -> nat -> R) -> list (nat -> V) -> list (nat -> V) -> jac4.
Variable cjac : ((nat -> R) -> nat -> R) -> nodal -> (nat -> nat -> R) -> (nat -> R) -> jac4.
Variable eps : option R.
Variable P : problem.
Variable force : point -> nat -> R.
Hypothesis HP : fem_problem F inds iv jac cjac (Some demo_dirichlet) (Some demo_periodic) eps = Ok P.
Hypothesis HC : demo_class F force.
Hypothesis Hwf : wf_mesh F.
Hypothesis Hloads : loads_ok F inds iv.
Hypothesis Hc : (0 < num_cells F)%nat.
Lemma demo_vecs : Forall (fun k => (k < vec F)%nat) [0; 0]%nat.
Proof. destruct HC as (-> & _). repeat constructor. Qed.
Lemma demo_pv : Forall (fun t => (snd t < vec F)%nat) demo_periodic.
Proof. destruct HC as (-> & _). repeat constructor. Qed.
(** the corner at the origin, its partner, and their pair *)
Lemma demo_dependent n : (n < num_total_nodes F)%nat -> points F n 0%nat = 0 -> points F n 1%nat = 0 -> ~ independent_constraints P.
Proof.
  intros Hn H0 H1. assert (Hd : dim F = 2%nat) by (destruct HC as (_ & H & _); exact H).
  destruct (fem_pair_in F inds iv jac cjac _ _ _ (Some demo_periodic) eps P HP Hc demo_periodic 0 demo_left demo_right demo_mapping 0 n eq_refl eq_refl Hn) as (b & Hin & Hb & _ & Hdist).
  { unfold demo_left, isclose. apply Rleb_true. rewrite H0, Rminus_0_r, Rabs_R0. lra. }
  assert (Hcond : forall m, (m < num_total_nodes F)%nat -> demo_bottom (points F m) = true -> conditioned P m 0).
  { intros m Hm Hx. eexists. apply (fem_condition_in F inds iv jac cjac _ _ _ (Some demo_periodic) eps P HP Hc 0 m 0 Hm). split; [cbn; lia|]. split; [reflexivity|exact Hx]. }
  apply (held_pair_dependent P (sf_bc F inds iv jac cjac _ _ _ _ eps P HP demo_vecs) (sf_per F inds iv jac cjac _ _ _ _ eps P HP demo_pv) n b 0 Hin); apply Hcond; try assumption; unfold demo_bottom, isclose; apply Rleb_true.
  - rewrite H1, Rminus_0_r, Rabs_R0. lra.
  - rewrite Rminus_0_r, Rabs_R0. unfold dist, norm_dim in Hdist. rewrite Hd in Hdist. unfold sumN in Hdist. cbn [seq sumR] in Hdist. unfold demo_mapping in Hdist. cbn [Nat.eqb] in Hdist. rewrite H1 in Hdist.
    apply Rle_trans with (sqrt ((points F b 1%nat) ^ 2)); [rewrite <- (Rsqr_pow2 (points F b 1%nat)), sqrt_Rsqr_abs; lra|]. unfold EPS in Hdist.
    apply Rlt_le in Hdist. rewrite Rmult_0_r, Rplus_0_r. apply Rle_trans with (2 := Hdist). apply sqrt_le_1_alt. pose proof (pow2_ge_0 (points F n 0%nat + 1 - points F b 0%nat)). lra.
Qed.
Lemma demo_singular n x : (n < num_total_nodes F)%nat -> points F n 0%nat = 0 -> points F n 1%nat = 0 -> ~ solvable_augmented P x.
Proof.
  intros Hn H0 H1. apply (sd_singular F inds iv jac cjac _ _ _ demo_periodic eps P HP demo_vecs demo_pv Hwf Hloads Hc). exact (demo_dependent n Hn H0 H1).
Qed.
Lemma demo_consistent : consistent_constraints P.
Proof. apply (sf_zero_consistent F inds iv jac cjac _ _ _ demo_periodic eps P HP). repeat constructor. Qed.
Lemma linked_joined k n m : linked F n m -> joined F P k n m.
Proof. induction 1 as [|c a b Hcc Ha Hb _ IH]; [constructor|]. now apply (joined_cell F P k n c a b). Qed.
Lemma demo_anchored : (forall n, (n < num_total_nodes F)%nat -> exists m, linked F n m /\ (m < num_total_nodes F)%nat /\ (demo_bottom (points F m) = true \/ demo_top (points F m) = true)) -> anchored F P.
Proof.
  intros H n k Hn Hk. destruct (H n Hn) as (m & Hl & Hm & Hx). exists m. split; [now apply linked_joined|]. assert (k = 0%nat) as -> by (destruct HC as (Hv & _); lia).
  destruct Hx as [Hx|Hx]; eexists; [apply (fem_condition_in F inds iv jac cjac _ _ _ (Some demo_periodic) eps P HP Hc 0 m 0 Hm)|apply (fem_condition_in F inds iv jac cjac _ _ _ (Some demo_periodic) eps P HP Hc 1 m 0 Hm)]; (split; [cbn; lia|]); (split; [reflexivity|exact Hx]).
Qed.
End Demo.

(** ** the multi-scale cell: the four edges along z of the box are tied in a ring *)
Section Cell.
Context {V : Type}.
Variable F : fem V.
Variables (inds : list (list (nat * nat))) (iv : internal_vars V).
Variable jac : nodal -> (nat -> nat -> nat -> R) -> (nat -> R) -> (nat -> nat -> nat -> R) -> list (nat -> V) -> list (nat -> V) -> jac4.
Variable cjac : ((nat -> R) -> nat -> R) -> nodal -> (nat -> nat -> R) -> (nat -> R) -> jac4.
Variable eps : option R.
Variable P : problem.
Variables (N : nat) (len : R).
Local Notation m := (MeshModel.box_mesh N N N len len len).
Hypothesis HP : fem_problem F inds iv jac cjac (Some rve_dirichlet) (Some (rve_periodic len)) eps = Ok P.
Hypothesis HN : (0 < N)%nat.
Hypothesis Hlen : 0 < len.
Hypothesis Hmesh : has_mesh3 F (MeshModel.points m) (MeshModel.cells m).
Hypothesis Hnodes : num_total_nodes F = length (MeshModel.points m).
Hypothesis Hdim : dim F = 3%nat.
Hypothesis Hvec : vec F = 3%nat.
Hypothesis Hfine : / 100000 * (1 + len) < len / INR N.
Lemma cell_pair d p r v : (d < 3)%nat -> (v < 3)%nat -> (p <= N)%nat -> (r <= N)%nat -> In (side N d 0 p r, side N d N p r, v) (pairs P).
Proof.
  intros Hd Hv Hp Hr. destruct (fem_problem_fields _ _ _ _ _ _ _ _ _ _ _ HP) as (_ & _ & _ & _ & _ & _ & _ & _ & _ & _ & pl & Hpl & HA & HB & HVV).
  destruct (conditions_found F N len HN Hlen Hmesh Hnodes Hdim Hfine) as (l & Hl & H9 & Hx). assert (l = pl) as -> by congruence.
  destruct (Hx d v Hd Hv) as (la & lb & Hi & _ & _ & Hin & Hm). assert (Ha : In (side N d 0 p r) la) by (apply Hin; eauto). apply In_nth_error in Ha as (j & Hj).
  assert (Hb := Hm j p r Hp Hr Hj). assert (Hlt : (3 * d + v < length pl)%nat) by (apply nth_error_Some; congruence).
  unfold pairs. rewrite HA, HB, HVV, map_length. apply in_flat_map. exists (3 * d + v)%nat. split; [apply in_seq; lia|]. rewrite !(nth_map_in _ _ (3 * d + v)%nat ([], [], [])) by exact Hlt. rewrite (nth_error_nth _ _ _ Hi). cbn [fst snd].
  clear - Hj Hb. revert lb j Hj Hb. generalize (side N d 0 p r) as x. generalize (side N d N p r) as y. intros y x. induction la as [|z la IH]; intros [|w lb] [|j] Hj Hb; cbn in Hj, Hb; try discriminate.
  - injection Hj as ->. injection Hb as ->. left. reflexivity.
  - right. exact (IH lb j Hj Hb).
Qed.
Lemma cell_dependent : ~ independent_constraints P.
Proof.
  assert (Hpv : Forall (fun t => (snd t < vec F)%nat) (rve_periodic len)) by (rewrite Hvec; repeat constructor).
  assert (Hdv : bc_ok P) by (apply (fem_bc_ok F inds iv jac cjac _ _ _ (Some (rve_periodic len)) eps P HP); rewrite Hvec; repeat constructor).
  assert (Hper : periodic_ok P) by exact (fem_periodic_ok F inds iv jac cjac _ _ _ (Some (rve_periodic len)) eps P HP Hpv).
  apply (ring_dependent P Hdv Hper (box_node N 0 0 0) (box_node N N 0 0) (box_node N N N 0) (box_node N 0 N 0) 0).
  - exact (cell_pair 0 0 0 0 ltac:(lia) ltac:(lia) ltac:(lia) ltac:(lia)).
  - exact (cell_pair 1 N 0 0 ltac:(lia) ltac:(lia) ltac:(lia) ltac:(lia)).
  - exact (cell_pair 0 N 0 0 ltac:(lia) ltac:(lia) ltac:(lia) ltac:(lia)).
  - exact (cell_pair 1 0 0 0 ltac:(lia) ltac:(lia) ltac:(lia) ltac:(lia)).
  - unfold box_node. nia.
  - unfold box_node. nia.
  - unfold box_node. nia.
Qed.
Lemma cell_singular x : wf_mesh F -> loads_ok F inds iv -> (0 < num_cells F)%nat -> ~ solvable_augmented P x.
Proof.
  intros Hwf Hl Hc. apply (sd_singular F inds iv jac cjac _ _ _ (rve_periodic len) eps P HP); try assumption; [rewrite Hvec; repeat constructor|rewrite Hvec; repeat constructor|exact cell_dependent].
Qed.
End Cell.
Close Scope R_scope.
