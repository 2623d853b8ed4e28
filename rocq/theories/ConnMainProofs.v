(** * Solvability on meshes of any Lagrange element. *)
From Coq Require Import String FunctionalExtensionality Classical Lra Lia QArith.
From Verif Require Import Prelude PreludeFacts FemModel FemFacts FemSpec FemAsmProofs FemMatProofs FemGeoProofs BasisModel BasisSpec BasisProofs BasisQuadProofs BasisProps MatModel MatSpec MatProofs SolverModel SolverSpec SolverProofs SolverLmProofs SolverAdProofs SolverFemProofs MmaNewtonProofs WellSpec WellProofs WellBoxProofs MaxSpec HeatModel HeatSpec HeatWellProofs HeatStepProofs HeatMainProofs ConnSpec ConnRankProofs.
Open Scope R_scope.
Open Scope list_scope.

(** ** a displacement that no load of the interior can feel makes the matrix singular *)
Section Kernel.
Context {V : Type}.
Variable F : fem V.
Variable tm : list V -> mat -> mat.
Hypothesis Htm : tensor_map F = Some tm.
Hypothesis Hlin : linear_tensor F tm.
Hypothesis Hmass : mass_map F = None.
Hypothesis Hcau : cauchy_bc_info F = None.
Variables (inds : list (list (nat * nat))) (iv : internal_vars V).
Variable jac : nodal -> (nat -> nat -> nat -> R) -> (nat -> R) -> (nat -> nat -> nat -> R) -> list (nat -> V) -> list (nat -> V) -> jac4.
Variable cjac : ((nat -> R) -> nat -> R) -> nodal -> (nat -> nat -> R) -> (nat -> R) -> jac4.
Hypothesis Hjac : exact_jacobians F iv jac.
Variables (locs : list (point -> bool)) (vecs : list nat) (fns : list (point -> R)).
Variable eps : option R.
Variable P : problem.
Hypothesis HP : fem_problem F inds iv jac cjac (Some (locs, vecs, fns)) None eps = Ok P.
Hypothesis Hvecs : Forall (fun k => (k < vec F)%nat) vecs.
Hypothesis Hwf : wf_mesh F.
Hypothesis Hiv : iv_sized F iv.
Hypothesis Hc : (0 < num_cells F)%nat.
Hypothesis Hneu : neumann_ok F inds.
Hypothesis Hfaces : forall s, In s inds -> faces_ok F s.
Lemma kernel_unsolvable w n0 k0 use_petsc : admissible F locs vecs w -> (forall u, energy_form F iv u w = 0) -> (n0 < num_total_nodes F)%nat -> (k0 < vec F)%nat -> w n0 k0 <> 0 ->
  ~ solvable_problem P use_petsc.
Proof.
  intros Hadm Hw Hn0 Hk0 Hnz Hsol. pose proof (well_affine F tm Htm Hlin Hmass Hcau inds iv jac cjac Hjac locs vecs fns eps P HP Hwf Hiv Hc Hneu Hfaces (fun _ _ => 0) (fun _ _ => 0)) as (r & _ & ijv & _ & Hr & _ & _).
  destruct (Hsol _ _ _ Hr (ravel P w)) as (x & Hx).
  pose proof (matrix_form F tm Htm Hlin Hmass Hcau inds iv jac cjac Hjac locs vecs fns eps P HP Hwf Hiv Hc Hneu Hfaces _ _ _ (reshape P x) w Hr) as Hm. rewrite Hw in Hm.
  assert (Hrav : forall i, (i < num_total_dofs P)%nat -> ravel P (reshape P x) i = x i).
  { intros i Hi. destruct (dof_ex P i Hi) as (n & l & Hu & ->). rewrite ravel_dof by exact (proj2 Hu). reflexivity. }
  assert (Hs : sumN (num_total_nodes F) (fun n => sumN (vec F) (fun k => w n k * w n k)) = 0).
  { rewrite <- Hm. apply sumN_ext. intros n Hn. apply sumN_ext. intros k Hk.
    assert (Hu : unknown P n k) by (apply (unknown_iff F inds iv jac cjac locs vecs fns eps P HP); auto).
    destruct (classic (fixed F locs vecs n k)) as [Hf|Hf]; [rewrite (Hadm n k Hn Hk Hf); ring|]. f_equal.
    pose proof (Hx _ (dof_lt P n k Hu)) as H. rewrite (get_A_fn_spec P (well_bc F inds iv jac cjac locs vecs fns eps P HP Hvecs) ijv use_petsc x n k Hu) in H.
    destruct (SolverSpec.prescribed P n k) eqn:Ep; [exfalso; apply Hf; apply (prescribed_fixed F inds iv jac cjac locs vecs fns eps P HP n k Hu); congruence|].
    rewrite (ravel_dof P _ n k (proj2 Hu)) in H. rewrite <- H. unfold coo_mul. apply sumN_ext. intros j Hj. now rewrite Hrav. }
  apply Hnz. pose proof (sumN_pos_zero (num_total_nodes F) (fun n => sumN (vec F) (fun k => w n k * w n k)) (fun n _ => sumN_nonneg _ _ (fun k _ => Rle_0_sqr (w n k))) Hs n0 Hn0) as H1. cbv beta in H1.
  pose proof (sumN_pos_zero _ _ (fun k _ => Rle_0_sqr (w n0 k)) H1 k0 Hk0) as H2. cbv beta in H2. now apply Rsqr_0_uniq.
Qed.
End Kernel.

Section Mesh.
Context {V : Type}.
Variable F : fem V.
Variables (B : basix) (t : string).
Hypothesis HM : lagrange_mesh F B t.
Local Notation E := (f_ele F).
Lemma lm_grads : grads_sum_zero F.
Proof. pose proof HM as (HB & Ht & _ & _ & HE & _). exact (proj1 (proj2 (tables_meet_fem_assumptions _ F B t HB Ht HE))). Qed.
Lemma lm_vals : vals_sum_one F.
Proof. pose proof HM as (HB & Ht & _ & _ & HE & _). exact (proj1 (tables_meet_fem_assumptions _ F B t HB Ht HE)). Qed.
Lemma linked_lt n m : (n < num_total_nodes F)%nat -> linked F n m -> (m < num_total_nodes F)%nat.
Proof. intros Hn [|c a b Hc Ha Hb _]; [exact Hn|]. pose proof HM as (_ & _ & _ & _ & _ & Hwf & _). now apply cell_node_lt. Qed.
(** the indicator of the nodes linked to n *)
Lemma indicator n : exists f : nat -> R, forall m, (m < num_total_nodes F)%nat -> (linked F n m /\ f m = 1) \/ (~ linked F n m /\ f m = 0).
Proof.
  generalize (num_total_nodes F) as N. induction N as [|N (f & IH)]; [exists (fun _ => 0); intros; lia|].
  destruct (classic (linked F n N)) as [Hl|Hl].
  - exists (fun m => if Nat.eqb m N then 1 else f m). intros m Hm. destruct (Nat.eqb_spec m N) as [->|Hne]; [left; auto|apply IH; lia].
  - exists (fun m => if Nat.eqb m N then 0 else f m). intros m Hm. destruct (Nat.eqb_spec m N) as [->|Hne]; [right; auto|apply IH; lia].
Qed.
Lemma constant_grad (w : nodal) c q k d x : (c < num_cells F)%nat -> (q < num_quads E)%nat -> (forall a, (a < num_nodes E)%nat -> w (cell_node F c a) k = x) -> sol_to_grad F w c q k d = 0.
Proof.
  intros Hc Hq H. unfold sol_to_grad. rewrite (sumN_ext _ _ (fun a => x * shape_grads F c q a d)) by (intros a Ha; now rewrite H). rewrite sumN_scal.
  unfold shape_grads. rewrite sumN_swap. rewrite sumN_zero; [ring|]. intros i Hi. rewrite sumN_scal_r, (lm_grads q i Hq Hi). ring.
Qed.
(** ** LinearPoisson *)
Section Poisson.
Hypothesis Htm : tensor_map F = Some (fun _ => poisson_map).
Hypothesis Hmass : mass_map F = None.
Hypothesis Hcau : cauchy_bc_info F = None.
Lemma lp_form iv u v : energy_form F iv u v = sumN (num_cells F) (fun c => sumN (num_quads E) (fun q => JxW F c q * sumN (vec F) (fun k => sumN (dim F) (fun d => sol_to_grad F u c q k d * sol_to_grad F v c q k d)))).
Proof. unfold energy_form, stress. rewrite Htm. reflexivity. Qed.
Lemma lp_sym iv u v : energy_form F iv u v = energy_form F iv v u.
Proof. rewrite !lp_form. apply sumN_ext. intros c _. apply sumN_ext. intros q _. f_equal. apply sumN_ext. intros k _. apply sumN_ext. intros d _. ring. Qed.
Lemma lp_nonneg iv u : 0 <= energy_form F iv u u.
Proof. rewrite lp_form. apply sumN_nonneg. intros c Hc. apply sumN_nonneg. intros q Hq. apply Rmult_le_pos; [now apply (lm_jxw F B t HM)|]. apply sumN_nonneg. intros k _. apply sumN_nonneg. intros d _. apply Rle_0_sqr. Qed.
Lemma lp_cell iv u : energy_form F iv u u = 0 -> forall c k a b, (c < num_cells F)%nat -> (k < vec F)%nat -> (a < num_nodes E)%nat -> (b < num_nodes E)%nat -> u (cell_node F c a) k = u (cell_node F c b) k.
Proof.
  rewrite lp_form. intros H c k a b Hc Hk Ha Hb. pose proof HM as (_ & _ & _ & _ & _ & _ & _ & Hd).
  assert (P1 : forall c q, 0 <= sumN (vec F) (fun k => sumN (dim F) (fun d => sol_to_grad F u c q k d * sol_to_grad F u c q k d))) by (intros; apply sumN_nonneg; intros; apply sumN_nonneg; intros; apply Rle_0_sqr).
  assert (P2 : forall c q, (c < num_cells F)%nat -> (q < num_quads E)%nat -> 0 <= JxW F c q * sumN (vec F) (fun k => sumN (dim F) (fun d => sol_to_grad F u c q k d * sol_to_grad F u c q k d))) by (intros; apply Rmult_le_pos; [now apply (lm_jxw F B t HM)|apply P1]).
  pose proof (sumN_pos_zero _ _ (fun c Hc => sumN_nonneg _ _ (fun q Hq => P2 c q Hc Hq)) H c Hc) as H1. cbv beta in H1.
  apply (flat_cell F B t HM u c k Hc); [|exact Ha|exact Hb]. intros q d Hq Hdd Hw. pose proof (sumN_pos_zero _ _ (fun q Hq => P2 c q Hc Hq) H1 q Hq) as H2. cbv beta in H2.
  unfold JxW in H2. apply Rmult_integral in H2 as [H2|H2]; [specialize (Hd c q Hc Hq); apply Rmult_integral in H2 as [H2|H2]; lra|].
  pose proof (sumN_pos_zero _ _ (fun k _ => sumN_nonneg _ _ (fun d _ => Rle_0_sqr (sol_to_grad F u c q k d))) H2 k Hk) as H3. cbv beta in H3.
  pose proof (sumN_pos_zero _ _ (fun d _ => Rle_0_sqr (sol_to_grad F u c q k d)) H3 d Hdd) as H4. cbv beta in H4. now apply Rsqr_0_uniq.
Qed.
Lemma lp_linked iv u n m k : energy_form F iv u u = 0 -> (k < vec F)%nat -> linked F n m -> u m k = u n k.
Proof. intros H Hk Hl. induction Hl as [|c a b Hc Ha Hb _ IH]; [reflexivity|]. rewrite <- IH. now apply (lp_cell iv). Qed.
Variables (inds : list (list (nat * nat))) (iv : internal_vars V).
Hypothesis Hloads : loads_ok F inds iv.
Variable jac : nodal -> (nat -> nat -> nat -> R) -> (nat -> R) -> (nat -> nat -> nat -> R) -> list (nat -> V) -> list (nat -> V) -> jac4.
Variable cjac : ((nat -> R) -> nat -> R) -> nodal -> (nat -> nat -> R) -> (nat -> R) -> jac4.
Hypothesis Hjac : exact_jacobians F iv jac.
Variables (locs : list (point -> bool)) (vecs : list nat) (fns : list (point -> R)).
Variable eps : option R.
Variable P : problem.
Hypothesis HP : fem_problem F inds iv jac cjac (Some (locs, vecs, fns)) None eps = Ok P.
Hypothesis Hvecs : Forall (fun k => (k < vec F)%nat) vecs.
Lemma lp_definite : (forall k, (k < vec F)%nat -> held F locs vecs k) -> forall d, admissible F locs vecs d -> energy_form F iv d d = 0 -> same_field F d (fun _ _ => 0).
Proof.
  intros Hh d Hadm He n k Hn Hk. destruct (Hh k Hk n Hn) as (m & Hl & Hm & Hf). rewrite <- (lp_linked iv d n m k He Hk Hl). now apply Hadm.
Qed.
Lemma lp_linear : linear_tensor F (fun _ => poisson_map).
Proof. intros vars a G H k d _ _. reflexivity. Qed.
Lemma lp_loose k use_petsc : (k < vec F)%nat -> ~ held F locs vecs k -> ~ solvable_problem P use_petsc.
Proof.
  intros Hk Hno. destruct Hloads as (Hiv & Hneu & Hfc). pose proof HM as (_ & _ & _ & _ & _ & Hwf & Hnc & _).
  apply not_all_ex_not in Hno as (n & Hno). apply imply_to_and in Hno as (Hn & Hno). destruct (indicator n) as (f & Hf).
  set (w := (fun m l => if Nat.eqb l k then f m else 0) : nodal).
  apply (kernel_unsolvable F _ Htm lp_linear Hmass Hcau inds iv jac cjac Hjac locs vecs fns eps P HP Hvecs Hwf Hiv Hnc Hneu Hfc w n k use_petsc).
  - intros m l Hm Hl Hfx. unfold w. destruct (Nat.eqb_spec l k) as [->|]; [|reflexivity]. destruct (Hf m Hm) as [[Hlk _]|[_ ->]]; [|reflexivity]. exfalso. apply Hno. eauto.
  - intros u. rewrite lp_form. apply sumN_zero. intros c Hc. apply sumN_zero. intros q Hq. rewrite (sumN_zero (vec F)); [ring|]. intros l _. apply sumN_zero. intros d _.
    assert (Hx : exists x, forall a, (a < num_nodes E)%nat -> w (cell_node F c a) l = x).
    { unfold w. destruct (Nat.eqb l k); [|exists 0; reflexivity].
      destruct (classic (exists a, (a < num_nodes E)%nat /\ linked F n (cell_node F c a))) as [(a & Ha & Hla)|Hnone].
      - exists 1. intros b Hb. destruct (Hf (cell_node F c b) (cell_node_lt F Hwf c b Hc Hb)) as [[_ ->]|[Hnl _]]; [reflexivity|]. exfalso. apply Hnl. now apply (linked_cell F n c a b).
      - exists 0. intros b Hb. destruct (Hf (cell_node F c b) (cell_node_lt F Hwf c b Hc Hb)) as [[Hl _]|[_ ->]]; [|reflexivity]. exfalso. apply Hnone. eauto. }
    destruct Hx as (x & Hx). rewrite (constant_grad w c q l d x Hc Hq Hx). ring.
  - exact Hn.
  - exact Hk.
  - unfold w. rewrite Nat.eqb_refl. destruct (Hf n Hn) as [[_ ->]|[Hnl _]]; [lra|]. exfalso. apply Hnl. constructor.
Qed.
Lemma lp_solvable_iff use_petsc : solvable_problem P use_petsc <-> forall k, (k < vec F)%nat -> held F locs vecs k.
Proof.
  destruct Hloads as (Hiv & Hneu & Hfc). pose proof HM as (_ & _ & _ & _ & _ & Hwf & Hnc & _). split.
  - intros Hs k Hk. apply NNPP. intros Hno. exact (lp_loose k use_petsc Hk Hno Hs).
  - intros Hh. exact (well_solvable F _ Htm lp_linear Hmass Hcau inds iv jac cjac Hjac locs vecs fns eps P HP Hvecs Hwf Hiv Hnc Hneu Hfc (lp_definite Hh) use_petsc).
Qed.
Lemma lp_solved : (forall k, (k < vec F)%nat -> held F locs vecs k) -> forall ev grad fuel precond guess use_petsc, exact_solvers ev -> exact_floats ev ->
  exists u, solver ev P grad fuel true precond guess use_petsc = Some (Ok u) /\ discrete_solution F locs vecs fns inds iv u /\
  forall w, discrete_solution F locs vecs fns inds iv w -> same_field F w u.
Proof.
  intros Hh ev grad fuel precond guess use_petsc. destruct Hloads as (Hiv & Hneu & Hfc). pose proof HM as (_ & _ & _ & _ & _ & Hwf & Hnc & _).
  exact (well_solved F _ Htm lp_linear Hmass Hcau inds iv jac cjac Hjac locs vecs fns eps P HP Hvecs Hwf Hiv Hnc Hneu Hfc (lp_definite Hh) ev grad fuel precond guess use_petsc).
Qed.
Lemma lp_minimises u w : (forall k, (k < vec F)%nat -> held F locs vecs k) -> discrete_solution F locs vecs fns inds iv u -> takes_values F locs vecs fns w ->
  potential F inds iv u <= potential F inds iv w /\ (potential F inds iv w = potential F inds iv u -> same_field F w u).
Proof.
  intros Hh Hu Hw. destruct Hloads as (Hiv & Hneu & Hfc). pose proof HM as (_ & _ & _ & _ & _ & Hwf & Hnc & _).
  pose proof (potential_excess F _ Htm lp_linear Hmass Hcau inds iv Hwf Hiv Hnc Hneu Hfc locs vecs fns (lp_sym iv) u w Hu Hw) as He.
  set (d := fun n k => -1 * u n k + w n k) in *. pose proof (lp_nonneg iv d) as Hd. split; [lra|]. intros Heq.
  assert (Hz : same_field F d (fun _ _ => 0)).
  { apply (lp_definite Hh); [|lra]. intros n k Hn Hk Hf. destruct (last_exists F locs vecs n k Hf) as (i & Hi). unfold d. destruct Hu as [Hu _]. rewrite (Hu i n k Hn Hi), (Hw i n k Hn Hi). ring. }
  intros n k Hn Hk. specialize (Hz n k Hn Hk). unfold d in Hz. lra.
Qed.
End Poisson.
End Mesh.
Close Scope R_scope.
