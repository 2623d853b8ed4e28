(** * Scalar problems with a reaction: element forces, definiteness, solvability. *)
From Coq Require Import String FunctionalExtensionality Classical Lra Lia.
From Verif Require Import Prelude PreludeFacts FemModel FemFacts FemSpec FemAsmProofs FemMatProofs FemGeoProofs BasisModel BasisSpec BasisProofs BoxProofs BoxPatchProofs MatModel MatSpec SolverModel SolverSpec SolverProofs SolverFemProofs WellSpec WellProofs WellBoxProofs InfMainProofs MaxSpec HeatModel HeatSpec HeatWellProofs.
Open Scope R_scope.
Open Scope list_scope.

Section Reactive.
Context {V : Type}.
Variable F : fem V.
Local Notation E := (f_ele F).
Variables (kappa : R) (alpha : list V -> R).
Hypothesis HR : reactive F kappa alpha.
Variable iv : internal_vars V.
Definition slope (c q : nat) : R := alpha (map (fun f => f q) (vars_at (iv_mass iv) c)).
(** the linear part of the element function *)
Definition lin_kernel (g : nat -> nat -> nat -> R) (w : nat -> R) (vg : nat -> nat -> nat -> R) (mv : list (nat -> V)) (s : nodal) (a k : nat) : R :=
  sumN (num_quads E) (fun q => sumN (dim F) (fun d => kappa * sumN (num_nodes E) (fun b => s b k * g q b d) * vg q a d)
     + alpha (map (fun f => f q) mv) * sumN (num_nodes E) (fun b => s b k * shape_vals E q b) * shape_vals E q a * w q).
Lemma kernel_diff g w vg mv lv s s' a k : kernel F s g w vg mv lv a k - kernel F s' g w vg mv lv a k = lin_kernel g w vg mv s a k - lin_kernel g w vg mv s' a k.
Proof.
  destruct HR as (_ & (tm & Htm & Ht) & mm & Hmm & Hm). unfold kernel. rewrite Htm, Hmm. unfold laplace_kernel, mass_kernel, lin_kernel.
  match goal with |- ?a + ?b - (?c + ?d) = _ => replace (a + b - (c + d)) with ((a - c) + (b - d)) by ring end.
  rewrite <- !sumN_sub, <- sumN_add. apply sumN_ext. intros q _.
  match goal with |- ?a - ?a' + (?b - ?b') = ?c + ?d - (?c' + ?d') => cut (a = c /\ a' = c' /\ b - b' = d - d'); [intros (-> & -> & H); lra|] end.
  split; [apply sumN_ext; intros d _; now rewrite Ht|]. split; [apply sumN_ext; intros d _; now rewrite Ht|].
  match goal with |- mm ?v ?u k * ?x * ?y - mm ?v ?u' k * ?x * ?y = _ => transitivity ((mm v u k - mm v u' k) * x * y); [ring|] end. rewrite Hm. ring.
Qed.
Lemma lin_add g w vg mv s t d a k : lin_kernel g w vg mv (add_step s t d) a k = lin_kernel g w vg mv s a k + t * lin_kernel g w vg mv d a k.
Proof.
  unfold lin_kernel. rewrite <- sumN_scal, <- sumN_add. apply sumN_ext. intros q _.
  assert (H1 : forall (x : nat -> R), sumN (num_nodes E) (fun b => add_step s t d b k * x b) = sumN (num_nodes E) (fun b => s b k * x b) + t * sumN (num_nodes E) (fun b => d b k * x b)).
  { intros x. rewrite <- sumN_scal, <- sumN_add. apply sumN_ext. intros b _. unfold add_step. ring. }
  rewrite (sumN_ext (dim F) (fun e => kappa * sumN (num_nodes E) (fun b => add_step s t d b k * g q b e) * vg q a e)
    (fun e => kappa * sumN (num_nodes E) (fun b => s b k * g q b e) * vg q a e + t * (kappa * sumN (num_nodes E) (fun b => d b k * g q b e) * vg q a e)))
    by (intros e _; rewrite H1; ring).
  rewrite sumN_add, sumN_scal, H1. ring.
Qed.
Lemma lin_zero g w vg mv a k : lin_kernel g w vg mv (fun _ _ => 0) a k = 0.
Proof.
  unfold lin_kernel. apply sumN_zero. intros q _.
  assert (H1 : forall (x : nat -> R), sumN (num_nodes E) (fun b => 0 * x b) = 0) by (intros x; apply sumN_zero; intros; ring).
  rewrite (sumN_zero (dim F)) by (intros d _; rewrite H1; ring). rewrite H1. ring.
Qed.
Lemma reactive_affine u t d c a k : (c < num_cells F)%nat -> (k < vec F)%nat ->
  cell_force F iv (add_step u t d) c a k = cell_force F iv u c a k + t * (cell_force F iv d c a k - cell_force F iv zero_field c a k).
Proof.
  intros _ _. unfold cell_force. rewrite kernel_diff.
  match goal with |- kernel F ?s ?g ?w ?vg ?mv ?lv a k = kernel F ?s' _ _ _ _ _ a k + _ => pose proof (kernel_diff g w vg mv lv s s' a k) as H end.
  rewrite (lin_zero _ _ _ _ a k : lin_kernel _ _ _ _ (cells_sol F zero_field c) a k = 0).
  change (cells_sol F (add_step u t d) c) with (add_step (cells_sol F u c) t (cells_sol F d c)) in *. rewrite lin_add in H. lra.
Qed.
(** ** element matrices *)
Definition diff_jac (s : nodal) (g : nat -> nat -> nat -> R) (w : nat -> R) (vg : nat -> nat -> nat -> R) (mv lv : list (nat -> V)) : jac4 :=
  fun a k b l => kernel F (one_dof b l) g w vg mv lv a k - kernel F (fun _ _ => 0) g w vg mv lv a k.
Lemma diff_jac_exact : exact_jacobians F iv diff_jac.
Proof.
  intros sol c _ s a k Ha Hk. pose proof HR as (Hv & _). assert (k = 0%nat) by lia. subst k.
  set (g := shape_grads F c). set (vg := v_grads_JxW F c). set (lv := vars_at (iv_laplace iv) c). set (mv := vars_at (iv_mass iv) c). set (w := JxW F c). set (cs := cells_sol F sol c).
  assert (Hs : jac_mul F (cell_jac F diff_jac iv sol c) s a 0%nat = lin_kernel g w vg mv s a 0%nat).
  { unfold jac_mul, cell_jac, diff_jac. fold g vg lv mv w.
    rewrite (sumN_ext (num_nodes E) _ (fun b => lin_kernel g w vg mv (one_dof b 0) a 0%nat * s b 0%nat)).
    - unfold lin_kernel.
      rewrite (sumN_ext (num_nodes E) _ (fun b => sumN (num_quads E) (fun q => (sumN (dim F) (fun d => kappa * (s b 0%nat * g q b d) * vg q a d) + alpha (map (fun f => f q) mv) * (s b 0%nat * shape_vals E q b) * shape_vals E q a * w q)))).
      + rewrite sumN_swap. apply sumN_ext. intros q _. rewrite sumN_add. f_equal.
        * rewrite sumN_swap. apply sumN_ext. intros d _. rewrite <- (sumN_scal (num_nodes E) kappa), <- sumN_scal_r. apply sumN_ext. intros; ring.
        * rewrite <- (sumN_scal (num_nodes E)), <- !sumN_scal_r. apply sumN_ext. intros; ring.
      + intros b Hb. rewrite <- sumN_scal_r. apply sumN_ext. intros q _.
        assert (H1 : forall x : nat -> R, sumN (num_nodes E) (fun b' => one_dof b 0 b' 0%nat * x b') = x b).
        { intros x. rewrite (sumN_ext _ _ (fun b' => (if Nat.eqb b' b then 1 else 0) * x b')); [exact (sumN_ind _ _ x Hb)|]. intros b' _. unfold one_dof. cbn [Nat.eqb]. rewrite Bool.andb_true_r. reflexivity. }
        rewrite Rmult_plus_distr_r. f_equal; [|rewrite H1; ring]. rewrite <- sumN_scal_r. apply sumN_ext. intros d _. rewrite H1. ring.
    - intros b _. rewrite Hv, sumN_S. unfold sumN. cbn [seq sumR]. rewrite kernel_diff, lin_zero. ring. }
  rewrite Hs. eapply dl_eq; [apply (dl_line (kernel F cs g w vg mv lv a 0%nat) (lin_kernel g w vg mv s a 0%nat))| |reflexivity].
  intros t. cbv beta. pose proof (kernel_diff g w vg mv lv (add_step cs t s) cs a 0%nat) as H. rewrite lin_add in H. lra.
Qed.
(** ** the form *)
Lemma reactive_form d v : step_form F iv d v = sumN (num_cells F) (fun c => sumN (num_quads E) (fun q => JxW F c q *
  (kappa * sumN (dim F) (fun e => sol_to_grad F d c q 0 e * sol_to_grad F v c q 0 e) + slope c q * (at_quad F d c q 0%nat * at_quad F v c q 0%nat)))).
Proof.
  pose proof HR as (Hv & (tm & Htm & Ht) & mm & Hmm & Hm). unfold step_form, internal_power. rewrite <- sumN_sub. apply sumN_ext. intros c _. rewrite <- sumN_sub. apply sumN_ext. intros q _.
  unfold dot_vec, stress, reaction. rewrite Htm, Hmm, Hv.
  assert (one : forall f, sumN 1 f = f 0%nat) by (intros f; unfold sumN; cbn [seq sumR]; ring). rewrite !one.
  assert (Z : sol_to_grad F zero_field c q = fun _ _ => 0). { apply functional_extensionality. intros i. apply functional_extensionality. intros e. unfold sol_to_grad. apply sumN_zero. intros. unfold zero_field. ring. }
  set (lvs := map (fun f => f q) (vars_at (iv_laplace iv) c)).
  assert (T0 : sumN (dim F) (fun e => tm lvs (sol_to_grad F zero_field c q) 0%nat e * sol_to_grad F v c q 0 e) = 0) by (apply sumN_zero; intros e _; rewrite Ht, Z; ring).
  assert (T1 : sumN (dim F) (fun e => tm lvs (sol_to_grad F d c q) 0%nat e * sol_to_grad F v c q 0 e) = kappa * sumN (dim F) (fun e => sol_to_grad F d c q 0 e * sol_to_grad F v c q 0 e)).
  { rewrite <- sumN_scal. apply sumN_ext. intros e _. rewrite Ht. ring. }
  rewrite T0, T1.
  unfold slope.
  match goal with |- context [mm ?vs (at_quad F d c q) 0%nat] => pose proof (Hm vs (at_quad F d c q) (at_quad F zero_field c q) 0%nat) as H end.
  assert (Z2 : at_quad F zero_field c q 0%nat = 0) by (unfold at_quad, convert_from_dof_to_quad; apply sumN_zero; intros; unfold zero_field; ring).
  rewrite Z2 in H.
  match goal with |- JxW F c q * (?A + ?m1 * ?x) - JxW F c q * (0 + ?m0 * ?x) = _ => transitivity (JxW F c q * (A + (m1 - m0) * x)); [ring|] end. rewrite H. ring.
Qed.
(** ** definiteness on hexahedra *)
Variable B : basix.
Hypothesis HM : hex_mesh F B.
Hypothesis Hk : 0 <= kappa.
Hypothesis Hs : forall c q, (c < num_cells F)%nat -> (q < num_quads E)%nat -> 0 < slope c q.
Lemma mesh_dims : num_nodes E = 8%nat /\ e_dim E = 3%nat.
Proof. pose proof HM as (HB & _ & _ & HE & _). destruct (box_dim B HB F HE) as [H1 H2]. split; [exact H2|]. rewrite (hex_tables B HB _ HE). reflexivity. Qed.
Lemma mesh_weight q : 0 <= quad_weights E q.
Proof.
  pose proof HM as (HB & _ & Hw8 & HE & _). assert (Hw : quad_weights E q = nth q (snd (make_quadrature B hexahedron 2)) 0) by (rewrite (hex_tables B HB _ HE); reflexivity). rewrite Hw.
  destruct (Nat.lt_ge_cases q (length (snd (make_quadrature B hexahedron 2)))) as [Hl|Hl]; [|rewrite nth_overflow by exact Hl; lra].
  unfold nonneg_rule in Hw8. rewrite Forall_forall in Hw8. apply Hw8. now apply nth_In.
Qed.
Lemma mesh_jxw c q : (c < num_cells F)%nat -> (q < num_quads E)%nat -> 0 <= JxW F c q.
Proof. intros Hc Hq. pose proof HM as (_ & _ & _ & _ & _ & _ & Hd). unfold JxW. apply Rmult_le_pos; [apply Rlt_le; auto|apply mesh_weight]. Qed.
Lemma mesh_value u c q : at_quad F u c q 0%nat = vfield (fun a => u (cell_node F c a) 0%nat) (qp B q).
Proof.
  pose proof HM as (HB & _ & _ & HE & _). unfold at_quad, convert_from_dof_to_quad, vfield. rewrite (proj1 mesh_dims). apply sumN_ext. intros a Ha. f_equal. rewrite <- hex_shape by exact Ha. rewrite (hex_tables B HB _ HE). cbn [shape_vals tables]. apply tabulated; [exact HB|cbn; tauto|exact Ha].
Qed.
Lemma mesh_zero u c : (forall q, (q < num_quads E)%nat -> quad_weights E q * at_quad F u c q 0%nat ^ 2 = 0) -> forall a, (a < 8)%nat -> u (cell_node F c a) 0%nat = 0.
Proof.
  intros H a Ha. pose proof HM as (HB & Hq & _ & HE & _).
  rewrite <- (vfield_corner (fun a => u (cell_node F c a) 0%nat) a Ha), vfield_multi. apply sos_zero.
  rewrite <- (multi_square B HB Hq E HE). apply sumN_zero. intros q Hq'. rewrite <- vfield_multi, <- mesh_value, <- (H q Hq'). ring.
Qed.
Lemma reactive_nonneg d : 0 <= step_form F iv d d.
Proof.
  rewrite reactive_form. apply sumN_nonneg. intros c Hc. apply sumN_nonneg. intros q Hq. apply Rmult_le_pos; [now apply mesh_jxw|]. apply Rplus_le_le_0_compat.
  - apply Rmult_le_pos; [exact Hk|]. apply sumN_nonneg. intros e _. nra.
  - apply Rmult_le_pos; [apply Rlt_le; auto|nra].
Qed.
Lemma nonneg_sum_zero n f : (forall i, (i < n)%nat -> 0 <= f i) -> sumN n f = 0 -> forall i, (i < n)%nat -> f i = 0.
Proof.
  induction n as [|n IH]; intros Hn H0 i Hi; [lia|]. rewrite sumN_S in H0. assert (Hs' : 0 <= sumN n f) by (apply sumN_nonneg; intros; apply Hn; lia). pose proof (Hn n (Nat.lt_succ_diag_r n)).
  destruct (Nat.eq_dec i n) as [->|Hne]; [lra|]. apply IH; [intros; apply Hn; lia|lra|lia].
Qed.
Lemma reactive_zero d : step_form F iv d d = 0 -> forall c a, (c < num_cells F)%nat -> (a < 8)%nat -> d (cell_node F c a) 0%nat = 0.
Proof.
  rewrite reactive_form. intros H c a Hc. revert a. apply mesh_zero. intros q Hq.
  assert (T : forall c q, (c < num_cells F)%nat -> (q < num_quads E)%nat -> 0 <= kappa * sumN (dim F) (fun e => sol_to_grad F d c q 0 e * sol_to_grad F d c q 0 e)).
  { intros. apply Rmult_le_pos; [exact Hk|]. apply sumN_nonneg. intros e _. nra. }
  assert (T2 : forall c q, (c < num_cells F)%nat -> (q < num_quads E)%nat -> 0 <= slope c q * (at_quad F d c q 0%nat * at_quad F d c q 0%nat)) by (intros; apply Rmult_le_pos; [apply Rlt_le; auto|nra]).
  assert (P0 : forall c q, (c < num_cells F)%nat -> (q < num_quads E)%nat -> 0 <= JxW F c q * (kappa * sumN (dim F) (fun e => sol_to_grad F d c q 0 e * sol_to_grad F d c q 0 e) + slope c q * (at_quad F d c q 0%nat * at_quad F d c q 0%nat))).
  { intros c' q' H1 H2. apply Rmult_le_pos; [now apply mesh_jxw|]. apply Rplus_le_le_0_compat; auto. }
  pose proof (nonneg_sum_zero _ _ (fun c Hc => sumN_nonneg _ _ (fun q Hq => P0 c q Hc Hq)) H c Hc) as H1. cbv beta in H1.
  pose proof (nonneg_sum_zero _ _ (fun q Hq => P0 c q Hc Hq) H1 q Hq) as H2. cbv beta in H2. unfold JxW in H2.
  pose proof HM as (_ & _ & _ & _ & _ & _ & Hd). specialize (Hd c q Hc Hq). pose proof (mesh_weight q) as Hw. specialize (T c q Hc Hq). specialize (T2 c q Hc Hq). specialize (Hs c q Hc Hq).
  destruct (Rle_lt_or_eq_dec 0 (quad_weights E q) Hw) as [Hp|<-]; [|ring].
  assert (HJ : 0 < jacobian_det F c q * quad_weights E q) by (apply Rmult_lt_0_compat; assumption).
  apply Rmult_integral in H2 as [H2|H2]; [lra|]. assert (H3 : slope c q * (at_quad F d c q 0%nat * at_quad F d c q 0%nat) = 0) by lra.
  apply Rmult_integral in H3 as [H3|H3]; [lra|]. replace (at_quad F d c q 0%nat ^ 2) with (at_quad F d c q 0%nat * at_quad F d c q 0%nat) by ring. rewrite H3. ring.
Qed.
Lemma reactive_definite locs vecs d : covered F locs vecs -> admissible F locs vecs d -> step_form F iv d d = 0 -> same_field F d (fun _ _ => 0).
Proof.
  intros Hcov Hadm H n k Hn Hkk. pose proof HR as (Hv & _). assert (k = 0%nat) by lia. subst k.
  destruct (Hcov n Hn) as [(c & a & Hc & Ha & <-)|Hf]; [|now apply Hadm]. apply reactive_zero; [exact H|exact Hc|]. now rewrite <- (proj1 mesh_dims).
Qed.
End Reactive.
Close Scope R_scope.
