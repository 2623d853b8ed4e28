(** * Proofs about the derivatives computed in the inverse example. *)
From Coq Require Import String FunctionalExtensionality Lra.
From Verif Require Import Prelude PreludeFacts FemModel FemSpec FemFacts FemAsmProofs FemGeoProofs FemMatProofs MatModel MatSpec MatProofs MatHyperProofs RveModel RveSpec
  SolverModel SolverSpec SolverProofs SolverAdProofs SolverFemProofs WellSpec WellProofs InvModel InvSpec InvProofs.
Open Scope R_scope.
Open Scope list_scope.

Section InvGrad.
Context {V : Type}.
Variable M : fem V.
Variable P_fn : R -> R -> mat -> mat.
Variable Lz : R.
Hypothesis HM : mesh_ok M.
Hypothesis HP : psi_contract P_fn.
Local Notation N := (num_total_nodes M).
Local Notation F p := (inv_fem M P_fn p).
Local Notation iv p := (inv_vars M p).
Local Notation inds := (inv_inds M Lz).
Local Notation nq := (num_quads (f_ele M)).
Local Notation locs := [on_plane 2 0; on_plane 2 0; on_plane 2 0].
Local Notation vecs := [0; 1; 2]%nat.
Local Notation fns p := [fun _ => 0; fun _ => 0; get_dirichlet_bottom Lz (d_of M p)].
Local Notation low n := (on_plane 2 0 (points M n)).
Local Notation m := (inv_size M).
Variable jac : vector -> nodal -> (nat -> nat -> nat -> R) -> (nat -> R) -> (nat -> nat -> nat -> R) -> list (nat -> R) -> list (nat -> R) -> jac4.
Variable Pp : vector -> problem.
Variable rp : vector -> nodal -> nodal.
Variable cjac : ((nat -> R) -> nat -> R) -> nodal -> (nat -> nat -> R) -> (nat -> R) -> jac4.
Variable eps : option R.
Hypothesis Hpp : forall p, fem_problem (F p) inds (iv p) (jac p) cjac (Some (locs, vecs, fns p)) None eps = Ok (Pp p).
Hypothesis Hrp : forall p u, compute_residual_vars (F p) inds u (iv p) = Ok (rp p u).
Variable ev : env.
Variable vjp : (vector -> vector) -> vector -> vector -> vector.
Hypothesis Hex : exact_solvers ev.
Hypothesis HvA : transposes (N * 3) (N * 3) vjp.
Hypothesis HvB : transposes (N * 3) m vjp.
Local Notation val p k := (match k with 2%nat => d_of M p * Lz | _ => 0 end).

Lemma inv_dims p : num_nodes_p (Pp p) = N /\ pvec (Pp p) = 3%nat /\ num_total_dofs (Pp p) = (N * 3)%nat.
Proof.
  destruct (fem_problem_fields (F p) inds (iv p) (jac p) cjac locs vecs (fns p) None eps (Pp p) (Hpp p)) as (_ & _ & H1 & H2 & _). unfold num_total_dofs. rewrite H1, H2. repeat split.
Qed.
Lemma inv_newton p : newton_update (Pp p) = (fun sol => compute_newton_vars (F p) inds sol (iv p) (jac p) cjac).
Proof. destruct (fem_problem_fields (F p) inds (iv p) (jac p) cjac locs vecs (fns p) None eps (Pp p) (Hpp p)) as (_ & _ & _ & _ & H & _). exact H. Qed.
Lemma inv_bc p : bc_ok (Pp p).
Proof. apply (well_bc (F p) inds (iv p) (jac p) cjac locs vecs (fns p) eps (Pp p) (Hpp p)). repeat constructor; cbn; lia. Qed.
Lemma inv_dof p n k : dof (Pp p) n k = (3 * n + k)%nat.
Proof. unfold dof. destruct (inv_dims p) as (_ & -> & _). reflexivity. Qed.
Lemma inv_unknown p n k : (n < N)%nat -> (k < 3)%nat -> unknown (Pp p) n k.
Proof. intros Hn Hk. destruct (inv_dims p) as (H1 & H2 & _). unfold unknown. rewrite H1, H2. now split. Qed.
Lemma inv_reshape p sol : reshape (Pp p) sol = fun n k => sol (3 * n + k)%nat.
Proof. unfold reshape. destruct (inv_dims p) as (_ & -> & _). reflexivity. Qed.
Lemma inv_prescribed p n k : (n < N)%nat -> (k < 3)%nat -> prescribed (Pp p) n k = if low n then Some (val p k) else None.
Proof.
  intros Hn Hk. destruct (low n) eqn:Hb.
  - destruct (inv_last_ex M P_fn Lz p n k Hk Hb) as [Ha Hl].
    rewrite (fem_prescribed_last (F p) inds (iv p) (jac p) cjac locs vecs (fns p) None eps (Pp p) (Hpp p) k n k (inv_unknown p n k Hn Hk) Ha Hl). f_equal. clear -Hk; destruct k as [|[|[|k]]]; try lia; reflexivity.
  - apply (fem_prescribed_none (F p) inds (iv p) (jac p) cjac locs vecs (fns p) None eps (Pp p) (Hpp p)). intros i Hi. assert (Hf : fixed (F p) locs vecs n k) by now exists i. apply (inv_fixed M P_fn Lz) in Hf. destruct Hf as [_ Hf]. rewrite Hf in Hb. discriminate Hb.
Qed.
Local Notation field sol := (fun n k => sol (3 * n + k)%nat).
Lemma inv_constraint sol p n k : (n < N)%nat -> (k < 3)%nat ->
  constraint_fn Pp rp sol p (3 * n + k)%nat = if low n then sol (3 * n + k)%nat - val p k else res_value M P_fn Lz p (field sol) (one_dof n k).
Proof.
  intros Hn Hk. unfold constraint_fn, apply_bc. rewrite <- (inv_dof p n k) at 1. rewrite (apply_bc_vec_spec (Pp p) (inv_bc p) _ _ n k (inv_unknown p n k Hn Hk)), (inv_prescribed p n k Hn Hk).
  rewrite ravel_dof by exact (proj2 (inv_unknown p n k Hn Hk)). rewrite (inv_dof p n k), (inv_reshape p sol). destruct (low n); [reflexivity|].
  exact (residual_value M P_fn Lz HM p _ _ n k (Hrp p _) Hn Hk).
Qed.
Definition B (p sol dp : vector) : vector := fun i => let n := (i / 3)%nat in let k := (i mod 3)%nat in
  if low n then - val dp k else rate M P_fn Lz p (field sol) dp (one_dof n k).
Lemma B_at p sol dp n k : (k < 3)%nat -> B p sol dp (3 * n + k)%nat = if low n then - val dp k else rate M P_fn Lz p (field sol) dp (one_dof n k).
Proof.
  intros Hk. unfold B. assert (H1 : ((3 * n + k) / 3 = n)%nat) by (symmetry; apply (Nat.div_unique _ 3 n k); lia).
  assert (H2 : ((3 * n + k) mod 3 = k)%nat) by (symmetry; apply (Nat.mod_unique _ 3 n k); lia). rewrite H1, H2. reflexivity.
Qed.
Lemma split_index i : (i < N * 3)%nat -> exists n k, (n < N)%nat /\ (k < 3)%nat /\ i = (3 * n + k)%nat.
Proof.
  clear. intros Hi. exists (i / 3)%nat, (i mod 3)%nat. split; [apply Nat.div_lt_upper_bound; lia|]. split; [apply Nat.mod_upper_bound; lia|]. apply Nat.div_mod. lia.
Qed.
Lemma rate_ext p u x y v : same m x y -> rate M P_fn Lz p u x v = rate M P_fn Lz p u y v.
Proof.
  intros H. unfold rate. assert (E_of x = E_of y) as -> by (apply H; unfold inv_size; lia). assert (s_of M x = s_of M y) as -> by (apply H; unfold inv_size; lia).
  assert (n_of M x = n_of M y) as -> by (apply H; unfold inv_size; lia). do 4 f_equal. apply inner_ext. intros c q i j Hc Hq _ _. f_equal. apply H. pose proof (rho_index M c q Hc Hq). unfold inv_size. lia.
Qed.
Lemma rate_add p u x y v : rate M P_fn Lz p u (fun j => x j + y j) v = rate M P_fn Lz p u x v + rate M P_fn Lz p u y v.
Proof.
  unfold rate. rewrite (inner_ext M (fun c q i j => rho_of M (fun j => x j + y j) c q * P_fn 1 (3 / 10) (def_grad M u c q) i j) (fun c q i j => rho_of M x c q * P_fn 1 (3 / 10) (def_grad M u c q) i j + rho_of M y c q * P_fn 1 (3 / 10) (def_grad M u c q) i j)) by (intros; unfold rho_of; ring).
  rewrite inner_add. unfold E_of, s_of, n_of. ring.
Qed.
Lemma rate_scal p u a x v : rate M P_fn Lz p u (fun j => a * x j) v = a * rate M P_fn Lz p u x v.
Proof.
  unfold rate. rewrite (inner_ext M (fun c q i j => rho_of M (fun j => a * x j) c q * P_fn 1 (3 / 10) (def_grad M u c q) i j) (fun c q i j => a * (rho_of M x c q * P_fn 1 (3 / 10) (def_grad M u c q) i j))) by (intros; unfold rho_of; ring).
  rewrite inner_scal. unfold E_of, s_of, n_of. ring.
Qed.
Lemma B_linear p sol : linear_map (N * 3) m (B p sol).
Proof.
  split; [|split].
  - intros i x y Hi. destruct (split_index i Hi) as (n & k & Hn & Hk & ->). rewrite !B_at by exact Hk. destruct (low n); [unfold d_of; destruct k as [|[|[|k]]]; try lia; ring|apply rate_add].
  - intros i c x Hi. destruct (split_index i Hi) as (n & k & Hn & Hk & ->). rewrite !B_at by exact Hk. destruct (low n); [unfold d_of; destruct k as [|[|[|k]]]; try lia; ring|apply rate_scal].
  - intros x y H i Hi. destruct (split_index i Hi) as (n & k & Hn & Hk & ->). rewrite !B_at by exact Hk. destruct (low n); [|now apply rate_ext].
    assert (d_of M x = d_of M y) as -> by (apply H; unfold inv_size; lia). reflexivity.
Qed.
Lemma B_derivative p sol : oriented M (field sol) -> forall dp i, (i < N * 3)%nat -> derivable_pt_lim (fun t => constraint_fn Pp rp sol (step p t dp) i) 0 (B p sol dp i).
Proof.
  intros Ho dp i Hi. destruct (split_index i Hi) as (n & k & Hn & Hk & ->). rewrite B_at by exact Hk.
  eapply dl_ext; [intros t; symmetry; exact (inv_constraint sol (step p t dp) n k Hn Hk)|]. destruct (low n).
  - set (x := sol (3 * n + k)%nat). destruct k as [|[|[|k]]]; try lia; cbv iota.
    + eapply dl_eq; [apply (dl_const (x - 0))|reflexivity|ring].
    + eapply dl_eq; [apply (dl_const (x - 0))|reflexivity|ring].
    + eapply dl_eq; [apply (dl_line (x - d_of M p * Lz) (- (d_of M dp * Lz)))|intros t; unfold d_of, step; cbv beta; ring|ring].
  - exact (res_derivative M P_fn Lz HP p (field sol) dp (one_dof n k) Ho).
Qed.
Lemma inv_vjp p sol v : regular Pp p (field sol) -> oriented M (field sol) ->
  exists g w r ijv, implicit_vjp ev Pp rp vjp sol p v false = Ok g /\ newton_update (Pp p) (field sol) = Ok (r, ijv) /\
  (forall d, dotN (N * 3) w (lop_apply (N * 3) (get_A_fn (Pp p) ijv false) d) = dotN (N * 3) v d) /\ forall dp, dotN m g dp = - dotN (N * 3) w (B p sol dp).
Proof.
  intros (r & ijv & Hr & Hinv) Ho. destruct (inv_dims p) as (_ & _ & HN). pose proof (get_A_linear (fun _ => Pp p) vzero (inv_bc p) ijv false) as HA. cbv beta in HA. rewrite <- (inv_reshape p sol) in Hr.
  destruct (implicit_vjp_adjoint ev Pp rp m sol p (inv_bc p) vjp Hex ijv r (B p sol) v false Hr Hinv) as (g & w & Hg & Hw & Hd).
  - rewrite HN in *. apply HvA; [exact HA|]. intros d i Hi. set (A := lop_apply (N * 3) (get_A_fn (Pp p) ijv false)) in *. apply (dl_eq (fun t => A sol i + t * A d i) _ 0 (A d i) _ (dl_line _ _ _)); [|reflexivity].
    intros t. unfold step. rewrite (proj1 HA i sol (fun j => t * d j) Hi), (proj1 (proj2 HA) i t d Hi). reflexivity.
  - rewrite HN. apply HvB; [apply B_linear|]. now apply B_derivative.
  - rewrite HN in Hw, Hd. rewrite (inv_reshape p sol) in Hr. exists g, w, r, ijv. auto.
Qed.
(** ** identities between the derivatives *)
Lemma modulus_identity p sol v : regular Pp p (field sol) -> oriented M (field sol) -> exists g, implicit_vjp ev Pp rp vjp sol p v false = Ok g /\
  E_of p * E_of g = sumN (num_cells M) (fun c => sumN nq (fun q => rho_of M p c q * rho_of M g c q)).
Proof.
  intros Hreg Ho. destruct (inv_vjp p sol v Hreg Ho) as (g & w & r & ijv & Hg & _ & _ & Hd). exists g. split; [exact Hg|].
  destruct (pack_fields M (E_of p) (fun _ => 0) 0 0 0) as (A1 & A2 & A3 & A4 & A5). destruct (pack_fields M 0 p 0 0 0) as (C1 & C2 & C3 & C4 & C5).
  pose proof (Hd (pack M (E_of p) (fun _ => 0) 0 0 0)) as H1. pose proof (Hd (pack M 0 p 0 0 0)) as H2. rewrite dot_params in H1, H2.
  rewrite A1, A3, A4, A5 in H1. rewrite C1, C3, C4, C5 in H2.
  rewrite (sumN_zero (num_cells M)) in H1 by (intros c Hc; apply sumN_zero; intros q Hq; rewrite (A2 c q Hc Hq); unfold rho_of; ring).
  rewrite (sumN_ext (num_cells M) _ (fun c => sumN nq (fun q => rho_of M p c q * rho_of M g c q))) in H2 by (intros c Hc; apply sumN_ext; intros q Hq; rewrite (C2 c q Hc Hq); ring).
  assert (E : dotN (N * 3) w (B p sol (pack M (E_of p) (fun _ => 0) 0 0 0)) = dotN (N * 3) w (B p sol (pack M 0 p 0 0 0))); [|rewrite E in H1; lra].
  unfold dotN. apply sumN_ext. intros i Hi. f_equal. destruct (split_index i Hi) as (n & k & Hn & Hk & ->). rewrite !B_at by exact Hk. rewrite A3, C3. destruct (low n); [reflexivity|].
  unfold rate. rewrite A1, A4, A5, C1, C4, C5.
  rewrite (inner_ext M (fun c q i j => rho_of M (pack M (E_of p) (fun _ => 0) 0 0 0) c q * P_fn 1 (3 / 10) (def_grad M (field sol) c q) i j) (fun c q i j => 0 * P_fn 1 (3 / 10) (def_grad M (field sol) c q) i j)) by (intros c q i j Hc Hq _ _; rewrite (A2 c q Hc Hq); unfold rho_of; reflexivity).
  rewrite (inner_ext M (fun c q i j => rho_of M (pack M 0 p 0 0 0) c q * P_fn 1 (3 / 10) (def_grad M (field sol) c q) i j) (fun c q i j => rho_of M p c q * P_fn 1 (3 / 10) (def_grad M (field sol) c q) i j)) by (intros c q i j Hc Hq _ _; rewrite (C2 c q Hc Hq); reflexivity).
  rewrite inner_scal. ring.
Qed.
Lemma load_identity p sol v : regular Pp p (field sol) -> oriented M (field sol) -> inv_solution M P_fn Lz p (field sol) -> exists g, implicit_vjp ev Pp rp vjp sol p v false = Ok g /\
  E_of p * E_of g + n_of M p * n_of M g + s_of M p * s_of M g = 0.
Proof.
  intros Hreg Ho Hsol. destruct (inv_vjp p sol v Hreg Ho) as (g & w & r & ijv & Hg & _ & _ & Hd). exists g. split; [exact Hg|].
  apply (sol_iff M P_fn Lz HM) in Hsol as [_ Hz].
  destruct (pack_fields M (E_of p) (fun _ => 0) 0 (n_of M p) (s_of M p)) as (A1 & A2 & A3 & A4 & A5). set (dp := pack M (E_of p) (fun _ => 0) 0 (n_of M p) (s_of M p)) in *.
  pose proof (Hd dp) as H1. rewrite dot_params, A1, A3, A4, A5 in H1.
  rewrite (sumN_zero (num_cells M)) in H1 by (intros c Hc; apply sumN_zero; intros q Hq; rewrite (A2 c q Hc Hq); unfold rho_of; ring).
  assert (E : dotN (N * 3) w (B p sol dp) = 0); [|rewrite E in H1; lra].
  unfold dotN. apply sumN_zero. intros i Hi. destruct (split_index i Hi) as (n & k & Hn & Hk & ->). rewrite !B_at by exact Hk. rewrite A3. destruct (low n) eqn:Hb; [destruct k as [|[|[|k]]]; try lia; ring|].
  specialize (Hz n k Hn Hk). rewrite Hb in Hz. specialize (Hz ltac:(discriminate)). rewrite (res_oriented M P_fn Lz HP p _ _ Ho) in Hz. unfold rate. rewrite A1, A4, A5.
  rewrite (inner_ext M (fun c q i j => rho_of M dp c q * P_fn 1 (3 / 10) (def_grad M (field sol) c q) i j) (fun c q i j => 0 * P_fn 1 (3 / 10) (def_grad M (field sol) c q) i j)) by (intros c q i j Hc Hq _ _; rewrite (A2 c q Hc Hq); unfold rho_of; reflexivity).
  rewrite inner_scal. replace (E_of p * _ + _ - _ - _) with 0; [ring|]. rewrite <- Hz at 1. ring.
Qed.
(** ** the derivative with respect to the prescribed displacement *)
Lemma translation_matrix p u r ijv : newton_update (Pp p) u = Ok (r, ijv) -> exact_at M P_fn jac p u ->
  forall n k, (n < N)%nat -> (k < 3)%nat -> coo_mul (N * 3) ijv (fun i => if Nat.eqb (i mod 3) 2 then 1 else 0) (3 * n + k)%nat = 0.
Proof.
  intros Hr Hj n k Hn Hk. rewrite inv_newton in Hr.
  destruct (matrix_is_derivative (F p) (inv_wf M P_fn HM p) (jac p) cjac inds u (iv p) (inv_iv M P_fn p) (inv_cells M P_fn HM p) (inv_neu M P_fn Lz p) (inv_faces M P_fn Lz p) Hj) as (r' & ijv' & Hr' & Hd).
  { intros x Hx. destruct Hx. }
  rewrite Hr in Hr'. assert (ijv' = ijv) as -> by congruence.
  destruct (Hd (fun _ k => if Nat.eqb k 2 then 1 else 0)) as (rt & Hrt & Hder). specialize (Hder n k Hk).
  change (num_total_nodes (F p) * vec (F p))%nat with (N * 3)%nat in Hder. change (vec (F p) * n + k)%nat with (3 * n + k)%nat in Hder.
  refine (dl_unique _ _ _ _ Hder _). eapply dl_ext; [|apply (dl_const (rt 0 n k))]. intros t. cbv beta.
  rewrite (residual_value M P_fn Lz HM p _ _ n k (Hrt t) Hn Hk), (residual_value M P_fn Lz HM p _ _ n k (Hrt 0) Hn Hk).
  assert (E : forall t, add_step u t (fun _ k => if Nat.eqb k 2 then 1 else 0) = shift_z t u).
  { intros s. apply functional_extensionality. intros a. apply functional_extensionality. intros b. unfold add_step, shift_z. destruct (Nat.eqb b 2); ring. }
  rewrite !E, !(res_shift M P_fn Lz HM). reflexivity.
Qed.
Lemma displacement_derivative p sol v : regular Pp p (field sol) -> oriented M (field sol) -> exact_at M P_fn jac p (field sol) -> exists g, implicit_vjp ev Pp rp vjp sol p v false = Ok g /\
  d_of M g = Lz * sumN N (fun n => v (3 * n + 2)%nat).
Proof.
  intros Hreg Ho Hj. destruct (inv_vjp p sol v Hreg Ho) as (g & w & r & ijv & Hg & Hr & Hw & Hd). exists g. split; [exact Hg|].
  destruct (pack_fields M 0 (fun _ => 0) 1 0 0) as (A1 & A2 & A3 & A4 & A5). set (dp := pack M 0 (fun _ => 0) 1 0 0) in *.
  pose proof (Hd dp) as H1. rewrite dot_params, A1, A3, A4, A5 in H1.
  rewrite (sumN_zero (num_cells M)) in H1 by (intros c Hc; apply sumN_zero; intros q Hq; rewrite (A2 c q Hc Hq); unfold rho_of; ring).
  set (z := fun i => if Nat.eqb (i mod 3) 2 then 1 else 0).
  assert (E : dotN (N * 3) w (B p sol dp) = - Lz * dotN (N * 3) w (lop_apply (N * 3) (get_A_fn (Pp p) ijv false) z)).
  { unfold dotN. rewrite <- sumN_scal. apply sumN_ext. intros i Hi. destruct (split_index i Hi) as (n & k & Hn & Hk & ->). rewrite !B_at by exact Hk.
    destruct (inv_dims p) as (_ & _ & HN). rewrite <- HN. rewrite <- (inv_dof p n k). rewrite (get_A_fn_spec (Pp p) (inv_bc p) ijv false z n k (inv_unknown p n k Hn Hk)), (inv_prescribed p n k Hn Hk), HN, (inv_dof p n k), A3.
    destruct (low n).
    - unfold z. assert (H2 : ((3 * n + k) mod 3 = k)%nat) by (symmetry; apply (Nat.mod_unique _ 3 n k); lia). rewrite H2. destruct k as [|[|[|k]]]; try lia; cbn [Nat.eqb]; ring.
    - unfold z. rewrite (translation_matrix p _ r ijv Hr Hj n k Hn Hk). unfold rate. rewrite A1, A4, A5. rewrite (inner_ext M (fun c q i j => rho_of M dp c q * P_fn 1 (3 / 10) (def_grad M (field sol) c q) i j) (fun c q i j => 0 * P_fn 1 (3 / 10) (def_grad M (field sol) c q) i j)) by (intros c q i j Hc Hq _ _; rewrite (A2 c q Hc Hq); unfold rho_of; reflexivity).
      rewrite inner_scal. ring. }
  rewrite Hw in E. assert (Hz : dotN (N * 3) v z = sumN N (fun n => v (3 * n + 2)%nat)).
  { unfold dotN. rewrite sumN_mul. apply sumN_ext. intros n _. rewrite sumN3. unfold z. rewrite !(fun k H => eq_sym (Nat.mod_unique (3 * n + k) 3 n k H eq_refl)) by lia. cbn [Nat.eqb]. ring. }
  rewrite Hz in E. rewrite E in H1. lra.
Qed.
End InvGrad.
(** ** the difference quotient in scale_d *)
Lemma scale_d_fields {V} (M : fem V) h p : let j := (1 + inv_nc M * inv_nq M)%nat in
  same_but_d M p (scale_entry j h p) /\ d_of M (scale_entry j h p) = (1 + h) * d_of M p.
Proof.
  unfold same_but_d, E_of, rho_of, n_of, s_of, d_of, scale_entry. set (k := (inv_nc M * inv_nq M)%nat). cbn [Nat.add Nat.eqb]. rewrite Nat.eqb_refl.
  assert (H : forall i x, i <> k -> (if Nat.eqb i k then (1 + h) * x else x) = x) by (intros i x Hi; rewrite (proj2 (Nat.eqb_neq i k) Hi); reflexivity).
  repeat split; [intros c q Hc Hq; pose proof (rho_index M c q Hc Hq) as H0; fold k in H0; apply H; lia|exact (H (S k) _ ltac:(lia))|exact (H (S (S k)) _ ltac:(lia))].
Qed.
Lemma test_shift {V} (M : fem V) t u : test_fn M (shift_z t u) - test_fn M u = 2 * t * sumN (num_total_nodes M) (fun n => u n 2%nat) + INR (num_total_nodes M) * t ^ 2.
Proof.
  unfold test_fn. rewrite <- sumN_sub, <- sumN_scal. replace (INR (num_total_nodes M) * t ^ 2) with (sumN (num_total_nodes M) (fun _ => t ^ 2)) by (rewrite sumN_const; ring).
  rewrite <- sumN_add. apply sumN_ext. intros n _. rewrite !sumN3. unfold shift_z. cbn [Nat.eqb]. ring.
Qed.
Close Scope R_scope.
