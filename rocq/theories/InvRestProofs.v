(** * The inverse example without loads: the lifted block and its stiffness. *)
From Coq Require Import String FunctionalExtensionality Lra Lia.
From Verif Require Import Prelude PreludeFacts FemModel FemSpec FemFacts FemAsmProofs FemGeoProofs FemMatProofs BasisModel BasisSpec MatModel MatSpec MatProofs MatHyperProofs RveModel RveSpec
  SolverModel SolverSpec SolverProofs SolverAdProofs SolverFemProofs LinFacts BoxSpec BoxProofs WellSpec WellProofs WellBoxProofs WellMainProofs InvModel InvSpec InvProofs InvGradProofs.
Open Scope R_scope.
Open Scope list_scope.

Lemma psi_stress P_fn E D : psi_contract P_fn -> 0 < det 3 D -> meq 3 (P_fn E (3 / 10) D) (PK 3 (E / (2 * (1 + 3 / 10))) (E / (3 * (1 - 2 * (3 / 10)))) D).
Proof. intros HP HD. apply P_formula; [unfold small_dim; auto|exact (HP E (3 / 10))|exact HD]. Qed.
(** the stress looks at nine entries *)
Lemma det3_ext A B : meq 3 A B -> det 3 A = det 3 B.
Proof. intros H. unfold det. rewrite !H by lia. reflexivity. Qed.
Lemma P_local P_fn E A B : psi_contract P_fn -> 0 < det 3 A -> meq 3 A B -> meq 3 (P_fn E (3 / 10) A) (P_fn E (3 / 10) B).
Proof.
  intros HP HA HAB i j Hi Hj. pose proof (det3_ext A B HAB) as Hd. rewrite (psi_stress P_fn E A HP HA i j Hi Hj), (psi_stress P_fn E B HP (eq_ind _ (fun x => 0 < x) HA _ Hd) i j Hi Hj).
  unfold PK. assert (Hdd : ddot 3 A A = ddot 3 B B) by (unfold ddot; rewrite !sumN3, !HAB by lia; reflexivity).
  assert (Ha : adj 3 A j i = adj 3 B j i) by (destruct i as [|[|[|i]]]; [| | |lia]; destruct j as [|[|[|j]]]; try lia; unfold adj; cbn [Nat.eqb]; rewrite !HAB by lia; reflexivity).
  rewrite Hd, Hdd, Ha, (HAB i j Hi Hj). reflexivity.
Qed.
Lemma stress_at_rest P_fn E D i j : psi_contract P_fn -> meq 3 identity D -> (i < 3)%nat -> (j < 3)%nat -> P_fn E (3 / 10) D i j = 0.
Proof.
  intros HP HD Hi Hj. assert (Hp : 0 < det 3 identity) by (rewrite det_identity by (unfold small_dim; auto); lra).
  rewrite <- (P_local P_fn E identity D HP Hp HD i j Hi Hj), (psi_stress P_fn E identity HP Hp i j Hi Hj).
  rewrite PK_rest by (unfold small_dim; auto). cbn [INR]. field.
Qed.
Lemma stress_linearised P_fn E H D i j : psi_contract P_fn -> (forall t, meq 3 (near_rest H t) (D t)) -> (i < 3)%nat -> (j < 3)%nat ->
  derivable_pt_lim (fun t => P_fn E (3 / 10) (D t) i j) 0 (E / 70000 * linear_elastic_stress 3 H i j).
Proof.
  intros HP HD Hi Hj. set (mu := E / (2 * (1 + 3 / 10))). set (kappa := E / (3 * (1 - 2 * (3 / 10)))).
  apply (dl_local (fun t => PK 3 mu kappa (near_rest H t) i j)).
  - destruct (pos_near (fun t => det 3 (near_rest H t)) 0 (trace 3 H)) as (e & He & Hp).
    + eapply dl_ext; [intros t; symmetry; apply det_near_rest|]. apply dl_poly.
    + rewrite det_near_rest. replace (1 + _ + _ + _) with 1 by ring. lra.
    + exists e. split; [exact He|]. intros t Ht. rewrite <- (P_local P_fn E _ _ HP (Hp t Ht) (HD t) i j Hi Hj). symmetry. exact (psi_stress P_fn E _ HP (Hp t Ht) i j Hi Hj).
  - eapply dl_eq; [apply (PK_linearised mu kappa H i j Hi Hj)|reflexivity|]. unfold linear_elastic_stress, mu, kappa, trace, eye, identity. rewrite !sumN3. destruct (Nat.eqb i j); field.
Qed.

Section Rest.
Context {V : Type}.
Variable M : fem V.
Variable P_fn : R -> R -> mat -> mat.
Variables (Bx : basix) (Nx Ny Nz : nat) (Lx Ly Lz : R).
Hypothesis HB : box_hex M Bx Nx Ny Nz Lx Ly Lz.
Hypothesis HP : psi_contract P_fn.
Local Notation N := (num_total_nodes M).
Local Notation F p := (inv_fem M P_fn p).
Local Notation iv p := (inv_vars M p).
Local Notation inds := (inv_inds M Lz).
Local Notation nq := (num_quads (f_ele M)).
Local Notation low n := (on_plane 2 0 (points M n)).
Lemma box_mesh_ok : mesh_ok M.
Proof.
  split; [exact (hex_wf M Bx Nx Ny Nz Lx Ly Lz HB)|]. split; [|split; [exact (hex_cells M Bx Nx Ny Nz Lx Ly Lz HB)|exact (hex_grads M Bx Nx Ny Nz Lx Ly Lz HB)]].
  pose proof HB as (H & _ & _ & _ & _ & _ & _ & _ & _ & _ & HE). exact (proj1 (box_dim Bx H M HE)).
Qed.
Lemma zero_grad c q : sol_to_grad M (fun _ _ => 0) c q = fun _ _ => 0.
Proof. apply functional_extensionality. intros i. apply functional_extensionality. intros j. unfold sol_to_grad. apply sumN_zero. intros; ring. Qed.
Lemma lifted_grad t u c q i j : lifted t u -> (q < nq)%nat -> (i < 3)%nat -> def_grad M u c q i j = identity i j.
Proof.
  intros Hu Hq Hi. unfold def_grad. assert (sol_to_grad M u c q i j = sol_to_grad M (shift_z t (fun _ _ => 0)) c q i j) as ->.
  { unfold sol_to_grad. apply sumN_ext. intros a _. rewrite (Hu _ i Hi). unfold shift_z. destruct (Nat.eqb i 2); ring. }
  rewrite (grad_shift M box_mesh_ok t _ c q Hq), zero_grad, Rplus_0_l. reflexivity.
Qed.
Lemma lifted_oriented t u : lifted t u -> oriented M u.
Proof.
  intros Hu c q Hc Hq. change (0 < det 3 (def_grad M u c q)). rewrite (det3_ext _ identity), det_identity by (try (unfold small_dim; auto); intros i j Hi _; exact (lifted_grad t u c q i j Hu Hq Hi)). lra.
Qed.
Lemma lifted_solution p u : lifted (d_of M p * Lz) u -> n_of M p = 0 -> s_of M p = 0 -> inv_solution M P_fn Lz p u.
Proof.
  intros Hu Hn Hs. apply (sol_iff M P_fn Lz box_mesh_ok). split.
  - intros n _ _. rewrite !(Hu n) by lia. repeat split; reflexivity.
  - intros n k _ _ _. unfold res_value. rewrite Hn, Hs. rewrite (inner_ext M _ (fun _ _ _ _ => 0 * 0)), inner_scal; [ring|].
    intros c q i j Hc Hq Hi Hj. rewrite (stress_at_rest P_fn _ _ i j HP (fun a b Ha _ => eq_sym (lifted_grad _ u c q a b Hu Hq Ha)) Hi Hj). ring.
Qed.
(** ** the stiffness *)
Hypothesis HW : positive_weights M.
Variable jac : vector -> nodal -> (nat -> nat -> nat -> R) -> (nat -> R) -> (nat -> nat -> nat -> R) -> list (nat -> R) -> list (nat -> R) -> jac4.
Variable Pp : vector -> problem.
Variable cjac : ((nat -> R) -> nat -> R) -> nodal -> (nat -> nat -> R) -> (nat -> R) -> jac4.
Variable eps : option R.
Hypothesis Hpp : forall p, fem_problem (F p) inds (iv p) (jac p) cjac (Some (inv_dirichlet M Lz p)) None eps = Ok (Pp p).
Variable p : vector.
Variable t0 : R.
Variable u0 : nodal.
Hypothesis Hu0 : lifted t0 u0.
Hypothesis Hmod : forall c q, (c < num_cells M)%nat -> (q < nq)%nat -> 0 < E_of p * rho_of M p c q.
Hypothesis Hj : exact_at M P_fn jac p u0.
Definition el : fem V := mkFem (f_ele M) N (points M) (cells M) 3 (Some (fun _ => linear_elastic_stress 3)) None (fun u => u) None None None.
Lemma rest_work r ijv X : newton_update (Pp p) u0 = Ok (r, ijv) ->
  sumN N (fun n => sumN 3 (fun k => X n k * coo_mul (N * 3) ijv (flatten (F p) X) (3 * n + k)%nat))
  = inner M (fun c q i j => modulus M p c q / 70000 * linear_elastic_stress 3 (sol_to_grad M X c q) i j) X.
Proof.
  intros Hr. rewrite (inv_newton M P_fn Lz jac Pp cjac eps Hpp) in Hr.
  destruct (matrix_is_derivative (F p) (inv_wf M P_fn box_mesh_ok p) (jac p) cjac inds u0 (iv p) (inv_iv M P_fn p) (inv_cells M P_fn box_mesh_ok p) (inv_neu M P_fn Lz p) (inv_faces M P_fn Lz p) Hj) as (r' & ijv' & Hr' & Hd).
  { intros x Hx. destruct Hx. }
  rewrite Hr in Hr'. assert (ijv' = ijv) as -> by congruence. destruct (Hd X) as (rt & Hrt & Hder).
  refine (dl_unique (fun t => sumN N (fun n => sumN 3 (fun k => X n k * rt t n k))) 0 _ _ _ _).
  - apply (dl_sumN N (fun n t => sumN 3 (fun k => X n k * rt t n k))). intros n _. apply (dl_sumN 3 (fun k t => X n k * rt t n k)). intros k Hk. apply dl_scal. exact (Hder n k Hk).
  - set (D := fun c q (t : R) => def_grad M (add_step u0 t X) c q).
    apply (dl_eq (fun t => inner M (fun c q => P_fn (modulus M p c q) (3 / 10) (D c q t)) X + - (s_of M p * body1 M X + n_of M p * trac1 M Lz X))
        _ 0 (inner M (fun c q i j => modulus M p c q / 70000 * linear_elastic_stress 3 (sol_to_grad M X c q) i j) X + 0)).
    + apply dl_add; [|apply dl_const]. unfold inner.
      apply (dl_sumN _ (fun c t => sumN nq (fun q => JxW M c q * sumN 3 (fun k => sumN 3 (fun d => P_fn (modulus M p c q) (3 / 10) (D c q t) k d * sol_to_grad M X c q k d))))). intros c _.
      apply (dl_sumN _ (fun q t => JxW M c q * sumN 3 (fun k => sumN 3 (fun d => P_fn (modulus M p c q) (3 / 10) (D c q t) k d * sol_to_grad M X c q k d)))). intros q Hq. apply dl_scal.
      assert (HD : forall t, meq 3 (near_rest (sol_to_grad M X c q) t) (D c q t)).
      { intros t i j Hi _. unfold near_rest. rewrite <- (lifted_grad t0 u0 c q i j Hu0 Hq Hi). unfold D, def_grad, sol_to_grad, add_step.
        rewrite (sumN_ext _ (fun a => (_ + t * _) * _) (fun a => u0 (cell_node M c a) i * shape_grads M c q a j + t * (X (cell_node M c a) i * shape_grads M c q a j))) by (intros; ring). rewrite sumN_add, sumN_scal. ring. }
      apply (dl_sumN _ (fun k t => sumN 3 (fun d => P_fn (modulus M p c q) (3 / 10) (D c q t) k d * sol_to_grad M X c q k d))). intros k Hk.
      apply (dl_sumN _ (fun d t => P_fn (modulus M p c q) (3 / 10) (D c q t) k d * sol_to_grad M X c q k d)). intros d Hd'.
      eapply dl_eq; [apply (dl_scal (sol_to_grad M X c q k d)); exact (stress_linearised P_fn (modulus M p c q) (sol_to_grad M X c q) (D c q) k d HP HD Hk Hd')|intros; cbv beta; ring|ring].
    + intros t. destruct (virtual_work (F p) (inv_wf M P_fn box_mesh_ok p) inds (add_step u0 t X) (iv p) (inv_iv M P_fn p) (inv_cells M P_fn box_mesh_ok p) (inv_neu M P_fn Lz p) (inv_faces M P_fn Lz p)) as (r1 & Hr1 & Hw).
      rewrite Hrt in Hr1. injection Hr1 as <-. specialize (Hw X). change (num_total_nodes (F p)) with N in Hw. change (vec (F p)) with 3%nat in Hw. rewrite Hw.
      rewrite (power_inner M P_fn box_mesh_ok), power_body, power_trac. unfold cauchy_power, cauchy_faces. cbn [cauchy_bc_info inv_fem sumR]. unfold D. ring.
    + ring.
Qed.
Lemma rest_definite X : (forall n k, (n < N)%nat -> (k < 3)%nat -> low n = true -> X n k = 0) ->
  inner M (fun c q i j => modulus M p c q / 70000 * linear_elastic_stress 3 (sol_to_grad M X c q) i j) X = 0 -> forall n k, (n < N)%nat -> (k < 3)%nat -> X n k = 0.
Proof.
  intros Hz Hi. set (e := fun c q => ddot 3 (linear_elastic_stress 3 (sol_to_grad M X c q)) (sol_to_grad M X c q)).
  assert (E1 : sumN (num_cells M) (fun c => sumN nq (fun q => JxW M c q * (modulus M p c q / 70000 * e c q))) = 0).
  { rewrite <- Hi. unfold inner. apply sumN_ext. intros c _. apply sumN_ext. intros q _. f_equal. unfold e, ddot. rewrite <- sumN_scal. apply sumN_ext. intros k _. rewrite <- sumN_scal. apply sumN_ext. intros d _. ring. }
  assert (Hpos : forall c q, (c < num_cells M)%nat -> (q < nq)%nat -> 0 <= JxW M c q * (modulus M p c q / 70000 * e c q)).
  { intros c q Hc Hq. pose proof (HW c q Hc Hq). pose proof (Hmod c q Hc Hq) as Hm. fold (modulus M p c q) in Hm. pose proof (lin_energy 3 (sol_to_grad M X c q)) as He. fold (e c q) in He.
    apply Rmult_le_pos; [lra|]. apply Rmult_le_pos; [lra|exact He]. }
  assert (Hzero : forall c q, (c < num_cells M)%nat -> (q < nq)%nat -> e c q = 0).
  { intros c q Hc Hq. pose proof (sumN_zero_each _ _ (fun c Hc => sumN_nonneg nq _ (fun q Hq => Hpos c q Hc Hq)) E1 c Hc) as E2. cbv beta in E2.
    pose proof (sumN_zero_each _ _ (fun q Hq => Hpos c q Hc Hq) E2 q Hq) as E3. cbv beta in E3. pose proof (HW c q Hc Hq). pose proof (Hmod c q Hc Hq) as Hm. fold (modulus M p c q) in Hm.
    apply Rmult_integral in E3 as [E3|E3]; [lra|]. apply Rmult_integral in E3 as [E3|E3]; [lra|exact E3]. }
  pose proof HB as (HBx & Hq & Hx & Hy & Hz' & H1 & H2 & H3 & Hm & Hnn & HE).
  intros n k Hn Hk. refine (elastic_clamped Bx HBx Hq el Nx Ny Nz Lx Ly Lz Hx Hy Hz' H1 H2 H3 Hm Hnn HE eq_refl eq_refl (mkIv [] [] None (fun _ => [])) X 2 false _ ltac:(lia) _ n k Hn Hk).
  - rewrite (elastic_form Bx HBx el HE eq_refl eq_refl). apply sumN_zero. intros c Hc. apply sumN_zero. intros q Hq'. change (JxW M c q * e c q = 0). rewrite (Hzero c q Hc Hq'). ring.
  - intros n' k' Hn' Hp Hk'. apply Hz; [exact Hn'|exact Hk'|]. change (points el n' 2%nat) with (points M n' 2%nat) in Hp. cbn [side_coord snd] in Hp. unfold on_plane, isclose. rewrite Hp. apply Rleb_true. rewrite Rminus_0_r, Rabs_R0. lra.
Qed.
Lemma rest_regular : regular Pp p u0.
Proof.
  destruct (newton_spec (F p) (inv_wf M P_fn box_mesh_ok p) (jac p) cjac inds u0 (iv p) (inv_iv M P_fn p) (inv_cells M P_fn box_mesh_ok p) (inv_neu M P_fn Lz p) (inv_faces M P_fn Lz p)) as (r & ijv & Hr & _).
  rewrite <- (f_equal (fun f => f u0) (inv_newton M P_fn Lz jac Pp cjac eps Hpp p)) in Hr. exists r, ijv. split; [exact Hr|].
  pose proof (inv_bc M P_fn Lz jac Pp cjac eps Hpp p) as Hbc. destruct (inv_dims M P_fn Lz jac Pp cjac eps Hpp p) as (_ & _ & HN).
  apply injective_invertible; [exact (get_A_linear (fun _ => Pp p) vzero Hbc ijv false)|]. intros x Hx. rewrite HN in *. set (X := fun n k => x (3 * n + k)%nat).
  assert (HA : forall n k, (n < N)%nat -> (k < 3)%nat -> (if low n then x (3 * n + k)%nat else coo_mul (N * 3) ijv x (3 * n + k)%nat) = 0).
  { intros n k Hn Hk. pose proof (inv_dof M P_fn Lz jac Pp cjac eps Hpp p n k) as Hdof. pose proof (inv_unknown M P_fn Lz jac Pp cjac eps Hpp p n k Hn Hk) as Hu.
    specialize (Hx (3 * n + k)%nat ltac:(lia)). unfold vzero in Hx. pose proof (get_A_fn_spec (Pp p) Hbc ijv false x n k Hu) as Hs. rewrite (inv_prescribed M P_fn Lz jac Pp cjac eps Hpp p n k Hn Hk), HN, Hdof, Hx in Hs. destruct (low n); symmetry; exact Hs. }
  assert (Hfl : flatten (F p) X = x).
  { apply functional_extensionality. intros i. unfold flatten, X. change (vec (F p)) with 3%nat. f_equal. symmetry. apply Nat.div_mod. lia. }
  pose proof (rest_work r ijv X Hr) as Hw. rewrite Hfl in Hw.
  assert (Hz : inner M (fun c q i j => modulus M p c q / 70000 * linear_elastic_stress 3 (sol_to_grad M X c q) i j) X = 0).
  { rewrite <- Hw. apply sumN_zero. intros n Hn. apply sumN_zero. intros k Hk. specialize (HA n k Hn Hk). unfold X. destruct (low n); rewrite HA; ring. }
  assert (Hlow : forall n k, (n < N)%nat -> (k < 3)%nat -> low n = true -> X n k = 0).
  { intros n k Hn Hk Hb. specialize (HA n k Hn Hk). rewrite Hb in HA. exact HA. }
  pose proof (rest_definite X Hlow Hz) as Hall. intros i Hi. destruct (split_index M i Hi) as (n & k & Hn & Hk & ->). exact (Hall n k Hn Hk).
Qed.
End Rest.
Close Scope R_scope.
