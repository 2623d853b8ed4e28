(** * Energy of the representative volume element: gradient, Hill-Mandel, frame indifference. *)
From Coq Require Import Lra Lia FunctionalExtensionality.
From Verif Require Import Prelude PreludeFacts FemModel FemFacts FemSpec FemAsmProofs FemGeoProofs MatModel MatSpec MatProofs MatHyperProofs CrysModel CrysSpec CrysDiffProofs CrysFemProofs RveModel RveSpec.
Open Scope R_scope.

(** ** the energy along a path *)
Lemma det_path A A' : path A A' -> derivable_pt_lim (fun t => det 3 (A t)) 0 (sumN 3 (fun i => sumN 3 (fun j => adj 3 (A 0) j i * A' i j))).
Proof.
  intros H. assert (HH : forall i j, (i < 3)%nat -> (j < 3)%nat -> derivable_pt_lim (fun t => A t i j) 0 (A' i j)) by exact H.
  assert (M : forall i j k l, (i < 3)%nat -> (j < 3)%nat -> (k < 3)%nat -> (l < 3)%nat ->
    derivable_pt_lim (fun t => A t i j * A t k l) 0 (A' i j * A 0 k l + A 0 i j * A' k l)).
  { intros. apply (dl_mul (fun t => A t i j) (fun t => A t k l)); now apply H. }
  assert (T : forall i j a b c d e f g h, (i < 3)%nat -> (j < 3)%nat -> (a < 3)%nat -> (b < 3)%nat -> (c < 3)%nat -> (d < 3)%nat -> (e < 3)%nat -> (f < 3)%nat -> (g < 3)%nat -> (h < 3)%nat ->
    derivable_pt_lim (fun t => A t i j * (A t a b * A t c d - A t e f * A t g h)) 0
      (A' i j * (A 0 a b * A 0 c d - A 0 e f * A 0 g h) + A 0 i j * ((A' a b * A 0 c d + A 0 a b * A' c d) - (A' e f * A 0 g h + A 0 e f * A' g h)))).
  { intros. apply (dl_mul (fun t => A t i j) (fun t => A t a b * A t c d - A t e f * A t g h)); [now apply H|]. apply dl_sub; now apply M. }
  eapply dl_eq.
  - apply dl_add; [apply dl_sub|].
    + apply (T 0 0 1 1 2 2 1 2 2 1)%nat; lia.
    + apply (T 0 1 1 0 2 2 1 2 2 0)%nat; lia.
    + apply (T 0 2 1 0 2 1 1 1 2 0)%nat; lia.
  - intros t. reflexivity.
  - unfold sumN, adj. cbn. ring.
Qed.
Lemma ddot_path A A' : path A A' -> derivable_pt_lim (fun t => ddot 3 (A t) (A t)) 0 (2 * ddot 3 (A 0) A').
Proof.
  intros H. unfold ddot. rewrite <- sumN_scal. apply (dl_sumN 3 (fun i t => sumN 3 (fun j => A t i j * A t i j))). intros i Hi. rewrite <- sumN_scal.
  apply (dl_sumN 3 (fun j t => A t i j * A t i j)). intros j Hj.
  eapply dl_eq; [apply (dl_mul (fun t => A t i j) (fun t => A t i j)); now apply H|reflexivity|cbn beta; ring].
Qed.
Lemma psi_path mu kappa A A' : path A A' -> 0 < det 3 (A 0) ->
  derivable_pt_lim (fun t => psi_mod 3 mu kappa (A t)) 0 (ddot 3 (PK 3 mu kappa (A 0)) A').
Proof.
  intros H HJ. pose proof (det_path A A' H) as HD. pose proof (ddot_path A A' H) as HI.
  set (D' := sumN 3 (fun i => sumN 3 (fun j => adj 3 (A 0) j i * A' i j))) in *.
  pose proof (dl_Rpower (fun t => det 3 (A t)) 0 (- 2 / 3) D' HJ HD) as HP. cbn beta in HP.
  eapply dl_eq.
  - apply dl_add.
    + apply (dl_scal (mu / 2)). apply dl_sub; [apply dl_mul; [exact HP|exact HI]|apply (dl_const 3)].
    + apply (dl_scal (kappa / 2)). apply (dl_mul (fun t => det 3 (A t) - 1) (fun t => det 3 (A t) - 1)); (apply dl_sub; [exact HD|apply (dl_const 1)]).
  - intros t. rewrite psi_form. ring.
  - unfold PK. set (p := Rpower (det 3 (A 0)) (- 2 / 3)). set (J := det 3 (A 0)) in *. set (I := ddot 3 (A 0) (A 0)).
    transitivity (mu * p * ddot 3 (A 0) A' + (kappa * (J - 1) - mu / 3 * p * I / J) * D'); [field; lra|].
    unfold D', ddot. rewrite <- !sumN_scal, <- sumN_add. apply sumN_ext. intros i _. rewrite <- !sumN_scal, <- sumN_add. apply sumN_ext. intros j _. field. lra.
Qed.
Lemma psi_E_path P_fn E nu A A' : psi_contract P_fn -> path A A' -> 0 < det 3 (A 0) ->
  derivable_pt_lim (fun t => psi_E E nu (A t)) 0 (ddot 3 (P_fn E nu (A 0)) A').
Proof.
  intros HP H HJ. eapply dl_eq; [apply psi_path; [exact H|exact HJ]|reflexivity|]. apply ddot_ext; intros i j Hi Hj; [|reflexivity].
  symmetry. apply (P_formula 3 _ _ (P_fn E nu) (A 0)); try assumption; [unfold small_dim; auto|apply HP].
Qed.

Section Body.
Variable F : fem R.
Local Notation E := (f_ele F).
Local Notation nq := (num_quads E).
Variables (g : ms_args) (info : dns) (P_fn : R -> R -> mat -> mat).
Hypothesis HP : psi_contract P_fn.
Lemma moduli_vars_at c : (c < num_cells F)%nat ->
  vars_at (iv_laplace (moduli_vars F g info)) c = [(fun q => fst (moduli_at F g info c q)); (fun q => snd (moduli_at F g info c q))].
Proof.
  intros Hc. unfold vars_at, moduli_vars. cbn [iv_laplace flat_map].
  rewrite !nth_error_map, !(nth_error_nth' (seq 0 (num_cells F)) 0%nat) by (now rewrite seq_length). cbn [option_map app]. now rewrite seq_nth.
Qed.
Lemma moduli_sized : iv_sized F (moduli_vars F g info).
Proof. split; [constructor|]. unfold sized, moduli_vars. cbn [iv_laplace]. repeat constructor; now rewrite map_length, seq_length. Qed.
Lemma rve_stress H u c q : tensor_map F = Some (rve_tensor_map P_fn H) -> (c < num_cells F)%nat ->
  stress F (moduli_vars F g info) u c q = rve_P F g info P_fn H u c q.
Proof. intros Ht Hc. unfold stress. rewrite Ht, moduli_vars_at by exact Hc. reflexivity. Qed.
Lemma grad_path u u' c q : nodal_path u u' -> path (fun t => sol_to_grad F (u t) c q) (sol_to_grad F u' c q).
Proof.
  intros H i j _ _. unfold sol_to_grad. apply (dl_sumN (num_nodes E) (fun a t => u t (cell_node F c a) i * shape_grads F c q a j)). intros a _.
  eapply dl_eq; [apply (dl_scal (shape_grads F c q a j)), H|intros s; apply Rmult_comm|apply Rmult_comm].
Qed.
Lemma total_path H H' u u' c q : path H H' -> nodal_path u u' -> path (fun t => total F (H t) (u t) c q) (fun i j => sol_to_grad F u' c q i j + H' i j).
Proof.
  intros HH Hu i j Hi Hj. unfold total. eapply dl_eq; [apply dl_add; [apply dl_add; [apply (grad_path u u' c q Hu i j Hi Hj)|apply (dl_const (eye i j))]|apply (HH i j Hi Hj)]|reflexivity|ring].
Qed.
(** rate of the energy for any history of the macroscopic gradient and of the fluctuation *)
Lemma energy_rate H H' u u' : path H H' -> nodal_path u u' -> orientation F (H 0) (u 0) ->
  derivable_pt_lim (fun t => compute_energy_rve F g info (H t) (u t)) 0
    (sumN (num_cells F) (fun c => sumN nq (fun q => JxW F c q * ddot 3 (rve_P F g info P_fn (H 0) (u 0) c q) (fun i j => sol_to_grad F u' c q i j + H' i j)))).
Proof.
  intros HH Hu Ho. unfold compute_energy_rve.
  apply (dl_sumN (num_cells F) (fun c t => sumN nq (fun q => psi_E (fst (moduli_at F g info c q)) (snd (moduli_at F g info c q)) (total F (H t) (u t) c q) * JxW F c q))). intros c Hc.
  apply (dl_sumN nq (fun q t => psi_E (fst (moduli_at F g info c q)) (snd (moduli_at F g info c q)) (total F (H t) (u t) c q) * JxW F c q)). intros q Hq.
  eapply dl_eq; [apply (dl_scal (JxW F c q)); eapply psi_E_path; [exact HP|apply (total_path H H' u u' c q HH Hu)|now apply Ho]|intros; apply Rmult_comm|reflexivity].
Qed.
Hypothesis Hwf : wf_mesh F.
Hypothesis Hdim : dim F = 3%nat.
Hypothesis Hvec : vec F = 3%nat.
Hypothesis Hcells : (0 < num_cells F)%nat.
Variable inds : list (list (nat * nat)).
Hypothesis Hsel : forall sel, In sel inds -> faces_ok F sel.
Lemma rve_work H u : tensor_map F = Some (rve_tensor_map P_fn H) -> only_internal F (moduli_vars F g info) ->
  exists r, compute_residual_vars F inds u (moduli_vars F g info) = Ok r /\
  forall v, sumN (num_total_nodes F) (fun n => sumN 3 (fun k => v n k * r n k))
   = sumN (num_cells F) (fun c => sumN nq (fun q => JxW F c q * ddot 3 (rve_P F g info P_fn H u c q) (sol_to_grad F v c q))).
Proof.
  intros Ht Ho. destruct (internal_only_work F Hwf inds (moduli_vars F g info) u moduli_sized Hcells Ho Hsel) as (r & Hr & He). exists r. split; [exact Hr|].
  intros v. rewrite Hvec in He. rewrite He, Hdim. apply sumN_ext. intros c Hc. apply sumN_ext. intros q _. rewrite (rve_stress H u c q Ht Hc). reflexivity.
Qed.
(** the residual is the gradient of compute_energy *)
Lemma residual_is_gradient H u : tensor_map F = Some (rve_tensor_map P_fn H) -> only_internal F (moduli_vars F g info) -> orientation F H u ->
  exists r, compute_residual_vars F inds u (moduli_vars F g info) = Ok r /\
  forall v, derivable_pt_lim (fun t => compute_energy_rve F g info H (add_step u t v)) 0 (sumN (num_total_nodes F) (fun n => sumN 3 (fun k => v n k * r n k))).
Proof.
  intros Ht Ho Hor. destruct (rve_work H u Ht Ho) as (r & Hr & He). exists r. split; [exact Hr|]. intros v. rewrite He.
  assert (E0 : add_step u 0 v = u) by (unfold add_step; extensionality n; extensionality k; ring).
  eapply dl_eq; [apply (energy_rate (fun _ => H) mzero (fun t => add_step u t v) v); [apply path_const|intros n k; unfold add_step; apply dl_line|now rewrite E0]|reflexivity|].
  rewrite E0. apply sumN_ext. intros c _. apply sumN_ext. intros q _. f_equal. apply ddot_ext; intros i j _ _; [reflexivity|]. unfold mzero. ring.
Qed.
(** Hill-Mandel: at equilibrium with respect to the rate, the power of the macroscopic gradient *)
Lemma hill_mandel H H' u u' r : tensor_map F = Some (rve_tensor_map P_fn (H 0)) -> only_internal F (moduli_vars F g info) ->
  path H H' -> nodal_path u u' -> orientation F (H 0) (u 0) ->
  compute_residual_vars F inds (u 0) (moduli_vars F g info) = Ok r -> sumN (num_total_nodes F) (fun n => sumN 3 (fun k => u' n k * r n k)) = 0 ->
  derivable_pt_lim (fun t => compute_energy_rve F g info (H t) (u t)) 0 (ddot 3 (total_stress F (rve_P F g info P_fn (H 0) (u 0))) H').
Proof.
  intros Ht Ho HH Hu Hor Hr He. destruct (rve_work (H 0) (u 0) Ht Ho) as (r' & Hr' & Hw). assert (r' = r) as -> by congruence. clear Hr'.
  rewrite Hw in He. eapply dl_eq; [apply (energy_rate H H' u u' HH Hu Hor)|reflexivity|].
  transitivity (sumN (num_cells F) (fun c => sumN nq (fun q => JxW F c q * ddot 3 (rve_P F g info P_fn (H 0) (u 0) c q) (sol_to_grad F u' c q)))
     + sumN (num_cells F) (fun c => sumN nq (fun q => JxW F c q * ddot 3 (rve_P F g info P_fn (H 0) (u 0) c q) H'))).
  - rewrite <- sumN_add. apply sumN_ext. intros c _. rewrite <- sumN_add. apply sumN_ext. intros q _. rewrite <- Rmult_plus_distr_l. f_equal.
    unfold ddot. rewrite <- sumN_add. apply sumN_ext. intros i _. rewrite <- sumN_add. apply sumN_ext. intros j _. ring.
  - rewrite He, Rplus_0_l. unfold ddot, total_stress.
    transitivity (sumN (num_cells F) (fun c => sumN 3 (fun i => sumN 3 (fun j => sumN nq (fun q => JxW F c q * rve_P F g info P_fn (H 0) (u 0) c q i j * H' i j))))).
    + apply sumN_ext. intros c _. rewrite (sumN_ext 3 _ (fun i => sumN nq (fun q => sumN 3 (fun j => JxW F c q * rve_P F g info P_fn (H 0) (u 0) c q i j * H' i j)))) by (intros; apply sumN_swap).
      rewrite sumN_swap. apply sumN_ext. intros q _. rewrite <- sumN_scal. apply sumN_ext. intros i _. rewrite <- sumN_scal. apply sumN_ext. intros; ring.
    + rewrite sumN_swap. apply sumN_ext. intros i _. rewrite sumN_swap. apply sumN_ext. intros j _. rewrite <- sumN_scal_r. apply sumN_ext. intros c _. now rewrite sumN_scal_r.
Qed.
(** a rotation of the macroscopic deformation and of the fluctuation *)
Lemma total_rotated Q H u c q i j : (j < 3)%nat -> total F (rotate_H Q H) (rotate_field Q u) c q i j = matmul 3 Q (total F H u c q) i j.
Proof.
  intros Hj. unfold total, rotate_H, rotate_field. rewrite grad_lin. unfold matmul, F_of. 
  transitivity (sumN 3 (fun l => Q i l * sol_to_grad F u c q l j) + sumN 3 (fun k => Q i k * (H k j + eye k j))); [ring|]. rewrite <- sumN_add. apply sumN_ext. intros; ring.
Qed.
Lemma energy_frame Q H u : rotation 3 Q -> compute_energy_rve F g info (rotate_H Q H) (rotate_field Q u) = compute_energy_rve F g info H u.
Proof.
  intros HQ. unfold compute_energy_rve. apply sumN_ext. intros c _. apply sumN_ext. intros q _. f_equal.
  transitivity (psi_E (fst (moduli_at F g info c q)) (snd (moduli_at F g info c q)) (matmul 3 Q (total F H u c q))).
  - apply psi_ext3. intros i j _ Hj. now apply total_rotated.
  - unfold psi_E. rewrite psi_frame; [reflexivity|unfold small_dim; auto|exact HQ].
Qed.
Lemma moduli_ok c q : moduli_physical g -> 0 <= fst (moduli_at F g info c q) /\ 0 <= snd (moduli_at F g info c q) < / 2.
Proof.
  intros (H1 & H2 & H3 & H4). unfold moduli_at, compute_moduli, moduli_map. destruct info; cbn [fst snd]; try (destruct (inclusion _ _)); auto.
Qed.
Lemma energy_nonneg H u : moduli_physical g -> orientation F H u -> (forall c q, (c < num_cells F)%nat -> (q < nq)%nat -> 0 <= JxW F c q) ->
  0 <= compute_energy_rve F g info H u.
Proof.
  intros Hm Ho Hw. unfold compute_energy_rve. apply sumN_nonneg. intros c Hc. apply sumN_nonneg. intros q Hq. apply Rmult_le_pos; [|now apply Hw].
  destruct (moduli_ok c q Hm) as (HE & Hn). apply psi_nonneg; [| |exact (Ho c q Hc Hq)]; apply Rmult_le_pos; try assumption; left; apply Rinv_0_lt_compat; lra.
Qed.
(** no macroscopic strain, no fluctuation: no energy *)
Lemma energy_rest : compute_energy_rve F g info mzero zeros = 0.
Proof.
  unfold compute_energy_rve. apply sumN_zero. intros c _. apply sumN_zero. intros q _.
  unfold psi_E. rewrite (psi_ext3 _ _ _ identity), psi_rest; [ring|]. intros i j _ _. unfold sol_to_grad, zeros, mzero, eye, identity.
  rewrite sumN_zero by (intros; ring). ring.
Qed.
End Body.
(** ** small deformations *)
Lemma psi_hooke P_fn E nu H i j : psi_contract P_fn -> 1 + nu <> 0 -> 1 - 2 * nu <> 0 -> (i < 3)%nat -> (j < 3)%nat ->
  P_fn E nu identity i j = 0 /\
  derivable_pt_lim (fun t => P_fn E nu (near_rest H t) i j) 0 (E / (1 + nu) * ((H i j + H j i) / 2) + E * nu / ((1 + nu) * (1 - 2 * nu)) * trace 3 H * delta i j).
Proof.
  intros HP H1 H2 Hi Hj. set (mu := E / (2 * (1 + nu))). set (kappa := E / (3 * (1 - 2 * nu))).
  assert (HF : forall D, 0 < det 3 D -> P_fn E nu D i j = PK 3 mu kappa D i j) by (intros D HD; exact (P_formula 3 mu kappa (P_fn E nu) D ltac:(unfold small_dim; auto) (HP E nu) HD i j Hi Hj)).
  split.
  - rewrite HF, PK_rest by (try assumption; unfold small_dim; auto; rewrite det_identity by (unfold small_dim; auto); lra). cbn [INR]. field.
  - apply (dl_local (fun t => PK 3 mu kappa (near_rest H t) i j)).
    + destruct (pos_near (fun t => det 3 (near_rest H t)) 0 (trace 3 H)) as (e & He & Hp).
      * eapply dl_ext; [intros t; symmetry; apply det_near_rest|]. apply dl_poly.
      * rewrite det_near_rest. replace (1 + _ + _ + _) with 1 by ring. lra.
      * exists e. split; [exact He|]. intros t Ht. symmetry. exact (HF _ (Hp t Ht)).
    + eapply dl_eq; [apply (PK_linearised mu kappa H i j Hi Hj)|reflexivity|]. unfold mu, kappa, identity, delta. destruct (Nat.eqb i j); field; split; assumption.
Qed.
Close Scope R_scope.
