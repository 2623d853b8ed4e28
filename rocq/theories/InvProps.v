(** * Theorems about the inverse example (demos/fem/inverse/example.py). *)
From Coq Require Import String FunctionalExtensionality Lra Lia.
From Verif Require Import Prelude PreludeFacts FemModel FemSpec FemFacts FemMatProofs BasisModel BasisSpec BasisExamples MatModel MatSpec RveModel RveSpec RveExamples
  SolverModel SolverSpec SolverExamples BoxSpec BoxExamples WellSpec InvModel InvSpec InvProofs InvGradProofs InvRestProofs InvBalanceProofs InvExamples.
Open Scope R_scope.
Open Scope list_scope.

(** ** C158: what the solution can and cannot tell about the parameters *)
Theorem inverse_scaling : forall V (M : fem V) P_fn Lz a p p' u, mesh_ok M -> psi_contract P_fn -> scaled M a p p' -> a = 1 \/ oriented M u ->
  (exists r r', compute_residual_vars (inv_fem M P_fn p) (inv_inds M Lz) u (inv_vars M p) = Ok r /\ compute_residual_vars (inv_fem M P_fn p') (inv_inds M Lz) u (inv_vars M p') = Ok r' /\
    forall n k, (n < num_total_nodes M)%nat -> (k < 3)%nat -> r' n k = a * r n k) /\
  (a <> 0 -> (inv_solution M P_fn Lz p' u <-> inv_solution M P_fn Lz p u)).
Proof.
  intros V M P_fn Lz a p p' u HM HP Hs Ho. split.
  - destruct (residual_ok M P_fn Lz HM p u) as (r & Hr). destruct (residual_ok M P_fn Lz HM p' u) as (r' & Hr'). exists r, r'. split; [exact Hr|]. split; [exact Hr'|].
    exact (residual_scaled M P_fn Lz HM HP a p p' u r r' Hs Ho Hr Hr').
  - intros Ha. exact (solution_scaled M P_fn Lz HM HP a p p' u Ha Hs Ho).
Qed.
Print Assumptions inverse_scaling.
(** the lifted block under its body force: the nodal forces in the first direction sum to -100, and to -300 when everything is tripled; moving a factor two from rho to E changes no solution *)
Example inverse_scaling_case : exists r r', compute_residual_vars (inv_fem block P_ex (block_params 2 5 1)) (inv_inds block 1) (as_field up) (inv_vars block (block_params 2 5 1)) = Ok r
  /\ compute_residual_vars (inv_fem block P_ex (block_params 6 15 3)) (inv_inds block 1) (as_field up) (inv_vars block (block_params 6 15 3)) = Ok r' /\ sumN 8 (fun n => r n 0%nat) = -100 /\ sumN 8 (fun n => r' n 0%nat) = -300 /\
  forall u, inv_solution block P_ex 1 (pack block 4 (fun _ => 1 / 2) 1 5 1) u <-> inv_solution block P_ex 1 (block_params 2 5 1) u.
Proof.
  destruct (block_fields 2 5 1) as (A1 & A2 & A3 & A4 & A5). destruct (block_fields 6 15 3) as (B1 & B2 & B3 & B4 & B5). destruct (pack_fields block 4 (fun _ => 1 / 2) 1 5 1) as (C1 & C2 & C3 & C4 & C5).
  destruct (inverse_scaling R block P_ex 1 3 (block_params 2 5 1) (block_params 6 15 3) (as_field up) block_ok P_ex_ok) as [(r & r' & Hr & Hr' & H) _].
  { split; [intros c q Hc Hq; rewrite A1, B1, (A2 c q Hc Hq), (B2 c q Hc Hq); ring|]. rewrite A3, A4, A5, B3, B4, B5. repeat split; ring. }
  { right. exact (lifted_oriented block ex_basix 1 1 1 1 1 1 block_hex 1 _ up_lifted). }
  exists r, r'. split; [exact Hr|]. split; [exact Hr'|].
  destruct (load_resultant block P_ex ex_basix 1 1 1 1 1 1 block_hex ltac:(cbn [INR]; lra) _ _ r Hr) as (E0 & _). rewrite A5 in E0. change (num_total_nodes block) with 8%nat in *. cbv beta in E0.
  split; [lra|]. split; [rewrite (sumN_ext 8 _ (fun n => 3 * r n 0%nat)), sumN_scal by (intros n Hn; exact (H n 0%nat Hn ltac:(lia))); lra|].
  intros u. apply (inverse_scaling R block P_ex 1 1); [exact block_ok|exact P_ex_ok| |left; reflexivity|lra].
  split; [intros c q Hc Hq; rewrite A1, C1, (A2 c q Hc Hq), (C2 c q Hc Hq); unfold rho_of; lra|]. rewrite A3, A4, A5, C3, C4, C5. repeat split; ring.
Qed.

(** ** C159: scale_d only moves the block *)
Theorem inverse_translation : forall V (M : fem V) P_fn Lz p p' u, mesh_ok M -> same_but_d M p p' ->
  (inv_solution M P_fn Lz p' (shift_z ((d_of M p' - d_of M p) * Lz) u) <-> inv_solution M P_fn Lz p u) /\
  (forall t, oriented M (shift_z t u) <-> oriented M u) /\
  (forall t r r', compute_residual_vars (inv_fem M P_fn p) (inv_inds M Lz) u (inv_vars M p) = Ok r ->
    compute_residual_vars (inv_fem M P_fn p') (inv_inds M Lz) (shift_z t u) (inv_vars M p') = Ok r' -> forall n k, (n < num_total_nodes M)%nat -> (k < 3)%nat -> r' n k = r n k).
Proof.
  intros V M P_fn Lz p p' u HM H. split; [exact (solution_shift M P_fn Lz HM p p' u H)|]. split; [intros t; exact (oriented_shift M HM t u)|].
  intros t r r' Hr Hr' n k Hn Hk. rewrite (residual_value M P_fn Lz HM p u r n k Hr Hn Hk), (residual_value M P_fn Lz HM p' _ r' n k Hr' Hn Hk), (res_shift M P_fn Lz HM). exact (res_but_d M P_fn Lz p p' u _ H).
Qed.
Print Assumptions inverse_translation.
(** the unloaded block held one up; held three up instead, the nodes go two further *)
Example inverse_translation_case : inv_solution block P_ex 1 (block_params 2 0 0) (as_field up) /\ inv_solution block P_ex 1 (pack block 2 (fun _ => 1) 3 0 0) (shift_z 2 (as_field up)) /\ shift_z 2 (as_field up) 5%nat 2%nat = 3.
Proof.
  destruct (block_fields 2 0 0) as (A1 & A2 & A3 & A4 & A5). destruct (pack_fields block 2 (fun _ => 1) 3 0 0) as (C1 & C2 & C3 & C4 & C5).
  assert (H : inv_solution block P_ex 1 (block_params 2 0 0) (as_field up)).
  { apply (lifted_solution block P_ex ex_basix 1 1 1 1 1 1 block_hex P_ex_ok); [rewrite A3, Rmult_1_l; exact up_lifted|exact A4|exact A5]. }
  split; [exact H|]. split; [|unfold shift_z; cbn [Nat.eqb]; rewrite (up_lifted 5%nat 2%nat) by lia; cbn [Nat.eqb]; lra].
  destruct (inverse_translation R block P_ex 1 (block_params 2 0 0) (pack block 2 (fun _ => 1) 3 0 0) (as_field up) block_ok) as [HT _].
  { split; [rewrite A1, C1; reflexivity|]. split; [intros c q Hc Hq; rewrite (A2 c q Hc Hq), (C2 c q Hc Hq); reflexivity|]. rewrite A4, A5, C4, C5. auto. }
  rewrite A3, C3 in HT. replace ((3 - 1) * 1) with 2 in HT by ring. exact (proj2 HT H).
Qed.

(** ** C160: two equations between the five derivatives *)
Theorem inverse_gradient_identities : forall V (M : fem V) P_fn Lz jac Pp rp ev vjp, inv_setup M P_fn Lz jac Pp rp ev vjp ->
  forall p sol v, regular Pp p (as_field sol) -> oriented M (as_field sol) -> exists g, implicit_vjp ev Pp rp vjp sol p v false = Ok g /\
  E_of p * E_of g = sumN (num_cells M) (fun c => sumN (num_quads (f_ele M)) (fun q => rho_of M p c q * rho_of M g c q)) /\
  (inv_solution M P_fn Lz p (as_field sol) -> E_of p * E_of g + n_of M p * n_of M g + s_of M p * s_of M g = 0).
Proof.
  intros V M P_fn Lz jac Pp rp ev vjp (HM & HP & ((cjac & eps & Hpp) & Hrp) & Hex & HvA & HvB) p sol v Hreg Ho.
  destruct (modulus_identity M P_fn Lz HM HP jac Pp rp cjac eps Hpp Hrp ev vjp Hex HvA HvB p sol v Hreg Ho) as (g & Hg & H1). exists g. split; [exact Hg|]. split; [exact H1|]. intros Hs.
  destruct (load_identity M P_fn Lz HM HP jac Pp rp cjac eps Hpp Hrp ev vjp Hex HvA HvB p sol v Hreg Ho Hs) as (g' & Hg' & H2). rewrite Hg in Hg'. injection Hg' as <-. exact H2.
Qed.
Print Assumptions inverse_gradient_identities.
(** ** C161: the derivative in scale_d, and the difference quotient the script compares it with *)
Theorem inverse_displacement_gradient : forall V (M : fem V) P_fn Lz jac Pp rp ev vjp, inv_setup M P_fn Lz jac Pp rp ev vjp ->
  forall p sol, regular Pp p (as_field sol) -> oriented M (as_field sol) -> exact_at M P_fn jac p (as_field sol) ->
  (forall v, exists g, implicit_vjp ev Pp rp vjp sol p v false = Ok g /\ d_of M g = Lz * sumN (num_total_nodes M) (fun n => v (3 * n + 2)%nat)) /\
  forall composed h, let j := (1 + inv_nc M * inv_nq M)%nat in let t := h * d_of M p * Lz in h <> 0 -> d_of M p <> 0 ->
  composed p = test_fn M (as_field sol) -> composed (scale_entry j h p) = test_fn M (shift_z t (as_field sol)) ->
  (inv_solution M P_fn Lz p (as_field sol) -> inv_solution M P_fn Lz (scale_entry j h p) (shift_z t (as_field sol))) /\
  exists g, implicit_vjp ev Pp rp vjp sol p (test_cotangent (as_field sol)) false = Ok g /\ fd_quotient composed j h p = d_of M g + INR (num_total_nodes M) * h * d_of M p * Lz ^ 2.
Proof.
  intros V M P_fn Lz jac Pp rp ev vjp (HM & HP & ((cjac & eps & Hpp) & Hrp) & Hex & HvA & HvB) p sol Hreg Ho Hj.
  assert (H1 := fun v => displacement_derivative M P_fn Lz HM HP jac Pp rp cjac eps Hpp Hrp ev vjp Hex HvA HvB p sol v Hreg Ho Hj). split; [exact H1|].
  intros composed h j t Hh Hd Hc Hc'. destruct (scale_d_fields M h p) as [Hsame Hd']. fold j in Hsame, Hd'. split.
  - intros Hs. pose proof (proj2 (solution_shift M P_fn Lz HM p _ _ Hsame) Hs) as H. rewrite Hd' in H. replace (((1 + h) * d_of M p - d_of M p) * Lz) with t in H by (unfold t; ring). exact H.
  - destruct (H1 (test_cotangent (as_field sol))) as (g & Hg & Hgd). exists g. split; [exact Hg|]. unfold fd_quotient. rewrite Hc, Hc', test_shift. fold (d_of M p). change (p j) with (d_of M p). rewrite Hgd.
    rewrite (sumN_ext _ (fun n => test_cotangent (as_field sol) (3 * n + 2)%nat) (fun n => 2 * as_field sol n 2%nat)).
    + rewrite sumN_scal. unfold t. field. split; assumption.
    + intros n _. unfold test_cotangent. rewrite <- (Nat.mod_unique (3 * n + 2) 3 n 2 ltac:(lia) eq_refl), <- (Nat.div_unique (3 * n + 2) 3 n 2 ltac:(lia) eq_refl). reflexivity.
Qed.
Print Assumptions inverse_displacement_gradient.
(** ** C162: without loads the block is only lifted, and its stiffness matrix can be inverted *)
Theorem inverse_rest_regular : forall V (M : fem V) P_fn B Nx Ny Nz Lx Ly Lz jac Pp rp, box_hex M B Nx Ny Nz Lx Ly Lz -> psi_contract P_fn -> positive_weights M -> inv_objects M P_fn Lz jac Pp rp ->
  forall p t u, lifted t u -> (forall c q, (c < num_cells M)%nat -> (q < num_quads (f_ele M))%nat -> 0 < E_of p * rho_of M p c q) ->
  oriented M u /\ (t = d_of M p * Lz -> n_of M p = 0 -> s_of M p = 0 -> inv_solution M P_fn Lz p u) /\ (exact_at M P_fn jac p u -> regular Pp p u).
Proof.
  intros V M P_fn B Nx Ny Nz Lx Ly Lz jac Pp rp HB HP HW ((cjac & eps & Hpp) & _) p t u Hu Hm.
  split; [exact (lifted_oriented M B Nx Ny Nz Lx Ly Lz HB t u Hu)|]. split.
  - intros -> Hn Hs. exact (lifted_solution M P_fn B Nx Ny Nz Lx Ly Lz HB HP p u Hu Hn Hs).
  - intros Hj. exact (rest_regular M P_fn B Nx Ny Nz Lx Ly Lz HB HP HW jac Pp cjac eps Hpp p t u Hu Hm Hj).
Qed.
Print Assumptions inverse_rest_regular.
Lemma block_rest : regular block_problem (block_params 2 0 0) (as_field up) /\ oriented block (as_field up) /\ inv_solution block P_ex 1 (block_params 2 0 0) (as_field up) /\ exact_at block P_ex (rest_jac block) (block_params 2 0 0) (as_field up).
Proof.
  destruct (block_fields 2 0 0) as (A1 & A2 & A3 & A4 & A5). pose proof (rest_jac_exact block P_ex ex_basix 1 1 1 1 1 1 block_hex P_ex_ok (block_params 2 0 0) 1 _ up_lifted) as Hj.
  destruct (inverse_rest_regular R block P_ex ex_basix 1 1 1 1 1 1 (rest_jac block) block_problem block_residual block_hex P_ex_ok block_weights block_objects (block_params 2 0 0) 1 (as_field up) up_lifted) as (H1 & H2 & H3).
  - intros c q Hc Hq. rewrite A1, (A2 c q Hc Hq). lra.
  - split; [exact (H3 Hj)|]. split; [exact H1|]. split; [|exact Hj]. apply H2; [rewrite A3; ring|exact A4|exact A5].
Qed.
(** the unloaded cube: the modulus has no influence; the derivative in scale_d is sixteen and the quotient with h = 1/100 is 16.08 *)
Example inverse_rest_case : exists g, implicit_vjp exact_env block_problem block_residual (transposer 24) up (block_params 2 0 0) (test_cotangent (as_field up)) false = Ok g /\
  E_of g = 0 /\ d_of block g = 16 /\ forall composed, composed (block_params 2 0 0) = test_fn block (as_field up) -> composed (scale_entry 9 (1 / 100) (block_params 2 0 0)) = test_fn block (shift_z (1 / 100) (as_field up)) ->
  fd_quotient composed 9 (1 / 100) (block_params 2 0 0) = 16 + 8 / 100.
Proof.
  destruct block_rest as (Hreg & Ho & Hs & Hj). destruct (block_fields 2 0 0) as (A1 & A2 & A3 & A4 & A5).
  destruct (inverse_gradient_identities R block P_ex 1 _ _ _ _ _ block_setup (block_params 2 0 0) up (test_cotangent (as_field up)) Hreg Ho) as (g & Hg & _ & H1). exists g. split; [exact Hg|]. specialize (H1 Hs). rewrite A1, A4, A5 in H1.
  destruct (inverse_displacement_gradient R block P_ex 1 _ _ _ _ _ block_setup (block_params 2 0 0) up Hreg Ho Hj) as [H2 H3]. destruct (H2 (test_cotangent (as_field up))) as (g' & Hg' & Hd). rewrite Hg in Hg'. injection Hg' as <-.
  assert (Ed : d_of block g = 16).
  { rewrite Hd. change (num_total_nodes block) with 8%nat. unfold sumN. cbn [seq sumR]. unfold test_cotangent, as_field, up. cbn. ring. }
  split; [lra|]. split; [exact Ed|]. intros composed Hc Hc'.
  destruct (H3 composed (1 / 100)) as [_ (g' & Hg' & Hf)]; [lra|rewrite A3; lra|exact Hc|rewrite A3; replace (1 / 100 * 1 * 1) with (1 / 100) by ring; exact Hc'|].
  rewrite Hg in Hg'. injection Hg' as <-. etransitivity; [exact Hf|]. rewrite Ed, A3. change (INR (num_total_nodes block)) with (INR 8). cbn [INR]. lra.
Qed.
(** ** C163: the loads reach the held nodes *)
Theorem inverse_reactions : forall V (M : fem V) P_fn B Nx Ny Nz Lx Ly Lz p u, box_hex M B Nx Ny Nz Lx Ly Lz -> / 100000 * (1 + Lz) < Lz / INR Nz ->
  exists r, compute_residual_vars (inv_fem M P_fn p) (inv_inds M Lz) u (inv_vars M p) = Ok r /\
  (let total k := sumN (num_total_nodes M) (fun n => r n k) in total 0%nat = - (100 * s_of M p * (Lx * Ly * Lz)) /\ total 1%nat = 0 /\ total 2%nat = 100 * n_of M p * (Lx * Ly)) /\
  (inv_solution M P_fn Lz p u -> forall k, (k < 3)%nat -> sumN (num_total_nodes M) (fun n => if on_plane 2 0 (points M n) then r n k else 0) = sumN (num_total_nodes M) (fun n => r n k)).
Proof.
  intros V M P_fn B Nx Ny Nz Lx Ly Lz p u HB Hf. destruct (residual_ok M P_fn Lz (box_mesh_ok M B Nx Ny Nz Lx Ly Lz HB) p u) as (r & Hr). exists r. split; [exact Hr|].
  split; [exact (load_resultant M P_fn B Nx Ny Nz Lx Ly Lz HB Hf p u r Hr)|]. intros Hs k Hk. exact (held_reaction M P_fn B Nx Ny Nz Lx Ly Lz HB p u r k Hs Hr Hk).
Qed.
Print Assumptions inverse_reactions.
(** the unit cube pressed from above: the vertical forces sum to 500 whatever the field *)
Example inverse_reactions_case : forall u, exists r, compute_residual_vars (inv_fem block P_ex (block_params 2 5 1)) (inv_inds block 1) u (inv_vars block (block_params 2 5 1)) = Ok r /\
  sumN 8 (fun n => r n 0%nat) = -100 /\ sumN 8 (fun n => r n 1%nat) = 0 /\ sumN 8 (fun n => r n 2%nat) = 500.
Proof.
  intros u. destruct (block_fields 2 5 1) as (_ & _ & _ & A4 & A5).
  destruct (inverse_reactions R block P_ex ex_basix 1 1 1 1 1 1 (block_params 2 5 1) u block_hex ltac:(cbn [INR]; lra)) as (r & Hr & H & _). rewrite A4, A5 in H. change (num_total_nodes block) with 8%nat in H. exists r. split; [exact Hr|]. cbv beta zeta in H. destruct H as (E0 & E1 & E2). repeat split; [lra|exact E1|lra].
Qed.
Close Scope R_scope.
