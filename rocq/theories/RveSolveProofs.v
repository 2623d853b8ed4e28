(** * The representative volume element and the multiplier solver. *)
From Coq Require Import Lra Lia String FunctionalExtensionality.
From Verif Require Import Prelude PreludeFacts FemModel FemFacts FemSpec FemMatProofs FemGeoProofs SolverModel SolverSpec SolverFemProofs MatModel MatSpec MatProofs BasisModel BasisSpec BasisProofs BasisQuadProofs BasisMeshProofs MeshModel CrysSpec RveModel RveSpec RveProofs RveMeanProofs RveDataProofs.
Open Scope R_scope.

Section Work.
Variable P : problem.
Hypothesis Hok : bc_ok P.
Hypothesis Hper : periodic_ok P.
Lemma condition_unknown n k x : In ((n, k), x) (conditions P) -> unknown P n k.
Proof.
  intros H. apply in_flat_map in H as (i & Hi & H). apply in_seq in Hi. destruct (Hok i ltac:(lia)) as (_ & _ & _ & Hn & Hk).
  apply in_combine_l in H. pose proof (in_combine_l _ _ _ _ H) as H1. apply in_combine_r in H. rewrite Forall_forall in Hn, Hk. split; [now apply Hn|now apply Hk].
Qed.
Lemma pair_unknown a b k : In (a, b, k) (pairs P) -> unknown P a k /\ unknown P b k.
Proof.
  intros H. apply in_flat_map in H as (i & Hi & H). apply in_seq in Hi. destruct Hper as (_ & _ & Hp). destruct (Hp i ltac:(lia)) as (_ & _ & Ha & Hb & Hk).
  pose proof (in_combine_r _ _ _ _ H) as H3. apply in_combine_l in H. pose proof (in_combine_l _ _ _ _ H) as H1. apply in_combine_r in H.
  rewrite Forall_forall in Ha, Hb, Hk. split; (split; [auto|now apply Hk]).
Qed.
Lemma pick_unknown (v : nodal) n0 k0 : unknown P n0 k0 ->
  sumN (num_nodes_p P) (fun n => sumN (pvec P) (fun k => v n k * ind (Nat.eqb n n0 && Nat.eqb k k0))) = v n0 k0.
Proof.
  intros [Hn Hk]. rewrite <- (sumN_pick (num_nodes_p P) n0 (fun n => v n k0) Hn). apply sumN_ext. intros n _. destruct (Nat.eqb n n0); cbn [andb].
  - rewrite <- (sumN_pick (pvec P) k0 (fun k => v n k) Hk). apply sumN_ext. intros k _. unfold ind. destruct (Nat.eqb k k0); ring.
  - apply sumN_zero. intros; unfold ind; ring.
Qed.
Definition row_fns : list (nat -> nat -> R) :=
  map (fun c n k => ind (Nat.eqb n (fst (fst c)) && Nat.eqb k (snd (fst c)))) (conditions P)
  ++ map (fun t n k => ind (Nat.eqb n (fst (fst t)) && Nat.eqb k (snd t)) - ind (Nat.eqb n (snd (fst t)) && Nat.eqb k (snd t))) (pairs P).
Lemma row_fns_row n k : constraint_row P n k = map (fun f => f n k) row_fns.
Proof. unfold constraint_row, row_fns. rewrite map_app, !map_map. reflexivity. Qed.
Lemma row_no_work v f : admissible P v -> In f row_fns -> sumN (num_nodes_p P) (fun n => sumN (pvec P) (fun k => v n k * f n k)) = 0.
Proof.
  intros [Hd Hp] Hf. apply in_app_or in Hf as [Hf | Hf]; apply in_map_iff in Hf as (x & <- & Hx).
  - destruct x as [[n0 k0] y]. cbn [fst snd]. rewrite pick_unknown by (eapply condition_unknown; exact Hx). eapply Hd; exact Hx.
  - destruct x as [[a b] k0]. cbn [fst snd]. destruct (pair_unknown a b k0 Hx) as [Ha Hb].
    transitivity (v a k0 - v b k0); [|rewrite (Hp a b k0 Hx); ring].
    rewrite <- (pick_unknown v a k0 Ha), <- (pick_unknown v b k0 Hb), <- sumN_sub. apply sumN_ext. intros n _. rewrite <- sumN_sub. apply sumN_ext. intros k _. ring.
Qed.
Lemma multiplier_no_work lam v : admissible P v -> sumN (num_nodes_p P) (fun n => sumN (pvec P) (fun k => v n k * multiplier_force P lam n k)) = 0.
Proof.
  intros Hv. transitivity (sumN (length row_fns) (fun j => lam (num_total_dofs P + j)%nat * sumN (num_nodes_p P) (fun n => sumN (pvec P) (fun k => v n k * nth j row_fns (fun _ _ => 0) n k)))).
  - rewrite (sumN_ext (num_nodes_p P) _ (fun n => sumN (pvec P) (fun k => sumN (length row_fns) (fun j => lam (num_total_dofs P + j)%nat * (v n k * nth j row_fns (fun _ _ => 0) n k))))).
    + rewrite (sumN_ext (num_nodes_p P) _ (fun n => sumN (length row_fns) (fun j => sumN (pvec P) (fun k => lam (num_total_dofs P + j)%nat * (v n k * nth j row_fns (fun _ _ => 0) n k))))) by (intros; apply sumN_swap).
      rewrite sumN_swap. apply sumN_ext. intros j _. rewrite <- sumN_scal. apply sumN_ext. intros n _. now rewrite sumN_scal.
    + intros n _. apply sumN_ext. intros k _. unfold multiplier_force. rewrite row_fns_row, map_length, <- sumN_scal. apply sumN_ext. intros j _.
      replace (nth j (map (fun f => f n k) row_fns) 0) with (nth j row_fns (fun _ _ => 0) n k); [ring|]. symmetry. exact (map_nth (fun f : nat -> nat -> R => f n k) row_fns (fun _ _ => 0) j).
  - apply sumN_zero. intros j Hj. rewrite row_no_work; [ring|exact Hv|]. now apply nth_In.
Qed.
(** the principle of virtual work *)
Lemma virtual_work u : in_constrained_equilibrium P u -> balanced P u.
Proof.
  intros (r & ijv & lam & Hr & He). exists r, ijv. split; [exact Hr|]. intros v Hv.
  transitivity (- sumN (num_nodes_p P) (fun n => sumN (pvec P) (fun k => v n k * multiplier_force P lam n k))); [|rewrite multiplier_no_work by exact Hv; ring].
  replace (- sumN (num_nodes_p P) _) with (-1 * sumN (num_nodes_p P) (fun n => sumN (pvec P) (fun k => v n k * multiplier_force P lam n k))) by ring. rewrite <- sumN_scal. apply sumN_ext. intros n Hn. rewrite <- sumN_scal. apply sumN_ext. intros k Hk.
  pose proof (He n k (Logic.conj Hn Hk)). replace (r n k) with (- multiplier_force P lam n k) by lra. ring.
Qed.
Lemma rate_admissible u u' : nodal_path u u' -> (forall t, constraints_hold P (u t)) -> admissible P u'.
Proof.
  intros Hu Hc. split.
  - intros n k x Hx. eapply dl_unique; [apply Hu|]. eapply dl_eq; [apply (dl_const x)|intros t; symmetry; exact (proj1 (Hc t) n k x Hx)|reflexivity].
  - intros a b k Hx. eapply dl_unique; [apply Hu|]. eapply dl_eq; [apply Hu|intros t; symmetry; exact (proj2 (Hc t) a b k Hx)|reflexivity].
Qed.
End Work.

(** ** the solved cell *)
Section Cell.
Variable F : fem R.
Variables (g : ms_args) (info : dns) (P_fn : R -> R -> mat -> mat).
Hypothesis HP : psi_contract P_fn.
Hypothesis Hwf : wf_mesh F.
Hypothesis Hdim : dim F = 3%nat.
Hypothesis Hvec : vec F = 3%nat.
Hypothesis Hcells : (0 < num_cells F)%nat.
Hypothesis Ho : only_internal F (moduli_vars F g info).
Variable inds : list (list (nat * nat)).
Hypothesis Hsel : forall sel, In sel inds -> faces_ok F sel.
Variables (jac : nodal -> (nat -> nat -> nat -> R) -> (nat -> R) -> (nat -> nat -> nat -> R) -> list (nat -> R) -> list (nat -> R) -> jac4)
  (cjac : ((nat -> R) -> nat -> R) -> nodal -> (nat -> nat -> R) -> (nat -> R) -> jac4).
Variables (len : R) (eps : option R) (P : problem).
Hypothesis HF : fem_problem F inds (moduli_vars F g info) jac cjac (Some rve_dirichlet) (Some (rve_periodic len)) eps = Ok P.
Lemma three_vecs : Forall (fun k => (k < vec F)%nat) [0; 1; 2]%nat.
Proof. rewrite Hvec. repeat constructor. Qed.
Lemma nine_vecs : Forall (fun t : (point -> bool) * (point -> bool) * (point -> point) * nat => (snd t < vec F)%nat) (rve_periodic len).
Proof. rewrite Hvec. unfold rve_periodic. cbn. repeat constructor. Qed.
Lemma cell_fields : bc_ok P /\ periodic_ok P /\ num_nodes_p P = num_total_nodes F /\ pvec P = 3%nat /\ newton_update P = (fun sol => compute_newton_vars F inds sol (moduli_vars F g info) jac cjac).
Proof.
  unfold rve_dirichlet in HF. destruct (fem_problem_fields _ _ _ _ _ _ _ _ _ _ _ HF) as (_ & _ & HN & HV & HU & _).
  split; [eapply fem_bc_ok; [exact HF|exact three_vecs]|]. split; [eapply fem_periodic_ok; [exact HF|exact nine_vecs]|]. rewrite <- Hvec. auto.
Qed.
(** the rate of the energy of a family of solved cells is the mean stress times the rate of H *)
Lemma solved_hill_mandel H H' u u' : tensor_map F = Some (rve_tensor_map P_fn (H 0)) -> path H H' -> nodal_path u u' -> orientation F (H 0) (u 0) ->
  (forall t, constraints_hold P (u t)) -> balanced P (u 0) ->
  derivable_pt_lim (fun t => compute_energy_rve F g info (H t) (u t)) 0 (ddot 3 (total_stress F (rve_P F g info P_fn (H 0) (u 0))) H').
Proof.
  intros Ht HH Hu Hor Hc He. destruct cell_fields as (Hb & Hp & HN & HV & HU).
  destruct He as (r & ijv & Hr & Hw). rewrite HU in Hr. destruct Ho as (_ & _ & Hnb & _).
  destruct (newton_spec F Hwf jac cjac inds (u 0) (moduli_vars F g info)) as (r' & ijv' & H1 & H2 & _); [apply moduli_sized|exact Hcells|unfold neumann_ok; now rewrite Hnb|exact Hsel|].
  rewrite H1 in Hr. injection Hr as <- <-.
  eapply hill_mandel; try eassumption. rewrite <- HN, <- HV. apply Hw. eapply rate_admissible; eassumption.
Qed.
(** a solution of the cell is a point where the energy is stationary among the admissible fluctuations *)
Lemma solved_stationary H u v : tensor_map F = Some (rve_tensor_map P_fn H) -> orientation F H u -> balanced P u -> admissible P v ->
  derivable_pt_lim (fun t => compute_energy_rve F g info H (add_step u t v)) 0 0.
Proof.
  intros Ht Hor He Hv. destruct cell_fields as (Hb & Hp & HN & HV & HU).
  destruct He as (r & ijv & Hr & Hw). rewrite HU in Hr. pose proof Ho as (_ & _ & Hnb & _).
  destruct (newton_spec F Hwf jac cjac inds u (moduli_vars F g info)) as (r' & ijv' & H1 & H2 & _); [apply moduli_sized|exact Hcells|unfold neumann_ok; now rewrite Hnb|exact Hsel|].
  rewrite H1 in Hr. injection Hr as <- <-.
  destruct (residual_is_gradient F g info P_fn HP Hwf Hdim Hvec Hcells inds Hsel H u Ht Ho Hor) as (r & Hr & Hd). assert (r = r') as -> by congruence.
  eapply dl_eq; [apply (Hd v)|reflexivity|]. rewrite <- HN. rewrite <- HV. now apply Hw.
Qed.
(** the constraints of the problem on the box mesh *)
Variable N : nat.
Hypothesis HN : (0 < N)%nat.
Hypothesis Hlen : 0 < len.
Local Notation m := (MeshModel.box_mesh N N N len len len).
Hypothesis Hmesh : has_mesh3 F (MeshModel.points m) (MeshModel.cells m).
Hypothesis Hnodes : num_total_nodes F = length (MeshModel.points m).
Hypothesis Hfine : / 100000 * (1 + len) < len / INR N.
Lemma constraints_iff u : constraints_hold P u <-> periodic N u /\ forall k, (k < 3)%nat -> u 0%nat k = 0.
Proof.
  clear Hvec Hcells.
  destruct (fem_problem_fields _ _ _ _ _ _ _ _ _ _ _ HF) as (_ & _ & _ & _ & _ & _ & _ & _ & _ & _ & pl & Hpl & HA & HB & HVV).
  rewrite <- (obeys_is_periodic F N len HN Hlen Hmesh Hnodes Hdim Hfine pl u Hpl). unfold constraints_hold.
  assert (Epairs : (forall a b k, In (a, b, k) (pairs P) -> u a k = u b k) <-> obeys_periodic pl u).
  { unfold pairs. rewrite HA, HB, HVV, map_length. split.
    - intros H la lb lv j a b v Hin Ha Hb Hv. apply H. apply In_nth_error in Hin as (i & Hi). assert (Hlt : (i < length pl)%nat) by (apply nth_error_Some; congruence).
      apply in_flat_map. exists i. split; [apply in_seq; lia|]. rewrite !(nth_map_in _ _ i ([], [], [])) by exact Hlt. rewrite (nth_error_nth _ _ _ Hi). cbn [fst snd].
      clear - Ha Hb Hv. revert lb lv j Ha Hb Hv. induction la as [|x la IH]; intros [|y lb] [|z lv] [|j] Ha Hb Hv; try discriminate; cbn in *.
      + injection Ha as ->. injection Hb as ->. injection Hv as ->. now left.
      + right. eapply IH; eassumption.
    - intros H a b k Hin. apply in_flat_map in Hin as (i & Hi & Hin). apply in_seq in Hi. rewrite !(nth_map_in _ _ i ([], [], [])) in Hin by lia.
      destruct (nth_error pl i) as [[[la lb] lv]|] eqn:E; [|apply nth_error_None in E; lia]. rewrite (nth_error_nth _ _ _ E) in Hin. cbn [fst snd] in Hin.
      assert (exists j, nth_error la j = Some a /\ nth_error lb j = Some b /\ nth_error lv j = Some k) as (j & J1 & J2 & J3).
      { clear - Hin. revert lb lv Hin. induction la as [|x la IH]; intros [|y lb] [|z lv] Hin; try contradiction. cbn in Hin. destruct Hin as [Hin | Hin].
        - injection Hin as -> -> ->. exists 0%nat. auto.
        - destruct (IH _ _ Hin) as (j & Hj). exists (S j). exact Hj. }
      eapply H; [eapply nth_error_In; exact E|eassumption..]. }
  rewrite Epairs. assert (Ec : (forall n k v, In ((n, k), v) (conditions P) -> u n k = v) <-> forall k, (k < 3)%nat -> u 0%nat k = 0).
  { rewrite (fem_conditions _ _ _ _ _ _ _ _ _ _ _ HF). cbn [length seq flat_map nth app].
    destruct (dirichlet_corner F N len HN Hlen Hmesh Hnodes Hdim Hfine) as (nl & vl & xl & Hd & -> & -> & ->).
    unfold Dirichlet_boundary_conditions, rve_dirichlet in Hd. cbn [length Nat.eqb andb seq map nth] in Hd. injection Hd as Hs _ _ _ _ _ _ _.
    unfold sel. cbn [nth]. rewrite Hs. cbn [map app]. split.
    - intros Hz k Hk. destruct k as [|[|[|k]]]; try lia; apply Hz; cbn [In]; auto.
    - intros Hz n k v Hin. cbn [In] in Hin. destruct Hin as [E | [E | [E | []]]]; injection E as <- <- <-; apply Hz; lia. }
  rewrite Ec. tauto.
Qed.
(** a uniform material: no fluctuation *)
Variable B : basix.
Hypothesis HB : documented_basix B.
Hypothesis Hrule : exact_rule B hexahedron 2.
Hypothesis HE : element_tables B "HEX8" = Ok (f_ele F).
Lemma admissible_iff v : admissible P v <-> periodic N v /\ forall k, (k < 3)%nat -> v 0%nat k = 0.
Proof.
  rewrite <- constraints_iff. unfold admissible, constraints_hold.
  assert (E : forall n k x, In ((n, k), x) (conditions P) -> x = 0).
  { intros n k x. rewrite (fem_conditions _ _ _ _ _ _ _ _ _ _ _ HF). cbn [length seq flat_map nth app]. rewrite app_nil_r, !in_app_iff, !in_map_iff.
    intros [H | [H | H]]; destruct H as (y & Hy & _); congruence. }
  split; (intros [H1 H2]; split; [|exact H2]); intros n k x Hx; pose proof (E n k x Hx); specialize (H1 n k x Hx); congruence.
Qed.
Lemma uniform_balanced H E nu : tensor_map F = Some (rve_tensor_map P_fn H) ->
  (forall c q, (c < num_cells F)%nat -> (q < num_quads (f_ele F))%nat -> moduli_at F g info c q = (E, nu)) -> balanced P zeros.
Proof.
  intros Ht Hm. destruct cell_fields as (Hb & Hp & HNN & HV & HU). pose proof Ho as (_ & _ & Hnb & _).
  destruct (newton_spec F Hwf jac cjac inds zeros (moduli_vars F g info)) as (r & ijv & H1 & H2 & _); [apply moduli_sized|exact Hcells|unfold neumann_ok; now rewrite Hnb|exact Hsel|].
  exists r, ijv. split; [now rewrite HU|]. intros v Hv. rewrite HNN, HV.
  destruct (rve_work F g info P_fn Hwf Hdim Hvec Hcells inds Hsel H zeros Ht Ho) as (r' & Hr' & Hw). assert (r' = r) as -> by congruence. rewrite Hw.
  apply admissible_iff in Hv. destruct Hv as [Hv _].
  set (S := P_fn E nu (fun i j => eye i j + H i j)).
  transitivity (sumN 3 (fun i => sumN 3 (fun j => S i j * sumN (num_cells F) (fun c => sumN (num_quads (f_ele F)) (fun q => JxW F c q * sol_to_grad F v c q i j))))).
  - transitivity (sumN (num_cells F) (fun c => sumN 3 (fun i => sumN 3 (fun j => sumN (num_quads (f_ele F)) (fun q => S i j * (JxW F c q * sol_to_grad F v c q i j)))))).
    + apply sumN_ext. intros c Hc.
      rewrite (sumN_ext 3 _ (fun i => sumN (num_quads (f_ele F)) (fun q => sumN 3 (fun j => S i j * (JxW F c q * sol_to_grad F v c q i j))))) by (intros; apply sumN_swap).
      rewrite sumN_swap. apply sumN_ext. intros q Hq. unfold ddot. rewrite <- sumN_scal. apply sumN_ext. intros i _. rewrite <- sumN_scal. apply sumN_ext. intros j _.
      unfold rve_P. rewrite (Hm c q Hc Hq). cbn [fst snd]. replace (total F H zeros c q) with (fun i j => eye i j + H i j); [fold S; ring|].
      extensionality a. extensionality b. unfold total, sol_to_grad, zeros. rewrite sumN_zero by (intros; ring). ring.
    + rewrite sumN_swap. apply sumN_ext. intros i _. rewrite sumN_swap. apply sumN_ext. intros j _. rewrite <- sumN_scal. apply sumN_ext. intros c _. now rewrite sumN_scal.
  - apply sumN_zero. intros i Hi. apply sumN_zero. intros j Hj. rewrite (periodic_mean B HB Hrule F N len HN Hlen Hmesh HE v i j Hv Hi Hj). ring.
Qed.
End Cell.

(** ** a uniform deformation of a brick: the surrogate *)
Section Brick.
Context {V : Type}.
Variable B : basix.
Hypothesis HB : documented_basix B.
Variable F : fem V.
Variables (Nx Ny Nz : nat) (Lx Ly Lz : R).
Hypothesis Hx : (0 < Nx)%nat.
Hypothesis Hy : (0 < Ny)%nat.
Hypothesis Hz : (0 < Nz)%nat.
Hypothesis Hlx : 0 < Lx.
Hypothesis Hly : 0 < Ly.
Hypothesis Hlz : 0 < Lz.
Local Notation m := (MeshModel.box_mesh Nx Ny Nz Lx Ly Lz).
Hypothesis Hmesh : has_mesh3 F (MeshModel.points m) (MeshModel.cells m).
Hypothesis HE : element_tables B "HEX8" = Ok (f_ele F).
Lemma brick_grad H c q i d : (c < num_cells F)%nat -> (q < num_quads (f_ele F))%nat -> (i < 3)%nat -> (d < 3)%nat ->
  sol_to_grad F (fluc_to_disp F H zeros) c q i d = H i d.
Proof.
  intros Hc Hq Hi Hd. destruct (brick_volume B HB F Nx Ny Nz Lx Ly Lz Hx Hy Hz Hmesh HE) as [Hdet _].
  destruct (dims B HB F "HEX8" ltac:(cbn; tauto) HE) as (Ed & En & _).
  rewrite disp_grad; [unfold sol_to_grad, zeros; rewrite sumN_zero by (intros; ring); ring|exact Ed| |exact Hq| |exact Hd].
  - intros q' j Hq' Hj. destruct (tables_given B HB "HEX8" (f_ele F) ltac:(cbn; tauto) HE) as (fi & _ & EE). rewrite En. unfold dim in Ed. rewrite Ed in Hj.
    rewrite EE. cbn [shape_grads_ref tables]. exact (proj1 (grads_complete B HB "HEX8" _ j ltac:(cbn; tauto) Hj)).
  - rewrite Hdet by exact Hc. assert (0 < Lx / INR Nx) by (apply Rdiv_lt_0_compat; [assumption|now apply lt_0_INR]). assert (0 < Ly / INR Ny) by (apply Rdiv_lt_0_compat; [assumption|now apply lt_0_INR]).
    assert (0 < Lz / INR Nz) by (apply Rdiv_lt_0_compat; [assumption|now apply lt_0_INR]). apply Rgt_not_eq. apply Rmult_lt_0_compat; [apply Rmult_lt_0_compat|]; assumption.
Qed.
Lemma surrogate_energy nn H : compute_energy_nn F nn (fluc_to_disp F H zeros) = Lx * Ly * Lz * psi_nn nn (fun i j => H i j + eye i j).
Proof.
  destruct (brick_volume B HB F Nx Ny Nz Lx Ly Lz Hx Hy Hz Hmesh HE) as [_ Hv]. rewrite <- Hv. rewrite <- sumN_scal_r. unfold compute_energy_nn. apply sumN_ext. intros c Hc. rewrite <- sumN_scal_r.
  apply sumN_ext. intros q Hq. rewrite Rmult_comm. f_equal. unfold psi_nn. f_equal. apply flat_ext. intros i j Hi Hj.
  apply (matmul_ext 3); try assumption; intros a b Ha Hb; unfold transpose; now rewrite brick_grad.
Qed.
End Brick.
Close Scope R_scope.
