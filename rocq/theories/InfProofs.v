(** * Lemmas about the inferred source. *)
From Coq Require Import String FunctionalExtensionality Classical Lra Lia.
From Verif Require Import Prelude PreludeFacts FemModel FemFacts FemSpec FemAsmProofs FemMatProofs FemGeoProofs BasisModel BasisSpec MatModel SolverModel SolverSpec SolverProofs SolverAdProofs SolverFemProofs RveModel BoxSpec BoxProofs BoxRveProofs LinFacts WellSpec WellProofs WellBoxProofs WellMainProofs InfModel InfSpec.
From Verif Require MeshModel.
Open Scope R_scope.
Open Scope list_scope.

Section Setup.
Context {V : Type}.
Variable M : fem V.
Variables (B : basix) (Nx Ny Nz : nat) (Lx Ly Lz : R) (ev : env) (vjp : (vector -> vector) -> vector -> vector -> vector) (Pp : vector -> problem) (rp : vector -> nodal -> nodal).
Local Notation F := (infer_fem M None).
Local Notation N := (num_total_nodes M).
Hypothesis HF : box_hex F B Nx Ny Nz Lx Ly Lz.
Hypothesis Hex : exact_solvers ev.
Hypothesis Hfl : exact_floats ev.
Hypothesis Hvjp : vjp_contract N vjp.
Variables (jac : nodal -> (nat -> nat -> nat -> R) -> (nat -> R) -> (nat -> nat -> nat -> R) -> list (nat -> R) -> list (nat -> R) -> jac4) (cjac : ((nat -> R) -> nat -> R) -> nodal -> (nat -> nat -> R) -> (nat -> R) -> jac4) (eps : option R).
Hypothesis Hjac : forall p, exact_jacobians F (set_params p) jac.
Hypothesis HP : forall p, fem_problem F [] (set_params p) jac cjac (Some (zero_sides Lx Ly Lz)) None eps = Ok (Pp p).
Hypothesis Hrp : forall p u, compute_residual_vars F [] u (set_params p) = Ok (rp p u).
Local Notation locs := (fst (fst (zero_sides Lx Ly Lz))).
Local Notation vecs := (snd (fst (zero_sides Lx Ly Lz))).
Local Notation fns := (snd (zero_sides Lx Ly Lz)).
Local Notation sol p u := (discrete_solution F locs vecs fns [] (set_params p) u).

Lemma inf_wf : wf_mesh F.
Proof. exact (hex_wf F B Nx Ny Nz Lx Ly Lz HF). Qed.
Lemma inf_iv p : iv_sized F (set_params p).
Proof. split; constructor. Qed.
Lemma inf_cells : (0 < num_cells F)%nat.
Proof. exact (hex_cells F B Nx Ny Nz Lx Ly Lz HF). Qed.
Lemma inf_faces : forall s : list (nat * nat), In s [] -> faces_ok F s.
Proof. intros s []. Qed.
Lemma inf_vecs : Forall (fun k => (k < vec F)%nat) vecs.
Proof. repeat constructor. Qed.
Lemma zero_value i x : nth i fns (fun _ => 0) x = 0.
Proof. cbn [zero_sides snd repeat]. do 6 (destruct i as [|i]; [reflexivity|]). destruct i; reflexivity. Qed.
Lemma held_somewhere : forall k, (k < vec F)%nat -> exists n, (n < num_total_nodes F)%nat /\ fixed F locs vecs n k.
Proof.
  intros k Hk. assert (k = 0)%nat as -> by (cbn in Hk; lia). pose proof HF as (HB & Hq & Hx & Hy & Hz & H1 & H2 & H3 & Hm & Hnn & HE).
  pose proof (node_point F Nx Ny Nz Lx Ly Lz Hx Hy Hz Hm Hnn 0 0 0 0 ltac:(lia) ltac:(lia) ltac:(lia) ltac:(lia)) as Hp.
  assert (Hn : (node Ny Nz 0 0 0 < num_total_nodes F)%nat) by (pose proof (hex_nodes F B Nx Ny Nz Lx Ly Lz HF); unfold node; lia).
  exists (node Ny Nz 0 0 0). split; [exact Hn|]. exists 0%nat. cbn [zero_sides fst snd]. split; [cbn; lia|]. split; [reflexivity|]. cbn [nth]. unfold on_plane. rewrite Hp. cbn [along INR].
  replace (0 * Lx / _) with 0 by (unfold Rdiv; ring). unfold isclose. apply Rleb_true. rewrite Rminus_0_r, Rabs_R0. lra.
Qed.
Lemma inf_def p : forall d, admissible F locs vecs d -> energy_form F (set_params p) d d = 0 -> same_field F d (fun _ _ => 0).
Proof. exact (poisson_definite F B Nx Ny Nz Lx Ly Lz HF (set_params p) locs vecs eq_refl held_somewhere). Qed.
Lemma inf_solved agrad fuel p : exists u, fwd_pred ev agrad fuel Pp p = Some (Ok u) /\ sol p u /\ forall w, sol p w -> same_field F w u.
Proof.
  exact (well_solved F _ eq_refl (poisson_linear F) eq_refl eq_refl [] (set_params p) jac cjac (Hjac p) locs vecs fns eps (Pp p) (HP p) inf_vecs inf_wf (inf_iv p) inf_cells I inf_faces (inf_def p) ev agrad fuel true None false Hex Hfl).
Qed.
(** ** the residual is linear in the solution and the sources together *)
Lemma load_body p v : load_work F [] (set_params p) v = sumN (num_cells F) (fun c => sumN (num_quads (f_ele F)) (fun q => JxW F c q * (sumN (num_nodes (f_ele F)) (fun a => p (cell_node F c a) * shape_vals (f_ele F) q a) * at_quad F v c q 0))).
Proof.
  unfold load_work, neumann_power, body_power. cbn [indexed List.length seq combine sumR]. rewrite Rplus_0_r. apply sumN_ext. intros c _. apply sumN_ext. intros q _. f_equal.
  unfold dot_vec. change (vec F) with 1%nat. rewrite sumN_S. unfold sumN at 1. cbn [seq sumR]. rewrite Rplus_0_l. f_equal. unfold body_load. cbn [set_params iv_body body_map infer_fem].
  unfold at_quad, convert_from_dof_to_quad. apply sumN_ext. intros a _. rewrite Nat.mul_1_r, Nat.add_0_r. reflexivity.
Qed.
Lemma load_lin a p p' v : load_work F [] (set_params (fun i => a * p i + p' i)) v = a * load_work F [] (set_params p) v + load_work F [] (set_params p') v.
Proof.
  rewrite !load_body, <- sumN_scal, <- sumN_add. apply sumN_ext. intros c _. rewrite <- sumN_scal, <- sumN_add. apply sumN_ext. intros q _.
  rewrite (sumN_ext _ _ (fun b => a * (p (cell_node F c b) * shape_vals (f_ele F) q b) + p' (cell_node F c b) * shape_vals (f_ele F) q b)) by (intros; ring). rewrite sumN_add, sumN_scal. ring.
Qed.
Lemma rp_value p u n : (n < N)%nat -> rp p u n 0%nat = energy_form F (set_params p) u (one_dof n 0) - load_work F [] (set_params p) (one_dof n 0).
Proof.
  intros Hn. rewrite <- (residual_work F eq_refl eq_refl [] (set_params p) inf_wf (inf_iv p) inf_cells I inf_faces u (rp p u) (Hrp p u) (one_dof n 0)).
  change (num_total_nodes F) with N. change (vec F) with 1%nat.
  rewrite (sumN_ext N _ (fun i => (if Nat.eqb i n then 1 else 0) * rp p u i 0%nat)).
  - symmetry. exact (sumN_ind N n (fun i => rp p u i 0%nat) Hn).
  - intros i _. rewrite sumN_S. unfold sumN. cbn [seq sumR]. unfold one_dof. cbn [Nat.eqb]. rewrite Bool.andb_true_r. destruct (Nat.eqb i n); ring.
Qed.
Lemma form_body p p' u v : energy_form F (set_params p) u v = energy_form F (set_params p') u v.
Proof. reflexivity. Qed.
Lemma rp_lin a p p' u u' n : (n < N)%nat -> rp (fun i => a * p i + p' i) (fun m k => a * u m k + u' m k) n 0%nat = a * rp p u n 0%nat + rp p' u' n 0%nat.
Proof.
  intros Hn. rewrite !rp_value by exact Hn. rewrite load_lin, (form_body _ p), (form_l F _ eq_refl (poisson_linear F)), (form_body p' p). ring.
Qed.
Lemma sol_zero p u : sol p u <-> (forall n, (n < N)%nat -> fixed F locs vecs n 0 -> u n 0%nat = 0) /\ forall n, (n < N)%nat -> ~ fixed F locs vecs n 0 -> rp p u n 0%nat = 0.
Proof.
  split.
  - intros [Hv (r & Hr & Hz)]. rewrite Hrp in Hr. injection Hr as <-. split.
    + intros n Hn Hf. destruct (last_exists F locs vecs n 0 Hf) as (i & Hi). rewrite (Hv i n 0%nat Hn Hi). apply zero_value.
    + intros n Hn Hf. apply Hz; [exact Hn|cbn; lia|exact Hf].
  - intros [Hv Hz]. split.
    + intros i n k Hn Hi. rewrite zero_value. assert (k = 0)%nat as ->.
      { destruct Hi as [(Hl & <- & _) _]. cbn [zero_sides fst snd repeat]. do 6 (destruct i as [|i]; [reflexivity|]). destruct i; reflexivity. }
      apply Hv; [exact Hn|]. exists i. exact (proj1 Hi).
    + exists (rp p u). split; [apply Hrp|]. intros n k Hn Hk Hf. assert (k = 0)%nat as -> by (cbn in Hk; lia). now apply Hz.
Qed.
Lemma sol_comb a p p' u u' : sol p u -> sol p' u' -> sol (fun i => a * p i + p' i) (fun m k => a * u m k + u' m k).
Proof.
  intros H H'. apply sol_zero in H as [H1 H2]. apply sol_zero in H' as [H3 H4]. apply sol_zero. split.
  - intros n Hn Hf. rewrite H1, H3 by assumption. ring.
  - intros n Hn Hf. rewrite rp_lin, H2, H4 by assumption. ring.
Qed.
Lemma load_ext p p' v : same N p p' -> load_work F [] (set_params p) v = load_work F [] (set_params p') v.
Proof.
  intros H. rewrite !load_body. apply sumN_ext. intros c Hc. apply sumN_ext. intros q _. do 2 f_equal. apply sumN_ext. intros a Ha. f_equal. apply H.
  pose proof inf_wf as Hw. unfold wf_mesh in Hw. rewrite Forall_forall in Hw. destruct (Hw (nth c (cells F) [])) as [Hl Hf]; [apply nth_In; exact Hc|]. rewrite Forall_forall in Hf.
  unfold cell_node. apply Hf. apply nth_In. rewrite Hl. exact Ha.
Qed.
Lemma sol_ext p p' u : same N p p' -> sol p u -> sol p' u.
Proof.
  intros H Hs. apply sol_zero in Hs as [H1 H2]. apply sol_zero. split; [exact H1|]. intros n Hn Hf. rewrite <- (H2 n Hn Hf), !rp_value by exact Hn. now rewrite (form_body p p'), (load_ext p p' _ H).
Qed.
Lemma form_zero iv u v : same_field F u (fun _ _ => 0) -> energy_form F iv u v = 0.
Proof.
  intros H. unfold energy_form. apply sumN_zero. intros c Hc. apply sumN_zero. intros q _. rewrite (sumN_zero (vec F)); [ring|]. intros k Hk. apply sumN_zero. intros d _.
  unfold stress. cbn [tensor_map infer_fem]. unfold poisson_map, sol_to_grad at 1. rewrite sumN_zero; [ring|]. intros a Ha. rewrite H; [ring| |exact Hk].
  pose proof inf_wf as Hw. unfold wf_mesh in Hw. rewrite Forall_forall in Hw. destruct (Hw (nth c (cells F) [])) as [Hl Hf]; [apply nth_In; exact Hc|]. rewrite Forall_forall in Hf.
  unfold cell_node. apply Hf. apply nth_In. rewrite Hl. exact Ha.
Qed.
(** ** the solution as a linear function of the sources *)
Lemma green : exists G : mat, forall agrad fuel p, exists u, fwd_pred ev agrad fuel Pp p = Some (Ok u) /\ sol p u /\ forall n, (n < N)%nat -> u n 0%nat = field_of N G p n.
Proof.
  destruct (finite_choice (fun j u => sol (unit_vec j) u) (fun _ _ => 0) N) as (g & Hg).
  { intros j _. destruct (inf_solved (fun _ _ => vzero) 0 (unit_vec j)) as (u & _ & Hu & _). eauto. }
  exists (fun n j => g j n 0%nat). intros agrad fuel p. destruct (inf_solved agrad fuel p) as (u & Hu & Hs & Hq). exists u. split; [exact Hu|]. split; [exact Hs|]. intros n Hn.
  assert (Hsum : forall m, (m <= N)%nat -> sol (fun i => if Nat.ltb i m then p i else 0) (fun n k => sumN m (fun j => p j * g j n k))).
  { induction m as [|m IH]; intros Hm.
    - apply sol_zero. split; [intros; reflexivity|]. intros i Hi Hf. rewrite rp_value by exact Hi.
      replace (fun i0 : nat => if Nat.ltb i0 0 then p i0 else 0) with (fun i0 : nat => -1 * 0 + 0) by (apply functional_extensionality; intros x; cbn; ring).
      rewrite (load_lin (-1) (fun _ => 0) (fun _ => 0)).
      change (fun (n0 k : nat) => sumN 0 (fun j => p j * g j n0 k)) with (fun n0 k : nat => 0). replace (fun _ _ : nat => 0) with (fun _ _ : nat => -1 * 0 + 0) by (apply functional_extensionality; intros x; apply functional_extensionality; intros y; ring).
      rewrite (form_l F _ eq_refl (poisson_linear F) _ (-1) (fun _ _ => 0) (fun _ _ => 0)). ring.
    - pose proof (sol_comb (p m) (unit_vec m) _ (g m) _ (Hg m Hm) (IH ltac:(lia))) as Hc.
      replace (fun n0 k : nat => sumN (S m) (fun j => p j * g j n0 k)) with (fun n0 k : nat => p m * g m n0 k + sumN m (fun j => p j * g j n0 k))
        by (apply functional_extensionality; intros x; apply functional_extensionality; intros y; rewrite sumN_S; ring).
      refine (sol_ext _ _ _ _ Hc). intros i Hi. unfold unit_vec. destruct (Nat.eqb_spec i m), (Nat.ltb_spec i m), (Nat.ltb_spec i (S m)); subst; try lia; ring. }
  specialize (Hsum N (le_n _)). assert (Hfull : sol p (fun n k => sumN N (fun j => p j * g j n k))).
  { refine (sol_ext _ _ _ _ Hsum). intros i Hi. destruct (Nat.ltb_spec i N); [reflexivity|lia]. }
  rewrite <- (Hq _ Hfull n 0%nat Hn ltac:(cbn; lia)). unfold field_of. apply sumN_ext. intros; ring.
Qed.
Lemma green_sol G : (forall agrad fuel p, exists u, fwd_pred ev agrad fuel Pp p = Some (Ok u) /\ sol p u /\ forall n, (n < N)%nat -> u n 0%nat = field_of N G p n) -> forall p, sol p (fun n _ => field_of N G p n).
Proof.
  intros HG p. destruct (HG (fun _ _ => vzero) 0%nat p) as (u & _ & Hs & Hv). apply sol_zero in Hs as [H1 H2]. apply sol_zero. split.
  - intros n Hn Hf. rewrite <- (Hv n Hn). now apply H1.
  - intros n Hn Hf. rewrite <- (H2 n Hn Hf), !rp_value by exact Hn. f_equal. unfold energy_form. apply sumN_ext. intros c Hc. apply sumN_ext. intros q _. f_equal. change (vec F) with 1%nat. rewrite !sumN_S. unfold sumN at 1 3. cbn [seq sumR]. f_equal.
    apply sumN_ext. intros d _. f_equal. unfold stress. cbn [tensor_map infer_fem]. unfold poisson_map, sol_to_grad. apply sumN_ext. intros a Ha. f_equal. symmetry. apply Hv.
    pose proof inf_wf as Hw. unfold wf_mesh in Hw. rewrite Forall_forall in Hw. destruct (Hw (nth c (cells F) [])) as [Hl Hfa]; [apply nth_In; exact Hc|]. rewrite Forall_forall in Hfa.
    unfold cell_node. apply Hfa. apply nth_In. rewrite Hl. exact Ha.
Qed.
(** ** the reverse pass *)
Lemma inf_dims p : num_nodes_p (Pp p) = N /\ pvec (Pp p) = 1%nat /\ num_total_dofs (Pp p) = N.
Proof.
  destruct (fem_problem_fields F [] (set_params p) jac cjac locs vecs fns None eps (Pp p) (HP p)) as (_ & _ & H1 & H2 & _). unfold num_total_dofs. rewrite H1, H2. split; [reflexivity|]. split; [reflexivity|]. change (num_total_nodes F) with N. change (vec F) with 1%nat. lia.
Qed.
Lemma inf_dof p n : dof (Pp p) n 0 = n.
Proof. unfold dof. destruct (inf_dims p) as (_ & -> & _). lia. Qed.
Lemma inf_unknown p n : (n < N)%nat -> unknown (Pp p) n 0.
Proof. intros Hn. destruct (inf_dims p) as (H1 & H2 & _). unfold unknown. rewrite H1, H2. lia. Qed.
Lemma inf_bc p : bc_ok (Pp p).
Proof. exact (well_bc F [] (set_params p) jac cjac locs vecs fns eps (Pp p) (HP p) inf_vecs). Qed.
Lemma fixed_dec n : {fixed F locs vecs n 0} + {~ fixed F locs vecs n 0}.
Proof.
  destruct (existsb (fun i => Nat.eqb (nth i vecs 0%nat) 0 && nth i locs (fun _ => false) (points F n)) (seq 0 (List.length locs))) eqn:E; [left|right].
  - apply existsb_exists in E as (i & Hi & E). apply in_seq in Hi. apply andb_prop in E as [E1 E2]. apply Nat.eqb_eq in E1. exists i. split; [lia|]. now split.
  - intros (i & Hi & E1 & E2). rewrite <- Bool.not_true_iff_false in E. apply E. apply existsb_exists. exists i. split; [apply in_seq; lia|]. rewrite E2, E1. reflexivity.
Qed.
Lemma inf_prescribed p n : (n < N)%nat -> prescribed (Pp p) n 0 = if fixed_dec n then Some 0 else None.
Proof.
  intros Hn. destruct (fixed_dec n) as [Hf|Hf].
  - destruct (last_exists F locs vecs n 0 Hf) as (i & Hi & Hl). rewrite (fem_prescribed_last F [] (set_params p) jac cjac locs vecs fns None eps (Pp p) (HP p) i n 0 (inf_unknown p n Hn) Hi Hl). f_equal. apply zero_value.
  - apply (fem_prescribed_none F [] (set_params p) jac cjac locs vecs fns None eps (Pp p) (HP p)). intros i Hi. apply Hf. now exists i.
Qed.
Lemma inf_constraint d p n : (n < N)%nat -> constraint_fn Pp rp d p n = if fixed_dec n then d n else rp p (fun m _ => d m) n 0%nat.
Proof.
  intros Hn. unfold constraint_fn, apply_bc. rewrite <- (inf_dof p n) at 1. rewrite (apply_bc_vec_spec (Pp p) (inf_bc p) _ _ n 0 (inf_unknown p n Hn)), (inf_prescribed p n Hn).
  rewrite ravel_dof by exact (proj2 (inf_unknown p n Hn)). rewrite (inf_dof p n). destruct (fixed_dec _); [ring|].
  rewrite !rp_value by exact Hn. f_equal. unfold energy_form. apply sumN_ext. intros c Hc. apply sumN_ext. intros q _. f_equal. change (vec F) with 1%nat. rewrite !sumN_S. unfold sumN at 1 3. cbn [seq sumR]. f_equal.
  apply sumN_ext. intros e _. f_equal. unfold stress. cbn [tensor_map infer_fem]. unfold poisson_map, sol_to_grad, reshape. apply sumN_ext. intros a Ha. f_equal. f_equal. destruct (inf_dims p) as (_ & -> & _). lia.
Qed.
Definition free_load (dp : vector) : vector := fun n => if fixed_dec n then 0 else - load_work F [] (set_params dp) (one_dof n 0).
Lemma rp_shift d p t dp n : (n < N)%nat -> rp (step p t dp) d n 0%nat = rp p d n 0%nat + t * (- load_work F [] (set_params dp) (one_dof n 0)).
Proof.
  intros Hn. rewrite !rp_value by exact Hn. replace (step p t dp) with (fun i => t * dp i + p i) by (apply functional_extensionality; intros i; unfold step; ring).
  rewrite load_lin, (form_body (fun i => t * dp i + p i) p). ring.
Qed.
Lemma inf_matrix p u r ijv up G : newton_update (Pp p) u = Ok (r, ijv) -> (forall q, sol q (fun n _ => field_of N G q n)) ->
  forall dp n, (n < N)%nat -> lop_apply N (get_A_fn (Pp p) ijv up) (field_of N G dp) n = - free_load dp n.
Proof.
  intros Hr HG dp n Hn. destruct (inf_dims p) as (H1 & H2 & H3). rewrite <- H3 at 1. rewrite <- (inf_dof p n) at 1. rewrite (get_A_fn_spec (Pp p) (inf_bc p) ijv up _ n 0 (inf_unknown p n Hn)), (inf_prescribed p n Hn), (inf_dof p n).
  unfold free_load. pose proof (proj1 (sol_zero _ _) (HG dp)) as [Hz Hr0]. destruct (fixed_dec _) as [Hf|Hf]; [rewrite (Hz n Hn Hf); ring|].
  specialize (Hr0 n Hn Hf). rewrite rp_value in Hr0 by exact Hn.
  pose proof (matrix_form F _ eq_refl (poisson_linear F) eq_refl eq_refl [] (set_params p) jac cjac (Hjac p) locs vecs fns eps (Pp p) (HP p) inf_wf (inf_iv p) inf_cells I inf_faces u r ijv (fun n _ => field_of N G dp n) (one_dof n 0) Hr) as Hm.
  change (num_total_nodes F) with N in Hm. change (vec F) with 1%nat in Hm.
  rewrite (sumN_ext N _ (fun i => (if Nat.eqb i n then 1 else 0) * coo_mul (num_total_dofs (Pp p)) ijv (ravel (Pp p) (fun n _ => field_of N G dp n)) i)) in Hm.
  - rewrite (sumN_ind N n _ Hn) in Hm. rewrite (form_body p dp) in Hm.
    transitivity (coo_mul (num_total_dofs (Pp p)) ijv (ravel (Pp p) (fun n0 _ => field_of N G dp n0)) n); [|rewrite Hm; lra].
    unfold coo_mul. apply sumN_ext. intros j Hj. f_equal. unfold ravel. rewrite H2, Nat.div_1_r. reflexivity.
  - intros i _. rewrite sumN_S. unfold sumN. cbn [seq sumR]. unfold one_dof. cbn [Nat.eqb]. rewrite Bool.andb_true_r, (inf_dof p i). destruct (Nat.eqb i n); ring.
Qed.
Lemma free_load_linear : linear_map N N free_load.
Proof.
  split; [|split].
  - intros i x y Hi. unfold free_load. destruct (fixed_dec _); [ring|]. replace (fun j => x j + y j) with (fun j => 1 * x j + y j) by (apply functional_extensionality; intros; ring). rewrite load_lin. ring.
  - intros i c x Hi. unfold free_load. destruct (fixed_dec _); [ring|]. replace (fun j => c * x j) with (fun j => c * x j + 0) by (apply functional_extensionality; intros; ring). rewrite (load_lin c x (fun _ => 0)).
    replace (fun _ : nat => 0) with (fun _ : nat => -1 * 0 + 0) by (apply functional_extensionality; intros; ring). rewrite (load_lin (-1) (fun _ => 0) (fun _ => 0)). ring.
  - intros x y H i Hi. unfold free_load. destruct (fixed_dec _); [reflexivity|]. now rewrite (load_ext x y _ H).
Qed.
Lemma inf_reverse G p u v : (forall q, sol q (fun n _ => field_of N G q n)) -> exists g, implicit_vjp ev Pp rp vjp (ravel (Pp p) u) p v false = Ok g /\ forall dp, dotN N g dp = dotN N v (field_of N G dp).
Proof.
  intros HG. destruct (inf_dims p) as (H1 & H2 & H3). set (s := ravel (Pp p) u).
  destruct (well_affine F _ eq_refl (poisson_linear F) eq_refl eq_refl [] (set_params p) jac cjac (Hjac p) locs vecs fns eps (Pp p) (HP p) inf_wf (inf_iv p) inf_cells I inf_faces (reshape (Pp p) s) (fun _ _ => 0)) as (r & _ & ijv & _ & Hr & _ & _).
  pose proof (well_invertible F _ eq_refl (poisson_linear F) eq_refl eq_refl [] (set_params p) jac cjac (Hjac p) locs vecs fns eps (Pp p) (HP p) inf_vecs inf_wf (inf_iv p) inf_cells I inf_faces (inf_def p) _ _ _ false Hr) as Hinv.
  pose proof (get_A_linear (fun _ => Pp p) vzero (inf_bc p) ijv false) as HA. cbv beta in HA.
  destruct (implicit_vjp_adjoint ev Pp rp N s p (inf_bc p) vjp Hex ijv r free_load v false Hr Hinv) as (g & w & Hg & Hw & Hd).
  - rewrite H3 in *. apply Hvjp; [exact HA|]. intros d i Hi. destruct HA as (Ha & Hs & _).
    eapply dl_eq; [apply (dl_line (lop_apply N (get_A_fn (Pp p) ijv false) s i) (lop_apply N (get_A_fn (Pp p) ijv false) d i))|intros t; cbv beta|reflexivity].
    unfold step. rewrite (Ha i s (fun j => t * d j) Hi), (Hs i t d Hi). ring.
  - rewrite H3. apply Hvjp; [exact free_load_linear|]. intros d i Hi.
    eapply dl_eq; [apply (dl_line (constraint_fn Pp rp s p i) (free_load d i))|intros t; cbv beta|reflexivity]. rewrite !inf_constraint by exact Hi. unfold free_load. destruct (fixed_dec _); [ring|]. rewrite rp_shift by exact Hi. ring.
  - exists g. split; [exact Hg|]. intros dp. rewrite Hd. rewrite H3 in *. rewrite <- (Hw (field_of N G dp)). unfold dotN. rewrite <- sumN_opp. apply sumN_ext. intros i Hi. rewrite (inf_matrix p _ r ijv false G Hr HG dp i Hi). ring.
Qed.
End Setup.
Close Scope R_scope.
