(** * Lemmas about the inferred source: misfit, Taylor test, identifiability, norms, wrappers. *)
From Coq Require Import String FunctionalExtensionality Classical Lra Lia.
From Verif Require Import Prelude PreludeFacts FemModel FemFacts FemSpec FemAsmProofs FemMatProofs FemGeoProofs BasisModel BasisSpec BasisProofs BasisMeshProofs BasisProps MatModel SolverModel SolverSpec SolverProofs SolverAdProofs SolverFemProofs RveModel BoxSpec BoxProofs LinFacts WellSpec WellProofs WellBoxProofs WellMainProofs InfModel InfSpec InfProofs.
From Verif Require MeshModel MatProofs.
Open Scope R_scope.
Open Scope list_scope.

(** ** the misfit *)
Lemma cotangent_dot N obs tv u w : Forall (fun n => (n < N)%nat) obs -> dotN N (J_cotangent obs tv u) w = sumR (combine obs tv) (fun p => 2 * (u (fst p) 0%nat - snd p) * w (fst p)).
Proof.
  intros H. unfold dotN, J_cotangent. revert tv. induction H as [|n obs Hn H IH]; intros tv; [apply sumN_zero; intros; cbn; ring|].
  destruct tv as [|y tv]; [apply sumN_zero; intros; cbn; ring|]. cbn [combine sumR fst snd]. rewrite <- IH.
  rewrite (sumN_ext N _ (fun i => (if Nat.eqb i n then 1 else 0) * (2 * (u n 0%nat - y) * w i) + sumR (combine obs tv) (fun p => if Nat.eqb i (fst p) then 2 * (u (fst p) 0%nat - snd p) else 0) * w i)) by (intros i _; destruct (Nat.eqb i n); ring).
  rewrite sumN_add. f_equal. exact (sumN_ind N n (fun i => 2 * (u n 0%nat - y) * w i) Hn).
Qed.
Lemma sumR_combine (obs : list nat) (tv : list R) (f : nat -> R) : List.length obs = List.length tv -> sumR (combine obs tv) (fun p => f (fst p)) = sumR obs f.
Proof. revert tv. induction obs as [|n obs IH]; intros [|y tv] H; try discriminate; [reflexivity|]. cbn [combine sumR fst]. rewrite IH; [reflexivity|]. now injection H. Qed.
Lemma misfit_shift (obs : list nat) (tv : list R) (u u' : nodal) (w : nat -> R) : List.length obs = List.length tv -> (forall n, In n obs -> u' n 0%nat = u n 0%nat + w n) ->
  sumR (combine obs tv) (fun p => (u' (fst p) 0%nat - snd p) ^ 2)
  = sumR (combine obs tv) (fun p => (u (fst p) 0%nat - snd p) ^ 2) + sumR (combine obs tv) (fun p => 2 * (u (fst p) 0%nat - snd p) * w (fst p)) + sumR obs (fun n => w n ^ 2).
Proof.
  revert tv. induction obs as [|n obs IH]; intros [|y tv] H Hu; try discriminate; [cbn; ring|]. cbn [combine sumR fst snd]. rewrite IH; [|now injection H|intros; apply Hu; now right].
  rewrite (Hu n (or_introl eq_refl)). ring.
Qed.
Lemma misfit_nonneg (obs : list nat) (tv : list R) (u : nodal) : 0 <= sumR (combine obs tv) (fun p => (u (fst p) 0%nat - snd p) ^ 2 : R).
Proof. induction (combine obs tv) as [|p l IH]; cbn [sumR]; [lra|]. pose proof (pow2_ge_0 (u (fst p) 0%nat - snd p)). lra. Qed.
Lemma squares_nonneg obs (w : nat -> R) : 0 <= sumR obs (fun n => w n ^ 2).
Proof. induction obs as [|p l IH]; cbn [sumR]; [lra|]. pose proof (pow2_ge_0 (w p)). lra. Qed.
(** what J_total and J_grad return, for a linear forward map *)
Lemma objective_values {V} (M : fem V) B Nx Ny Nz Lx Ly Lz ev vjp Pp rp : infer_setup M B Nx Ny Nz Lx Ly Lz ev vjp Pp rp ->
  exists G : mat, (forall agrad fuel p, exists u, fwd_pred ev agrad fuel Pp p = Some (Ok u) /\ (forall n, (n < num_total_nodes M)%nat -> u n 0%nat = field_of (num_total_nodes M) G p n)) /\
  (forall n j, (n < num_total_nodes M)%nat -> fixed (infer_fem M None) (fst (fst (zero_sides Lx Ly Lz))) (snd (fst (zero_sides Lx Ly Lz))) n 0 -> (j < num_total_nodes M)%nat -> G n j = 0) /\
  (forall obs tv, observations M obs tv -> forall agrad fuel p, exists j g, J_total ev agrad fuel Pp obs tv p = Some (Ok j) /\ J_grad ev agrad fuel vjp Pp rp obs tv p = Some (Ok g) /\ 0 <= j /\
     forall dp, J_total ev agrad fuel Pp obs tv (fun i => p i + dp i) = Some (Ok (j + dotN (num_total_nodes M) g dp + sumR obs (fun n => field_of (num_total_nodes M) G dp n ^ 2)))).
Proof.
  intros (HF & Hex & Hfl & Hv & (jac & cjac & eps & Hj & HP) & Hr). set (N := num_total_nodes M).
  destruct (green M B Nx Ny Nz Lx Ly Lz ev Pp rp HF Hex Hfl jac cjac eps Hj HP Hr) as (G & HG).
  pose proof (green_sol M B Nx Ny Nz Lx Ly Lz ev Pp rp HF jac cjac eps Hj HP Hr G HG) as HS.
  exists G. split; [|split].
  - intros agrad fuel p. destruct (HG agrad fuel p) as (u & H1 & _ & H2). now exists u.
  - intros n j Hn Hf Hj'. destruct (proj1 (sol_zero M Lx Ly Lz Pp rp jac cjac eps Hj HP Hr _ _) (HS (unit_vec j))) as [Hz _]. specialize (Hz n Hn Hf). cbv beta in Hz. rewrite <- Hz. unfold field_of, unit_vec.
    rewrite (sumN_ext _ _ (fun i => (if Nat.eqb i j then 1 else 0) * G n i)) by (intros; ring). symmetry. exact (sumN_ind _ j (fun i => G n i) Hj').
  - intros obs tv [Hl Ho] agrad fuel p. destruct (HG agrad fuel p) as (u & Hu & _ & Hval).
    destruct (inf_reverse M B Nx Ny Nz Lx Ly Lz ev vjp Pp rp HF Hex Hv jac cjac eps Hj HP Hr G p u (J_cotangent obs tv u) HS) as (g & Hg & Hd).
    exists (sumR (combine obs tv) (fun p => (u (fst p) 0%nat - snd p) ^ 2)), g. unfold J_total, J_grad. rewrite Hu. cbn [option_map bind]. unfold J_fn. rewrite Hl, Nat.eqb_refl. split; [reflexivity|]. split; [now rewrite Hg|]. split; [apply misfit_nonneg|].
    intros dp. destruct (HG agrad fuel (fun i => p i + dp i)) as (u' & Hu' & _ & Hval'). rewrite Hu'. cbn [option_map bind]. rewrite ?Hl, ?Nat.eqb_refl. do 2 f_equal. change (num_total_nodes (infer_fem M None)) with N in *. rewrite Hd, (cotangent_dot N obs tv u _ Ho).
    apply misfit_shift; [exact Hl|]. intros n Hn. rewrite Forall_forall in Ho. specialize (Ho n Hn). rewrite (Hval' n Ho), (Hval n Ho). unfold field_of. rewrite <- sumN_add. apply sumN_ext. intros; ring.
Qed.
(** ** a zero of the gradient is a minimum *)
Lemma square_line g q : 0 <= q -> (forall t, 0 <= t * g + t ^ 2 * q) -> g = 0.
Proof.
  intros Hq H. destruct (Req_dec g 0) as [|Hg]; [assumption|exfalso]. specialize (H (- g / (q + 1))). assert (0 < q + 1) by lra.
  assert (E : - g / (q + 1) * g + (- g / (q + 1)) ^ 2 * q = - (g ^ 2) / (q + 1) ^ 2) by (field; lra). rewrite E in H.
  assert (0 < g ^ 2) by nra. assert (0 < g ^ 2 / (q + 1) ^ 2) by (apply Rdiv_lt_0_compat; [assumption|nra]). unfold Rdiv in *. lra.
Qed.
Lemma sumR_pow_scal obs (w : nat -> R) t : sumR obs (fun n => (t * w n) ^ 2) = t ^ 2 * sumR obs (fun n => w n ^ 2).
Proof. induction obs as [|n obs IH]; cbn [sumR]; [ring|]. rewrite IH. ring. Qed.
Lemma field_scal N G t p n : field_of N G (fun i => t * p i) n = t * field_of N G p n.
Proof. unfold field_of. rewrite <- sumN_scal. apply sumN_ext. intros; ring. Qed.
Lemma dot_unit N g i : (i < N)%nat -> dotN N g (unit_vec i) = g i.
Proof. intros Hi. unfold dotN, unit_vec. rewrite (sumN_ext _ _ (fun j => (if Nat.eqb j i then 1 else 0) * g j)) by (intros; ring). now apply sumN_ind. Qed.
(** ** sources that change nothing *)
Lemma silent_source {V} (M : fem V) B Nx Ny Nz Lx Ly Lz ev vjp Pp rp G : infer_setup M B Nx Ny Nz Lx Ly Lz ev vjp Pp rp ->
  (forall n j, (n < num_total_nodes M)%nat -> fixed (infer_fem M None) (fst (fst (zero_sides Lx Ly Lz))) (snd (fst (zero_sides Lx Ly Lz))) n 0 -> (j < num_total_nodes M)%nat -> G n j = 0) ->
  exists d : vector, (exists n, (n < num_total_nodes M)%nat /\ d n <> 0) /\ forall n, (n < num_total_nodes M)%nat -> field_of (num_total_nodes M) G d n = 0.
Proof.
  intros (HF & _ & _ & _ & (jac & cjac & eps & Hj & HP) & Hr) HG.
  destruct (held_somewhere M B Nx Ny Nz Lx Ly Lz HF 0%nat ltac:(cbn; lia)) as (n0 & Hn0 & Hf0). change (num_total_nodes (infer_fem M None)) with (num_total_nodes M) in *. remember (num_total_nodes M) as N eqn:EN. destruct N as [|K]; [lia|].
  destruct (underdetermined K (fun i j => G (if Nat.ltb i n0 then i else S i) j)) as (x & (j & Hj' & Hx) & Hz). exists x. split; [exists j; split; [lia|exact Hx]|].
  intros n Hn. unfold field_of. destruct (lt_eq_lt_dec n n0) as [[H|H]|H].
  - specialize (Hz n ltac:(lia)). cbv beta in Hz. destruct (Nat.ltb_spec n n0); [exact Hz|lia].
  - subst n. apply sumN_zero. intros i Hi. rewrite (HG n0 i Hn Hf0 Hi). ring.
  - specialize (Hz (n - 1)%nat ltac:(lia)). cbv beta in Hz. destruct (Nat.ltb_spec (n - 1) n0); [lia|]. now replace (S (n - 1)) with n in Hz by lia.
Qed.
Lemma hex_vals_sum' V (M : fem V) B Nx Ny Nz Lx Ly Lz : box_hex (infer_fem M None) B Nx Ny Nz Lx Ly Lz -> vals_sum_one (infer_fem M None).
Proof. intros (HB & _ & _ & _ & _ & _ & _ & _ & _ & _ & HE). destruct (tables_meet_fem_assumptions R (infer_fem M None) B "HEX8" HB ltac:(cbn; tauto) HE) as (H & _). exact H. Qed.
(** ** the problem that produces the observations *)
Lemma sum_one f : sumN 1 f = f 0%nat.
Proof. unfold sumN. cbn [seq sumR]. ring. Qed.
Section Truth.
Context {V : Type}.
Variable M : fem V.
Variables (B : basix) (Nx Ny Nz : nat) (Lx Ly Lz : R) (fn : point -> nat -> R).
Local Notation F := (infer_fem M None).
Local Notation FT := (infer_fem M (Some fn)).
Local Notation N := (num_total_nodes M).
Hypothesis HF : box_hex F B Nx Ny Nz Lx Ly Lz.
Lemma truth_hex : box_hex FT B Nx Ny Nz Lx Ly Lz.
Proof. exact HF. Qed.
Hypothesis affine : exists b g, forall x, fn x 0%nat = b + sumN 3 (fun d => g d * x d).
Definition nodal_source : vector := fun n => fn (points M n) 0%nat.
Lemma quad_source c q : (q < num_quads (f_ele F))%nat -> fn (physical_quad_point FT c q) 0%nat = sumN (num_nodes (f_ele F)) (fun a => nodal_source (cell_node F c a) * shape_vals (f_ele F) q a).
Proof.
  intros Hq. destruct affine as (b & g & Hf). rewrite Hf. unfold nodal_source.
  rewrite (sumN_ext (num_nodes (f_ele F)) _ (fun a => b * shape_vals (f_ele F) q a + sumN 3 (fun d => g d * (shape_vals (f_ele F) q a * points M (cell_node F c a) d)))).
  - rewrite sumN_add, sumN_scal. pose proof (hex_vals_sum' V M B Nx Ny Nz Lx Ly Lz HF q Hq) as E. cbv beta in E. etransitivity; [|apply (f_equal2 Rplus); [apply f_equal; symmetry; exact E|reflexivity]]. rewrite Rmult_1_r. f_equal.
    rewrite sumN_swap. apply sumN_ext. intros d _. rewrite sumN_scal. f_equal.
  - intros a _. rewrite Hf, Rmult_plus_distr_r. f_equal. rewrite <- sumN_scal_r. apply sumN_ext. intros; ring.
Qed.
Lemma truth_load v : load_work FT [] fresh_vars v = load_work F [] (set_params nodal_source) v.
Proof.
  unfold load_work, neumann_power, body_power. cbn [indexed List.length seq combine sumR]. f_equal. apply sumN_ext. intros c _. apply sumN_ext. intros q Hq. apply (f_equal2 Rmult); [reflexivity|].
  unfold dot_vec. change (vec FT) with 1%nat. change (vec F) with 1%nat. rewrite !sum_one. apply (f_equal2 Rmult); [|reflexivity].
  unfold body_load. cbn [fresh_vars set_params iv_body body_map infer_fem source_info]. etransitivity; [exact (quad_source c q Hq)|]. unfold at_quad, convert_from_dof_to_quad. apply sumN_ext. intros a _. rewrite Nat.mul_1_r, Nat.add_0_r. reflexivity.
Qed.
Lemma truth_residual u r : compute_residual_vars FT [] u fresh_vars = Ok r -> forall n, (n < N)%nat -> r n 0%nat = energy_form F (set_params nodal_source) u (one_dof n 0) - load_work F [] (set_params nodal_source) (one_dof n 0).
Proof.
  intros Hr n Hn.
  pose proof (residual_work FT eq_refl eq_refl [] fresh_vars (hex_wf FT B Nx Ny Nz Lx Ly Lz truth_hex) ltac:(split; constructor) (hex_cells FT B Nx Ny Nz Lx Ly Lz truth_hex) I (fun s H => match H with end) u r Hr (one_dof n 0)) as Hw.
  rewrite truth_load in Hw. change (energy_form FT fresh_vars u (one_dof n 0)) with (energy_form F (set_params nodal_source) u (one_dof n 0)) in Hw. rewrite <- Hw.
  change (num_total_nodes FT) with N. change (vec FT) with 1%nat. rewrite (sumN_ext N _ (fun i => (if Nat.eqb i n then 1 else 0) * r i 0%nat)).
  - symmetry. exact (sumN_ind N n (fun i => r i 0%nat) Hn).
  - intros i _. rewrite sumN_S. unfold sumN. cbn [seq sumR]. unfold one_dof. cbn [Nat.eqb]. rewrite Bool.andb_true_r. destruct (Nat.eqb i n); ring.
Qed.
End Truth.
(** ** the quadrature norm *)
Definition hexval (a : nat) (p : point) : R := lin1 (off a 0) (p 0%nat) * lin1 (off a 1) (p 1%nat) * lin1 (off a 2) (p 2%nat).
Lemma hex_shape a p : (a < 8)%nat -> node_shape "HEX8" a p = hexval a p.
Proof.
  intros Ha. unfold node_shape, lagrange, coord, prodN, hexval, off, vtk_hex. do 8 (destruct a as [|a]; [cbn; field|]). lia.
Qed.
Definition vc (a e : nat) : R := lc (off a 0) (bit e 0) * lc (off a 1) (bit e 1) * lc (off a 2) (bit e 2).
Lemma hexval_multi a p : (a < 8)%nat -> hexval a p = multi (vc a) p.
Proof. intros Ha. unfold multi, sumN. cbn [seq sumR]. unfold mon, hexval, vc, off, vtk_hex. do 8 (destruct a as [|a]; [cbn; ring|]). lia. Qed.
Definition vfield (v : nat -> R) (p : point) : R := sumN 8 (fun a => v a * hexval a p).
Lemma vfield_multi v p : vfield v p = multi (fun e => sumN 8 (fun a => v a * vc a e)) p.
Proof.
  unfold vfield, multi. rewrite (sumN_ext 8 (fun e => _ * mon e p) (fun e => sumN 8 (fun a => v a * vc a e * mon e p))) by (intros; now rewrite sumN_scal_r). rewrite sumN_swap. apply sumN_ext. intros a Ha.
  rewrite hexval_multi by exact Ha. unfold multi. rewrite <- sumN_scal. apply sumN_ext. intros; ring.
Qed.
Definition corner (a : nat) : point := fun d => INR (off a d).
Lemma vfield_corner v a : (a < 8)%nat -> vfield v (corner a) = v a.
Proof. intros Ha. unfold vfield, sumN, corner, hexval, off, vtk_hex. cbn [seq sumR]. do 8 (destruct a as [|a]; [cbn; ring|]). lia. Qed.
Section Norm.
Variable F : fem R.
Variables (B : basix) (Nx Ny Nz : nat) (Lx Ly Lz : R).
Hypothesis HF : box_hex F B Nx Ny Nz Lx Ly Lz.
Lemma hex_vals_sum : vals_sum_one F.
Proof. pose proof HF as (HB & _ & _ & _ & _ & _ & _ & _ & _ & _ & HE). destruct (tables_meet_fem_assumptions R F B "HEX8" HB ltac:(cbn; tauto) HE) as (H & _). exact H. Qed.
Lemma L2_is_integral u : compute_L2 F u = square_integral F u.
Proof.
  unfold compute_L2, square_integral. apply sumN_ext. intros c _. unfold mass_kernel.
  rewrite (sumN_ext (num_nodes (f_ele F)) _ (fun a => sumN (num_quads (f_ele F)) (fun q => shape_vals (f_ele F) q a * (JxW F c q * sumN (vec F) (fun k => at_quad F u c q k ^ 2))))).
  - rewrite sumN_swap. apply sumN_ext. intros q Hq. rewrite sumN_scal_r. etransitivity; [apply (f_equal2 Rmult); [exact (hex_vals_sum q Hq)|reflexivity]|ring].
  - intros a _. rewrite sumN_swap. apply sumN_ext. intros q _. rewrite <- !sumN_scal. apply sumN_ext. intros k _. cbn [map]. unfold at_quad, convert_from_dof_to_quad, cells_sol. ring.
Qed.
Lemma at_quad_vfield u c q k : (c < num_cells F)%nat -> (q < num_quads (f_ele F))%nat -> at_quad F u c q k = vfield (fun a => u (cell_node F c a) k) (qp B q).
Proof.
  intros Hc Hq. pose proof HF as (HB & _ & _ & _ & _ & _ & _ & _ & _ & _ & HE). destruct (box_dim B HB F HE) as [_ Hn].
  unfold at_quad, convert_from_dof_to_quad, vfield. rewrite Hn. apply sumN_ext. intros a Ha. f_equal. rewrite <- hex_shape by exact Ha. rewrite (hex_tables B HB _ HE). cbn [shape_vals tables]. apply tabulated; [exact HB|cbn; tauto|exact Ha].
Qed.
Lemma cell_integral u c k : (c < num_cells F)%nat -> 0 <= sumN (num_quads (f_ele F)) (fun q => JxW F c q * at_quad F u c q k ^ 2) /\
  (sumN (num_quads (f_ele F)) (fun q => JxW F c q * at_quad F u c q k ^ 2) = 0 -> forall a, (a < 8)%nat -> u (cell_node F c a) k = 0).
Proof.
  intros Hc. pose proof HF as (HB & Hq & Hx & Hy & Hz & H1 & H2 & H3 & Hm & Hnn & HE).
  pose proof (hh_pos Nx Ny Nz Lx Ly Lz Hx Hy Hz H1 H2 H3 0) as P0. pose proof (hh_pos Nx Ny Nz Lx Ly Lz Hx Hy Hz H1 H2 H3 1) as P1. pose proof (hh_pos Nx Ny Nz Lx Ly Lz Hx Hy Hz H1 H2 H3 2) as P2.
  set (h := hh Nx Ny Nz Lx Ly Lz) in *. assert (HJ : 0 < h 0%nat * h 1%nat * h 2%nat) by (apply Rmult_lt_0_compat; [apply Rmult_lt_0_compat|]; assumption).
  set (cf := fun e => sumN 8 (fun a => u (cell_node F c a) k * vc a e)).
  assert (E : sumN (num_quads (f_ele F)) (fun q => JxW F c q * at_quad F u c q k ^ 2) = h 0%nat * h 1%nat * h 2%nat * sos cf).
  { rewrite <- (multi_square B HB Hq (f_ele F) HE cf), <- sumN_scal. apply sumN_ext. intros q Hq'. rewrite at_quad_vfield by assumption. rewrite vfield_multi. fold cf.
    unfold JxW. rewrite (box_det B HB F Nx Ny Nz Lx Ly Lz Hx Hy Hz Hm Hnn HE c q Hc). fold h. ring. }
  rewrite E. split; [apply Rmult_le_pos; [lra|apply sos_nonneg]|]. intros H0 a Ha. apply Rmult_integral in H0 as [H0|H0]; [lra|].
  rewrite <- (vfield_corner (fun a => u (cell_node F c a) k) a Ha), vfield_multi. now apply sos_zero.
Qed.
Lemma node_in_cell n : (n < num_total_nodes F)%nat -> exists c a, (c < num_cells F)%nat /\ (a < 8)%nat /\ cell_node F c a = n.
Proof.
  intros Hn. pose proof HF as (HB & Hq & Hx & Hy & Hz & H1 & H2 & H3 & Hm & Hnn & HE).
  destruct (node_surj F Nx Ny Nz Lx Ly Lz Hnn n Hn) as (i & j & k & Hi & Hj & Hk & ->).
  set (i0 := if Nat.eqb i 0 then 0%nat else (i - 1)%nat). set (j0 := if Nat.eqb j 0 then 0%nat else (j - 1)%nat). set (k0 := if Nat.eqb k 0 then 0%nat else (k - 1)%nat).
  assert (Ho : exists a, (a < 8)%nat /\ off a 0 = (i - i0)%nat /\ off a 1 = (j - j0)%nat /\ off a 2 = (k - k0)%nat).
  { assert (C : forall n, ((n - if Nat.eqb n 0 then 0 else n - 1) = 0 \/ (n - if Nat.eqb n 0 then 0 else n - 1) = 1)%nat) by (intros x; destruct (Nat.eqb_spec x 0); lia).
    unfold i0, j0, k0. destruct (C i) as [-> | ->], (C j) as [-> | ->], (C k) as [-> | ->];
    (first [exists 0%nat; split; [lia|split; [reflexivity|split; reflexivity]] | exists 1%nat; split; [lia|split; [reflexivity|split; reflexivity]] | exists 2%nat; split; [lia|split; [reflexivity|split; reflexivity]] | exists 3%nat; split; [lia|split; [reflexivity|split; reflexivity]]
          | exists 4%nat; split; [lia|split; [reflexivity|split; reflexivity]] | exists 5%nat; split; [lia|split; [reflexivity|split; reflexivity]] | exists 6%nat; split; [lia|split; [reflexivity|split; reflexivity]] | exists 7%nat; split; [lia|split; [reflexivity|split; reflexivity]]]). }
  destruct Ho as (a & Ha & O0 & O1 & O2). assert (i0 <= i /\ i0 < Nx /\ j0 <= j /\ j0 < Ny /\ k0 <= k /\ k0 < Nz)%nat as (I1 & I2 & J1 & J2 & K1 & K2) by (unfold i0, j0, k0; destruct (Nat.eqb_spec i 0), (Nat.eqb_spec j 0), (Nat.eqb_spec k 0); lia).
  exists (cellno Ny Nz i0 j0 k0), a. split; [exact (cellno_lt F Nx Ny Nz Lx Ly Lz Hx Hy Hz Hm Hnn i0 j0 k0 I2 J2 K2)|]. split; [exact Ha|].
  rewrite (cell_node_at F Nx Ny Nz Lx Ly Lz Hx Hy Hz Hm Hnn i0 j0 k0 a I2 J2 K2 Ha). rewrite O0, O1, O2. f_equal; lia.
Qed.
Lemma L2_definite u : 0 <= compute_L2 F u /\ (compute_L2 F u = 0 <-> same_field F u (fun _ _ => 0)).
Proof.
  rewrite L2_is_integral. unfold square_integral.
  assert (E : forall c, sumN (num_quads (f_ele F)) (fun q => JxW F c q * sumN (vec F) (fun k => at_quad F u c q k ^ 2)) = sumN (vec F) (fun k => sumN (num_quads (f_ele F)) (fun q => JxW F c q * at_quad F u c q k ^ 2))).
  { intros c. rewrite sumN_swap. apply sumN_ext. intros q _. now rewrite sumN_scal. }
  rewrite (sumN_ext _ _ (fun c => sumN (vec F) (fun k => sumN (num_quads (f_ele F)) (fun q => JxW F c q * at_quad F u c q k ^ 2)))) by (intros; apply E).
  assert (P : forall c, (c < num_cells F)%nat -> 0 <= sumN (vec F) (fun k => sumN (num_quads (f_ele F)) (fun q => JxW F c q * at_quad F u c q k ^ 2))) by (intros c Hc; apply sumN_nonneg; intros k _; apply cell_integral, Hc).
  split; [apply sumN_nonneg; exact P|]. split.
  - intros H n k Hn Hk. destruct (node_in_cell n Hn) as (c & a & Hc & Ha & <-).
    refine (proj2 (cell_integral u c k Hc) _ a Ha). refine (MatProofs.sumN_zero_each (vec F) _ _ _ k Hk); [intros k' _; apply cell_integral, Hc|].
    exact (MatProofs.sumN_zero_each (num_cells F) _ P H c Hc).
  - intros H. apply sumN_zero. intros c Hc. apply sumN_zero. intros k Hk. apply sumN_zero. intros q Hq. rewrite at_quad_vfield by assumption. unfold vfield. rewrite (sumN_zero 8); [ring|]. intros a Ha. rewrite H; [ring| |exact Hk].
    pose proof (hex_wf F B Nx Ny Nz Lx Ly Lz HF) as Hw. unfold wf_mesh in Hw. rewrite Forall_forall in Hw. destruct (Hw (nth c (cells F) [])) as [Hl Hfa]; [apply nth_In; exact Hc|]. rewrite Forall_forall in Hfa.
    unfold cell_node. apply Hfa. apply nth_In. rewrite Hl. pose proof HF as (HB & _ & _ & _ & _ & _ & _ & _ & _ & _ & HE). destruct (box_dim B HB F HE) as [_ ->]. exact Ha.
Qed.
End Norm.
(** ** the wrappers *)
Lemma wrapper_in_step value grad cs : forall last, in_step last cs -> wrapper_run value grad (option_map grad last) cs = Ok (map (right_reply value grad) cs).
Proof.
  induction cs as [|[x|x] cs IH]; intros last H; [reflexivity| |]; cbn [in_step] in H; cbn [wrapper_run wrapper_step bind map right_reply].
  - change (Some (grad x)) with (option_map grad (Some x)). rewrite (IH _ H). reflexivity.
  - destruct H as [-> H]. cbn [option_map bind]. change (Some (grad x)) with (option_map grad (Some x)). rewrite (IH _ H). reflexivity.
Qed.
Close Scope R_scope.
