(** * LinearElasticity on meshes of linear simplices. *)
From Coq Require Import String FunctionalExtensionality Classical Lra Lia QArith Qreals.
From Verif Require Import Prelude PreludeFacts FemModel FemFacts FemSpec FemAsmProofs FemMatProofs FemGeoProofs BasisModel BasisSpec BasisProofs BasisQuadProofs BasisProps MatModel MatSpec MatProofs SolverModel SolverSpec SolverProofs SolverLmProofs SolverAdProofs SolverFemProofs MmaNewtonProofs WellSpec WellProofs WellBoxProofs MaxSpec HeatSpec ConnSpec ConnRankProofs ConnMainProofs.
Open Scope R_scope.
Open Scope list_scope.
Local Notation peval := BasisSpec.peval.

(** ** the gradients of linear simplices are constant *)
Definition flat_poly (d : nat) (p : poly) : bool := forallb (fun m => forallb (fun k => Nat.eqb (nth k (snd m) 0%nat) 0) (seq 0 d)) p.
Lemma flat_peval d p x y : flat_poly d p = true -> peval d p x = peval d p y.
Proof.
  unfold flat_poly, peval. rewrite forallb_forall. intros H. apply sumR_ext. intros m Hm. specialize (H m Hm). rewrite forallb_forall in H. f_equal. unfold mono, prodN.
  assert (Hk : forall k, In k (seq 0 d) -> nth k (snd m) 0%nat = 0%nat) by (intros k Hk; now apply Nat.eqb_eq, H). clear H.
  induction (seq 0 d) as [|k l IH]; [reflexivity|]. cbn [fold_right map]. rewrite (Hk k) by now left. rewrite IH by (intros; apply Hk; now right). reflexivity.
Qed.
Definition linear_simplices : list string := ["TET4"; "TRI3"]%string.
Lemma simplex_flat t a i : In t linear_simplices -> (a < length (mesh_nodes t))%nat -> (i < cell_dim (cell_of t))%nat -> flat_poly (cell_dim (cell_of t)) (cgrad t i a) = true.
Proof.
  intros H Ha Hi. assert (Hall : forallb (fun a => forallb (fun i => flat_poly (cell_dim (cell_of t)) (cgrad t i a)) (seq 0 (cell_dim (cell_of t)))) (seq 0 (length (mesh_nodes t))) = true).
  { clear Ha Hi. repeat (destruct H as [<- | H]; [vm_compute; reflexivity|]). destruct H. }
  rewrite forallb_forall in Hall. specialize (Hall a ltac:(apply in_seq; lia)). rewrite forallb_forall in Hall. apply Hall, in_seq. lia.
Qed.
Lemma simplex_lagrange t : In t linear_simplices -> In t lagrange_types.
Proof. intros [<-|[<-|[]]]; cbn; tauto. Qed.

Section Mesh.
Context {V : Type}.
Variable F : fem V.
Variables (B : basix) (t : string).
Hypothesis HM : lagrange_mesh F B t.
Local Notation E := (f_ele F).
Hypothesis Htm : tensor_map F = Some (fun _ => linear_elastic_stress (dim F)).
Hypothesis Hv : vec F = dim F.
Hypothesis Hmass : mass_map F = None.
Hypothesis Hcau : cauchy_bc_info F = None.
Lemma el_linear : linear_tensor F (fun _ => linear_elastic_stress (dim F)).
Proof. intros vars a G H k d Hk Hd. rewrite Hv in Hk. exact (lin_linear (dim F) a G H k d Hk Hd). Qed.
Lemma el_form iv u v : energy_form F iv u v = sumN (num_cells F) (fun c => sumN (num_quads E) (fun q => JxW F c q * ddot (dim F) (linear_elastic_stress (dim F) (sol_to_grad F u c q)) (sol_to_grad F v c q))).
Proof. unfold energy_form. rewrite Hv. apply sumN_ext. intros c _. apply sumN_ext. intros q _. unfold stress. rewrite Htm. reflexivity. Qed.
Lemma el_sym iv u v : energy_form F iv u v = energy_form F iv v u.
Proof. rewrite !el_form. apply sumN_ext. intros c _. apply sumN_ext. intros q _. f_equal. apply lin_work. Qed.
Lemma el_density G : ddot (dim F) (linear_elastic_stress (dim F) G) G = lmbda_of 70000 * (trace (dim F) (strain G) * trace (dim F) (strain G)) + 2 * mu_of 70000 * ddot (dim F) (strain G) (strain G).
Proof.
  rewrite (ddot_ext (dim F) _ (iso_stress (dim F) 70000 (strain G)) G G) by (intros i j _ _; first [apply lin_iso|reflexivity]).
  rewrite <- ddot_strain_r by (apply iso_sym, strain_msym). rewrite iso_work. ring.
Qed.
Lemma ddot_pos d A : 0 <= ddot d A A.
Proof. unfold ddot. apply sumN_nonneg. intros. apply sumN_nonneg. intros. apply Rle_0_sqr. Qed.
Lemma el_density_pos G : 0 <= ddot (dim F) (linear_elastic_stress (dim F) G) G.
Proof.
  rewrite el_density. destruct moduli_pos as [H1 H2]. pose proof (ddot_pos (dim F) (strain G)). pose proof (Rle_0_sqr (trace (dim F) (strain G))) as H3. unfold Rsqr in H3.
  apply Rplus_le_le_0_compat; apply Rmult_le_pos; lra.
Qed.
Lemma el_density_zero G : ddot (dim F) (linear_elastic_stress (dim F) G) G = 0 -> forall i j, (i < dim F)%nat -> (j < dim F)%nat -> G i j = - G j i.
Proof.
  rewrite el_density. destruct moduli_pos as [H1 H2]. intros H i j Hi Hj. pose proof (ddot_pos (dim F) (strain G)) as Hp. pose proof (Rle_0_sqr (trace (dim F) (strain G))) as H3. unfold Rsqr in H3.
  assert (Hz : 2 * mu_of 70000 * ddot (dim F) (strain G) (strain G) = 0).
  { assert (0 <= 2 * mu_of 70000 * ddot (dim F) (strain G) (strain G)) by (apply Rmult_le_pos; lra). assert (0 <= lmbda_of 70000 * (trace (dim F) (strain G) * trace (dim F) (strain G))) by (apply Rmult_le_pos; lra). lra. }
  apply Rmult_integral in Hz as [Hz|Hz]; [lra|]. unfold ddot in Hz.
  pose proof (sumN_pos_zero _ _ (fun i _ => sumN_nonneg _ _ (fun j _ => Rle_0_sqr (strain G i j))) Hz i Hi) as H4. cbv beta in H4.
  pose proof (sumN_pos_zero _ _ (fun j _ => Rle_0_sqr (strain G i j)) H4 j Hj) as H5. cbv beta in H5. apply Rsqr_0_uniq in H5. unfold strain in H5. lra.
Qed.
Lemma el_nonneg iv u : 0 <= energy_form F iv u u.
Proof. rewrite el_form. apply sumN_nonneg. intros c Hc. apply sumN_nonneg. intros q Hq. apply Rmult_le_pos; [now apply (lm_jxw F B t HM)|apply el_density_pos]. Qed.
(** a motion that is rigid on every cell has no strain *)
Lemma rigid_free iv u w : rigid_cells F w -> energy_form F iv u w = 0.
Proof.
  intros Hr. rewrite el_form. apply sumN_zero. intros c Hc. apply sumN_zero. intros q Hq. destruct (Hr c Hc) as (b & G & HG & Hw). pose proof HM as (_ & _ & _ & _ & _ & _ & _ & Hd).
  assert (Hg : forall k d, (k < dim F)%nat -> (d < dim F)%nat -> sol_to_grad F w c q k d = G k d).
  { intros k d Hk Hdd. rewrite <- (patch_test F c q b G k d (lm_dim F B t HM) (lm_grads F B t HM) Hq ltac:(specialize (Hd c q Hc Hq); lra) Hdd).
    unfold sol_to_grad. apply sumN_ext. intros a Ha. now rewrite Hw. }
  rewrite <- ddot_strain_r by apply lin_symmetric. unfold ddot. rewrite sumN_zero; [ring|]. intros i Hi. apply sumN_zero. intros j Hj. unfold strain. rewrite !Hg by assumption. rewrite (HG i j Hi Hj). ring.
Qed.
(** without strain energy the motion of a linear simplex is rigid *)
Lemma free_rigid iv u : In t linear_simplices -> energy_form F iv u u = 0 -> rigid_cells F u.
Proof.
  intros Ht. rewrite el_form. intros H c Hc. pose proof HM as (HB & Ht' & Hx & _ & HE & _ & _ & Hd).
  assert (P1 : forall c q, (c < num_cells F)%nat -> (q < num_quads E)%nat -> 0 <= JxW F c q * ddot (dim F) (linear_elastic_stress (dim F) (sol_to_grad F u c q)) (sol_to_grad F u c q)) by (intros; apply Rmult_le_pos; [now apply (lm_jxw F B t HM)|apply el_density_pos]).
  pose proof (sumN_pos_zero _ _ (fun c Hc => sumN_nonneg _ _ (fun q Hq => P1 c q Hc Hq)) H c Hc) as H1. cbv beta in H1.
  destruct (lm_heavy F B t HM) as (q0 & Hq0 & Hw). pose proof (sumN_pos_zero _ _ (fun q Hq => P1 c q Hc Hq) H1 q0 Hq0) as H2. cbv beta in H2.
  unfold JxW in H2. pose proof (Hd c q0 Hc Hq0) as Hdd. apply Rmult_integral in H2 as [H2|H2]; [apply Rmult_integral in H2 as [H2|H2]; lra|].
  pose proof (el_density_zero _ H2) as HG. set (G := sol_to_grad F u c q0) in *.
  destruct (t_nodes B HB t Ht' E HE) as [En Ed].
  assert (Hgrad : forall q a i, (q < num_quads E)%nat -> (a < num_nodes E)%nat -> (i < dim F)%nat -> shape_grads_ref E q a i = shape_grads_ref E q0 a i).
  { intros q a i Hq Ha Hi. unfold dim in Hi. rewrite En in Ha. rewrite Ed in Hi. destruct (lagrange_supported t Ht') as [Hs _]. destruct (tables_given B HB t E Hs HE) as (fi & _ & EE).
    assert (Hval : forall q, (q < num_quads E)%nat -> exists x, shape_grads_ref E q a i = peval (cell_dim (cell_of t)) (cgrad t i a) x).
    { intros q' Hq'. rewrite EE in *. cbn [num_quads shape_grads_ref tables] in *. eexists. unfold cgrad. rewrite peval_collect. apply shape_der; [exact Hi|]. apply tabulated_grad; auto. }
    destruct (Hval q Hq) as (x & ->). destruct (Hval q0 Hq0) as (y & ->). apply flat_peval, simplex_flat; assumption. }
  assert (Hflat : forall k a, (a < num_nodes E)%nat -> u (cell_node F c a) k - sumN (dim F) (fun d => G k d * points F (cell_node F c a) d) = u (cell_node F c 0) k - sumN (dim F) (fun d => G k d * points F (cell_node F c 0) d)).
  { intros k. set (v := fun a => u (cell_node F c a) k - sumN (dim F) (fun d => G k d * points F (cell_node F c a) d)). change (forall a, (a < num_nodes E)%nat -> v a = v 0%nat).
    apply (flat_constant B HB t Ht' Hx E HE). intros q i Hq Hi.
    rewrite (sumN_ext _ _ (fun a => v a * shape_grads_ref E q0 a i)) by (intros a Ha; now rewrite (Hgrad q a i Hq Ha Hi)).
    assert (Z : sumN (num_nodes E) (fun a => v a * shape_grads_ref E q0 a i) = 0); [|rewrite Z; ring]. unfold v.
    rewrite (sumN_ext _ _ (fun a => u (cell_node F c a) k * shape_grads_ref E q0 a i - sumN (dim F) (fun d => G k d * (points F (cell_node F c a) d * shape_grads_ref E q0 a i))))
      by (intros a _; rewrite Rmult_minus_distr_r, <- sumN_scal_r; f_equal; apply sumN_ext; intros; ring).
    rewrite sumN_sub, (ref_from_space F B t HM u c q0 k i Hc Hq0 Hi), sumN_swap. fold G.
    rewrite (sumN_ext (dim F) (fun d => sumN (num_nodes E) _) (fun d => G k d * jacobian_dx_deta F c q0 d i)) by (intros d _; rewrite sumN_scal; reflexivity). ring. }
  exists (fun k => u (cell_node F c 0) k - sumN (dim F) (fun d => G k d * points F (cell_node F c 0) d)), G. split; [exact HG|].
  intros a k Ha Hk. unfold affine_field. rewrite <- (Hflat k a Ha). ring.
Qed.
Variables (inds : list (list (nat * nat))) (iv : internal_vars V).
Hypothesis Hloads : loads_ok F inds iv.
Variable jac : nodal -> (nat -> nat -> nat -> R) -> (nat -> R) -> (nat -> nat -> nat -> R) -> list (nat -> V) -> list (nat -> V) -> jac4.
Variable cjac : ((nat -> R) -> nat -> R) -> nodal -> (nat -> nat -> R) -> (nat -> R) -> jac4.
Hypothesis Hjac : exact_jacobians F iv jac.
Variables (locs : list (point -> bool)) (vecs : list nat) (fns : list (point -> R)).
Variable eps : option R.
Variable P : problem.
Hypothesis HP : fem_problem F inds iv jac cjac (Some (locs, vecs, fns)) None eps = Ok P.
Hypothesis Hvecs : Forall (fun k => (k < vec F)%nat) vecs.
Lemma el_loose use_petsc : solvable_problem P use_petsc -> braced F locs vecs.
Proof.
  intros Hs w Hadm Hr n k Hn Hk. destruct (Req_dec (w n k) 0) as [Hz|Hz]; [exact Hz|]. exfalso. revert Hs. destruct Hloads as (Hiv & Hneu & Hfc). pose proof HM as (_ & _ & _ & _ & _ & Hwf & Hnc & _).
  exact (kernel_unsolvable F _ Htm el_linear Hmass Hcau inds iv jac cjac Hjac locs vecs fns eps P HP Hvecs Hwf Hiv Hnc Hneu Hfc w n k use_petsc Hadm (fun u => rigid_free iv u w Hr) Hn Hk Hz).
Qed.
Hypothesis Ht : In t linear_simplices.
Lemma el_definite : braced F locs vecs -> forall d, admissible F locs vecs d -> energy_form F iv d d = 0 -> same_field F d (fun _ _ => 0).
Proof. intros Hb d Hadm He. apply Hb; [exact Hadm|]. now apply (free_rigid iv). Qed.
Lemma el_solvable_iff use_petsc : solvable_problem P use_petsc <-> braced F locs vecs.
Proof.
  split; [apply el_loose|]. intros Hb. destruct Hloads as (Hiv & Hneu & Hfc). pose proof HM as (_ & _ & _ & _ & _ & Hwf & Hnc & _).
  exact (well_solvable F _ Htm el_linear Hmass Hcau inds iv jac cjac Hjac locs vecs fns eps P HP Hvecs Hwf Hiv Hnc Hneu Hfc (el_definite Hb) use_petsc).
Qed.
Lemma el_solved : braced F locs vecs -> forall ev grad fuel precond guess use_petsc, exact_solvers ev -> exact_floats ev ->
  exists u, solver ev P grad fuel true precond guess use_petsc = Some (Ok u) /\ discrete_solution F locs vecs fns inds iv u /\
  forall w, discrete_solution F locs vecs fns inds iv w -> same_field F w u.
Proof.
  intros Hb ev grad fuel precond guess use_petsc. destruct Hloads as (Hiv & Hneu & Hfc). pose proof HM as (_ & _ & _ & _ & _ & Hwf & Hnc & _).
  exact (well_solved F _ Htm el_linear Hmass Hcau inds iv jac cjac Hjac locs vecs fns eps P HP Hvecs Hwf Hiv Hnc Hneu Hfc (el_definite Hb) ev grad fuel precond guess use_petsc).
Qed.
End Mesh.

(** the corners as columns *)
Lemma tet_jacobian {V} (F : fem V) B c q i j : documented_basix B -> element_tables B "TET4" = Ok (f_ele F) -> (c < num_cells F)%nat -> (q < num_quads (f_ele F))%nat -> (i < 3)%nat -> (j < 3)%nat ->
  jacobian_dx_deta F c q i j = points F (cell_node F c (S j)) i - points F (cell_node F c 0) i.
Proof.
  intros HB HE Hc Hq Hi Hj. assert (Ht : In "TET4"%string lagrange_types) by (cbn; tauto). set (E := f_ele F) in *. destruct (lagrange_supported _ Ht) as [Hs _]. destruct (tables_given B HB _ E Hs HE) as (fi & _ & EE).
  assert (Hg : forall a, (a < 4)%nat -> shape_grads_ref E q a j = (if Nat.eqb a (S j) then 1 else 0) - (if Nat.eqb a 0 then 1 else 0)).
  { intros a Ha. transitivity (peval 3 (cgrad "TET4" j a) (fun _ => 0)).
    - rewrite EE in *. cbn [num_quads shape_grads_ref tables] in *. rewrite (flat_peval 3 _ _ (quad_point B "TET4" q)) by (apply (simplex_flat "TET4"); cbn; auto). unfold cgrad.
      rewrite peval_collect. apply (shape_der "TET4"); [exact Hj|]. apply tabulated_grad; auto.
    - destruct a as [|[|[|[|?]]]]; try lia; destruct j as [|[|[|?]]]; try lia; vm_compute cgrad; unfold peval, mono, prodN; cbn [sumR map fold_right seq fst snd nth pow Nat.eqb]; unfold Q2R; cbn [Qnum Qden]; lra. }
  unfold jacobian_dx_deta, physical_coos. rewrite (proj1 (t_nodes B HB _ Ht _ HE) : num_nodes (f_ele F) = 4%nat). rewrite (sumN_ext 4 _ (fun a => (if Nat.eqb a (S j) then 1 else 0) * points F (cell_node F c a) i - (if Nat.eqb a 0 then 1 else 0) * points F (cell_node F c a) i)) by (intros a Ha; rewrite (Hg a Ha : shape_grads_ref (f_ele F) q a j = _); ring).
  rewrite sumN_sub, (sumN_ind 4 (S j) (fun a => points F (cell_node F c a) i) ltac:(lia)), (sumN_ind 4 0 (fun a => points F (cell_node F c a) i) ltac:(lia)). reflexivity.
Qed.
(** ** three nodes of a tetrahedron at rest stop it *)
Section Tet.
Context {V : Type}.
Variable F : fem V.
Variable B : basix.
Hypothesis HM : lagrange_mesh F B "TET4".
Local Notation E := (f_ele F).
Lemma tet_dims : num_nodes E = 4%nat /\ dim F = 3%nat.
Proof. pose proof HM as (HB & Ht & _ & _ & HE & _). exact (t_nodes B HB _ Ht E HE). Qed.
Lemma skew_still (G : mat) (y z w : nat -> R) : (forall i j, (i < 3)%nat -> (j < 3)%nat -> G i j = - G j i) ->
  (forall i, (i < 3)%nat -> sumN 3 (fun j => G i j * y j) = 0) -> (forall i, (i < 3)%nat -> sumN 3 (fun j => G i j * z j) = 0) ->
  det 3 (fun i j => match j with 0%nat => y i | 1%nat => z i | _ => w i end) <> 0 -> forall i j, (i < 3)%nat -> (j < 3)%nat -> G i j = 0.
Proof.
  intros HG Hy Hz Hd.
  pose proof (HG 0 0 ltac:(lia) ltac:(lia))%nat as G00. pose proof (HG 1 1 ltac:(lia) ltac:(lia))%nat as G11. pose proof (HG 2 2 ltac:(lia) ltac:(lia))%nat as G22.
  pose proof (HG 1 0 ltac:(lia) ltac:(lia))%nat as G10. pose proof (HG 2 0 ltac:(lia) ltac:(lia))%nat as G20. pose proof (HG 2 1 ltac:(lia) ltac:(lia))%nat as G21.
  pose proof (Hy 0 ltac:(lia))%nat as Y0. pose proof (Hy 1 ltac:(lia))%nat as Y1. pose proof (Hy 2 ltac:(lia))%nat as Y2.
  pose proof (Hz 0 ltac:(lia))%nat as Z0. pose proof (Hz 1 ltac:(lia))%nat as Z1. pose proof (Hz 2 ltac:(lia))%nat as Z2.
  unfold sumN in *. cbn [seq sumR] in *. unfold det in Hd.
  assert (E00 : G 0%nat 0%nat = 0) by lra. assert (E11 : G 1%nat 1%nat = 0) by lra. assert (E22 : G 2%nat 2%nat = 0) by lra.
  rewrite G10 in *. rewrite G20 in *. rewrite G21 in *. rewrite E00, E11, E22 in *. clear HG Hy Hz G00 G11 G22.
  set (a := G 0%nat 1%nat) in *. set (b := G 0%nat 2%nat) in *. set (e := G 1%nat 2%nat) in *.
  set (y0 := y 0%nat) in *. set (y1 := y 1%nat) in *. set (y2 := y 2%nat) in *. set (z0 := z 0%nat) in *. set (z1 := z 1%nat) in *. set (z2 := z 2%nat) in *. set (w0 := w 0%nat) in *. set (w1 := w 1%nat) in *. set (w2 := w 2%nat) in *.
  set (Y0' := 0 * y0 + (a * y1 + (b * y2 + 0))) in *. set (Y1' := - a * y0 + (0 * y1 + (e * y2 + 0))) in *. set (Y2' := - b * y0 + (- e * y1 + (0 * y2 + 0))) in *.
  set (Z0' := 0 * z0 + (a * z1 + (b * z2 + 0))) in *. set (Z1' := - a * z0 + (0 * z1 + (e * z2 + 0))) in *. set (Z2' := - b * z0 + (- e * z1 + (0 * z2 + 0))) in *.
  assert (K : forall v s, (v = (y0, z0, w0) /\ s = - e) \/ (v = (y1, z1, w1) /\ s = b) \/ (v = (y2, z2, w2) /\ s = - a) ->
    (y0 * (z1 * w2 - w1 * z2) - z0 * (y1 * w2 - w1 * y2) + w0 * (y1 * z2 - z1 * y2)) * s
    = (w0 * Z0' + w1 * Z1' + w2 * Z2') * fst (fst v) - (w0 * Y0' + w1 * Y1' + w2 * Y2') * snd (fst v) + (z0 * Y0' + z1 * Y1' + z2 * Y2') * snd v).
  { unfold Y0', Y1', Y2', Z0', Z1', Z2'. intros v s [[-> ->]|[[-> ->]|[-> ->]]]; cbn [fst snd]; ring. }
  rewrite Y0, Y1, Y2, Z0, Z1, Z2 in K.
  assert (K1 : forall v s, (v = (y0, z0, w0) /\ s = - e) \/ (v = (y1, z1, w1) /\ s = b) \/ (v = (y2, z2, w2) /\ s = - a) -> s = 0).
  { intros v s Hvs. pose proof (K v s Hvs) as H. apply Rmult_eq_reg_l with (2 := Hd). rewrite H. ring. }
  assert (Ee : - e = 0) by (apply (K1 (y0, z0, w0)); auto). assert (Eb : b = 0) by (apply (K1 (y1, z1, w1)); auto). assert (Ea : - a = 0) by (apply (K1 (y2, z2, w2)); auto).
  intros i j Hi Hj. destruct i as [|[|[|?]]]; [| | |lia]; destruct j as [|[|[|?]]]; try lia; fold a b e; try lra.
Qed.
Lemma three_still u c a0 a1 a2 : rigid_cells F u -> (c < num_cells F)%nat -> (a0 < 4)%nat -> (a1 < 4)%nat -> (a2 < 4)%nat -> a0 <> a1 -> a0 <> a2 -> a1 <> a2 ->
  (forall a k, a = a0 \/ a = a1 \/ a = a2 -> (k < 3)%nat -> u (cell_node F c a) k = 0) -> forall b k, (b < 4)%nat -> (k < 3)%nat -> u (cell_node F c b) k = 0.
Proof.
  intros Hr Hc H0 H1 H2 N01 N02 N12 Hz. destruct (Hr c Hc) as (v & G & HG & Hu). destruct tet_dims as [En Ed]. rewrite Ed, En in *.
  set (x := fun a i => points F (cell_node F c a) i).
  assert (Hu' : forall a k, (a < 4)%nat -> (k < 3)%nat -> u (cell_node F c a) k = v k + sumN 3 (fun j => G k j * x a j)) by (intros a k Ha Hk; rewrite (Hu a k Ha Hk); unfold affine_field; rewrite Ed; reflexivity).
  assert (Hsub : forall a a' k, sumN 3 (fun j => G k j * (x a j - x a' j)) = sumN 3 (fun j => G k j * x a j) - sumN 3 (fun j => G k j * x a' j)) by (intros; rewrite <- sumN_sub; apply sumN_ext; intros; ring).
  assert (HG0 : forall i j, (i < 3)%nat -> (j < 3)%nat -> G i j = 0).
  { pose proof HM as (HB & _ & _ & _ & HE & _ & _ & Hd). destruct (lm_heavy F B "TET4" HM) as (q & Hq & _). specialize (Hd c q Hc Hq). unfold jacobian_det in Hd. rewrite Ed in Hd. unfold det in Hd.
    rewrite !(tet_jacobian F B) in Hd by (assumption || lia). change (points F (cell_node F c ?a) ?i) with (x a i) in Hd.
    set (a3 := (6 - a0 - a1 - a2)%nat).
    apply (skew_still G (fun j => x a1 j - x a0 j) (fun j => x a2 j - x a0 j) (fun j => x a3 j - x a0 j) HG).
    - intros i Hi. rewrite Hsub. pose proof (Hu' a0 i H0 Hi) as E0. pose proof (Hu' a1 i H1 Hi) as E1. rewrite Hz in E0, E1 by auto. lra.
    - intros i Hi. rewrite Hsub. pose proof (Hu' a0 i H0 Hi) as E0. pose proof (Hu' a2 i H2 Hi) as E1. rewrite Hz in E0, E1 by auto. lra.
    - clear - Hd H0 H1 H2 N01 N02 N12. intros Hdz. unfold det in Hdz. unfold a3 in Hdz. clearbody x.
      destruct a0 as [|[|[|[|?]]]]; try lia; destruct a1 as [|[|[|[|?]]]]; try lia; destruct a2 as [|[|[|[|?]]]]; try lia; cbn [Nat.sub] in Hdz; lra. }
  intros b k Hb Hk. rewrite (Hu' b k Hb Hk). rewrite <- (Hz a0 k) by auto. rewrite (Hu' a0 k H0 Hk). f_equal. apply sumN_ext. intros j Hj. rewrite HG0 by assumption. ring.
Qed.
Hypothesis Hv : vec F = dim F.
Lemma secured_braced locs vecs : (forall n, (n < num_total_nodes F)%nat -> secured F locs vecs n) -> braced F locs vecs.
Proof.
  intros Hs u Hadm Hr n k Hn Hk. destruct tet_dims as [En Ed]. specialize (Hs n Hn). clear Hn. revert k Hk.
  induction Hs as [n Hn Hcl|c a0 a1 a2 b Hc H0 H1 H2 Hb N01 N02 N12 _ I0 _ I1 _ I2]; intros k Hk.
  - apply Hadm; auto.
  - rewrite Hv, Ed in *. apply (three_still u c a0 a1 a2 Hr Hc H0 H1 H2 N01 N02 N12); [|exact Hb|exact Hk]. intros a l [->|[->| ->]] Hl; auto.
Qed.
End Tet.
Close Scope R_scope.
