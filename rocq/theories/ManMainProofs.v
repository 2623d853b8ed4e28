(** * The residual of a manufactured solution, and its errors in the norms the code computes. *)
From Coq Require Import String FunctionalExtensionality Classical Lra Lia.
From Verif Require Import Prelude PreludeFacts FemModel FemFacts FemSpec FemGeoProofs FemAsmProofs BasisModel BasisSpec BasisProofs BasisFaceProofs BasisQuadProofs BasisMeshProofs MatModel MatSpec MatProofs RveMeanProofs SolverModel SolverSpec BoxSpec BoxProofs BoxPatchProofs WellSpec WellProofs WellBoxProofs WellMainProofs InfMainProofs ManSpec ManProofs.
From Verif Require MeshModel.
Open Scope R_scope.
Open Scope list_scope.

Lemma f2_at {A C} (Q : A -> C -> Prop) l1 l2 d1 d2 i : Forall2 Q l1 l2 -> (i < length l1)%nat -> Q (nth i l1 d1) (nth i l2 d2).
Proof. intros H. revert i. induction H as [|a c l1 l2 Hac H IH]; intros [|i] Hi; cbn in *; try lia; [exact Hac|]. apply IH. lia. Qed.
Lemma f2_impl {A C} (P Q : A -> C -> Prop) l1 l2 : (forall a c, P a c -> Q a c) -> Forall2 P l1 l2 -> Forall2 Q l1 l2.
Proof. intros H H2. induction H2; constructor; auto. Qed.
Section Box.
Context {V : Type}.
Variable F : fem V.
Local Notation E := (f_ele F).
Variables (B : basix) (Nx Ny Nz : nat) (Lx Ly Lz : R).
Hypothesis HF : box_hex F B Nx Ny Nz Lx Ly Lz.
Hypothesis Hq4 : exact_rule B quadrilateral 2.
Local Notation h := (hh Nx Ny Nz Lx Ly Lz).
Local Notation coord_of := (side_coord Lx Ly Lz).
Local Notation FI := (FI F Lx Ly Lz).
(** ** the quadrature points of the faces of a side lie on it *)
Lemma side_point loc d hi s p : picks_plane F loc d (coord_of (d, hi)) -> (d < 3)%nat -> In s (boundary_inds F loc) -> surface_quad_point F s p d = coord_of (d, hi).
Proof.
  intros Hl Hd Hin. pose proof HF as (HB & Hq & Hx & Hy & Hz & H1 & H2 & H3 & Hm & Hn & HE).
  apply (box_side_faces B HB F Nx Ny Nz Lx Ly Lz Hx Hy Hz H1 H2 H3 Hm Hn HE loc d hi s Hl Hd) in Hin as (x & r & Hp & Hr & ->).
  pose proof (layer_lt F Nx Ny Nz Lx Ly Lz Hx Hy Hz Hm Hn d hi x r Hd Hp Hr) as Hlt.
  set (c := layer Nx Ny Nz d hi x r) in *.
  assert (Hf6 : (face_of d hi < 6)%nat) by (unfold face_of; destruct hi; lia).
  set (y := facet_point hexahedron (face_of d hi) (nth p (fst (make_quadrature B quadrilateral 2)) origin)).
  assert (Hv : forall a, (a < 8)%nat -> face_shape_vals E (face_of d hi) p a = hexval a y).
  { intros a Ha. rewrite <- hex_shape by exact Ha. rewrite (hex_tables B HB E HE). cbn [face_shape_vals tables]. rewrite (face_point_facet B HB "HEX8" _ p Hf6). apply tabulated; [exact HB|cbn; tauto|exact Ha]. }
  unfold surface_quad_point. cbn [fst snd]. rewrite (proj2 (dims38 F B Nx Ny Nz Lx Ly Lz HF)).
  rewrite (sumN_ext 8 _ (fun a => hexval a y * (low F c d + INR (off a d) * h d))).
  2: { intros a Ha. rewrite Hv by exact Ha. unfold physical_coos. now rewrite (cell_point F B Nx Ny Nz Lx Ly Lz HF c a d Hlt Ha Hd). }
  rewrite hexval_affine by exact Hd.
  assert (Hy' : y d = if hi then 1 else 0).
  { unfold y, facet_point, facet_vertex, face_of. destruct d as [|[|[|d]]]; try lia; destruct hi; unfold sumN; cbn; unfold coord; cbn; field. }
  rewrite Hy'. unfold low, c. unfold layer. pose proof (N_pos Nx Ny Nz Hx Hy Hz d) as HN.
  destruct d as [|[|[|d]]]; try lia; cbn [along] in *;
    (rewrite (cell_node_at F Nx Ny Nz Lx Ly Lz Hx Hy Hz Hm Hn) by (assumption || (destruct hi; lia)); change (off 0 0) with 0%nat; change (off 0 1) with 0%nat; change (off 0 2) with 0%nat;
     rewrite (node_point F Nx Ny Nz Lx Ly Lz Hx Hy Hz Hm Hn) by (try assumption; destruct hi; lia); unfold hh, side_coord; cbn [along fst snd]; rewrite Nat.add_0_r);
    (assert (HI : 0 < INR (along Nx Ny Nz (if hi then 0 else 0))) by (destruct hi; cbn [along]; apply lt_0_INR; lia) || idtac);
    destruct hi; rewrite ?minus_INR by lia; cbn [INR]; field; apply not_0_INR; lia.
Qed.
(** ** power of the prescribed normal derivatives *)
Variables (iv : internal_vars V) (loads : list (nat * bool)) (locs : list (point -> bool)) (fns : list (point -> list V -> nat -> R)) (T : nat * bool -> nat -> R).
Hypothesis Hsides : forall s, In s loads -> (fst s < 3)%nat.
Hypothesis Hlocs : Forall2 (fun s loc => picks_plane F loc (fst s) (coord_of s)) loads locs.
Hypothesis Hfns : Forall2 (fun s fn => forall p vars k, (fst s < 3)%nat -> (k < vec F)%nat -> p (fst s) = coord_of s -> fn p vars k = T s k) loads fns.
Hypothesis Hneu : match neumann_bc_info F with Some l => l = fns | None => loads = [] end.
Local Notation inds := (get_boundary_conditions_inds F locs).
Lemma natural_part v : neumann_power F inds iv v = sumN (vec F) (fun k => sumR loads (fun s => T s k * FI v s k)).
Proof.
  pose proof HF as (HB & Hq & Hx & Hy & Hz & H1 & H2 & H3 & Hm & Hn & HE).
  assert (HL : length inds = length loads) by (unfold get_boundary_conditions_inds; rewrite map_length; symmetry; eapply F2_length; exact Hlocs).
  unfold neumann_power. rewrite (indexed_sum inds []), HL. cbn [fst snd].
  rewrite (sumN_ext (vec F) _ (fun k => sumN (length loads) (fun i => T (nth i loads (0%nat, false)) k * FI v (nth i loads (0%nat, false)) k))) by (intros; apply (sumR_nth loads (0%nat, false))).
  rewrite sumN_swap. apply sumN_ext. intros i Hi. rewrite (indexed_sum _ (0, 0)%nat). cbn [fst snd].
  pose proof (f2_at _ loads locs (0%nat, false) (fun _ => false) i Hlocs Hi) as Hl. cbn beta in Hl.
  pose proof (f2_at _ loads fns (0%nat, false) (fun _ _ _ => 0) i Hfns Hi) as Hf. cbn beta in Hf.
  set (s := nth i loads (0%nat, false)) in *. assert (Hs : (fst s < 3)%nat) by (apply Hsides, nth_In, Hi).
  replace (nth i inds []) with (boundary_inds F (nth i locs (fun _ => false))).
  2: { unfold get_boundary_conditions_inds. rewrite (nth_indep _ [] (boundary_inds F (fun _ => false))) by (rewrite map_length, <- (F2_length Hlocs); exact Hi). symmetry. apply map_nth. }
  set (sel := boundary_inds F (nth i locs (fun _ => false))) in *.
  rewrite (sumN_ext (vec F) (fun j => T s j * FI v s j) (fun k => sumN (length sel) (fun j => sumN (num_face_quads E) (fun p => T s k * (nanson_scale F (nth j sel (0, 0)%nat) p * at_face F v (nth j sel (0, 0)%nat) p k))))).
  2: { intros k _. rewrite <- (FI_loc B HB Hq4 F Nx Ny Nz Lx Ly Lz Hx Hy Hz H1 H2 H3 Hm Hn HE v s k _ Hs Hl). unfold face_integral. fold sel. rewrite (sumR_nth _ (0, 0)%nat), <- sumN_scal. apply sumN_ext. intros j _. now rewrite <- sumN_scal. }
  symmetry. rewrite sumN_swap. apply sumN_ext. intros j Hj. rewrite sumN_swap. apply sumN_ext. intros p _. symmetry. unfold dot_vec. rewrite <- sumN_scal. apply sumN_ext. intros k Hk.
  unfold traction. destruct (neumann_bc_info F) as [l|]; [subst l|subst loads; cbn in Hi; lia]. rewrite Hf; [ring|exact Hs|exact Hk|]. destruct s as [d hi]. cbn [fst] in *. apply (side_point (nth i locs (fun _ => false)) d hi); [exact Hl|exact Hs|]. now apply nth_In.
Qed.
End Box.

Section Manufactured.
Context {V : Type}.
Variable F : fem V.
Local Notation E := (f_ele F).
Variables (B : basix) (Nx Ny Nz : nat) (Lx Ly Lz : R).
Hypothesis HF : box_hex F B Nx Ny Nz Lx Ly Lz.
Hypothesis Hq4 : exact_rule B quadrilateral 2.
Local Notation h := (hh Nx Ny Nz Lx Ly Lz).
Local Notation coord_of := (side_coord Lx Ly Lz).
Variable g g1 g2 : nat -> nat -> R -> R.
Hypothesis Hcub : forall k d, cubic (g k d).
Hypothesis Hg1 : forall k d, derivative_of (g k d) (g1 k d).
Hypothesis Hg2 : forall k d, derivative_of (g1 k d) (g2 k d).
Hypothesis Htm : tensor_map F = Some (fun _ => poisson_map).
Hypothesis Hmass : mass_map F = None.
Hypothesis Hcau : cauchy_bc_info F = None.
Variable iv : internal_vars V.
Hypothesis Hiv : iv_sized F iv.
Hypothesis Hbody : iv_body iv = None.
Variable src : point -> nat -> R.
Hypothesis Hsrc : source_info F = Some src.
Hypothesis Hsv : forall p k, (k < vec F)%nat -> src p k = - sumN 3 (fun d => g2 k d (p d)).
Variables (loads : list (nat * bool)) (locs : list (point -> bool)) (fns : list (point -> list V -> nat -> R)).
Hypothesis Hnat : natural_sides F Lx Ly Lz g1 loads locs fns.
Local Notation inds := (get_boundary_conditions_inds F locs).
Lemma natural_loads : loads_ok F inds iv.
Proof.
  pose proof HF as (HB & Hq & Hx & Hy & Hz & H1 & H2 & H3 & Hm & Hn & HE). destruct Hnat as (_ & _ & Hl & Hf & Hneu). split; [exact Hiv|]. split.
  - unfold neumann_ok. destruct (neumann_bc_info F) as [l|]; [subst l|exact I]. unfold get_boundary_conditions_inds. rewrite map_length, <- (F2_length Hl), (F2_length Hf). exact (le_n _).
  - intros sel Hs. apply in_map_iff in Hs as (loc & <- & _). exact (sel_ok F Nx Ny Nz Lx Ly Lz Hx Hy Hz Hn loc).
Qed.
Lemma man_residual : exists r, compute_residual_vars F inds (interp F g) iv = Ok r /\
  forall n k, (n < num_total_nodes F)%nat -> (k < vec F)%nat -> side_free F Lx Ly Lz g1 loads n k -> r n k = 0.
Proof.
  pose proof HF as (HB & Hq & Hx & Hy & Hz & H1 & H2 & H3 & Hm & Hn & HE). destruct natural_loads as (_ & Hok & Hfc). destruct Hnat as (Hnd & Hsides & Hl & Hf & Hneu).
  pose proof (hex_wf F B Nx Ny Nz Lx Ly Lz HF) as Hwf. pose proof (hex_cells F B Nx Ny Nz Lx Ly Lz HF) as Hcells.
  destruct (residual_exists F inds iv Hwf Hiv Hcells Hok Hfc (interp F g)) as (r & Hr). exists r. split; [exact Hr|].
  intros n k Hnn Hk Hfree. set (v := fun n' k' => delta n' n * delta k' k : R).
  transitivity (sumN (num_total_nodes F) (fun n' => sumN (vec F) (fun k' => v n' k' * r n' k'))).
  { symmetry. unfold v. rewrite (sumN_ext _ _ (fun n' => r n' k * delta n' n)).
    - now rewrite sumN_delta.
    - intros n' _. rewrite (sumN_ext _ _ (fun k' => delta n' n * r n' k' * delta k' k)) by (intros; ring). rewrite sumN_delta by exact Hk. ring. }
  rewrite (residual_work F Hmass Hcau inds iv Hwf Hiv Hcells Hok Hfc (interp F g) r Hr v). unfold load_work.
  pose proof (boundary F B Nx Ny Nz Lx Ly Lz HF g g1 g2 Hcub Hg1 Hg2 Htm iv Hbody src Hsrc Hsv Hq4 v) as Hb.
  pose proof (natural_part F B Nx Ny Nz Lx Ly Lz HF Hq4 iv loads locs fns (normal_flux Lx Ly Lz g1) Hsides Hl) as Hp.
  rewrite Hp; [|eapply f2_impl; [|exact Hf]|exact Hneu].
  2: { intros s fn Hs p vars k' Hs3 Hk' Hps. rewrite (Hs p vars k' Hk' Hps). unfold normal_flux. unfold sumN, outward. cbn [seq sumR]. destruct s as [[|[|[|d]]] hi]; cbn [fst snd Nat.eqb] in *; rewrite <- ?Hps; ring || lia. }
  assert (Heq : sumN (vec F) (fun k => sumR six_sides (fun s => normal_flux Lx Ly Lz g1 s k * FI F Lx Ly Lz v s k)) = sumN (vec F) (fun k => sumR loads (fun s => normal_flux Lx Ly Lz g1 s k * FI F Lx Ly Lz v s k))); [|lra].
  apply sumN_ext. intros k' Hk'. apply sum_subset; [exact Hnd|repeat constructor; cbn; intuition congruence| |].
  - intros [d hi] Hs. apply Hsides in Hs. cbn [fst] in Hs. destruct d as [|[|[|d]]]; try lia; destruct hi; cbn; tauto.
  - intros s Hs. assert (Hs3 : (fst s < 3)%nat) by (cbn in Hs; intuition (subst; cbn; lia)).
    destruct (classic (k' = k /\ points F n (fst s) = coord_of s)) as [[-> Hon]|Hoff].
    + destruct (Hfree s Hs Hon) as [H|H]; [now left|]. right. unfold normal_flux. rewrite H. ring.
    + right. unfold FI. destruct s as [d hi]. cbn [fst] in *.
      rewrite (box_side_zero B HB F Nx Ny Nz Lx Ly Lz Hx Hy Hz H1 H2 H3 Hm Hn HE Hq4 _ d hi v k' (plane_picks F Lx Ly Lz (d, hi)) Hs3); [ring|].
      intros n' Hn' Hpp. unfold v, delta. destruct (Nat.eqb_spec n' n) as [->|]; [|ring]. destruct (Nat.eqb_spec k' k) as [->|]; [tauto|ring].
Qed.
End Manufactured.

(** ** errors of a quadratic solution in the norms the code computes *)
Section Errors.
Context {V : Type}.
Variable F : fem V.
Local Notation E := (f_ele F).
Variables (B : basix) (Nx Ny Nz : nat) (Lx Ly Lz : R).
Hypothesis HF : box_hex F B Nx Ny Nz Lx Ly Lz.
Hypothesis Hgauss : gauss_points B.
Local Notation h := (hh Nx Ny Nz Lx Ly Lz).
Variable g g1 : nat -> nat -> R -> R.
Variable w : nat -> nat -> R.
Hypothesis Hcub : forall k d, cubic (g k d).
Hypothesis Hg1 : forall k d, derivative_of (g k d) (g1 k d).
Hypothesis Hg2 : forall k d, derivative_of (g1 k d) (fun _ => w k d).
Lemma quadratic k d : exists a b, (forall x, g k d x = a + b * x + w k d / 2 * x ^ 2) /\ forall x, g1 k d x = b + w k d * x.
Proof.
  destruct (Hcub k d) as (a & b & c & e & Eg). pose proof (der_of _ _ _ _ _ _ Eg (Hg1 k d)) as E1. pose proof (der2_of _ _ _ _ _ E1 (Hg2 k d)) as E2. cbv beta in E2.
  pose proof (E2 0) as Z0. pose proof (E2 1) as Z1. assert (e = 0) by lra. assert (c = w k d / 2) by lra. subst e c. exists a, b. split; intros x; [rewrite Eg|rewrite E1]; field.
Qed.
Lemma gauss q d : (q < num_quads E)%nat -> (d < 3)%nat -> qp B q d * (1 - qp B q d) = / 6.
Proof.
  intros Hq Hd. pose proof HF as (HB & _ & _ & _ & _ & _ & _ & _ & _ & _ & HE). apply Hgauss; [|exact Hd]. unfold qp. apply nth_In. rewrite (hex_tables B HB E HE) in Hq. exact Hq.
Qed.
Lemma value_error c q k : (c < num_cells F)%nat -> (q < num_quads E)%nat -> at_quad F (interp F g) c q k - separable g (physical_quad_point F c q) k = sumN 3 (fun d => w k d * h d ^ 2 / 12).
Proof.
  intros Hc Hq. rewrite (interp_value F B Nx Ny Nz Lx Ly Lz HF g c q k Hc). unfold separable. rewrite <- sumN_sub. apply sumN_ext. intros d Hd.
  rewrite (quad_point F B Nx Ny Nz Lx Ly Lz HF c q d Hc Hd). destruct (quadratic k d) as (a & b & Eg & _). rewrite !Eg. pose proof (gauss q d Hq Hd) as HG.
  set (x := qp B q d) in *. transitivity (w k d / 2 * h d ^ 2 * (x * (1 - x))); [field|rewrite HG; field].
Qed.
Lemma grad_error c q k d : (c < num_cells F)%nat -> (q < num_quads E)%nat -> (d < 3)%nat -> (sol_to_grad F (interp F g) c q k d - g1 k d (physical_quad_point F c q d)) ^ 2 = w k d ^ 2 * h d ^ 2 / 12.
Proof.
  intros Hc Hq Hd. pose proof (h_pos F B Nx Ny Nz Lx Ly Lz HF d) as Hh. rewrite (interp_grad F B Nx Ny Nz Lx Ly Lz HF g c q k d Hc Hd), (quad_point F B Nx Ny Nz Lx Ly Lz HF c q d Hc Hd).
  destruct (quadratic k d) as (a & b & Eg & E1). rewrite !Eg, E1. pose proof (gauss q d Hq Hd) as HG. set (x := qp B q d) in *.
  transitivity (w k d ^ 2 * h d ^ 2 / 4 * (1 - 4 * (x * (1 - x)))); [field; lra|rewrite HG; field].
Qed.
Lemma volume : sumN (num_cells F) (fun c => sumN (num_quads E) (fun q => JxW F c q)) = Lx * Ly * Lz.
Proof.
  pose proof HF as (HB & Hq & Hx & Hy & Hz & H1 & H2 & H3 & Hm & Hn & HE).
  rewrite (sumN_ext _ _ (fun _ => h 0%nat * h 1%nat * h 2%nat)).
  - rewrite sumN_const, (box_num_cells F Nx Ny Nz Lx Ly Lz Hx Hy Hz Hm), !mult_INR. unfold hh. cbn [along]. field. repeat split; apply not_0_INR; lia.
  - intros c Hc. rewrite (sumN_ext _ _ (fun q => h 0%nat * h 1%nat * h 2%nat * (quad_weights E q * (mon 0 (qp B q) * mon 0 (qp B q))))).
    + rewrite sumN_scal, (mon_gram B HB Hq E HE 0 0 ltac:(lia) ltac:(lia)). unfold gram. cbn. field.
    + intros q _. rewrite (jxw F B Nx Ny Nz Lx Ly Lz HF c q Hc). unfold mon. cbn. ring.
Qed.
Variable sol : nodal.
Hypothesis Hsol : forall n k, (n < num_total_nodes F)%nat -> (k < vec F)%nat -> sol n k = separable g (points F n) k.
Lemma cell_sol c a k : (c < num_cells F)%nat -> (a < 8)%nat -> (k < vec F)%nat -> cells_sol F sol c a k = interp F g (cell_node F c a) k.
Proof.
  intros Hc Ha Hk. unfold cells_sol, interp. apply Hsol; [|exact Hk]. pose proof (hex_wf F B Nx Ny Nz Lx Ly Lz HF) as Hwf. unfold wf_mesh in Hwf. rewrite Forall_forall in Hwf.
  destruct (Hwf (nth c (cells F) []) ltac:(apply nth_In; exact Hc)) as [HL Hin]. rewrite Forall_forall in Hin. apply Hin. apply nth_In. rewrite HL, (proj2 (dims38 F B Nx Ny Nz Lx Ly Lz HF)). exact Ha.
Qed.
Definition l2_const : R := sumN (vec F) (fun k => sumN 3 (fun d => w k d * h d ^ 2 / 12) ^ 2).
Definition grad_const : R := sumN (vec F) (fun k => sumN 3 (fun d => w k d ^ 2 * h d ^ 2 / 12)).
Lemma l2_sum : sumN (num_cells F) (fun c => sumN (num_quads E) (fun q => sumN (vec F) (fun i => (sumN (num_nodes E) (fun a => cells_sol F sol c a i * shape_vals E q a) - separable g (physical_quad_point F c q) i) ^ 2 * JxW F c q)))
  = Lx * Ly * Lz * l2_const.
Proof.
  rewrite <- volume, <- sumN_scal_r. apply sumN_ext. intros c Hc. rewrite <- sumN_scal_r. apply sumN_ext. intros q Hq. rewrite sumN_scal_r, Rmult_comm. f_equal. unfold l2_const. apply sumN_ext. intros k Hk.
  rewrite <- (value_error c q k Hc Hq). f_equal. f_equal. unfold at_quad, convert_from_dof_to_quad. rewrite (proj2 (dims38 F B Nx Ny Nz Lx Ly Lz HF)). apply sumN_ext. intros a Ha. now rewrite cell_sol.
Qed.
Lemma grad_sum : sumN (num_cells F) (fun c => sumN (num_quads E) (fun q => sumN (vec F) (fun i => sumN (dim F) (fun d =>
    (sumN (num_nodes E) (fun a => cells_sol F sol c a i * shape_grads F c q a d) - g1 i d (physical_quad_point F c q d)) ^ 2 * JxW F c q))))
  = Lx * Ly * Lz * grad_const.
Proof.
  destruct (dims38 F B Nx Ny Nz Lx Ly Lz HF) as [-> H8].
  rewrite <- volume, <- sumN_scal_r. apply sumN_ext. intros c Hc. rewrite <- sumN_scal_r. apply sumN_ext. intros q Hq. unfold grad_const. rewrite <- sumN_scal. apply sumN_ext. intros k Hk.
  rewrite <- sumN_scal. apply sumN_ext. intros d Hd. rewrite <- (grad_error c q k d Hc Hq Hd), Rmult_comm. f_equal. f_equal. f_equal. unfold sol_to_grad. rewrite H8. apply sumN_ext. intros a Ha. now rewrite cell_sol.
Qed.
Lemma l2_error : compute_l2_norm_error F sol (separable g) = sqrt (Lx * Ly * Lz * l2_const).
Proof. unfold compute_l2_norm_error. f_equal. exact l2_sum. Qed.
Lemma h1_error : compute_h1_norm_error F sol (separable g) (fun p k d => g1 k d (p d)) = sqrt (Lx * Ly * Lz * l2_const) + sqrt (Lx * Ly * Lz * grad_const).
Proof. unfold compute_h1_norm_error. f_equal; f_equal; [exact l2_sum|exact grad_sum]. Qed.
End Errors.
Close Scope R_scope.
