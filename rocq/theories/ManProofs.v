(** * Manufactured solutions of LinearPoisson on box meshes of HEX8 elements. *)
From Coq Require Import String FunctionalExtensionality Classical Lra Lia.
From Verif Require Import Prelude PreludeFacts FemModel FemFacts FemSpec FemGeoProofs FemAsmProofs BasisModel BasisSpec BasisProofs BasisFaceProofs BasisQuadProofs BasisMeshProofs MatModel MatSpec MatProofs RveMeanProofs SolverModel SolverSpec BoxSpec BoxProofs BoxPatchProofs WellSpec WellProofs WellBoxProofs WellMainProofs InfMainProofs ManSpec.
From Verif Require MeshModel.
Open Scope R_scope.
Open Scope list_scope.

(** ** derivatives of cubics *)
Lemma cubic_der a b c d x : derivable_pt_lim (fun x => a + b * x + c * x ^ 2 + d * x ^ 3) x (b + 2 * c * x + 3 * d * x ^ 2).
Proof.
  replace (b + 2 * c * x + 3 * d * x ^ 2) with (0 + b * 1 + c * (INR 2 * x ^ 1) + d * (INR 3 * x ^ 2)) by (cbn [INR]; ring).
  apply (derivable_pt_lim_plus (fun x => a + b * x + c * x ^ 2) (fun x => d * x ^ 3)); [apply (derivable_pt_lim_plus (fun x => a + b * x) (fun x => c * x ^ 2)); [apply (derivable_pt_lim_plus (fun _ => a) (fun x => b * x))|]|].
  - apply derivable_pt_lim_const.
  - apply (derivable_pt_lim_scal id b x 1), derivable_pt_lim_id.
  - apply (derivable_pt_lim_scal (fun x => x ^ 2) c x). exact (derivable_pt_lim_pow x 2).
  - apply (derivable_pt_lim_scal (fun x => x ^ 3) d x). exact (derivable_pt_lim_pow x 3).
Qed.
Lemma der_of a b c d g g1 : (forall x, g x = a + b * x + c * x ^ 2 + d * x ^ 3) -> derivative_of g g1 -> forall x, g1 x = b + 2 * c * x + 3 * d * x ^ 2.
Proof.
  intros Hg H1 x. specialize (H1 x). replace g with (fun x => a + b * x + c * x ^ 2 + d * x ^ 3) in H1 by (apply functional_extensionality; intros; now rewrite Hg).
  eapply uniqueness_limite; [exact H1|apply cubic_der].
Qed.
Lemma der2_of b c d g1 g2 : (forall x, g1 x = b + 2 * c * x + 3 * d * x ^ 2) -> derivative_of g1 g2 -> forall x, g2 x = 2 * c + 6 * d * x.
Proof.
  intros H1 H2 x. rewrite (der_of b (2 * c) (3 * d) 0 g1 g2); [ring| |exact H2]. intros y. rewrite H1. ring.
Qed.

(** ** moments of the shape functions of the reference cube *)
Lemma off1 a d : (off a d <= 1)%nat.
Proof. unfold off. destruct (Nat.eqb _ 0); lia. Qed.
Section Moments.
Variable B : basix.
Hypothesis HB : documented_basix B.
Hypothesis Hq8 : exact_rule B hexahedron 2.
Variable E : ele.
Hypothesis HE : element_tables B "HEX8" = Ok E.
Lemma multi_product c c' : sumN (num_quads E) (fun q => quad_weights E q * (multi c (qp B q) * multi c' (qp B q))) = sumN 8 (fun e => sumN 8 (fun f => c e * c' f * gram e f)).
Proof.
  rewrite (sumN_ext _ _ (fun q => sumN 8 (fun e => sumN 8 (fun f => c e * c' f * (quad_weights E q * (mon e (qp B q) * mon f (qp B q))))))).
  - rewrite sumN_swap. apply sumN_ext. intros e He. rewrite sumN_swap. apply sumN_ext. intros f Hf. rewrite sumN_scal. now rewrite (mon_gram B HB Hq8 E HE).
  - intros q _. unfold multi. rewrite <- sumN_scal_r, <- sumN_scal. apply sumN_ext. intros e _. rewrite <- sumN_scal, <- sumN_scal. apply sumN_ext. intros f _. ring.
Qed.
Definition axis (d : nat) : nat := along 4%nat 2%nat 1%nat d.
Definition lcoef (al be : R) (d e : nat) : R := if Nat.eqb e 0 then al else if Nat.eqb e (axis d) then be else 0.
Lemma lcoef_multi al be d p : (d < 3)%nat -> multi (lcoef al be d) p = al + be * p d.
Proof. intros Hd. unfold multi, sumN, lcoef, axis, mon. cbn [seq sumR]. destruct d as [|[|[|d]]]; try lia; cbn; ring. Qed.
Lemma load_moment al be d a : (d < 3)%nat -> (a < 8)%nat ->
  sumN (num_quads E) (fun q => quad_weights E q * ((al + be * qp B q d) * hexval a (qp B q))) = al / 8 + be * (if Nat.eqb (off a d) 0 then / 24 else / 12).
Proof.
  intros Hd Ha. rewrite (sumN_ext _ _ (fun q => quad_weights E q * (multi (lcoef al be d) (qp B q) * multi (vc a) (qp B q)))) by (intros; rewrite lcoef_multi, hexval_multi by assumption; reflexivity).
  rewrite multi_product. unfold sumN, gram, lcoef, axis, vc, off, vtk_hex. cbn [seq sumR].
  destruct d as [|[|[|d]]]; try lia; (do 8 (destruct a as [|a]; [cbn; field|])); lia.
Qed.
End Moments.
Lemma hexval_affine p l h d : (d < 3)%nat -> sumN 8 (fun a => hexval a p * (l + INR (off a d) * h)) = l + p d * h.
Proof. intros Hd. unfold sumN, hexval, off, vtk_hex. cbn [seq sumR]. destruct d as [|[|[|d]]]; try lia; cbn; ring. Qed.
Lemma hexgrad_sep (G : nat -> nat -> R) p d : (d < 3)%nat -> sumN 8 (fun a => sumN 3 (fun e => G e (off a e)) * hexgrad a d p) = G d 1%nat - G d 0%nat.
Proof. intros Hd. unfold sumN, hexgrad, sgn_of, off, vtk_hex. cbn [seq sumR]. destruct d as [|[|[|d]]]; try lia; cbn; ring. Qed.
Lemma hexval_sep (G : nat -> nat -> R) p : sumN 8 (fun a => sumN 3 (fun e => G e (off a e)) * hexval a p) = sumN 3 (fun e => G e 0%nat * (1 - p e) + G e 1%nat * p e).
Proof. unfold sumN, hexval, off, vtk_hex. cbn [seq sumR]. cbn. ring. Qed.

Section Box.
Context {V : Type}.
Variable F : fem V.
Local Notation E := (f_ele F).
Variables (B : basix) (Nx Ny Nz : nat) (Lx Ly Lz : R).
Hypothesis HF : box_hex F B Nx Ny Nz Lx Ly Lz.
Local Notation h := (hh Nx Ny Nz Lx Ly Lz).
Local Notation N := (along Nx Ny Nz).
Local Notation L := (along Lx Ly Lz).
Local Notation area := (farea Nx Ny Nz Lx Ly Lz).
Lemma dims38 : dim F = 3%nat /\ num_nodes E = 8%nat.
Proof. pose proof HF as (HB & _ & _ & _ & _ & _ & _ & _ & _ & _ & HE). exact (box_dim B HB F HE). Qed.
Lemma h_pos d : 0 < h d.
Proof. pose proof HF as (_ & _ & Hx & Hy & Hz & H1 & H2 & H3 & _). eapply hh_pos; eassumption. Qed.
Lemma shape_val q a : (a < 8)%nat -> shape_vals E q a = hexval a (qp B q).
Proof.
  intros Ha. pose proof HF as (HB & _ & _ & _ & _ & _ & _ & _ & _ & _ & HE). rewrite <- hex_shape by exact Ha. rewrite (hex_tables B HB _ HE). cbn [shape_vals tables]. apply tabulated; [exact HB|cbn; tauto|exact Ha].
Qed.
Lemma quad_value u c q k : at_quad F u c q k = sumN 8 (fun a => u (cell_node F c a) k * hexval a (qp B q)).
Proof. unfold at_quad, convert_from_dof_to_quad. rewrite (proj2 dims38). apply sumN_ext. intros a Ha. now rewrite shape_val. Qed.
(** the lower corner of a cell *)
Definition low (c d : nat) : R := points F (cell_node F c 0) d.
Lemma cell_point c a d : (c < num_cells F)%nat -> (a < 8)%nat -> (d < 3)%nat -> points F (cell_node F c a) d = low c d + INR (off a d) * h d.
Proof.
  intros Hc Ha Hd. pose proof HF as (HB & _ & Hx & Hy & Hz & H1 & H2 & H3 & Hm & Hn & HE).
  destruct (cellno_surj F Nx Ny Nz Lx Ly Lz Hx Hy Hz Hm Hn c Hc) as (i & j & k & Hi & Hj & Hk & ->). unfold low.
  pose proof (off1 a 0). pose proof (off1 a 1). pose proof (off1 a 2). rewrite !(cell_node_at F Nx Ny Nz Lx Ly Lz Hx Hy Hz Hm Hn) by (assumption || lia). change (off 0 0) with 0%nat. change (off 0 1) with 0%nat. change (off 0 2) with 0%nat.
  rewrite !(node_point F Nx Ny Nz Lx Ly Lz Hx Hy Hz Hm Hn) by (assumption || lia). unfold hh. unfold Rdiv. destruct d as [|[|[|d]]]; try lia; cbn [along]; rewrite Nat.add_0_r, plus_INR; ring.
Qed.
Lemma quad_point c q d : (c < num_cells F)%nat -> (d < 3)%nat -> physical_quad_point F c q d = low c d + qp B q d * h d.
Proof.
  intros Hc Hd. unfold physical_quad_point. rewrite (proj2 dims38), <- (hexval_affine (qp B q) (low c d) (h d) d Hd). apply sumN_ext. intros a Ha. rewrite shape_val by exact Ha. unfold physical_coos. now rewrite cell_point.
Qed.
Lemma jxw c q : (c < num_cells F)%nat -> JxW F c q = h 0%nat * h 1%nat * h 2%nat * quad_weights E q.
Proof.
  intros Hc. pose proof HF as (HB & _ & Hx & Hy & Hz & H1 & H2 & H3 & Hm & Hn & HE). unfold JxW. rewrite (box_det B HB F Nx Ny Nz Lx Ly Lz Hx Hy Hz Hm Hn HE c q Hc). ring.
Qed.
Lemma area_h d : (d < 3)%nat -> h 0%nat * h 1%nat * h 2%nat = area d * h d.
Proof. intros Hd. unfold farea. destruct d as [|[|[|d]]]; try lia; cbn [along]; ring. Qed.
Lemma grad_value u c q k d : (c < num_cells F)%nat -> (d < 3)%nat -> sol_to_grad F u c q k d = sumN 8 (fun a => u (cell_node F c a) k * hexgrad a d (qp B q)) / h d.
Proof.
  intros Hc Hd. pose proof HF as (HB & _ & Hx & Hy & Hz & H1 & H2 & H3 & Hm & Hn & HE). unfold sol_to_grad. rewrite (proj2 dims38). unfold Rdiv. rewrite <- sumN_scal_r. apply sumN_ext. intros a Ha.
  rewrite (box_shape_grads B HB F Nx Ny Nz Lx Ly Lz Hx Hy Hz H1 H2 H3 Hm Hn HE c q a d Hc Hd), (ref_grads B HB E HE q a d Ha Hd). unfold Rdiv. ring.
Qed.

(** ** the interpolant of a separable field *)
Variable g g1 g2 : nat -> nat -> R -> R.
Definition interp : nodal := fun n k => separable g (points F n) k.
Lemma interp_cell c a k : (c < num_cells F)%nat -> (a < 8)%nat -> interp (cell_node F c a) k = sumN 3 (fun e => (fun e o => g k e (low c e + INR o * h e)) e (off a e)).
Proof. intros Hc Ha. unfold interp, separable. apply sumN_ext. intros e He. cbv beta. now rewrite cell_point. Qed.
Lemma interp_grad c q k d : (c < num_cells F)%nat -> (d < 3)%nat -> sol_to_grad F interp c q k d = (g k d (low c d + h d) - g k d (low c d)) / h d.
Proof.
  intros Hc Hd. rewrite grad_value by assumption. rewrite (sumN_ext 8 _ (fun a => sumN 3 (fun e => (fun e o => g k e (low c e + INR o * h e)) e (off a e)) * hexgrad a d (qp B q))) by (intros; now rewrite interp_cell).
  rewrite (hexgrad_sep (fun e o => g k e (low c e + INR o * h e)) (qp B q) d Hd). cbn [INR]. rewrite Rmult_1_l, Rmult_0_l, Rplus_0_r. reflexivity.
Qed.
Lemma interp_value c q k : (c < num_cells F)%nat -> at_quad F interp c q k = sumN 3 (fun e => g k e (low c e) * (1 - qp B q e) + g k e (low c e + h e) * qp B q e).
Proof.
  intros Hc. rewrite quad_value. rewrite (sumN_ext 8 _ (fun a => sumN 3 (fun e => (fun e o => g k e (low c e + INR o * h e)) e (off a e)) * hexval a (qp B q))) by (intros; now rewrite interp_cell).
  rewrite (hexval_sep (fun e o => g k e (low c e + INR o * h e)) (qp B q)). apply sumN_ext. intros e _. cbn [INR]. now rewrite Rmult_1_l, Rmult_0_l, Rplus_0_r.
Qed.
Hypothesis Hcub : forall k d, cubic (g k d).
Hypothesis Hg1 : forall k d, derivative_of (g k d) (g1 k d).
Hypothesis Hg2 : forall k d, derivative_of (g1 k d) (g2 k d).
Definition flux (v : nodal) (d : nat) : nodal := fun n k => g1 k d (points F n d) * v n k.
(** the discrete Green identity of one cell and one direction *)
Lemma cell_green v c k d : (c < num_cells F)%nat -> (d < 3)%nat ->
  sumN (num_quads E) (fun q => JxW F c q * (sol_to_grad F interp c q k d * sol_to_grad F v c q k d + g2 k d (physical_quad_point F c q d) * at_quad F v c q k))
  = sumN (num_quads E) (fun q => JxW F c q * sol_to_grad F (flux v d) c q k d).
Proof.
  intros Hc Hd. pose proof HF as (HB & Hq & Hx & Hy & Hz & H1 & H2 & H3 & Hm & Hn & HE).
  destruct (Hcub k d) as (a0 & a1 & a2 & a3 & Eg). pose proof (der_of _ _ _ _ _ _ Eg (Hg1 k d)) as E1. pose proof (der2_of _ _ _ _ _ E1 (Hg2 k d)) as E2.
  set (D := (g k d (low c d + h d) - g k d (low c d)) / h d).
  rewrite (sumN_ext _ _ (fun q => D * (JxW F c q * sol_to_grad F v c q k d) + JxW F c q * (g2 k d (physical_quad_point F c q d) * at_quad F v c q k))) by (intros; rewrite interp_grad by assumption; fold D; ring).
  rewrite sumN_add, sumN_scal, !(box_cell_integral B HB F Nx Ny Nz Lx Ly Lz Hx Hy Hz H1 H2 H3 Hm Hn HE Hq _ c k d Hc Hd).
  set (al := 2 * a2 + 6 * a3 * low c d). set (be := 6 * a3 * h d).
  rewrite (sumN_ext (num_quads E) _ (fun q => sumN 8 (fun a => area d * h d * v (cell_node F c a) k * (quad_weights E q * ((al + be * qp B q d) * hexval a (qp B q)))))).
  2: { intros q _. rewrite quad_value, quad_point, E2, jxw, (area_h d Hd) by assumption. rewrite <- sumN_scal, <- sumN_scal. apply sumN_ext. intros a _. unfold al, be. ring. }
  rewrite sumN_swap. rewrite (sumN_ext 8 (fun a => sumN (num_quads E) _) (fun a => area d * h d * v (cell_node F c a) k * (al / 8 + be * (if Nat.eqb (off a d) 0 then / 24 else / 12)))) by (intros a Ha; rewrite sumN_scal; now rewrite (load_moment B HB Hq E HE al be d a Hd Ha)).
  rewrite <- !sumN_scal, <- sumN_add. apply sumN_ext. intros a Ha. unfold flux. rewrite cell_point by assumption. rewrite E1. pose proof (h_pos d) as Hh. unfold D, al, be. rewrite !Eg.
  assert (Ho : sgn_of a d = if Nat.eqb (off a d) 0 then -1 else 1) by (unfold sgn_of, off; destruct (Nat.eqb (nth d (nth a vtk_hex []) 0%nat) 0); reflexivity). rewrite Ho. pose proof (off1 a d) as Ho1.
  destruct (off a d) as [|[|o]]; [| |lia]; cbn [Nat.eqb INR]; field; lra.
Qed.
(** over the whole mesh: only the sides are left *)
Hypothesis Htm : tensor_map F = Some (fun _ => poisson_map).
Variable iv : internal_vars V.
Hypothesis Hbody : iv_body iv = None.
Variable src : point -> nat -> R.
Hypothesis Hsrc : source_info F = Some src.
Hypothesis Hsv : forall p k, (k < vec F)%nat -> src p k = - sumN 3 (fun d => g2 k d (p d)).
Lemma interior v : energy_form F iv interp v - body_power F iv v = sumN (vec F) (fun k => sumN 3 (fun d => volume_integral F (fun c q => sol_to_grad F (flux v d) c q k d))).
Proof.
  pose proof HF as (HB & Hq & Hx & Hy & Hz & H1 & H2 & H3 & Hm & Hn & HE).
  rewrite (poisson_form B HB F HE Htm iv interp v).
  unfold body_power, volume_integral.
  rewrite (sumN_ext (vec F) (fun k => sumN 3 _) (fun k => sumN (num_cells F) (fun c => sumN 3 (fun d => sumN (num_quads E) (fun q => JxW F c q * sol_to_grad F (flux v d) c q k d))))) by (intros; apply sumN_swap).
  rewrite (sumN_swap (vec F) (num_cells F)), <- sumN_sub. apply sumN_ext. intros c Hc.
  rewrite (sumN_ext (num_quads E) _ (fun q => sumN (vec F) (fun k => sumN 3 (fun d => - (JxW F c q * (g2 k d (physical_quad_point F c q d) * at_quad F v c q k)))))).
  2: { intros q _. unfold dot_vec. rewrite <- sumN_scal. apply sumN_ext. intros k Hk. unfold body_load. rewrite Hbody, Hsrc, Hsv by exact Hk. unfold sumN. cbn [seq sumR]. ring. }
  rewrite (sumN_swap (num_quads E)), <- sumN_sub. apply sumN_ext. intros k Hk. rewrite (sumN_swap (num_quads E)), <- sumN_sub. apply sumN_ext. intros d Hd.
  rewrite <- cell_green by assumption. rewrite <- sumN_sub. apply sumN_ext. intros q _. ring.
Qed.
Hypothesis Hq4 : exact_rule B quadrilateral 2.
Local Notation coord_of := (side_coord Lx Ly Lz).
Definition normal_flux (s : nat * bool) (k : nat) : R := g1 k (fst s) (coord_of s) * outward s (fst s).
Local Notation FI := (FI F Lx Ly Lz).
Lemma flux_side v d hi k : (d < 3)%nat -> FI (flux v d) (d, hi) k = g1 k d (coord_of (d, hi)) * FI v (d, hi) k.
Proof.
  intros Hd. pose proof HF as (HB & Hq & Hx & Hy & Hz & H1 & H2 & H3 & Hm & Hn & HE). unfold BoxPatchProofs.FI.
  rewrite !(box_side_integral B HB F Nx Ny Nz Lx Ly Lz Hx Hy Hz H1 H2 H3 Hm Hn HE Hq4 _ d hi _ k (plane_picks F Lx Ly Lz (d, hi)) Hd).
  rewrite <- Rmult_assoc, (Rmult_comm (g1 _ _ _)), Rmult_assoc. f_equal. rewrite <- sumN_scal. apply sumN_ext. intros p Hp. rewrite <- sumN_scal. apply sumN_ext. intros r Hr.
  assert (Hlev : (level Nx Ny Nz d hi <= N d)%nat) by (unfold level; destruct hi; lia).
  assert (Hx' : forall a b c, (a <= Nx)%nat -> (b <= Ny)%nat -> (c <= Nz)%nat -> along a b c d = level Nx Ny Nz d hi -> flux v d (node Ny Nz a b c) k = g1 k d (coord_of (d, hi)) * v (node Ny Nz a b c) k).
  { intros a b c Ha Hb Hc Hal. unfold flux. f_equal. f_equal. rewrite (node_point F Nx Ny Nz Lx Ly Lz Hx Hy Hz Hm Hn) by assumption. rewrite Hal. now apply (on_level Nx Ny Nz Lx Ly Lz Hx Hy Hz H1 H2 H3). }
  unfold corner4. destruct d as [|[|[|d]]]; try lia; cbn [along] in *; rewrite !Hx' by (reflexivity || lia); ring.
Qed.
Lemma boundary v : energy_form F iv interp v - body_power F iv v = sumN (vec F) (fun k => sumR six_sides (fun s => normal_flux s k * FI v s k)).
Proof.
  pose proof HF as (HB & Hq & Hx & Hy & Hz & H1 & H2 & H3 & Hm & Hn & HE). rewrite interior. apply sumN_ext. intros k _.
  rewrite (sumN_ext 3 _ (fun d => g1 k d (coord_of (d, true)) * FI v (d, true) k - g1 k d (coord_of (d, false)) * FI v (d, false) k)).
  - unfold sumN, six_sides, normal_flux, outward. cbn [seq sumR fst snd Nat.eqb]. ring.
  - intros d Hd. rewrite <- !flux_side by exact Hd.
    exact (box_gauss B HB F Nx Ny Nz Lx Ly Lz Hx Hy Hz H1 H2 H3 Hm Hn HE Hq4 Hq (plane Lx Ly Lz (d, false)) (plane Lx Ly Lz (d, true)) (flux v d) k d (plane_picks F Lx Ly Lz (d, false)) (plane_picks F Lx Ly Lz (d, true)) Hd).
Qed.
End Box.
Close Scope R_scope.
