(** * A thermal step with a small time increment on a box: the layers of nodes below a heated top cool and heat in turn. *)
From Coq Require Import String FunctionalExtensionality Classical Lra Lia.
From Verif Require Import Prelude PreludeFacts FemModel FemFacts FemSpec FemAsmProofs FemGeoProofs BasisModel BasisSpec BasisProofs BasisFaceProofs BasisQuadProofs BasisMeshProofs BasisProps BoxSpec BoxProofs BoxPatchProofs RveModel MatModel MatSpec SolverModel SolverSpec WellSpec WellProofs WellBoxProofs WellMainProofs RveMeanProofs InfMainProofs ManSpec ManProofs MaxSpec MaxProofs HeatModel HeatSpec HeatWellProofs HeatStepProofs HeatMainProofs HeatPickProofs.
From Verif Require MeshModel MmaNewtonProofs ActThermalProofs.
Open Scope R_scope.
Open Scope list_scope.

(** ** a three-term recurrence *)
Section Chain.
Variables (A D Q : R) (N : nat) (S : nat -> R).
Hypothesis HA : 0 < A.
Hypothesis HD : A < D.
Hypothesis HQ : 0 < Q.
Hypothesis HN : (0 < N)%nat.
Hypothesis H0 : S 0%nat = 0.
Hypothesis Hrow : forall m, (0 < m)%nat -> (m < N)%nat -> A * S (m - 1)%nat + 2 * D * S m + A * S (m + 1)%nat = 0.
Hypothesis Hlast : A * S (N - 1)%nat + D * S N = Q.
Lemma chain_ratio m : (m < N)%nat -> exists rho, 0 <= rho < 1 /\ ((0 < m)%nat -> 0 < rho) /\ S m = - rho * S (m + 1)%nat.
Proof.
  induction m as [|m IH]; intros Hm.
  - exists 0. split; [lra|]. split; [lia|]. rewrite H0. ring.
  - destruct (IH ltac:(lia)) as (rho & Hr & _ & E). pose proof (Hrow (Datatypes.S m) ltac:(lia) Hm) as R. rewrite Nat.sub_1_r in R. cbn [Nat.pred] in R. rewrite E in R. rewrite Nat.add_1_r in R at 1.
    assert (Hp : A < 2 * D - A * rho) by nra.
    exists (A / (2 * D - A * rho)). assert (Hpos : 0 < A / (2 * D - A * rho)) by (apply Rdiv_lt_0_compat; lra). split; [split; [lra|]|].
    + apply (Rmult_lt_reg_r (2 * D - A * rho)); [lra|]. unfold Rdiv. rewrite Rmult_assoc, Rinv_l by lra. lra.
    + split; [intros _; exact Hpos|]. apply (Rmult_eq_reg_r (2 * D - A * rho)); [|lra]. transitivity (- A * S (Datatypes.S m + 1)%nat); [lra|]. field. lra.
Qed.
Lemma chain_top : 0 < S N.
Proof.
  destruct (chain_ratio (N - 1) ltac:(lia)) as (rho & Hr & _ & E). replace (N - 1 + 1)%nat with N in E by lia. rewrite E in Hlast.
  assert (Hp : 0 < D - A * rho) by nra. assert (Hl : (D - A * rho) * S N = Q) by lra. apply Rnot_le_lt. intros Hc. assert (0 <= (D - A * rho) * - S N) by (apply Rmult_le_pos; lra). lra.
Qed.
Lemma chain_sign d : (d < N)%nat -> 0 < (- 1) ^ d * S (N - d)%nat.
Proof.
  induction d as [|d IH]; intros Hd.
  - rewrite Nat.sub_0_r. cbn [pow]. pose proof chain_top. lra.
  - specialize (IH ltac:(lia)). destruct (chain_ratio (N - Datatypes.S d) ltac:(lia)) as (rho & Hr & Hp & E). specialize (Hp ltac:(lia)). replace (N - Datatypes.S d + 1)%nat with (N - d)%nat in E by lia. rewrite E.
    cbn [pow]. replace (-1 * (-1) ^ d * (- rho * S (N - d)%nat)) with (rho * ((-1) ^ d * S (N - d)%nat)) by ring. now apply Rmult_lt_0_compat.
Qed.
End Chain.
Lemma sumN_pos n f : (0 < n)%nat -> (forall i, (i < n)%nat -> 0 < f i) -> 0 < sumN n f.
Proof.
  intros Hn Hf. destruct n as [|n]; [lia|]. rewrite sumN_S. assert (0 <= sumN n f) by (apply sumN_nonneg; intros; apply Rlt_le; auto). pose proof (Hf n ltac:(lia)). lra.
Qed.
Lemma sumN_pos_ex n f : 0 < sumN n f -> exists i, (i < n)%nat /\ 0 < f i.
Proof.
  induction n as [|n IH]; intros H; [unfold sumN in H; cbn in H; lra|]. rewrite sumN_S in H. destruct (Rlt_le_dec 0 (f n)) as [Hp|Hp]; [exists n; auto|].
  destruct IH as (i & Hi & Hf); [lra|]. exists i. auto.
Qed.
Lemma weighted_pos n w f : (forall i, (i < n)%nat -> 0 <= w i) -> (forall i, (i < n)%nat -> 0 < f i) -> 0 < sumN n w -> 0 < sumN n (fun i => w i * f i).
Proof.
  intros Hw Hf Hs. destruct (sumN_pos_ex n w Hs) as (i & Hi & Hp). assert (Hnn : forall i, (i < n)%nat -> 0 <= w i * f i) by (intros; apply Rmult_le_pos; [auto|apply Rlt_le; auto]).
  destruct (Rle_lt_or_eq_dec 0 _ (sumN_nonneg n _ Hnn)) as [H|H]; [exact H|]. exfalso.
  pose proof (MmaNewtonProofs.sumN_pos_zero n _ Hnn (eq_sym H) i Hi) as Hz. cbv beta in Hz. specialize (Hf i Hi). assert (0 < w i * f i) by (apply Rmult_lt_0_compat; assumption). lra.
Qed.
(** ** the element matrices on functions of the height *)
Lemma level_stiff (x : nat -> R) (l : nat -> R) d : (d < 3)%nat ->
  sumN 8 (fun a => sumN 8 (fun b => x a * l (off b 2) * kab d a b))
  = if Nat.eqb d 2 then (x 4%nat + x 5%nat + x 6%nat + x 7%nat - (x 0%nat + x 1%nat + x 2%nat + x 3%nat)) * (l 1%nat - l 0%nat) / 4 else 0.
Proof. intros Hd. destruct d as [|[|[|d]]]; try lia; unfold sumN; cbn [seq sumR]; unfold kab, mm, sgn_of, off, vtk_hex; cbn; field. Qed.
Lemma level_mass (x : nat -> R) (l : nat -> R) :
  sumN 8 (fun a => sumN 8 (fun b => x a * l (off b 2) * mab a b))
  = ((x 0%nat + x 1%nat + x 2%nat + x 3%nat) * (l 0%nat / 3 + l 1%nat / 6) + (x 4%nat + x 5%nat + x 6%nat + x 7%nat) * (l 0%nat / 6 + l 1%nat / 3)) / 4.
Proof. unfold sumN. cbn [seq sumR]. unfold mab, mm, off, vtk_hex. cbn. field. Qed.

Lemma loc_faces {V} (F : fem V) loc : faces_ok F (boundary_inds F loc).
Proof.
  unfold faces_ok. rewrite Forall_forall. intros s Hs. unfold boundary_inds in Hs. apply filter_In in Hs as [Hs _]. unfold flat2 in Hs. apply in_flat_map in Hs as (c & Hc & Hs).
  apply in_map_iff in Hs as (f & <- & Hf). apply in_seq in Hc, Hf. cbn [fst snd]. lia.
Qed.
Section Layers.
Variable F : fem (nat -> R).
Local Notation E := (f_ele F).
Variables (B : basix) (Nx Ny Nz : nat) (Lx Ly Lz : R).
Hypothesis HF : box_hex F B Nx Ny Nz Lx Ly Lz.
Hypothesis Hw4 : nonneg_rule B quadrilateral 2.
Local Notation h := (hh Nx Ny Nz Lx Ly Lz).
Local Notation node := (node Ny Nz).
Local Notation cellno := (cellno Ny Nz).
Variables (lc : point) (sw dt : R).
Hypothesis HT : thermal_class F dt (Some (demo_fluxes lc sw)).
Hypothesis Hdt : 0 < dt.
Hypothesis Hsw : 0 < sw.
Hypothesis Hfine : / 100000 * (1 + Lz) < Lz / INR Nz.
Hypothesis Hsmall : 90 * dt < 8440 * 588 * (Lz / INR Nz) ^ 2.
Local Notation wallsel := (boundary_inds F (walls Lx Ly)).
Local Notation topsel := (boundary_inds F (top Lz)).
Local Notation inds := [topsel; wallsel].
Local Notation iv := (thermal_vars F inds (fun _ _ => 300)).
Variable T : nodal.
Hypothesis HS : discrete_solution F [bottom] [0%nat] [thermal_dirichlet_bottom] inds iv T.
Lemma top_plane : picks_plane F (top Lz) 2 (side_coord Lx Ly Lz (2%nat, true)).
Proof. apply (isclose_iff F B Nx Ny Nz Lx Ly Lz HF 2 true ltac:(lia)). exact Hfine. Qed.
Lemma bottom_plane : picks_plane F bottom 2 (side_coord Lx Ly Lz (2%nat, false)).
Proof.
  pose proof HF as (HB & Hq & Hx & Hy & Hz & H1 & H2 & H3 & Hm & Hn & HE).
  apply (isclose_iff F B Nx Ny Nz Lx Ly Lz HF 2 false ltac:(lia)). unfold side_coord. cbn [fst snd along]. lra.
Qed.
Lemma tables_ok : vals_sum_one F /\ grads_sum_zero F /\ face_vals_sum_one F.
Proof. pose proof HF as (HB & _ & _ & _ & _ & _ & _ & _ & _ & _ & HE). destruct (tables_meet_fem_assumptions _ F B "HEX8" HB ltac:(cbn; tauto) HE) as (H1 & H2 & H3 & _). auto. Qed.
Definition lev (l : nat -> R) : nodal := fun n _ => l (n mod (Nz + 1))%nat.
Lemma lev_node l i j k : (k <= Nz)%nat -> lev l (node i j k) 0%nat = l k.
Proof.
  intros Hk. unfold lev, BoxProofs.node. f_equal. replace (i * ((Ny + 1) * (Nz + 1)) + j * (Nz + 1) + k)%nat with (k + (i * (Ny + 1) + j) * (Nz + 1))%nat by lia. rewrite Nat.mod_add by lia. apply Nat.mod_small. lia.
Qed.
Local Notation th := (above300 T).
Definition quad4 (i j k : nat) : R := (th (node i j k) 0%nat + th (node (i + 1) j k) 0%nat + th (node (i + 1) (j + 1) k) 0%nat + th (node i (j + 1) k) 0%nat) / 4.
Definition mean (k : nat) : R := sumN Nx (fun i => sumN Ny (fun j => quad4 i j k)).
Definition mu : R := 8440 * 588 / dt.
Local Notation Vol := (h 0%nat * h 1%nat * h 2%nat).
Definition lrow (s l : nat -> R) (k : nat) : R :=
  15 / h 2%nat ^ 2 * ((s (k + 1)%nat - s k) * (l (k + 1)%nat - l k)) + mu * (s k * (l k / 3 + l (k + 1)%nat / 6) + s (k + 1)%nat * (l k / 6 + l (k + 1)%nat / 3)).
Lemma inner_power l : internal_power F iv T (lev l) = Vol * sumN Nz (fun k => lrow mean l k).
Proof.
  pose proof HF as (HB & Hq & Hx & Hy & Hz & H1 & H2 & H3 & Hm & Hn & HE). pose proof HT as (Hv & Ht & Hmm & Hsrc & Hcau & _). destruct tables_ok as (Hvals & Hgrads & _).
  destruct (dims38 F B Nx Ny Nz Lx Ly Lz HF) as [D3 D8].
  assert (Hdim : e_dim E = dim F) by (rewrite D3, (hex_tables B HB _ HE); reflexivity).
  assert (Hcell : forall c, (c < num_cells F)%nat -> sumN (num_quads E) (fun q => JxW F c q *
     (sumN (vec F) (fun k => sumN (dim F) (fun d => stress F iv T c q k d * sol_to_grad F (lev l) c q k d)) + dot_vec F (reaction F iv T c q) (at_quad F (lev l) c q)))
     = 15 * sumN 3 (fun d => Vol / h d ^ 2 * sumN 8 (fun a => sumN 8 (fun b => th (cell_node F c a) 0%nat * lev l (cell_node F c b) 0%nat * kab d a b)))
       + mu * (Vol * sumN 8 (fun a => sumN 8 (fun b => th (cell_node F c a) 0%nat * lev l (cell_node F c b) 0%nat * mab a b)))).
  { intros c Hc.
    rewrite (sumN_ext (num_quads E) _ (fun q => 15 * sumN 3 (fun d => JxW F c q * (sol_to_grad F th c q 0 d * sol_to_grad F (lev l) c q 0 d)) + mu * (JxW F c q * (at_quad F th c q 0%nat * at_quad F (lev l) c q 0%nat)))).
    - rewrite sumN_add, !sumN_scal. f_equal.
      + f_equal. rewrite sumN_swap. apply sumN_ext. intros d Hd. now rewrite (cell_energy F B Nx Ny Nz Lx Ly Lz HF).
      + f_equal. rewrite (sumN_ext _ _ (fun q => Vol * sumN 8 (fun a => sumN 8 (fun b => th (cell_node F c a) 0%nat * lev l (cell_node F c b) 0%nat * (quad_weights E q * (hexval a (qp B q) * hexval b (qp B q))))))).
        * rewrite sumN_scal. f_equal. rewrite sumN_swap. apply sumN_ext. intros a _. rewrite sumN_swap. apply sumN_ext. intros b _. rewrite sumN_scal. now rewrite (massm B HB Hq E HE a b).
        * intros q _. rewrite !(quad_value F B Nx Ny Nz Lx Ly Lz HF), (jxw F B Nx Ny Nz Lx Ly Lz HF) by exact Hc.
          rewrite Rmult_assoc. f_equal. rewrite <- sumN_scal_r, <- sumN_scal. apply sumN_ext. intros a _. rewrite <- !sumN_scal. apply sumN_ext. intros b _. ring.
    - intros q Hq'. unfold dot_vec, stress, reaction. rewrite Ht, Hmm, Hv, D3.
      assert (one : forall f, sumN 1 f = f 0%nat) by (intros f; unfold sumN; cbn [seq sumR]; ring). rewrite !one.
      rewrite Rmult_plus_distr_l. f_equal.
      + rewrite <- !sumN_scal. apply sumN_ext. intros d Hd. rewrite (above_grad F Hgrads Hdim T c q d Hq'). unfold thermal_tensor_map. ring.
      + rewrite (above_value F Hvals T c q Hq'). cbn [iv_mass thermal_vars]. rewrite vars_one by exact Hc. cbn [map]. unfold thermal_mass_map, mu, at_quad.
        assert (E3 : convert_from_dof_to_quad F (fun _ _ => 300) c q 0%nat = 300).
        { unfold convert_from_dof_to_quad. rewrite sumN_scal, (Hvals q Hq' : sumN (num_nodes E) (shape_vals E q) = 1). ring. }
        rewrite E3. unfold Rdiv. ring. }
  unfold internal_power. rewrite (sumN_ext _ _ _ Hcell). rewrite (box_sum F Nx Ny Nz Lx Ly Lz Hx Hy Hz Hm).
  rewrite (sumN_ext Nx _ (fun i => sumN Ny (fun j => sumN Nz (fun k => Vol * lrow (quad4 i j) l k)))).
  - transitivity (Vol * sumN Nz (fun k => sumN Nx (fun i => sumN Ny (fun j => lrow (quad4 i j) l k)))).
    + rewrite <- sumN_scal. rewrite (sumN_ext Nx _ (fun i => sumN Nz (fun k => sumN Ny (fun j => Vol * lrow (quad4 i j) l k)))) by (intros i _; apply sumN_swap).
      rewrite sumN_swap. apply sumN_ext. intros k _. rewrite <- sumN_scal. apply sumN_ext. intros i _. apply sumN_scal.
    + f_equal. apply sumN_ext. intros k _. unfold lrow, mean.
      assert (G : forall p q : R, sumN Nx (fun i => sumN Ny (fun j => p * quad4 i j k + q * quad4 i j (k + 1)%nat)) = p * sumN Nx (fun i => sumN Ny (fun j => quad4 i j k)) + q * sumN Nx (fun i => sumN Ny (fun j => quad4 i j (k + 1)%nat))).
      { intros p q. rewrite <- !sumN_scal, <- sumN_add. apply sumN_ext. intros i _. rewrite <- !sumN_scal, <- sumN_add. reflexivity. }
      transitivity (sumN Nx (fun i => sumN Ny (fun j => (- (15 / h 2%nat ^ 2 * (l (k + 1)%nat - l k)) + mu * (l k / 3 + l (k + 1)%nat / 6)) * quad4 i j k + (15 / h 2%nat ^ 2 * (l (k + 1)%nat - l k) + mu * (l k / 6 + l (k + 1)%nat / 3)) * quad4 i j (k + 1)%nat))).
      * apply sumN_ext. intros i _. apply sumN_ext. intros j _. ring.
      * rewrite G. ring.
  - intros i Hi. apply sumN_ext. intros j Hj. apply sumN_ext. intros k Hk. set (c := cellno i j k).
    assert (Hl : forall b, (b < 8)%nat -> lev l (cell_node F c b) 0%nat = (fun o => l (k + o)%nat) (off b 2)).
    { intros b Hb. unfold c. rewrite (cell_node_at F Nx Ny Nz Lx Ly Lz Hx Hy Hz Hm Hn) by assumption. pose proof (off1 b 2). rewrite lev_node by lia. reflexivity. }
    rewrite (sumN_ext 3 _ (fun d => Vol / h d ^ 2 * sumN 8 (fun a => sumN 8 (fun b => th (cell_node F c a) 0%nat * (fun o => l (k + o)%nat) (off b 2) * kab d a b))))
      by (intros d _; f_equal; apply sumN_ext; intros a _; apply sumN_ext; intros b Hb; now rewrite Hl).
    rewrite (sumN_ext 8 (fun a => sumN 8 (fun b => th (cell_node F c a) 0%nat * lev l (cell_node F c b) 0%nat * mab a b)) (fun a => sumN 8 (fun b => th (cell_node F c a) 0%nat * (fun o => l (k + o)%nat) (off b 2) * mab a b)))
      by (intros a _; apply sumN_ext; intros b Hb; now rewrite Hl).
    rewrite (sumN_ext 3 _ (fun d => Vol / h d ^ 2 * (if Nat.eqb d 2 then (th (cell_node F c 4) 0%nat + th (cell_node F c 5) 0%nat + th (cell_node F c 6) 0%nat + th (cell_node F c 7) 0%nat - (th (cell_node F c 0) 0%nat + th (cell_node F c 1) 0%nat + th (cell_node F c 2) 0%nat + th (cell_node F c 3) 0%nat)) * (l (k + 1)%nat - l (k + 0)%nat) / 4 else 0)))
      by (intros d Hd; now rewrite (level_stiff (fun a => th (cell_node F c a) 0%nat) (fun o => l (k + o)%nat) d Hd)).
    rewrite (level_mass (fun a => th (cell_node F c a) 0%nat) (fun o => l (k + o)%nat)).
    unfold c. rewrite !(cell_node_at F Nx Ny Nz Lx Ly Lz Hx Hy Hz Hm Hn) by (assumption || lia).
    unfold off, vtk_hex. cbn [nth Nat.eqb]. rewrite !Nat.add_0_r. unfold sumN. cbn [seq sumR Nat.eqb]. unfold lrow, quad4.
    pose proof (h_pos F B Nx Ny Nz Lx Ly Lz HF 2). pose proof (h_pos F B Nx Ny Nz Lx Ly Lz HF 1). pose proof (h_pos F B Nx Ny Nz Lx Ly Lz HF 0). field. repeat split; lra.
Qed.
(** ** loads *)
Definition laser (x : point) : R :=
  2 * (25 / 100) * 50 / (PI * (5 / 10 ^ 5) ^ 2) * exp (- 2 * ((x 0%nat - lc 0%nat) ^ 2 + (x 1%nat - lc 1%nat) ^ 2) / (5 / 10 ^ 5) ^ 2) * sw.
Lemma laser_pos x : 0 < laser x.
Proof.
  unfold laser. apply Rmult_lt_0_compat; [|exact Hsw]. apply Rmult_lt_0_compat; [|apply exp_pos]. apply Rdiv_lt_0_compat; [lra|]. apply Rmult_lt_0_compat; [apply PI_RGT_0|]. apply pow_lt. lra.
Qed.
Lemma old_face s p : (snd s < length (face_inds E))%nat -> (p < num_face_quads E)%nat -> convert_neumann_from_dof F (fun _ _ => 300) s p 0%nat = 300.
Proof.
  intros Hs Hp. destruct tables_ok as (_ & _ & Hf). unfold convert_neumann_from_dof. rewrite sumN_scal, (Hf (snd s) p Hs Hp : sumN (num_nodes E) (face_shape_vals E (snd s) p) = 1). ring.
Qed.
Lemma indexed_faces loc j s : In (j, s) (indexed (boundary_inds F loc)) -> (fst s < num_cells F)%nat /\ (snd s < length (face_inds E))%nat /\ nth j (boundary_inds F loc) (0, 0)%nat = s.
Proof.
  intros H. pose proof (ActThermalProofs.in_indexed_nth (0, 0)%nat _ j s H) as En. apply in_indexed_snd in H. cbn [snd] in H. pose proof (loc_faces F loc) as Hok. unfold faces_ok in Hok. rewrite Forall_forall in Hok. destruct (Hok _ H). auto.
Qed.
Lemma top_load j s p : In (j, s) (indexed topsel) -> (p < num_face_quads E)%nat -> traction F iv 0 j s p 0%nat = laser (surface_quad_point F s p).
Proof.
  intros Hj Hp. pose proof HT as (_ & _ & _ & _ & _ & Hn). destruct (indexed_faces _ j s Hj) as (_ & Hs & En).
  unfold traction. rewrite Hn. unfold demo_fluxes. cbn [nth thermal_vars iv_neumann map]. rewrite En. unfold neumann_top. rewrite (old_face s p Hs Hp). unfold laser, MatModel.T0. ring.
Qed.
Lemma wall_load j s p : In (j, s) (indexed wallsel) -> (p < num_face_quads E)%nat -> traction F iv 1 j s p 0%nat = 0.
Proof.
  intros Hj Hp. pose proof HT as (_ & _ & _ & _ & _ & Hn). destruct (indexed_faces _ j s Hj) as (_ & Hs & En).
  unfold traction. rewrite Hn. unfold demo_fluxes. cbn [nth thermal_vars iv_neumann map]. rewrite En. unfold neumann_walls. rewrite (old_face s p Hs Hp). unfold MatModel.T0. ring.
Qed.
Lemma lev_face l i j p : (i < Nx)%nat -> (j < Ny)%nat -> (p < num_face_quads E)%nat -> at_face F (lev l) (cellno i j (Nz - 1), 5%nat) p 0%nat = l Nz.
Proof.
  intros Hi Hj Hp. pose proof HF as (HB & Hq & Hx & Hy & Hz & H1 & H2 & H3 & Hm & Hn & HE). destruct (dims38 F B Nx Ny Nz Lx Ly Lz HF) as [D3 D8].
  unfold at_face, convert_neumann_from_dof. cbn [fst snd]. rewrite D8. set (y := nth p (fst (make_quadrature B quadrilateral 2)) origin). set (x := facet_point hexahedron 5 y).
  set (G := fun e o : nat => if Nat.eqb e 2 then l (Nz - 1 + o)%nat else 0).
  rewrite (sumN_ext 8 _ (fun a => sumN 3 (fun e => G e (off a e)) * hexval a x)).
  - rewrite hexval_sep. unfold sumN. cbn [seq sumR]. unfold G. cbn [Nat.eqb].
    assert (E2 : x 2%nat = 1) by (unfold x, facet_point, facet_vertex, coord, sumN; cbn; field). rewrite E2. replace (Nz - 1 + 1)%nat with Nz by lia. ring.
  - intros a Ha. rewrite (cell_node_at F Nx Ny Nz Lx Ly Lz Hx Hy Hz Hm Hn) by (assumption || lia). pose proof (off1 a 2). rewrite lev_node by lia. f_equal.
    + unfold sumN. cbn [seq sumR]. unfold G. cbn [Nat.eqb]. ring.
    + rewrite (hex_tables B HB _ HE). cbn [face_shape_vals tables]. rewrite (face_point_facet B HB "HEX8" 5 p ltac:(cbn; lia)). rewrite (tabulated B HB "HEX8") by first [cbn; tauto|exact Ha]. rewrite (hex_shape a _ Ha). reflexivity.
Qed.
Definition supply : R := sumN Nx (fun i => sumN Ny (fun j => sumN (num_face_quads E) (fun p => nanson_scale F (cellno i j (Nz - 1), 5%nat) p * laser (surface_quad_point F (cellno i j (Nz - 1), 5%nat) p)))).
Lemma load_level l : load_work F inds iv (lev l) = supply * l Nz.
Proof.
  pose proof HF as (HB & Hq & Hx & Hy & Hz & H1 & H2 & H3 & Hm & Hn & HE). pose proof HT as (Hv & _ & _ & Hsrc & _ & _).
  unfold load_work. assert (Hb : body_power F iv (lev l) = 0); [|rewrite Hb; clear Hb].
  { unfold body_power. apply sumN_zero. intros c _. apply sumN_zero. intros q _. unfold dot_vec, body_load. cbn [iv_body thermal_vars]. rewrite Hsrc, sumN_zero; [ring|]. intros; ring. }
  unfold neumann_power. change (indexed inds) with [(0%nat, topsel); (1%nat, wallsel)]. cbn [sumR fst snd].
  assert (one : forall f, sumN 1 f = f 0%nat) by (intros f; unfold sumN; cbn [seq sumR]; ring).
  rewrite (sumR_zero (indexed wallsel)).
  2: { intros [j s] Hj. cbn [fst snd]. apply sumN_zero. intros p Hp. unfold dot_vec. rewrite Hv, one, wall_load by assumption. ring. }
  rewrite (sumR_ext (indexed topsel) _ (fun js => (fun s => sumN (num_face_quads E) (fun p => nanson_scale F s p * (laser (surface_quad_point F s p) * at_face F (lev l) s p 0%nat))) (snd js))).
  2: { intros [j s] Hj. cbn [fst snd]. apply sumN_ext. intros p Hp. unfold dot_vec. rewrite Hv, one, (top_load j) by assumption. reflexivity. }
  rewrite <- (sumR_map snd (indexed topsel) (fun s => sumN (num_face_quads E) (fun p => nanson_scale F s p * (laser (surface_quad_point F s p) * at_face F (lev l) s p 0%nat)))), indexed_snd.
  rewrite (side_sum B HB F Nx Ny Nz Lx Ly Lz Hx Hy Hz H1 H2 H3 Hm Hn HE (top Lz) 2 true _ top_plane ltac:(lia)). cbn [along].
  transitivity (sumN Nx (fun i => sumN Ny (fun j => sumN (num_face_quads E) (fun p => nanson_scale F (cellno i j (Nz - 1), 5%nat) p * laser (surface_quad_point F (cellno i j (Nz - 1), 5%nat) p)) * l Nz))).
  - rewrite Rplus_0_l, !Rplus_0_r. apply sumN_ext. intros i Hi. apply sumN_ext. intros j Hj. rewrite <- sumN_scal_r. apply sumN_ext. intros p Hp. change (layer Nx Ny Nz 2 true i j) with (cellno i j (Nz - 1)). change (face_of 2 true) with 5%nat. rewrite lev_face by assumption. ring.
  - unfold supply. rewrite <- sumN_scal_r. apply sumN_ext. intros i _. apply sumN_scal_r.
Qed.
Lemma supply_pos : 0 < supply.
Proof.
  pose proof HF as (HB & Hq & Hx & Hy & Hz & H1 & H2 & H3 & Hm & Hn & HE). unfold supply. apply sumN_pos; [exact Hx|]. intros i Hi. apply sumN_pos; [exact Hy|]. intros j Hj.
  assert (Hc : (cellno i j (Nz - 1) < num_cells F)%nat) by (apply (cellno_lt F Nx Ny Nz Lx Ly Lz Hx Hy Hz Hm Hn); lia).
  assert (Har : 0 < farea Nx Ny Nz Lx Ly Lz 2) by (apply farea_pos; assumption).
  apply weighted_pos.
  - intros p _. rewrite (box_nanson B HB F Nx Ny Nz Lx Ly Lz Hx Hy Hz H1 H2 H3 Hm Hn HE) by (assumption || lia). apply Rmult_le_pos; [apply Rlt_le; exact Har|now apply face_weight_nonneg].
  - intros p _. apply laser_pos.
  - pose proof (face_measure F B Nx Ny Nz Lx Ly Lz HF (cellno i j (Nz - 1)) 5 Hc ltac:(lia)) as Hf. rewrite (sumN_ext _ _ (nanson_scale F (cellno i j (Nz - 1), 5%nat))) in Hf by (intros; ring). rewrite Hf. exact Har.
Qed.
(** ** rows *)
Lemma fixed_level n k : (n < num_total_nodes F)%nat -> fixed F [bottom] [0%nat] n k -> k = 0%nat /\ exists i j, (i <= Nx)%nat /\ (j <= Ny)%nat /\ n = node i j 0.
Proof.
  pose proof HF as (HB & Hq & Hx & Hy & Hz & H1 & H2 & H3 & Hm & Hn & HE). intros Hlt (i0 & Hi0 & Hk & Hb). cbn in Hi0. assert (i0 = 0%nat) by lia. subst i0. cbn [nth] in Hk, Hb. split; [now symmetry|].
  destruct (node_surj F Nx Ny Nz Lx Ly Lz Hn n Hlt) as (i & j & k' & Hi & Hj & Hk' & ->).
  rewrite (loc_node F Nx Ny Nz Lx Ly Lz Hx Hy Hz H1 H2 H3 Hm Hn bottom 2 false i j k' bottom_plane ltac:(lia) Hi Hj Hk') in Hb. apply Nat.eqb_eq in Hb. cbn in Hb. subst k'. exists i, j. auto.
Qed.
Lemma bottom_value i j : (i <= Nx)%nat -> (j <= Ny)%nat -> th (node i j 0) 0%nat = 0.
Proof.
  pose proof HF as (HB & Hq & Hx & Hy & Hz & H1 & H2 & H3 & Hm & Hn & HE). intros Hi Hj. destruct HS as [Hv _]. unfold above300.
  rewrite (Hv 0%nat (node i j 0) 0%nat); [cbn [nth]; unfold thermal_dirichlet_bottom, MatModel.T0; ring|apply (node_lt F Nx Ny Nz Lx Ly Lz Hx Hy Hz Hn); lia|].
  split.
  - split; [cbn; lia|]. split; [reflexivity|]. cbn [nth]. rewrite (loc_node F Nx Ny Nz Lx Ly Lz Hx Hy Hz H1 H2 H3 Hm Hn bottom 2 false i j 0 bottom_plane ltac:(lia) Hi Hj ltac:(lia)). reflexivity.
  - intros i' Hi' (Hl & _). cbn in Hl. lia.
Qed.
Lemma mean_bottom : mean 0 = 0.
Proof. unfold mean. apply sumN_zero. intros i Hi. apply sumN_zero. intros j Hj. unfold quad4. rewrite !bottom_value by lia. field. Qed.
Lemma level_eq l : l 0%nat = 0 -> Vol * sumN Nz (fun k => lrow mean l k) = supply * l Nz.
Proof.
  pose proof HF as (HB & Hq & Hx & Hy & Hz & H1 & H2 & H3 & Hm & Hn & HE). pose proof HT as (Hv & _ & _ & _ & Hcau & Hne). intros Hl0. rewrite <- inner_power, <- load_level.
  apply (aff_weak F Hcau inds iv [bottom] [0%nat] [thermal_dirichlet_bottom] (hex_wf F B Nx Ny Nz Lx Ly Lz HF) (thermal_sized F _ _) (hex_cells F B Nx Ny Nz Lx Ly Lz HF)).
  - unfold neumann_ok. rewrite Hne. cbn. lia.
  - intros s [<-|[<-|[]]]; apply loc_faces.
  - exact HS.
  - intros n k Hlt _ Hf. destruct (fixed_level n k Hlt Hf) as (-> & i & j & Hi & Hj & ->). rewrite lev_node by lia. exact Hl0.
Qed.
Definition ind (m k : nat) : R := if Nat.eqb k m then 1 else 0.
Definition cA : R := - (15 / h 2%nat ^ 2) + mu / 6.
Definition cD : R := 15 / h 2%nat ^ 2 + mu / 3.
Lemma ind_row m k : lrow mean (ind m) k = (if Nat.eqb k m then 1 else 0) * (cD * mean k + cA * mean (k + 1)%nat) + (if Nat.eqb (k + 1) m then 1 else 0) * (cA * mean k + cD * mean (k + 1)%nat).
Proof. unfold lrow, ind, cA, cD. destruct (Nat.eqb_spec k m), (Nat.eqb_spec (k + 1) m); try lia; field; pose proof (h_pos F B Nx Ny Nz Lx Ly Lz HF 2); lra. Qed.
Lemma vol_pos : 0 < Vol.
Proof. pose proof (h_pos F B Nx Ny Nz Lx Ly Lz HF 2). pose proof (h_pos F B Nx Ny Nz Lx Ly Lz HF 1). pose proof (h_pos F B Nx Ny Nz Lx Ly Lz HF 0). apply Rmult_lt_0_compat; [apply Rmult_lt_0_compat|]; assumption. Qed.
Lemma row_sum m : (0 < m)%nat -> (m <= Nz)%nat -> sumN Nz (fun k => lrow mean (ind m) k) = (if Nat.ltb m Nz then cD * mean m + cA * mean (m + 1)%nat else 0) + (cA * mean (m - 1)%nat + cD * mean m).
Proof.
  intros Hm Hle. rewrite (sumN_ext Nz _ (fun k => (if Nat.eqb k m then 1 else 0) * (cD * mean k + cA * mean (k + 1)%nat) + (if Nat.eqb k (m - 1) then 1 else 0) * (cA * mean k + cD * mean (k + 1)%nat))).
  - rewrite sumN_add. f_equal.
    + destruct (Nat.ltb_spec m Nz) as [Hlt|Hge]; [now rewrite (WellProofs.sumN_ind Nz m (fun k => cD * mean k + cA * mean (k + 1)%nat))|]. apply sumN_zero. intros k Hk. rewrite (proj2 (Nat.eqb_neq k m)) by lia. ring.
    + rewrite (WellProofs.sumN_ind Nz (m - 1) (fun k => cA * mean k + cD * mean (k + 1)%nat)) by lia. now replace (m - 1 + 1)%nat with m by lia.
  - intros k _. rewrite ind_row. f_equal. f_equal. destruct (Nat.eqb_spec (k + 1) m), (Nat.eqb_spec k (m - 1)); try reflexivity; lia.
Qed.
Lemma coeffs : 0 < cA < cD.
Proof.
  pose proof (h_pos F B Nx Ny Nz Lx Ly Lz HF 2) as Hh. assert (Hmu : 0 < mu) by (unfold mu; apply Rdiv_lt_0_compat; lra). assert (H15 : 0 < 15 / h 2%nat ^ 2) by (apply Rdiv_lt_0_compat; [lra|now apply pow_lt]).
  split; [|unfold cA, cD; lra]. unfold cA. apply (Rmult_lt_reg_r (6 * dt * h 2%nat ^ 2)); [apply Rmult_lt_0_compat; [lra|now apply pow_lt]|].
  replace ((- (15 / h 2%nat ^ 2) + mu / 6) * (6 * dt * h 2%nat ^ 2)) with (8440 * 588 * h 2%nat ^ 2 - 90 * dt) by (unfold mu; field; lra).
  change (h 2%nat) with (Lz / INR Nz). lra.
Qed.
Lemma mean_sign d : (d < Nz)%nat -> 0 < (- 1) ^ d * mean (Nz - d)%nat.
Proof.
  pose proof coeffs as [HA HD]. pose proof vol_pos as HV. apply (chain_sign cA cD (supply / Vol) Nz mean HA HD).
  - apply Rdiv_lt_0_compat; [exact supply_pos|exact HV].
  - pose proof HF as (_ & _ & _ & _ & Hz & _). exact Hz.
  - exact mean_bottom.
  - intros m H0 Hlt. assert (Hi0 : ind m 0%nat = 0) by (unfold ind; now rewrite (proj2 (Nat.eqb_neq 0 m)) by lia). pose proof (level_eq (ind m) Hi0) as H. rewrite row_sum in H by lia. rewrite (proj2 (Nat.ltb_lt m Nz) Hlt) in H.
    unfold ind in H. rewrite (proj2 (Nat.eqb_neq Nz m)) in H by lia. rewrite Rmult_0_r in H. apply Rmult_integral in H as [H|H]; lra.
  - pose proof HF as (_ & _ & _ & _ & Hz & _). assert (Hi0 : ind Nz 0%nat = 0) by (unfold ind; now rewrite (proj2 (Nat.eqb_neq 0 Nz)) by lia). pose proof (level_eq (ind Nz) Hi0) as H. rewrite row_sum in H by lia. rewrite Nat.ltb_irrefl in H.
    unfold ind in H. rewrite Nat.eqb_refl in H. apply (Rmult_eq_reg_l Vol); [|lra]. transitivity (supply * 1); [rewrite <- H; ring|transitivity (supply * (Vol * / Vol)); [rewrite Rinv_r by lra; reflexivity|unfold Rdiv; ring]].
Qed.
Lemma node_sign d : (d < Nz)%nat -> exists n, (n < num_total_nodes F)%nat /\ points F n 2%nat = Lz - INR d * (Lz / INR Nz) /\ 0 < (- 1) ^ d * (T n 0%nat - 300).
Proof.
  intros Hd. pose proof HF as (HB & Hq & Hx & Hy & Hz & H1 & H2 & H3 & Hm & Hn & HE). pose proof (mean_sign d Hd) as Hs. unfold mean in Hs. rewrite <- sumN_scal in Hs. apply sumN_pos_ex in Hs as (i & Hi & Hs).
  rewrite <- sumN_scal in Hs. apply sumN_pos_ex in Hs as (j & Hj & Hs).
  assert (Hpt : forall i j, (i <= Nx)%nat -> (j <= Ny)%nat -> (node i j (Nz - d) < num_total_nodes F)%nat /\ points F (node i j (Nz - d)) 2%nat = Lz - INR d * (Lz / INR Nz)).
  { intros i' j' Hi' Hj'. split; [apply (node_lt F Nx Ny Nz Lx Ly Lz Hx Hy Hz Hn); lia|]. rewrite (node_point F Nx Ny Nz Lx Ly Lz Hx Hy Hz Hm Hn) by lia. cbn [along]. rewrite minus_INR by lia. field. apply not_0_INR. lia. }
  unfold quad4, above300 in Hs. set (e := (-1) ^ d) in *.
  destruct (Rlt_le_dec 0 (e * (T (node i j (Nz - d)) 0%nat - 300))) as [Ha|Ha]; [destruct (Hpt i j) as [P1 P2]; [lia|lia|]; eauto|].
  destruct (Rlt_le_dec 0 (e * (T (node (i + 1) j (Nz - d)) 0%nat - 300))) as [Hb|Hb]; [destruct (Hpt (i + 1)%nat j) as [P1 P2]; [lia|lia|]; eauto|].
  destruct (Rlt_le_dec 0 (e * (T (node (i + 1) (j + 1) (Nz - d)) 0%nat - 300))) as [Hc|Hc]; [destruct (Hpt (i + 1)%nat (j + 1)%nat) as [P1 P2]; [lia|lia|]; eauto|].
  destruct (Rlt_le_dec 0 (e * (T (node i (j + 1) (Nz - d)) 0%nat - 300))) as [Hf|Hf]; [destruct (Hpt i (j + 1)%nat) as [P1 P2]; [lia|lia|]; eauto|].
  exfalso. lra.
Qed.
End Layers.
Close Scope R_scope.
