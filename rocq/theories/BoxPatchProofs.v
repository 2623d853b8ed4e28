(** * A uniform state of stress on a box mesh with tractions on some sides: no residual. *)
From Coq Require Import String Lra Lia Permutation.
From Verif Require Import Prelude PreludeFacts FemModel FemFacts FemSpec FemGeoProofs FemAsmProofs BasisModel BasisSpec BasisProofs BasisFaceProofs BasisQuadProofs BasisMeshProofs BoxSpec BoxProofs.
From Verif Require MeshModel MeshSpec MeshProofs.
Open Scope R_scope.
Open Scope list_scope.

Lemma indexed_sum {X} (l : list X) d g : sumR (indexed l) g = sumN (length l) (fun i => g (i, nth i l d)).
Proof.
  unfold indexed. rewrite (sumR_nth _ (0%nat, d)), combine_length, seq_length, Nat.min_id. apply sumN_ext. intros i Hi.
  rewrite combine_nth by apply seq_length. now rewrite seq_nth.
Qed.
Lemma sum_subset (l six : list (nat * bool)) g : NoDup l -> NoDup six -> (forall s, In s l -> In s six) -> (forall s, In s six -> In s l \/ g s = 0) -> sumR six g = sumR l g.
Proof.
  intros Hl Hs Hsub Hz.
  assert (Hdec : forall x y : nat * bool, {x = y} + {x <> y}) by (decide equality; [apply Bool.bool_dec|apply Nat.eq_dec]).
  transitivity (sumR (filter (fun s => if in_dec Hdec s l then true else false) six) g).
  - rewrite sumR_keep. apply sumR_ext. intros s Hi. destruct (in_dec Hdec s l) as [H | H]; [reflexivity|]. destruct (Hz s Hi); [contradiction|assumption].
  - apply sumR_perm. apply NoDup_Permutation; [now apply NoDup_filter|exact Hl|]. intros s. rewrite filter_In. destruct (in_dec Hdec s l) as [H | H]; split; intros HH; try tauto.
    + split; [now apply Hsub|reflexivity].
    + destruct HH; discriminate.
Qed.

Lemma F2_length {A C} {Q : A -> C -> Prop} {l1 l2} : Forall2 Q l1 l2 -> length l1 = length l2.
Proof. intros H. induction H; cbn; congruence. Qed.

Section Patch.
Context {V : Type}.
Variable B : basix.
Hypothesis HB : documented_basix B.
Hypothesis Hq4 : exact_rule B quadrilateral 2.
Hypothesis Hq8 : exact_rule B hexahedron 2.
Variable F : fem V.
Local Notation E := (f_ele F).
Variables (Nx Ny Nz : nat) (Lx Ly Lz : R).
Hypothesis Hx : (0 < Nx)%nat.
Hypothesis Hy : (0 < Ny)%nat.
Hypothesis Hz : (0 < Nz)%nat.
Hypothesis Hlx : 0 < Lx.
Hypothesis Hly : 0 < Ly.
Hypothesis Hlz : 0 < Lz.
Local Notation m := (MeshModel.box_mesh Nx Ny Nz Lx Ly Lz).
Hypothesis Hmesh : has_mesh3 F (MeshModel.points m) (MeshModel.cells m).
Hypothesis Hnodes : num_total_nodes F = length (MeshModel.points m).
Hypothesis HE : element_tables B "HEX8" = Ok E.
Local Notation coord_of := (side_coord Lx Ly Lz).
Lemma box_wf : wf_mesh F.
Proof.
  unfold wf_mesh. rewrite Forall_forall. intros c Hc. apply (In_nth _ _ []) in Hc as (n & Hn & <-).
  destruct (cellno_surj F Nx Ny Nz Lx Ly Lz Hx Hy Hz Hmesh Hnodes n Hn) as (i & j & k & Hi & Hj & Hk & ->).
  destruct (box_dim B HB F HE) as [_ H8]. unfold wf_mesh. rewrite H8.
  pose proof (MeshProofs.box_cell_at Nx Ny Nz Lx Ly Lz Hx Hy Hz i j k Hi Hj Hk) as Hc.
  replace (i * (Ny * Nz) + j * Nz + k)%nat with (cellno Ny Nz i j k) in Hc by (unfold cellno; lia).
  assert (HL : length (nth (cellno Ny Nz i j k) (cells F) []) = 8%nat) by (destruct Hmesh as [-> _]; rewrite (nth_error_nth _ _ [] Hc); reflexivity).
  split; [exact HL|]. rewrite Forall_forall. intros x Hin. apply (In_nth _ _ 0%nat) in Hin as (a & Ha & <-). rewrite HL in Ha.
  change (cell_node F (cellno Ny Nz i j k) a < num_total_nodes F)%nat. rewrite (cell_node_at F Nx Ny Nz Lx Ly Lz Hx Hy Hz Hmesh Hnodes) by assumption.
  pose proof (off_le F Nx Ny Nz Lx Ly Lz Hx Hy Hz Hnodes a 0). pose proof (off_le F Nx Ny Nz Lx Ly Lz Hx Hy Hz Hnodes a 1). pose proof (off_le F Nx Ny Nz Lx Ly Lz Hx Hy Hz Hnodes a 2). apply (node_lt F Nx Ny Nz Lx Ly Lz Hx Hy Hz Hnodes); lia.
Qed.
Lemma sel_ok loc : faces_ok F (boundary_inds F loc).
Proof.
  unfold faces_ok. rewrite Forall_forall. intros s Hs. unfold boundary_inds in Hs. apply filter_In in Hs as [Hs _]. unfold flat2 in Hs. apply in_flat_map in Hs as (c & Hc & Hs).
  apply in_map_iff in Hs as (f & <- & Hf). apply in_seq in Hc, Hf. cbn [fst snd]. lia.
Qed.
Definition plane (s : nat * bool) : point -> bool := fun p => Reqb (p (fst s)) (coord_of s).
Lemma plane_picks s : picks_plane F (plane s) (fst s) (coord_of s).
Proof. intros n _. unfold plane. apply Reqb_true. Qed.
Definition FI (v : nodal) (s : nat * bool) (k : nat) : R := face_integral F (plane s) (fun f p => at_face F v f p k).
Lemma FI_loc v s k loc : (fst s < 3)%nat -> picks_plane F loc (fst s) (coord_of s) -> face_integral F loc (fun f p => at_face F v f p k) = FI v s k.
Proof.
  intros Hs Hl. destruct s as [d hi]. unfold FI. cbn [fst] in *.
  rewrite (box_side_integral B HB F Nx Ny Nz Lx Ly Lz Hx Hy Hz Hlx Hly Hlz Hmesh Hnodes HE Hq4 loc d hi v k Hl Hs).
  rewrite (box_side_integral B HB F Nx Ny Nz Lx Ly Lz Hx Hy Hz Hlx Hly Hlz Hmesh Hnodes HE Hq4 (plane (d, hi)) d hi v k (plane_picks (d, hi)) Hs). reflexivity.
Qed.
Variable S : mat.
Definition tract (s : nat * bool) (k : nat) : R := sumN 3 (fun d => S k d * outward s d).
(** power of the uniform stress *)
Lemma uniform_power v k : sumN 3 (fun d => S k d * volume_integral F (fun c q => sol_to_grad F v c q k d)) = sumR six_sides (fun s => tract s k * FI v s k).
Proof.
  rewrite (sumN_ext 3 _ (fun d => S k d * (FI v (d, true) k - FI v (d, false) k))).
  - unfold sumN, six_sides, tract, outward, sumN. cbn [seq sumR fst snd Nat.eqb]. ring.
  - intros d Hd. f_equal. exact (box_gauss B HB F Nx Ny Nz Lx Ly Lz Hx Hy Hz Hlx Hly Hlz Hmesh Hnodes HE Hq4 Hq8 (plane (d, false)) (plane (d, true)) v k d (plane_picks (d, false)) (plane_picks (d, true)) Hd).
Qed.
Variables (u : nodal) (iv : internal_vars V).
Hypothesis Hiv : iv_sized F iv.
Hypothesis Hbody : iv_body iv = None.
Hypothesis Hsrc : source_info F = None.
Hypothesis Hmass : mass_map F = None.
Hypothesis Hcau : cauchy_bc_info F = None.
Hypothesis Hstress : forall c q k d, (c < num_cells F)%nat -> (q < num_quads E)%nat -> (k < vec F)%nat -> (d < 3)%nat -> stress F iv u c q k d = S k d.
Variables (loads : list (nat * bool)) (locs : list (point -> bool)) (fns : list (point -> list V -> nat -> R)).
Hypothesis Hnd : NoDup loads.
Hypothesis Hsides : forall s, In s loads -> (fst s < 3)%nat.
Hypothesis Hlocs : Forall2 (fun s loc => picks_plane F loc (fst s) (coord_of s)) loads locs.
Hypothesis Hfns : Forall2 (fun s fn => forall p vars k, (k < vec F)%nat -> fn p vars k = tract s k) loads fns.
Hypothesis Hneu : neumann_bc_info F = Some fns.
Local Notation inds := (get_boundary_conditions_inds F locs).
Lemma Forall2_at {A C} (R : A -> C -> Prop) l1 l2 d1 d2 i : Forall2 R l1 l2 -> (i < length l1)%nat -> R (nth i l1 d1) (nth i l2 d2).
Proof. intros H. revert i. induction H as [|a c l1 l2 Hac H IH]; intros [|i] Hi; cbn in *; try lia; [exact Hac|]. apply IH. lia. Qed.
Lemma internal_part v : internal_power F iv u v = sumN (vec F) (fun k => sumR six_sides (fun s => tract s k * FI v s k)).
Proof.
  unfold internal_power. destruct (box_dim B HB F HE) as [Hd3 _].
  rewrite (sumN_ext (vec F) (fun k => sumR six_sides _) (fun k => sumN 3 (fun d => S k d * volume_integral F (fun c q => sol_to_grad F v c q k d)))) by (intros; symmetry; apply uniform_power).
  transitivity (sumN (num_cells F) (fun c => sumN (num_quads E) (fun q => sumN (vec F) (fun k => sumN 3 (fun d => S k d * (JxW F c q * sol_to_grad F v c q k d)))))).
  - apply sumN_ext. intros c Hc. apply sumN_ext. intros q Hq. rewrite Hd3. unfold reaction. rewrite Hmass. unfold dot_vec at 1. rewrite (sumN_zero (vec F) (fun k => 0 * _)) by (intros; ring).
    rewrite Rplus_0_r, <- sumN_scal. apply sumN_ext. intros k Hk. rewrite <- sumN_scal. apply sumN_ext. intros d Hd. rewrite Hstress by assumption. ring.
  - transitivity (sumN (vec F) (fun k => sumN 3 (fun d => sumN (num_cells F) (fun c => sumN (num_quads E) (fun q => S k d * (JxW F c q * sol_to_grad F v c q k d)))))).
    + rewrite (sumN_ext (num_cells F) _ (fun c => sumN (vec F) (fun k => sumN 3 (fun d => sumN (num_quads E) (fun q => S k d * (JxW F c q * sol_to_grad F v c q k d)))))).
      * rewrite sumN_swap. apply sumN_ext. intros k _. apply sumN_swap.
      * intros c _. rewrite sumN_swap. apply sumN_ext. intros k _. apply sumN_swap.
    + apply sumN_ext. intros k _. apply sumN_ext. intros d _. unfold volume_integral. rewrite <- sumN_scal. apply sumN_ext. intros c _. now rewrite sumN_scal.
Qed.
Lemma neumann_part v : neumann_power F inds iv v = sumN (vec F) (fun k => sumR loads (fun s => tract s k * FI v s k)).
Proof.
  assert (HL : length inds = length loads) by (unfold get_boundary_conditions_inds; rewrite map_length; symmetry; eapply F2_length; exact Hlocs).
  unfold neumann_power. rewrite (indexed_sum inds []), HL. cbn [fst snd].
  rewrite (sumN_ext (vec F) _ (fun k => sumN (length loads) (fun i => tract (nth i loads (0%nat, false)) k * FI v (nth i loads (0%nat, false)) k))) by (intros; apply (sumR_nth loads (0%nat, false))).
  rewrite sumN_swap. apply sumN_ext. intros i Hi. rewrite (indexed_sum _ (0, 0)%nat). cbn [fst snd].
  pose proof (Forall2_at _ loads locs (0%nat, false) (fun _ => false) i Hlocs Hi) as Hl. cbn beta in Hl.
  pose proof (Forall2_at _ loads fns (0%nat, false) (fun _ _ _ => 0) i Hfns Hi) as Hf. cbn beta in Hf.
  set (s := nth i loads (0%nat, false)) in *. assert (Hs : (fst s < 3)%nat) by (apply Hsides, nth_In, Hi).
  replace (nth i inds []) with (boundary_inds F (nth i locs (fun _ => false))).
  2: { unfold get_boundary_conditions_inds. rewrite (nth_indep _ [] (boundary_inds F (fun _ => false))) by (rewrite map_length, <- (F2_length Hlocs); exact Hi). symmetry. apply map_nth. }
  rewrite (sumN_ext (vec F) (fun j => tract s j * FI v s j) (fun k => tract s k * sumN (length (boundary_inds F (nth i locs (fun _ => false)))) (fun j => sumN (num_face_quads E) (fun p =>
     nanson_scale F (nth j (boundary_inds F (nth i locs (fun _ => false))) (0, 0)%nat) p * at_face F v (nth j (boundary_inds F (nth i locs (fun _ => false))) (0, 0)%nat) p k)))).
  2: { intros k _. f_equal. rewrite <- (FI_loc v s k _ Hs Hl). unfold face_integral. now rewrite (sumR_nth _ (0, 0)%nat). }
  rewrite (sumN_ext (vec F) (fun k => tract s k * _) (fun k => sumN (length (boundary_inds F (nth i locs (fun _ => false)))) (fun j => sumN (num_face_quads E) (fun p =>
     tract s k * (nanson_scale F (nth j (boundary_inds F (nth i locs (fun _ => false))) (0, 0)%nat) p * at_face F v (nth j (boundary_inds F (nth i locs (fun _ => false))) (0, 0)%nat) p k))))).
  2: { intros k _. rewrite <- sumN_scal. apply sumN_ext. intros j _. now rewrite <- sumN_scal. }
  symmetry. rewrite sumN_swap. apply sumN_ext. intros j _. rewrite sumN_swap. apply sumN_ext. intros p _. symmetry. unfold dot_vec. rewrite <- sumN_scal. apply sumN_ext. intros k Hk.
  unfold traction. rewrite Hneu. rewrite Hf by exact Hk. ring.
Qed.
Theorem traction_patch : exists r, compute_residual_vars F inds u iv = Ok r /\
  forall n k, (n < num_total_nodes F)%nat -> (k < vec F)%nat ->
    (forall s, In s six_sides -> In s loads \/ points F n (fst s) <> coord_of s \/ tract s k = 0) -> r n k = 0.
Proof.
  destruct (virtual_work F box_wf inds u iv) as (r & Hr & Hw); [exact Hiv| | | |].
  - rewrite (box_num_cells F Nx Ny Nz Lx Ly Lz Hx Hy Hz Hmesh). nia.
  - unfold neumann_ok. rewrite Hneu. unfold get_boundary_conditions_inds. rewrite map_length, <- (F2_length Hlocs), (F2_length Hfns). lia.
  - intros sel Hs. apply in_map_iff in Hs as (loc & <- & _). apply sel_ok.
  - exists r. split; [exact Hr|]. intros n k Hn Hk Hfree. set (v := fun n' k' => delta n' n * delta k' k : R).
    transitivity (sumN (num_total_nodes F) (fun n' => sumN (vec F) (fun k' => v n' k' * r n' k'))).
    { symmetry. unfold v. rewrite (sumN_ext _ _ (fun n' => r n' k * delta n' n)).
      - now rewrite sumN_delta.
      - intros n' _. rewrite (sumN_ext _ _ (fun k' => delta n' n * r n' k' * delta k' k)) by (intros; ring). rewrite sumN_delta by exact Hk. ring. }
    rewrite Hw, internal_part, neumann_part. unfold cauchy_power, cauchy_faces. rewrite Hcau. cbn [sumR].
    replace (body_power F iv v) with 0.
    2: { symmetry. unfold body_power, body_load. rewrite Hbody, Hsrc. apply sumN_zero. intros c _. apply sumN_zero. intros q _. unfold dot_vec. rewrite sumN_zero; [ring|intros; ring]. }
    match goal with |- ?a + 0 - 0 - ?b = 0 => enough (a = b) by lra end. apply sumN_ext. intros k' Hk'.
    apply sum_subset; [exact Hnd|repeat constructor; cbn; intuition congruence| |].
    + intros [d hi] Hs. apply Hsides in Hs. cbn [fst] in Hs. destruct d as [|[|[|d]]]; try lia; destruct hi; cbn; tauto.
    + intros s Hs. assert (Hs3 : (fst s < 3)%nat) by (cbn in Hs; intuition (subst; cbn; lia)).
      destruct (Nat.eq_dec k' k) as [-> | Hne].
      * destruct (Hfree s Hs) as [H | [H | H]]; [now left| |right; rewrite H; ring]. right. unfold FI. destruct s as [d hi]. cbn [fst] in *.
        rewrite (box_side_zero B HB F Nx Ny Nz Lx Ly Lz Hx Hy Hz Hlx Hly Hlz Hmesh Hnodes HE Hq4 _ d hi v k (plane_picks (d, hi)) Hs3); [ring|].
        intros n' Hn' Hp. unfold v, delta. destruct (Nat.eqb_spec n' n) as [-> |]; [contradiction|ring].
      * right. unfold FI. destruct s as [d hi]. cbn [fst] in *.
        rewrite (box_side_zero B HB F Nx Ny Nz Lx Ly Lz Hx Hy Hz Hlx Hly Hlz Hmesh Hnodes HE Hq4 _ d hi v k' (plane_picks (d, hi)) Hs3); [ring|].
        intros n' Hn' Hp. unfold v, delta. destruct (Nat.eqb_spec k' k) as [-> |]; [contradiction|ring].
Qed.
End Patch.
Close Scope R_scope.
