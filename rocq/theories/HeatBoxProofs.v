(** * Box meshes as meshes of hexahedra; the heat a thick top lets in. *)
From Coq Require Import String FunctionalExtensionality Lra Lia.
From Verif Require Import Prelude PreludeFacts FemModel FemFacts FemSpec FemAsmProofs FemGeoProofs BasisModel BasisSpec BasisProofs BasisProps BoxSpec BoxProofs BoxPatchProofs RveModel MatModel MatSpec MatProps SolverModel SolverSpec WellSpec WellMainProofs MaxSpec ManProofs HeatModel HeatSpec HeatPickProofs HeatLayerProofs.
From Verif Require MeshModel.
Open Scope R_scope.
Open Scope list_scope.

Section BoxMesh.
Context {V : Type}.
Variable F : fem V.
Variables (B : basix) (Nx Ny Nz : nat) (Lx Ly Lz : R).
Hypothesis HF : box_hex F B Nx Ny Nz Lx Ly Lz.
Lemma corner_of n : (n < num_total_nodes F)%nat -> exists c a, (c < num_cells F)%nat /\ (a < 8)%nat /\ cell_node F c a = n.
Proof.
  intros Hn. pose proof HF as (HB & Hq & Hx & Hy & Hz & H1 & H2 & H3 & Hm & Hnn & HE).
  destruct (node_surj F Nx Ny Nz Lx Ly Lz Hnn n Hn) as (i & j & k & Hi & Hj & Hk & ->).
  set (i0 := if Nat.eqb i 0 then 0%nat else (i - 1)%nat). set (j0 := if Nat.eqb j 0 then 0%nat else (j - 1)%nat). set (k0 := if Nat.eqb k 0 then 0%nat else (k - 1)%nat).
  assert (Ho : exists a, (a < 8)%nat /\ off a 0 = (i - i0)%nat /\ off a 1 = (j - j0)%nat /\ off a 2 = (k - k0)%nat).
  { assert (C : forall n, ((n - if Nat.eqb n 0 then 0 else n - 1) = 0 \/ (n - if Nat.eqb n 0 then 0 else n - 1) = 1)%nat) by (intros x; destruct (Nat.eqb_spec x 0); lia).
    unfold i0, j0, k0. destruct (C i) as [-> | ->], (C j) as [-> | ->], (C k) as [-> | ->];
    (first [exists 0%nat; split; [lia|split; [reflexivity|split; reflexivity]] | exists 1%nat; split; [lia|split; [reflexivity|split; reflexivity]] | exists 2%nat; split; [lia|split; [reflexivity|split; reflexivity]] | exists 3%nat; split; [lia|split; [reflexivity|split; reflexivity]]
          | exists 4%nat; split; [lia|split; [reflexivity|split; reflexivity]] | exists 5%nat; split; [lia|split; [reflexivity|split; reflexivity]] | exists 6%nat; split; [lia|split; [reflexivity|split; reflexivity]] | exists 7%nat; split; [lia|split; [reflexivity|split; reflexivity]]]). }
  destruct Ho as (a & Ha & O0 & O1 & O2). assert (i0 <= i /\ i0 < Nx /\ j0 <= j /\ j0 < Ny /\ k0 <= k /\ k0 < Nz)%nat as (I1 & I2 & J1 & J2 & K1 & K2) by (unfold i0, j0, k0; destruct (Nat.eqb_spec i 0), (Nat.eqb_spec j 0), (Nat.eqb_spec k 0); lia).
  exists (cellno Ny Nz i0 j0 k0), a. split; [exact (cellno_lt F Nx Ny Nz Lx Ly Lz Hx Hy Hz Hm Hnn i0 j0 k0 I2 J2 K2)|]. split; [exact Ha|].
  rewrite (cell_node_at F Nx Ny Nz Lx Ly Lz Hx Hy Hz Hm Hnn i0 j0 k0 a I2 J2 K2 Ha). rewrite O0, O1, O2. f_equal; lia.
Qed.
Lemma box_covered locs vecs : covered F locs vecs.
Proof. intros n Hn. left. rewrite (proj2 (dims38 F B Nx Ny Nz Lx Ly Lz HF)). now apply corner_of. Qed.
Lemma box_hex_mesh : nonneg_rule B hexahedron 2 -> hex_mesh F B.
Proof.
  intros Hw. pose proof HF as (HB & Hq & Hx & Hy & Hz & H1 & H2 & H3 & Hm & Hn & HE).
  split; [exact HB|]. split; [exact Hq|]. split; [exact Hw|]. split; [exact HE|]. split; [exact (hex_wf F B Nx Ny Nz Lx Ly Lz HF)|]. split; [exact (hex_cells F B Nx Ny Nz Lx Ly Lz HF)|].
  intros c q Hc _. rewrite (box_det B HB F Nx Ny Nz Lx Ly Lz Hx Hy Hz Hm Hn HE c q Hc). pose proof (h_pos F B Nx Ny Nz Lx Ly Lz HF 2). pose proof (h_pos F B Nx Ny Nz Lx Ly Lz HF 1). pose proof (h_pos F B Nx Ny Nz Lx Ly Lz HF 0).
  apply Rmult_lt_0_compat; [apply Rmult_lt_0_compat|]; assumption.
Qed.
End BoxMesh.
Section Thick.
Variable F : fem (nat -> R).
Local Notation E := (f_ele F).
Variables (B : basix) (Nx Ny Nz : nat) (Lx Ly Lz : R).
Hypothesis HF : box_hex F B Nx Ny Nz Lx Ly Lz.
Lemma box_fem_tables : fem_tables F.
Proof.
  pose proof HF as (HB & Hq & Hx & Hy & Hz & H1 & H2 & H3 & Hm & Hn & HE). destruct (tables_meet_fem_assumptions _ F B "HEX8" HB ltac:(cbn; tauto) HE) as (T1 & T2 & T3 & T4).
  split; [exact T4|]. split; [exact T2|]. split; [exact T1|]. split; [exact T3|]. apply (box_invertible B HB F Nx Ny Nz Lx Ly Lz); assumption.
Qed.
Lemma uniform_heat dt g loc T_old T : thermal_class F dt (Some [fun _ _ _ => g]) -> dt <> 0 ->
  exists r, compute_residual_vars F [boundary_inds F loc] T (thermal_vars F [boundary_inds F loc] T_old) = Ok r /\
  sumN (num_cells F) (fun c => sumN (num_quads E) (fun q => JxW F c q * (8440 * 588 * (at_quad F T c q 0%nat - at_quad F T_old c q 0%nat))))
  = dt * (sumN (num_total_nodes F) (fun n => r n 0%nat) + g * face_integral F loc (fun _ _ => 1)).
Proof.
  intros (Hv & Ht & Hm & Hs & Hc & Hne) Hdt.
  assert (HP : heat_problem F dt [boundary_inds F loc]).
  { split; [exact (hex_wf F B Nx Ny Nz Lx Ly Lz HF)|]. split; [exact (hex_cells F B Nx Ny Nz Lx Ly Lz HF)|]. split; [exact Hv|]. split; [exact Ht|]. split; [exact Hm|]. split; [exact Hs|]. split; [exact Hc|]. split; [unfold neumann_ok; rewrite Hne; cbn; lia|].
    constructor; [apply loc_faces|constructor]. }
  destruct (heat_is_balanced F dt (fun c => convert_from_dof_to_quad F T_old c) [boundary_inds F loc] (iv_neumann (thermal_vars F [boundary_inds F loc] T_old)) T HP box_fem_tables Hdt) as (r & Hr & Hb).
  exists r. split; [exact Hr|]. unfold at_quad in Hb |- *. rewrite Hb. f_equal. f_equal.
  set (sel := boundary_inds F loc). change (indexed [sel]) with [(0%nat, sel)]. cbn [sumR fst snd]. rewrite Rplus_0_r.
  rewrite (sumR_ext (indexed sel) _ (fun js => (fun s => g * sumN (num_face_quads E) (fun p => nanson_scale F s p * 1)) (snd js))).
  - rewrite <- (sumR_map snd (indexed sel) (fun s => g * sumN (num_face_quads E) (fun p => nanson_scale F s p * 1))), indexed_snd. unfold face_integral. apply sumR_scal.
  - intros [j s] _. cbn [fst snd]. rewrite <- sumN_scal. apply sumN_ext. intros p _. unfold traction. rewrite Hne. cbn [nth]. ring.
Qed.
End Thick.
Close Scope R_scope.
