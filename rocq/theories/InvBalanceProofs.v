(** * The loads of the inverse example and their reactions. *)
From Coq Require Import String FunctionalExtensionality Lra Lia.
From Verif Require Import Prelude PreludeFacts FemModel FemSpec FemFacts FemAsmProofs FemGeoProofs FemMatProofs BasisModel BasisSpec BasisMeshProofs BasisProps MatModel RveModel BoxSpec BoxProofs BoxRveProofs ActThermalProofs WellSpec SolverModel SolverSpec InvModel InvSpec InvProofs InvRestProofs.
Open Scope R_scope.
Open Scope list_scope.
Section Balance.
Context {V : Type}.
Variable M : fem V.
Variable P_fn : R -> R -> mat -> mat.
Variables (Bx : basix) (Nx Ny Nz : nat) (Lx Ly Lz : R).
Hypothesis HB : box_hex M Bx Nx Ny Nz Lx Ly Lz.
Hypothesis Hf : / 100000 * (1 + Lz) < Lz / INR Nz.
Local Notation N := (num_total_nodes M).
Local Notation F p := (inv_fem M P_fn p).
Local Notation iv p := (inv_vars M p).
Local Notation inds := (inv_inds M Lz).
Lemma top_found : picks_plane M (on_plane 2 Lz) 2 Lz.
Proof.
  pose proof HB as (_ & _ & Hx & Hy & Hz & H1 & H2 & H3 & Hm & Hn & _).
  exact (isclose_side M Nx Ny Nz Lx Ly Lz Hx Hy Hz H1 H2 H3 Hm Hn _ 2 true ltac:(lia) Hf eq_refl).
Qed.
Lemma load_resultant p u r : compute_residual_vars (F p) inds u (iv p) = Ok r ->
  sumN N (fun n => r n 0%nat) = - (100 * s_of M p * (Lx * Ly * Lz)) /\ sumN N (fun n => r n 1%nat) = 0 /\ sumN N (fun n => r n 2%nat) = 100 * n_of M p * (Lx * Ly).
Proof.
  intros Hr. pose proof (box_mesh_ok M Bx Nx Ny Nz Lx Ly Lz HB) as HM. pose proof HB as (HBx & _ & Hx & Hy & Hz & H1 & H2 & H3 & Hm & Hn & HE).
  destruct (tables_meet_fem_assumptions R (F p) Bx "HEX8" HBx ltac:(cbn; tauto) HE) as (Hv & Hg & Hfv & _).
  assert (Hres := fun k (Hk : (k < 3)%nat) => resultant (F p) (inv_wf M P_fn HM p) inds u (iv p) k Hg Hv Hfv Hk (inv_iv M P_fn p) (inv_cells M P_fn HM p) (inv_neu M P_fn Lz p) (inv_faces M P_fn Lz p)).
  destruct (brick_volume Bx HBx M Nx Ny Nz Lx Ly Lz Hx Hy Hz Hm HE) as [_ Hvol].
  pose proof (box_area Bx HBx M Nx Ny Nz Lx Ly Lz Hx Hy Hz H1 H2 H3 Hm Hn HE (on_plane 2 Lz) 2 true top_found ltac:(lia)) as Harea. cbn [along] in Harea.
  assert (Hk : forall k, (k < 3)%nat -> sumN N (fun n => r n k) = - (match k with 0%nat => 100 * s_of M p | _ => 0 end) * (Lx * Ly * Lz) + (match k with 2%nat => 100 * n_of M p | _ => 0 end) * (Lx * Ly)).
  { intros k Hk. destruct (Hres k Hk) as (r' & Hr' & Hs). rewrite Hr in Hr'. injection Hr' as <-. change (num_total_nodes (F p)) with N in Hs. rewrite Hs. unfold cauchy_faces. cbn [cauchy_bc_info inv_fem sumR]. rewrite Rplus_0_r. unfold Rminus. f_equal.
    - rewrite <- Hvol, <- sumN_scal. apply sumN_ext. intros c _. rewrite <- sumN_scal. apply sumN_ext. intros q _. change (JxW (F p) c q) with (JxW M c q). unfold reaction, body_load. cbn [mass_map inv_fem iv_body inv_vars source_info]. unfold get_body_force. destruct k as [|k]; ring.
    - unfold inv_inds, get_boundary_conditions_inds. cbn [map]. unfold indexed at 1. cbn [length seq combine sumR fst snd]. rewrite Rplus_0_r.
      rewrite (sumR_indexed (0, 0)%nat (boundary_inds M (on_plane 2 Lz)) (fun j s => sumN (num_face_quads (f_ele (F p))) (fun x => nanson_scale (F p) s x * traction (F p) (iv p) 0 j s x k))).
      + rewrite <- Harea. unfold face_integral. rewrite <- sumR_scal, <- sumR_opp. apply sumR_ext. intros s _. rewrite <- sumN_scal, <- sumN_opp. apply sumN_ext. intros x _.
        change (nanson_scale (F p) s x) with (nanson_scale M s x). unfold traction. cbn [neumann_bc_info inv_fem nth]. unfold get_neumann_top. destruct k as [|[|[|k]]]; try ring; lia.
      + intros j x _ _. reflexivity. }
  rewrite !Hk by lia. repeat split; ring.
Qed.
(** at a solution only the held nodes carry a residual *)
Lemma held_reaction p u r k : inv_solution M P_fn Lz p u -> compute_residual_vars (F p) inds u (iv p) = Ok r -> (k < 3)%nat ->
  sumN N (fun n => if on_plane 2 0 (points M n) then r n k else 0) = sumN N (fun n => r n k).
Proof.
  intros Hs Hr Hk. pose proof (box_mesh_ok M Bx Nx Ny Nz Lx Ly Lz HB) as HM. apply (sol_iff M P_fn Lz HM) in Hs as [_ Hz]. apply sumN_ext. intros n Hn.
  destruct (on_plane 2 0 (points M n)) eqn:E; [reflexivity|]. rewrite (residual_value M P_fn Lz HM p u r n k Hr Hn Hk). symmetry. apply Hz; [exact Hn|exact Hk|rewrite E; discriminate].
Qed.
End Balance.
Close Scope R_scope.
