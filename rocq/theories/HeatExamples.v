(** * Slabs of hexahedra with the Thermal class. *)
From Coq Require Import String Lra Lia.
From Verif Require Import Prelude PreludeFacts FemModel FemFacts FemSpec FemMatProofs BasisModel BasisSpec BasisQuadProofs BasisExamples MatModel MatSpec SolverModel SolverSpec SolverFemProofs SolverExamples RveSpec RveExamples BoxSpec BoxProofs BoxExamples WellSpec WellMainProofs MaxSpec MaxExamples HeatModel HeatSpec HeatWellProofs HeatStepProofs HeatMainProofs HeatBoxProofs.
From Verif Require MeshModel.
Open Scope R_scope.
Open Scope list_scope.

(** [more] nodes that belong to no cell *)
Definition slab (more Nx Ny Nz : nat) (L : R * R * R) (dt : R) (fluxes : option (list (point -> list (nat -> R) -> nat -> R))) : fem (nat -> R) :=
  let '(Lx, Ly, Lz) := L in let m := MeshModel.box_mesh Nx Ny Nz Lx Ly Lz in
  mkFem hex_E (more + List.length (MeshModel.points m))
    (fun n d => let '(x, y, z) := nth n (MeshModel.points m) (0, 0, 1) in match d with 0%nat => x | 1%nat => y | _ => z end)
    (MeshModel.cells m) 1 (Some thermal_tensor_map) (Some (thermal_mass_map dt)) (fun u => u) None fluxes None.
Lemma slab_hex Nx Ny Nz Lx Ly Lz dt fluxes : (0 < Nx)%nat -> (0 < Ny)%nat -> (0 < Nz)%nat -> 0 < Lx -> 0 < Ly -> 0 < Lz -> box_hex (slab 0 Nx Ny Nz (Lx, Ly, Lz) dt fluxes) ex_basix Nx Ny Nz Lx Ly Lz.
Proof.
  intros G1 G2 G3 H1 H2 H3. repeat (split; [first [exact ex_documented | exact ex_exact_hex | lia | assumption]|]). split; [|split; [reflexivity|exact hex_E_ok]].
  split; [reflexivity|]. intros i x y z H. unfold slab. cbn [points]. rewrite (nth_error_nth _ _ _ H). auto.
Qed.
Lemma slab_class more Nx Ny Nz L dt fluxes : thermal_class (slab more Nx Ny Nz L dt fluxes) dt fluxes.
Proof. destruct L as [[Lx Ly] Lz]. repeat split. Qed.
Lemma demo_hex dt fluxes : box_hex (slab 0 50 20 5 demo_L dt fluxes) ex_basix 50 20 5 (5 / 10000) (2 / 10000) (5 / 100000).
Proof. apply slab_hex; first [lia | lra]. Qed.
Lemma demo_thick : 5 / 100000 / INR 5 <= / 100000 * (1 + 5 / 100000) < 2 * (5 / 100000 / INR 5).
Proof. cbn [INR]. lra. Qed.
(** two cells on top of each other, a laser on the top *)
Definition chip (more : nat) : fem (nat -> R) := slab more 1 1 2 (/ 10000, / 10000, / 10000) (2 / 1000000) (Some (demo_fluxes (fun _ => 0) 1)).
Definition chip_inds : list (list (nat * nat)) := [boundary_inds (chip 0) (top (/ 10000)); boundary_inds (chip 0) (walls (/ 10000) (/ 10000))].
Definition chip_vars (more : nat) : internal_vars (nat -> R) := thermal_vars (chip more) chip_inds (fun _ _ => 300).
Definition chip_jac (more : nat) := diff_jac (chip more).
Definition chip_problem (more : nat) : problem :=
  match fem_problem (chip more) chip_inds (chip_vars more) (chip_jac more) cjac0 (Some ([bottom], [0%nat], [thermal_dirichlet_bottom])) None None with Ok p => p | Err _ => per 4 end.
Lemma chip_hex : box_hex (chip 0) ex_basix 1 1 2 (/ 10000) (/ 10000) (/ 10000).
Proof. apply slab_hex; first [lia | lra]. Qed.
Lemma chip_mesh more : hex_mesh (chip more) ex_basix.
Proof.
  pose proof (box_hex_mesh (chip 0) ex_basix 1 1 2 _ _ _ chip_hex ex_nonneg8) as (A & A1 & A2 & A3 & W & N & D). repeat (split; [assumption|]). split; [|split; [exact N|exact D]].
  unfold wf_mesh in *. rewrite Forall_forall in *. intros c Hc. destruct (W c Hc) as [W1 W2]. split; [exact W1|]. rewrite Forall_forall in *. intros n Hn. specialize (W2 n Hn). change (num_total_nodes (chip more)) with (more + num_total_nodes (chip 0))%nat. lia.
Qed.
Lemma chip_jac_exact more : exact_jacobians (chip more) (chip_vars more) (chip_jac more).
Proof. exact (diff_jac_exact (chip more) 15 (thermal_slope (2 / 1000000)) (thermal_reactive _ _ _ (slab_class _ _ _ _ _ _ _)) (chip_vars more)). Qed.
Lemma chip_loads more : neumann_ok (chip more) chip_inds /\ forall s, In s chip_inds -> faces_ok (chip more) s.
Proof.
  split; [cbn; lia|]. intros s [<-|[<-|[]]]; apply (HeatLayerProofs.loc_faces (chip 0)).
Qed.
Lemma chip_ok more : fem_problem (chip more) chip_inds (chip_vars more) (chip_jac more) cjac0 (Some ([bottom], [0%nat], [thermal_dirichlet_bottom])) None None = Ok (chip_problem more).
Proof.
  reflexivity.
Qed.
Close Scope R_scope.
