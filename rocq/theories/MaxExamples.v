(** * Two boxes of eight cells: a cube and a stretched box. *)
From Coq Require Import String Lra Lia.
From Verif Require Import Prelude PreludeFacts FemModel FemFacts FemSpec FemGeoProofs FemMatProofs BasisModel BasisSpec BasisQuadProofs BasisExamples MatModel MatSpec MatProofs SolverModel SolverSpec SolverFemProofs SolverExamples RveSpec RveExamples BoxSpec BoxProofs BoxPatchProofs BoxExamples WellSpec WellProofs WellBoxProofs WellMainProofs WellExamples MaxSpec MaxProofs MaxRefProofs.
From Verif Require MeshModel.
Open Scope R_scope.
Open Scope list_scope.

(** one component, no loads, eight cells *)
Definition plain (Lx Ly Lz : R) : fem R :=
  let m := MeshModel.box_mesh 2 2 2 Lx Ly Lz in
  mkFem hex_E (List.length (MeshModel.points m))
    (fun n d => let '(x, y, z) := nth n (MeshModel.points m) (0, 0, 0) in match d with 0%nat => x | 1%nat => y | _ => z end)
    (MeshModel.cells m) 1 (Some (fun _ => poisson_map)) None (fun u => u) None None None.
Lemma plain_hex Lx Ly Lz : 0 < Lx -> 0 < Ly -> 0 < Lz -> box_hex (plain Lx Ly Lz) ex_basix 2 2 2 Lx Ly Lz.
Proof.
  intros H1 H2 H3. repeat (split; [first [exact ex_documented | exact ex_exact_hex | lia | assumption]|]). split; [|split; [reflexivity|exact hex_E_ok]].
  split; [reflexivity|]. intros i x y z H. unfold plain. cbn [points]. rewrite (nth_error_nth _ _ _ H). auto.
Qed.
Lemma ex_nonneg8 : nonneg_rule ex_basix hexahedron 2.
Proof. unfold nonneg_rule. cbn [make_quadrature ex_basix ex_quadrature snd]. repeat constructor; lra. Qed.
Lemma ex_nonneg4 : nonneg_rule ex_basix quadrilateral 2.
Proof. unfold nonneg_rule. cbn [make_quadrature ex_basix ex_quadrature snd]. repeat constructor; lra. Qed.
Lemma plain_loads Lx Ly Lz : loads_ok (plain Lx Ly Lz) [] no_vars.
Proof. split; [split; constructor|]. split; [exact I|intros s []]. Qed.
Lemma plain_sign Lx Ly Lz s : loads_sign (plain Lx Ly Lz) no_vars s 0.
Proof. split; intros; cbn; lra. Qed.
Lemma plain_jac Lx Ly Lz : exact_jacobians (plain Lx Ly Lz) no_vars (unit_jac (plain Lx Ly Lz)).
Proof. apply (unit_jac_exact (plain Lx Ly Lz) (fun _ => poisson_map) eq_refl (poisson_linear (plain Lx Ly Lz)) eq_refl). intros vars G H k d HG Hk Hd. now apply HG. Qed.
(** 1 in the middle of the side x = 0, 0 on the rest of the surface *)
Definition plain_problem (Lx Ly Lz : R) : problem :=
  match fem_problem (plain Lx Ly Lz) [] no_vars (unit_jac (plain Lx Ly Lz)) cjac0 (Some ([outer Lx Ly Lz], [0%nat], [spot Lx Ly Lz 0])) None None with Ok p => p | Err _ => per 4 end.
Lemma plain_ok Lx Ly Lz : fem_problem (plain Lx Ly Lz) [] no_vars (unit_jac (plain Lx Ly Lz)) cjac0 (Some ([outer Lx Ly Lz], [0%nat], [spot Lx Ly Lz 0])) None None = Ok (plain_problem Lx Ly Lz).
Proof. reflexivity. Qed.
Close Scope R_scope.
