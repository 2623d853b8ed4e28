(** * Concrete meshes of tetrahedra for the examples. *)
From Coq Require Import String FunctionalExtensionality Lra Lia.
From Verif Require Import Prelude PreludeFacts FemModel FemFacts FemSpec FemGeoProofs FemMatProofs BasisModel BasisSpec BasisProofs BasisQuadProofs BasisExamples MatModel MatSpec MatProofs SolverModel SolverSpec SolverFemProofs SolverExamples RveSpec RveExamples WellSpec WellProofs WellBoxProofs MaxSpec HeatModel HeatSpec ConnSpec ConnRankProofs ConnMainProofs ConnElastProofs.
Open Scope R_scope.
Open Scope list_scope.

Lemma ex_nonneg_tet : nonneg_rule ex_basix tetrahedron 0.
Proof. unfold nonneg_rule. cbn [make_quadrature ex_basix ex_quadrature snd ref_volume]. repeat constructor; lra. Qed.
(** two tetrahedra with these corners *)
Definition pair_of {V} (pts : list (list R)) (cs : list (list nat)) (v : nat) (tm : list V -> mat -> mat) (mm : option (list V -> (nat -> R) -> nat -> R)) : fem V :=
  mkFem tet_E (List.length pts) (fun n => nth n (map pt pts) origin) cs v (Some tm) mm (fun u => u) None (Some []) None.
(** with a common face, with a common edge, and without a common node *)
Definition glued_pts : list (list R) := [[0; 0; 0]; [1; 0; 0]; [0; 1; 0]; [0; 0; 1]; [1; 1; 1]].
Definition glued_cells : list (list nat) := [[0; 1; 2; 3]; [1; 2; 3; 4]]%nat.
Definition hinged_pts : list (list R) := [[0; 0; 0]; [1; 0; 0]; [0; 1; 0]; [0; 0; 1]; [0; -1; 0]; [0; 0; -1]].
Definition hinged_cells : list (list nat) := [[0; 1; 2; 3]; [0; 1; 4; 5]]%nat.
Definition apart_pts : list (list R) := [[0; 0; 0]; [1; 0; 0]; [0; 1; 0]; [0; 0; 1]; [2; 0; 0]; [3; 0; 0]; [2; 1; 0]; [2; 0; 1]].
Definition apart_cells : list (list nat) := [[0; 1; 2; 3]; [4; 5; 6; 7]]%nat.
Lemma tet_dim {V} (F : fem V) : f_ele F = tet_E -> num_nodes (f_ele F) = 4%nat /\ dim F = 3%nat.
Proof. intros HE. unfold dim. rewrite HE. exact (t_nodes ex_basix ex_documented "TET4" ltac:(cbn; tauto) tet_E tet_E_ok). Qed.
Ltac pair_mesh :=
  repeat (split; [first [exact ex_documented | cbn; tauto | exact ex_exact_tet | exact ex_nonneg_tet | exact tet_E_ok]|]);
  split; [unfold wf_mesh; rewrite (proj1 (tet_dim (pair_of _ _ _ _ _) eq_refl)); cbn [cells pair_of glued_cells hinged_cells apart_cells]; repeat (apply Forall_cons; [split; [reflexivity|repeat (apply Forall_cons; [apply Nat.ltb_lt; reflexivity|]); apply Forall_nil]|]); apply Forall_nil|];
  split; [cbn; lia|];
  let c := fresh "c" in let q := fresh "q" in let Hc := fresh in let Hq := fresh in intros c q Hc Hq; unfold jacobian_det; rewrite (proj2 (tet_dim (pair_of _ _ _ _ _) eq_refl)); unfold det;
  rewrite !(tet_jacobian _ ex_basix) by first [exact ex_documented | exact tet_E_ok | assumption | lia];
  change (c < 2)%nat in Hc; destruct c as [|[|c]]; [| |exfalso; lia]; unfold cell_node; cbn [points cells pair_of nth map glued_pts glued_cells hinged_pts hinged_cells apart_pts apart_cells]; unfold pt; cbn [nth]; lra.
Lemma glued_mesh {V} v (tm : list V -> mat -> mat) mm : lagrange_mesh (pair_of glued_pts glued_cells v tm mm) ex_basix "TET4".
Proof. pair_mesh. Qed.
Lemma hinged_mesh {V} v (tm : list V -> mat -> mat) mm : lagrange_mesh (pair_of hinged_pts hinged_cells v tm mm) ex_basix "TET4".
Proof. pair_mesh. Qed.
Lemma apart_mesh {V} v (tm : list V -> mat -> mat) mm : lagrange_mesh (pair_of apart_pts apart_cells v tm mm) ex_basix "TET4".
Proof. pair_mesh. Qed.
(** nodes with y + z at least h *)
Definition high (h : R) : point -> bool := fun p => Rleb h (p 1%nat + p 2%nat).
Definition low_z : point -> bool := fun p => Rleb (p 2%nat) 0.
Definition all3 (loc : point -> bool) (f : nat -> point -> R) : list (point -> bool) * list nat * list (point -> R) := ([loc; loc; loc], [0; 1; 2]%nat, [f 0%nat; f 1%nat; f 2%nat]).
Lemma pair_loads {V} pts cs v (tm : list V -> mat -> mat) mm : loads_ok (pair_of pts cs v tm mm) [] (mkIv [] [] None (fun _ => [])).
Proof. split; [split; constructor|]. split; [cbn; lia|]. intros s []. Qed.
Lemma pair_poisson_jac pts cs v iv : exact_jacobians (pair_of (V := R) pts cs v (fun _ => poisson_map) None) iv (unit_jac (pair_of pts cs v (fun _ => poisson_map) None)).
Proof. apply (unit_jac_exact (pair_of pts cs v (fun _ => poisson_map) None) (fun _ => poisson_map) eq_refl (poisson_linear _) eq_refl). intros vars G H k d HG Hk Hd. now apply HG. Qed.
Lemma pair_elastic_jac pts cs iv : exact_jacobians (pair_of (V := R) pts cs 3 (fun _ => linear_elastic_stress 3) None) iv (unit_jac (pair_of pts cs 3 (fun _ => linear_elastic_stress 3) None)).
Proof.
  assert (Ed := proj2 (tet_dim (pair_of (V := R) pts cs 3 (fun _ => linear_elastic_stress 3) None) eq_refl)).
  apply (unit_jac_exact (pair_of pts cs 3 (fun _ => linear_elastic_stress 3) None) (fun _ => linear_elastic_stress 3) eq_refl).
  - intros vars a G H k d Hk Hd. rewrite Ed in Hd. exact (lin_linear 3 a G H k d Hk Hd).
  - reflexivity.
  - intros vars G H k d HG Hk Hd. rewrite Ed in *. change (vec (pair_of (V := R) pts cs 3 (fun _ => linear_elastic_stress 3) None)) with 3%nat in *. unfold linear_elastic_stress, trace, sumN. cbn [seq sumR]. rewrite !HG by lia. reflexivity.
Qed.
(** LinearPoisson on the hinged and on the separate pair, fixed at the nodes with y + z at least 1 *)
Definition hinged_heat : fem R := pair_of hinged_pts hinged_cells 1 (fun _ => poisson_map) None.
Definition apart_heat : fem R := pair_of apart_pts apart_cells 1 (fun _ => poisson_map) None.
Lemma hinged_held : held hinged_heat [high 1] [0%nat] 0%nat.
Proof.
  assert (En : num_nodes (f_ele hinged_heat) = 4%nat) by exact (proj1 (tet_dim hinged_heat eq_refl)).
  assert (L : forall c a b, (c < 2)%nat -> (a < 4)%nat -> (b < 4)%nat -> forall n, linked hinged_heat n (cell_node hinged_heat c a) -> linked hinged_heat n (cell_node hinged_heat c b)).
  { intros c a b Hc Ha Hb n. apply linked_cell; rewrite ?En; [exact Hc|exact Ha|exact Hb]. }
  assert (H2 : forall n, (n < 6)%nat -> linked hinged_heat n 2%nat).
  { intros n Hn. destruct n as [|[|[|[|[|[|n]]]]]]; [| | | | | |lia].
    - exact (L 0 0 2 ltac:(lia) ltac:(lia) ltac:(lia) 0 (linked_self _ _))%nat.
    - exact (L 0 1 2 ltac:(lia) ltac:(lia) ltac:(lia) 1 (linked_self _ _))%nat.
    - exact (linked_self _ _).
    - exact (L 0 3 2 ltac:(lia) ltac:(lia) ltac:(lia) 3 (linked_self _ _))%nat.
    - exact (L 0 0 2 ltac:(lia) ltac:(lia) ltac:(lia) 4 (L 1 2 0 ltac:(lia) ltac:(lia) ltac:(lia) 4 (linked_self _ _)))%nat.
    - exact (L 0 0 2 ltac:(lia) ltac:(lia) ltac:(lia) 5 (L 1 3 0 ltac:(lia) ltac:(lia) ltac:(lia) 5 (linked_self _ _)))%nat. }
  intros n Hn. exists 2%nat. split; [exact (H2 n Hn)|]. split; [cbn; lia|]. exists 0%nat. split; [cbn; lia|]. split; [reflexivity|]. cbn [nth]. unfold high. apply Rleb_true. cbn. unfold pt. cbn. lra.
Qed.
Lemma apart_loose : ~ held apart_heat [fun p => Rleb (p 0%nat) 1] [0%nat] 0%nat.
Proof.
  intros H. destruct (H 4%nat ltac:(cbn; lia)) as (m & Hl & _ & (i & Hi & _ & Hx)). cbn in Hi. assert (i = 0%nat) by lia. subst i. cbn [nth] in Hx. apply Rleb_true in Hx.
  assert (Hm : In m [4; 5; 6; 7]%nat).
  { clear Hx. assert (En : num_nodes (f_ele apart_heat) = 4%nat) by exact (proj1 (tet_dim apart_heat eq_refl)).
    induction Hl as [|c a b Hc Ha Hb _ IH]; [cbn; tauto|]. rewrite En in *. cbn in Hc. unfold cell_node in *. cbn [cells apart_heat pair_of apart_cells] in *.
    destruct c as [|[|c]]; [| |lia]; destruct a as [|[|[|[|a]]]]; try lia; destruct b as [|[|[|[|b]]]]; try lia; cbn in IH |- *; lia. }
  cbn in Hm. destruct Hm as [<-|[<-|[<-|[<-|[]]]]]; cbn in Hx; unfold pt in Hx; cbn in Hx; lra.
Qed.
(** LinearElasticity on the glued pair with z = 0 clamped, and on the hinged pair with one tetrahedron clamped *)
Definition glued_solid : fem R := pair_of glued_pts glued_cells 3 (fun _ => linear_elastic_stress 3) None.
Definition hinged_solid : fem R := pair_of hinged_pts hinged_cells 3 (fun _ => linear_elastic_stress 3) None.
Lemma all3_clamped {V} (F : fem V) loc f n : vec F = 3%nat -> loc (points F n) = true -> let '(l, v, _) := all3 loc f in clamped F l v n.
Proof.
  intros Hv Hl. cbn [all3]. intros k Hk. rewrite Hv in Hk. exists k. destruct k as [|[|[|k]]]; [| | |lia]; (split; [cbn; lia|]; split; [reflexivity|exact Hl]).
Qed.
Lemma glued_secured n : (n < 5)%nat -> secured glued_solid [low_z; low_z; low_z] [0; 1; 2]%nat n.
Proof.
  assert (L : forall n, (n < 3)%nat -> secured glued_solid [low_z; low_z; low_z] [0; 1; 2]%nat n).
  { intros m Hm. apply secured_clamped; [cbn; lia|]. apply (all3_clamped glued_solid low_z (fun _ _ => 0) m eq_refl). unfold low_z. apply Rleb_true.
    destruct m as [|[|[|m]]]; [| | |lia]; cbn; unfold pt; cbn; lra. }
  assert (H3 : secured glued_solid [low_z; low_z; low_z] [0; 1; 2]%nat 3%nat).
  { change 3%nat with (cell_node glued_solid 0 3). apply (secured_cell glued_solid _ _ 0 0 1 2 3); try lia; try (cbn; lia); apply L; cbn; lia. }
  intros Hn. destruct n as [|[|[|[|[|n]]]]]; try (apply L; lia); [exact H3|].
  change 4%nat with (cell_node glued_solid 1 3). apply (secured_cell glued_solid _ _ 1 0 1 2 3); try lia; try (cbn; lia); [apply L; cbn; lia|apply L; cbn; lia|exact H3].
Qed.
(** the second tetrahedron turns about the common edge *)
Definition swing : nodal := fun n k => match n, k with 4%nat, 2%nat => -1 | 5%nat, 1%nat => 1 | _, _ => 0 end.
Definition spin : mat := fun i j => match i, j with 1%nat, 2%nat => -1 | 2%nat, 1%nat => 1 | _, _ => 0 end.
Lemma swing_rigid : rigid_cells hinged_solid swing.
Proof.
  destruct (tet_dim hinged_solid eq_refl) as [En Ed]. intros c Hc. cbn in Hc. exists (fun _ => 0), (if Nat.eqb c 0 then fun _ _ => 0 else spin). rewrite Ed, En. split.
  - intros i j Hi Hj. destruct (Nat.eqb c 0); [lra|]. unfold spin. destruct i as [|[|[|i]]]; [| | |lia]; destruct j as [|[|[|j]]]; try lia; lra.
  - intros a k Ha Hk. unfold affine_field. rewrite Ed. unfold cell_node, sumN. cbn [seq sumR cells hinged_solid pair_of hinged_cells points].
    destruct c as [|[|c]]; [| |lia]; cbn [Nat.eqb]; destruct a as [|[|[|[|a]]]]; try lia; destruct k as [|[|[|k]]]; try lia; unfold hinged_cells, hinged_pts, pt, swing, spin; cbn [nth map]; lra.
Qed.
Lemma hinged_loose : ~ braced hinged_solid [high 0; high 0; high 0] [0; 1; 2]%nat.
Proof.
  intros H. assert (Hz : swing 4%nat 2%nat = 0).
  { apply (H swing); [|exact swing_rigid|cbn; lia|cbn; lia]. intros n k Hn Hk (i & Hi & Hki & Hx). cbn in Hn, Hi, Hk. unfold swing.
    assert (Hh : high 0 (points hinged_solid n) = true) by (destruct i as [|[|[|i]]]; [exact Hx|exact Hx|exact Hx|lia]). unfold high in Hh. apply Rleb_true in Hh.
    destruct n as [|[|[|[|[|[|n]]]]]]; try reflexivity; cbn in Hh; unfold pt in Hh; cbn in Hh; lra. }
  unfold swing in Hz. lra.
Qed.
(** the Thermal class on the separate pair *)
Definition apart_thermal (dt : R) : fem (nat -> R) := pair_of apart_pts apart_cells 1 thermal_tensor_map (Some (thermal_mass_map dt)).
Lemma apart_covered dt locs vecs : covered (apart_thermal dt) locs vecs.
Proof.
  intros n Hn. left. exists (Nat.div n 4), (Nat.modulo n 4). rewrite (proj1 (tet_dim (apart_thermal dt) eq_refl)). cbn in Hn.
  do 8 (destruct n as [|n]; [cbn; repeat split; lia|]). lia.
Qed.
Close Scope R_scope.
