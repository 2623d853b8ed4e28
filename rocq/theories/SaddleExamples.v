(** * Concrete periodic problems for the examples. *)
From Coq Require Import String FunctionalExtensionality Lra Lia.
From Verif Require Import Prelude PreludeFacts FemModel FemFacts FemSpec FemMatProofs BasisModel BasisSpec BasisProofs BasisQuadProofs BasisExamples MatModel SolverModel SolverSpec SolverFemProofs SolverExamples RveModel RveSpec RveExamples WellSpec WellProofs WellBoxProofs MaxSpec ConnSpec ConnRankProofs ConnMainProofs ConnExamples SaddleSpec SaddleModel SaddleProofs SaddleFemProofs SaddleDemoProofs.
Open Scope R_scope.
Open Scope list_scope.

(** ** the unit square of two six-node triangles *)
Definition tri6_E : ele := match element_tables ex_basix "TRI6" with Ok E => E | Err _ => tet_E end.
Lemma tri6_E_ok : element_tables ex_basix "TRI6" = Ok tri6_E.
Proof. unfold tri6_E. destruct (element_tables_ok ex_basix ex_documented "TRI6" ltac:(cbn; tauto)) as (fi & _ & E). rewrite E. reflexivity. Qed.
Definition sq_pts : list (list R) := [[0; 0]; [1; 0]; [0; 1]; [1; 1]; [1/2; 0]; [1; 1/2]; [1/2; 1]; [0; 1/2]; [1/2; 1/2]].
Definition sq_cells : list (list nat) := [[0; 1; 2; 4; 8; 7]; [3; 2; 1; 6; 8; 5]]%nat.
Definition square : fem R :=
  mkFem tri6_E 9 (fun n => nth n (map pt sq_pts) origin) sq_cells 1 (Some (fun _ => poisson_map)) None (fun u => u) (Some demo_force) None None.
Lemma sq_dims : num_nodes (f_ele square) = 6%nat /\ dim square = 2%nat.
Proof. destruct (dims ex_basix ex_documented square "TRI6" ltac:(cbn; tauto) tri6_E_ok) as (-> & -> & _). split; reflexivity. Qed.
Lemma ex_nonneg_tri : nonneg_rule ex_basix triangle 2.
Proof. unfold nonneg_rule. cbn [make_quadrature ex_basix ex_quadrature snd repeat]. repeat constructor; lra. Qed.
Definition turned (s : R) : mat := fun i j => if Nat.eqb i j then s else 0.
Lemma sq_affine : affine_cell square "TRI6" 0 (turned 1) (fun _ => 0) /\ affine_cell square "TRI6" 1 (turned (-1)) (fun _ => 1).
Proof.
  split; intros a i Ha Hi; cbn in Ha, Hi; unfold physical_coos, cell_node, node_at, sumN, coord, turned;
  destruct i as [|[|i]]; try lia; destruct a as [|[|[|[|[|[|a]]]]]]; try lia; cbn; unfold pt; cbn; lra.
Qed.
Lemma square_mesh : lagrange_mesh square ex_basix "TRI6".
Proof.
  repeat (split; [first [exact ex_documented | cbn; tauto | exact ex_exact_tri | exact ex_nonneg_tri | exact tri6_E_ok]|]).
  split; [unfold wf_mesh; rewrite (proj1 sq_dims); cbn [cells square sq_cells num_total_nodes]; repeat (apply Forall_cons; [split; [reflexivity|repeat (apply Forall_cons; [lia|]); apply Forall_nil]|]); apply Forall_nil|].
  split; [cbn; lia|]. intros c q Hc Hq. change (c < 2)%nat in Hc. destruct sq_affine as [A0 A1]. destruct c as [|[|c]]; [| |lia].
  - rewrite (proj1 (affine_volume ex_basix ex_documented square "TRI6" ltac:(cbn; tauto) tri6_E_ok 0%nat _ _ A0)). cbn. unfold turned. cbn. lra.
  - rewrite (proj1 (affine_volume ex_basix ex_documented square "TRI6" ltac:(cbn; tauto) tri6_E_ok 1%nat _ _ A1)). cbn. unfold turned. cbn. lra.
Qed.
Ltac nine n := destruct n as [|[|[|[|[|[|[|[|[|n]]]]]]]]]; [| | | | | | | | |lia].
Ltac ends := unfold isclose; cbn; unfold pt; cbn; first [apply Rleb_true | apply Rleb_false]; unfold Rabs; repeat destruct Rcase_abs; lra.
Lemma sq_left n : (n < 9)%nat -> demo_left (points square n) = existsb (Nat.eqb n) [0; 2; 7]%nat.
Proof. intros Hn. unfold demo_left. nine n; ends. Qed.
Lemma sq_right n : (n < 9)%nat -> demo_right (points square n) = existsb (Nat.eqb n) [1; 3; 5]%nat.
Proof. intros Hn. unfold demo_right. nine n; ends. Qed.
Lemma sq_bottom n : (n < 9)%nat -> demo_bottom (points square n) = existsb (Nat.eqb n) [0; 1; 4]%nat.
Proof. intros Hn. unfold demo_bottom. nine n; ends. Qed.
Lemma far2 f : 1 / 2 <= Rabs (f 1%nat) -> Rltb (norm_dim 2 f) EPS = false.
Proof.
  intros H. apply Rltb_false. unfold norm_dim, sumN, EPS. cbn [seq sumR]. apply Rle_trans with (Rabs (f 1%nat)); [lra|]. rewrite <- sqrt_Rsqr_abs. apply sqrt_le_1_alt. unfold Rsqr. nra.
Qed.
Lemma close2 f : f 0%nat = 0 -> f 1%nat = 0 -> Rltb (norm_dim 2 f) EPS = true.
Proof. intros H0 H1. apply Rltb_true. unfold norm_dim, sumN, EPS. cbn [seq sumR]. rewrite H0, H1. replace (0 ^ 2 + (0 ^ 2 + 0)) with 0 by ring. rewrite sqrt_0. lra. Qed.
Lemma sq_pairs : periodic_boundary_conditions square demo_periodic = Ok [([0; 2; 7]%nat, [1; 3; 5]%nat, [0; 0; 0]%nat)].
Proof.
  unfold periodic_boundary_conditions, demo_periodic. cbn [mapM]. unfold periodic_pair. rewrite (proj2 sq_dims).
  assert (EA : argwhere demo_left (map (points square) (seq 0 (num_total_nodes square))) = [0; 2; 7]%nat) by (unfold argwhere; cbn [num_total_nodes square seq map argwhere_from]; rewrite !sq_left by lia; reflexivity).
  assert (EB : argwhere demo_right (map (points square) (seq 0 (num_total_nodes square))) = [1; 3; 5]%nat) by (unfold argwhere; cbn [num_total_nodes square seq map argwhere_from]; rewrite !sq_right by lia; reflexivity).
  rewrite EA, EB. cbn [map filter].
  assert (X : forall a b, In a [0; 2; 7]%nat -> In b [1; 3; 5]%nat -> Rltb (norm_dim 2 (fun i => demo_mapping (points square a) i - points square b i)) EPS = existsb (fun t => Nat.eqb a (fst t) && Nat.eqb b (snd t)) [(0, 1); (2, 3); (7, 5)]%nat).
  { intros a b Ha Hb. cbn in Ha, Hb. destruct Ha as [<-|[<-|[<-|[]]]]; destruct Hb as [<-|[<-|[<-|[]]]]; cbn [existsb Nat.eqb andb orb fst snd];
    first [apply close2; unfold demo_mapping; cbn; unfold pt; cbn; lra | apply far2; unfold demo_mapping; cbn; unfold pt; cbn; unfold Rabs; destruct Rcase_abs; lra]. }
  rewrite !X by (cbn; tauto). reflexivity.
Qed.
Lemma sq_problem jac : exists P, fem_problem square [] (mkIv [] [] None (fun _ => [])) jac cjac0 (Some demo_dirichlet) (Some demo_periodic) None = Ok P.
Proof. unfold fem_problem. cbn [demo_dirichlet Dirichlet_boundary_conditions length Nat.eqb andb bind]. rewrite sq_pairs. cbn [bind]. eexists. reflexivity. Qed.
Lemma sq_class : demo_class square demo_force.
Proof. repeat split. Qed.
Lemma sq_loads : loads_ok square [] (mkIv [] [] None (fun _ => [])).
Proof. split; [split; constructor|]. split; [exact I|]. intros s []. Qed.
Lemma sq_jac iv : exact_jacobians square iv (unit_jac square).
Proof. apply (unit_jac_exact square (fun _ => poisson_map) eq_refl (poisson_linear _) eq_refl). intros vars G H k d HG Hk Hd. now apply HG. Qed.
Lemma sq_linked n : (n < num_total_nodes square)%nat -> exists m, linked square n m /\ (m < num_total_nodes square)%nat /\ (demo_bottom (points square m) = true \/ demo_top (points square m) = true).
Proof.
  intros Hn. change (n < 9)%nat in Hn. exists 1%nat. split; [|split; [cbn; lia|left; rewrite sq_bottom by lia; reflexivity]].
  assert (L : forall c a b, (c < 2)%nat -> (a < 6)%nat -> (b < 6)%nat -> forall n, linked square n (cell_node square c a) -> linked square n (cell_node square c b)).
  { intros c a b Hc Ha Hb m. apply linked_cell; rewrite ?(proj1 sq_dims); [exact Hc|exact Ha|exact Hb]. }
  nine n; [exact (L 0 0 1 ltac:(lia) ltac:(lia) ltac:(lia) 0 (linked_self _ _))%nat|exact (linked_self _ _)|exact (L 0 2 1 ltac:(lia) ltac:(lia) ltac:(lia) 2 (linked_self _ _))%nat|exact (L 1 0 2 ltac:(lia) ltac:(lia) ltac:(lia) 3 (linked_self _ _))%nat
    |exact (L 0 3 1 ltac:(lia) ltac:(lia) ltac:(lia) 4 (linked_self _ _))%nat|exact (L 1 5 2 ltac:(lia) ltac:(lia) ltac:(lia) 5 (linked_self _ _))%nat|exact (L 1 3 2 ltac:(lia) ltac:(lia) ltac:(lia) 6 (linked_self _ _))%nat
    |exact (L 0 5 1 ltac:(lia) ltac:(lia) ltac:(lia) 7 (linked_self _ _))%nat|exact (L 0 4 1 ltac:(lia) ltac:(lia) ltac:(lia) 8 (linked_self _ _))%nat].
Qed.

(** ** two separate tetrahedra with one node of each tied together *)
Definition at_origin : point -> bool := fun p => Rleb (p 0%nat + p 1%nat + p 2%nat) 0.
Definition at_two : point -> bool := fun p => Rleb (Rabs (p 0%nat - 2) + p 1%nat + p 2%nat) 0.
Definition shift2 : point -> point := fun p k => p k + (if Nat.eqb k 0 then 2 else 0).
Definition tie : list ((point -> bool) * (point -> bool) * (point -> point) * nat) := [(at_origin, at_two, shift2, 0%nat)].
(** the nodes with x at least 3 *)
Definition far_end : point -> bool := fun p => Rleb 3 (p 0%nat).
Ltac eight n := destruct n as [|[|[|[|[|[|[|[|n]]]]]]]]; [| | | | | | | |lia].
Ltac side8 := cbn; unfold pt; cbn; first [apply Rleb_true | apply Rleb_false]; unfold Rabs; repeat destruct Rcase_abs; lra.
Lemma apart_first n : (n < 8)%nat -> at_origin (points apart_heat n) = Nat.eqb n 0.
Proof. intros Hn. unfold at_origin. eight n; side8. Qed.
Lemma apart_second n : (n < 8)%nat -> at_two (points apart_heat n) = Nat.eqb n 4.
Proof. intros Hn. unfold at_two. eight n; side8. Qed.
Lemma apart_far n : (n < 8)%nat -> far_end (points apart_heat n) = Nat.eqb n 5.
Proof. intros Hn. unfold far_end. eight n; side8. Qed.
Lemma tie_pairs : periodic_boundary_conditions apart_heat tie = Ok [([0%nat], [4%nat], [0%nat])].
Proof.
  unfold periodic_boundary_conditions, tie. cbn [mapM]. unfold periodic_pair. rewrite (proj2 (tet_dim apart_heat eq_refl)).
  assert (EA : argwhere at_origin (map (points apart_heat) (seq 0 (num_total_nodes apart_heat))) = [0%nat]) by (unfold argwhere; change (num_total_nodes apart_heat) with 8%nat; cbn [seq map argwhere_from]; rewrite !apart_first by lia; reflexivity).
  assert (EB : argwhere at_two (map (points apart_heat) (seq 0 (num_total_nodes apart_heat))) = [4%nat]) by (unfold argwhere; change (num_total_nodes apart_heat) with 8%nat; cbn [seq map argwhere_from]; rewrite !apart_second by lia; reflexivity).
  rewrite EA, EB. cbn [map filter].
  assert (X : Rltb (norm_dim 3 (fun i => shift2 (points apart_heat 0) i - points apart_heat 4 i)) EPS = true).
  { apply Rltb_true. unfold norm_dim, sumN, EPS, shift2. cbn. unfold pt. cbn. match goal with |- sqrt ?z < _ => replace z with 0 by ring end. rewrite sqrt_0. lra. }
  rewrite X. reflexivity.
Qed.
Lemma tied_problem f : exists P, fem_problem apart_heat [] (mkIv [] [] None (fun _ => [])) (unit_jac apart_heat) cjac0 (Some ([far_end], [0%nat], [f])) (Some tie) None = Ok P /\
  conditions P = [((5, 0)%nat, f (pt [3; 0; 0]))] /\ pairs P = [(0, 4, 0)%nat].
Proof.
  assert (E5 : argwhere far_end (map (points apart_heat) (seq 0 (num_total_nodes apart_heat))) = [5%nat]) by (unfold argwhere; change (num_total_nodes apart_heat) with 8%nat; cbn [seq map argwhere_from]; rewrite !apart_far by lia; reflexivity).
  unfold fem_problem, Dirichlet_boundary_conditions. cbn [length Nat.eqb andb seq map nth]. rewrite E5. cbn [bind map]. rewrite tie_pairs. cbn [bind]. eexists. split; [reflexivity|]. split; reflexivity.
Qed.
(** no load *)
Lemma tied_load w : load_work apart_heat [] (mkIv [] [] None (fun _ => [])) w = 0.
Proof.
  assert (E : forall x y : R, x = 0 -> y = 0 -> x + y = 0) by (intros; lra). unfold load_work, body_power, neumann_power. apply E; [|reflexivity].
  apply sumN_zero. intros c _. apply sumN_zero. intros q _. unfold body_load. cbn [iv_body source_info apart_heat pair_of]. unfold dot_vec. rewrite sumN_zero; [ring|]. intros; ring.
Qed.
Lemma tied_anchored P f : conditions P = [((5, 0)%nat, f)] -> pairs P = [(0, 4, 0)%nat] -> anchored apart_heat P.
Proof.
  intros HC HP n k Hn Hk. change (n < 8)%nat in Hn. change (k < 1)%nat in Hk. assert (k = 0%nat) as -> by lia. exists 5%nat. split; [|exists f; rewrite HC; now left].
  assert (L : forall c a b, (c < 2)%nat -> (a < 4)%nat -> (b < 4)%nat -> forall n, joined apart_heat P 0 n (cell_node apart_heat c a) -> joined apart_heat P 0 n (cell_node apart_heat c b)).
  { intros c a b Hc Ha Hb m. apply joined_cell; rewrite ?(proj1 (tet_dim apart_heat eq_refl)); [exact Hc|exact Ha|exact Hb]. }
  assert (T : forall n, joined apart_heat P 0 n 0 -> joined apart_heat P 0 n 5).
  { intros m H. apply (L 1 0 1 ltac:(lia) ltac:(lia) ltac:(lia) m)%nat. apply (joined_pair apart_heat P 0 m 0 4); [rewrite HP; now left|exact H]. }
  eight n.
  - exact (T 0%nat (joined_self _ _ _ _)).
  - exact (T 1%nat (L 0 1 0 ltac:(lia) ltac:(lia) ltac:(lia) 1 (joined_self _ _ _ _)))%nat.
  - exact (T 2%nat (L 0 2 0 ltac:(lia) ltac:(lia) ltac:(lia) 2 (joined_self _ _ _ _)))%nat.
  - exact (T 3%nat (L 0 3 0 ltac:(lia) ltac:(lia) ltac:(lia) 3 (joined_self _ _ _ _)))%nat.
  - exact (L 1 0 1 ltac:(lia) ltac:(lia) ltac:(lia) 4 (joined_self _ _ _ _))%nat.
  - exact (joined_self _ _ _ _).
  - exact (L 1 2 1 ltac:(lia) ltac:(lia) ltac:(lia) 6 (joined_self _ _ _ _))%nat.
  - exact (L 1 3 1 ltac:(lia) ltac:(lia) ltac:(lia) 7 (joined_self _ _ _ _))%nat.
Qed.
Lemma tied_separate P f : conditions P = [((5, 0)%nat, f)] -> pairs P = [(0, 4, 0)%nat] -> separate_constraints P.
Proof.
  intros HC HP. unfold separate_constraints, conditioned. rewrite HC, HP. split; [repeat constructor; intros []|]. split; [repeat constructor; intros []|].
  intros a b k [H|[]]. injection H as <- <- <-. split; [intros (x & [H|[]]); discriminate|]. intros c d [H|[]]. injection H as <- <-. lia.
Qed.
Close Scope R_scope.
