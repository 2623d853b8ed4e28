(** * The unit square of three triangles with one free node, and fluxes on its sides. *)
From Coq Require Import String FunctionalExtensionality Classical Lra Lia.
From Verif Require Import Prelude PreludeFacts FemModel FemFacts FemSpec FemAsmProofs FemGeoProofs FemMatProofs BasisModel BasisSpec BasisProofs BasisQuadProofs BasisExamples MatModel MatSpec MatProofs SolverModel SolverSpec SolverFemProofs SolverExamples RveModel RveSpec RveExamples WellSpec WellProofs WellBoxProofs MaxSpec ConnSpec ConnRankProofs ConnMainProofs ConnExamples SaddleModel SaddleExamples HeatWellProofs RobModel RobSpec RobWellProofs RobProofs RobDemoProofs.
Open Scope R_scope.
Open Scope list_scope.

Definition tri_E : ele := tables ex_basix "TRI3" [[1; 2]; [0; 2]; [0; 1]]%nat.
Lemma tri_E_ok : element_tables ex_basix "TRI3" = Ok tri_E.
Proof. destruct (element_tables_ok ex_basix ex_documented "TRI3" ltac:(cbn; tauto)) as (fi & Hr & E). rewrite E. vm_compute in Hr. injection Hr as <-. reflexivity. Qed.
(** corners (0,0), (1,0), (1,1), (0,1) and the middle of the left side *)
Definition fan_pts : list (list R) := [[0; 0]; [1; 0]; [1; 1]; [0; 1]; [0; 1/2]].
Definition fan_cells : list (list nat) := [[0; 1; 4]; [1; 2; 4]; [2; 3; 4]]%nat.
Definition fan (src : option (point -> nat -> R)) (cau : option (list (point -> bool) * list ((nat -> R) -> nat -> R))) : fem R :=
  mkFem tri_E 5 (fun n => nth n (map pt fan_pts) origin) fan_cells 1 (Some (fun _ => poisson_map)) None (fun u => u) src None cau.
Lemma ex_exact_tri0 : exact_rule ex_basix triangle 0.
Proof.
  intros e He. cbn [make_quadrature ex_basix ex_quadrature]. unfold degree_ok in He. cbn [simplex cell_dim] in He. apply Nat.leb_le in He.
  unfold sum_nat in He. cbn [seq fold_right] in He.
  unfold moment, mono, prodN, sumN, sum_nat. cbn [simplex cell_dim seq fold_right map length sumR repeat nth ref_volume].
  replace (nth 0 e 0%nat) with 0%nat by lia. replace (nth 1 e 0%nat) with 0%nat by lia. cbn [Nat.add pow fact Nat.mul INR]. field.
Qed.
Lemma ex_nonneg_tri0 : nonneg_rule ex_basix triangle 0.
Proof. unfold nonneg_rule. cbn [make_quadrature ex_basix ex_quadrature snd ref_volume]. repeat constructor; lra. Qed.
Lemma ex_nonneg_line : nonneg_rule ex_basix interval 0.
Proof. unfold nonneg_rule. cbn [make_quadrature ex_basix ex_quadrature snd ref_volume]. repeat constructor; lra. Qed.
Lemma fan_dim src cau : num_nodes (f_ele (fan src cau)) = 3%nat /\ dim (fan src cau) = 2%nat /\ num_quads (f_ele (fan src cau)) = 1%nat /\ num_face_quads (f_ele (fan src cau)) = 1%nat.
Proof. repeat split; reflexivity. Qed.
Lemma fan_det src cau c q : (c < 3)%nat -> jacobian_det (fan src cau) c q = nth c [1/2; 1; 1/2] 0.
Proof.
  intros Hc. rewrite (proj1 (affine_volume ex_basix ex_documented (fan src cau) "TRI3" ltac:(cbn; tauto) tri_E_ok c _ _ (tri_affine (fan src cau) c)) q).
  destruct c as [|[|[|c]]]; [| | |lia]; cbn; unfold physical_coos, cell_node; cbn; unfold pt; cbn; lra.
Qed.
Lemma fan_wf src cau : wf_mesh (fan src cau).
Proof. unfold wf_mesh. rewrite (proj1 (fan_dim src cau)). cbn [cells fan fan_cells num_total_nodes]. repeat (apply Forall_cons; [split; [reflexivity|repeat (apply Forall_cons; [lia|]); apply Forall_nil]|]); apply Forall_nil. Qed.
Lemma fan_mesh src cau : lagrange_mesh (fan src cau) ex_basix "TRI3".
Proof.
  repeat (split; [first [exact ex_documented | cbn; tauto | exact ex_exact_tri0 | exact ex_nonneg_tri0 | exact tri_E_ok | apply fan_wf]|]).
  split; [cbn; lia|]. intros c q Hc Hq. change (c < 3)%nat in Hc. rewrite fan_det by exact Hc. destruct c as [|[|[|c]]]; [| | |lia]; cbn; lra.
Qed.
Lemma fan_upright src cau : upright (fan src cau).
Proof. exact (tri_upright (fan src cau) ex_basix (fan_mesh src cau) ex_nonneg_line). Qed.
Lemma fan_loads src cau : loads_ok (fan src cau) [] (mkIv [] [] None (fun _ => [])).
Proof. split; [split; constructor|]. split; [cbn; lia|]. intros s []. Qed.
Ltac five n := destruct n as [|[|[|[|[|n]]]]]; [| | | | |lia].
Lemma fan_bottom src cau n : (n < 5)%nat -> demo_bottom (points (fan src cau) n) = existsb (Nat.eqb n) [0; 1]%nat.
Proof. intros Hn. unfold demo_bottom. five n; ends. Qed.
Lemma fan_top src cau n : (n < 5)%nat -> cb_top (points (fan src cau) n) = existsb (Nat.eqb n) [2; 3]%nat.
Proof. intros Hn. unfold cb_top. five n; ends. Qed.
Lemma fan_left src cau n : (n < 5)%nat -> demo_left (points (fan src cau) n) = existsb (Nat.eqb n) [0; 3; 4]%nat.
Proof. intros Hn. unfold demo_left. five n; ends. Qed.
Lemma fan_right src cau n : (n < 5)%nat -> demo_right (points (fan src cau) n) = existsb (Nat.eqb n) [1; 2]%nat.
Proof. intros Hn. unfold demo_right. five n; ends. Qed.
Lemma fan_sides src cau : boundary_inds (fan src cau) demo_left = [(0, 1); (2, 0)]%nat /\ boundary_inds (fan src cau) demo_right = [(1, 2)]%nat.
Proof.
  assert (Ec : forall c a, physical_coos (fan src cau) c a = points (fan src cau) (cell_node (fan src cau) c a)) by reflexivity.
  split; unfold boundary_inds, flat2; cbn [num_cells cells fan fan_cells length face_inds f_ele tri_E tables seq flat_map map app filter fst snd boundary_flag nth forallb];
    unfold boundary_flag; cbn [num_cells cells fan fan_cells length face_inds f_ele tri_E tables nth forallb]; rewrite !Ec; unfold cell_node; cbn [cells fan fan_cells nth];
    rewrite ?fan_left, ?fan_right by lia; reflexivity.
Qed.
(** any two nodes are linked *)
Lemma fan_linked src cau n m : (n < 5)%nat -> (m < 5)%nat -> linked (fan src cau) n m.
Proof.
  intros Hn Hm. assert (L : forall k c a b, (c < 3)%nat -> (a < 3)%nat -> (b < 3)%nat -> linked (fan src cau) k (cell_node (fan src cau) c a) -> linked (fan src cau) k (cell_node (fan src cau) c b)).
  { intros k c a b Hc Ha Hb. apply linked_cell; [exact Hc|exact Ha|exact Hb]. }
  assert (H4 : linked (fan src cau) n 4%nat).
  { five n; [exact (L 0 0 0 2 ltac:(lia) ltac:(lia) ltac:(lia) (linked_self _ _))%nat|exact (L 1 0 1 2 ltac:(lia) ltac:(lia) ltac:(lia) (linked_self _ _))%nat|exact (L 2 1 1 2 ltac:(lia) ltac:(lia) ltac:(lia) (linked_self _ _))%nat|exact (L 3 2 1 2 ltac:(lia) ltac:(lia) ltac:(lia) (linked_self _ _))%nat|apply linked_self]. }
  five m; [exact (L n 0 2 0 ltac:(lia) ltac:(lia) ltac:(lia) H4)%nat|exact (L n 0 2 1 ltac:(lia) ltac:(lia) ltac:(lia) H4)%nat|exact (L n 1 2 1 ltac:(lia) ltac:(lia) ltac:(lia) H4)%nat|exact (L n 2 2 1 ltac:(lia) ltac:(lia) ltac:(lia) H4)%nat|exact H4].
Qed.
(** ** the node in the middle of the left side *)
Definition bump : nodal := fun n _ => if Nat.eqb n 4 then 1 else 0.
Definition mid (s : R) : nodal := fun n _ => if Nat.eqb n 4 then s else 1.
Definition slope_of (c : nat) : mat := fun _ d => match c, d with 0%nat, 1%nat => 2 | 1%nat, 0%nat => -1 | 2%nat, 1%nat => -2 | _, _ => 0 end.
Lemma bump_grad src cau c q d : (c < 3)%nat -> (q < 1)%nat -> (d < 2)%nat -> sol_to_grad (fan src cau) bump c q 0%nat d = slope_of c 0%nat d.
Proof.
  intros Hc Hq Hd. set (b := fun _ : nat => INR c). rewrite <- (patch_test (fan src cau) c q b (slope_of c) 0%nat d).
  - unfold sol_to_grad. apply sumN_ext. intros a Ha. f_equal. change (a < 3)%nat in Ha. unfold affine_field, sumN, b. change (dim (fan src cau)) with 2%nat. cbn [seq sumR].
    destruct c as [|[|[|c]]]; [| | |lia]; destruct a as [|[|[|a]]]; try lia; unfold bump, cell_node, slope_of, pt; cbn; unfold pt; cbn; lra.
  - right; left; reflexivity.
  - exact (lm_grads (fan src cau) ex_basix "TRI3" (fan_mesh src cau)).
  - exact Hq.
  - rewrite fan_det by exact Hc. destruct c as [|[|[|c]]]; [| | |lia]; cbn; lra.
  - exact Hd.
Qed.
Lemma mid_grad src cau s c q d : (c < 3)%nat -> (q < 1)%nat -> (d < 2)%nat -> sol_to_grad (fan src cau) (mid s) c q 0%nat d = (s - 1) * slope_of c 0%nat d.
Proof.
  intros Hc Hq Hd. replace (mid s) with (fun n k => (s - 1) * bump n k + (fun _ _ => 1) n k : R) by (apply functional_extensionality; intros n; apply functional_extensionality; intros k; unfold mid, bump; destruct (Nat.eqb n 4); ring).
  rewrite grad_comb, bump_grad by assumption. rewrite (constant_grad (fan src cau) ex_basix "TRI3" (fan_mesh src cau) (fun _ _ => 1) c q 0%nat d 1 Hc Hq (fun _ _ => eq_refl)). ring.
Qed.
Lemma fan_weight src cau c q : (c < 3)%nat -> (q < 1)%nat -> JxW (fan src cau) c q = nth c [1/4; 1/2; 1/4] 0.
Proof. intros Hc Hq. unfold JxW. rewrite fan_det by exact Hc. assert (q = 0%nat) by lia. subst q. destruct c as [|[|[|c]]]; [| | |lia]; cbn; lra. Qed.
Lemma mid_energy src cau iv s : energy_form (fan src cau) iv (mid s) bump = 5 / 2 * (s - 1).
Proof.
  rewrite (lp_form (fan src cau) eq_refl). change (num_cells (fan src cau)) with 3%nat. change (num_quads (f_ele (fan src cau))) with 1%nat. change (vec (fan src cau)) with 1%nat. change (dim (fan src cau)) with 2%nat.
  unfold sumN. cbn [seq sumR]. rewrite !mid_grad, !bump_grad, !fan_weight by lia. unfold slope_of. cbn [nth]. lra.
Qed.
(** the sides *)
Lemma fan_length src cau s : In s [(0, 1); (2, 0); (1, 2)]%nat -> nanson_scale (fan src cau) s 0%nat = if Nat.eqb (fst s) 1 then 1 else 1 / 2.
Proof.
  intros Hs. assert (Hc : (fst s < 3)%nat /\ (snd s < 3)%nat) by (cbn in Hs; destruct Hs as [<-|[<-|[<-|[]]]]; cbn; lia). destruct s as [c f]. cbn [fst snd] in Hc.
  rewrite (affine_nanson ex_basix ex_documented (fan src cau) "TRI3" ltac:(cbn; tauto) tri_E_ok c _ _ f 0%nat (tri_affine (fan src cau) c)).
  - cbn [Nat.eqb cell_dim cell_of]. change (nth 0 (snd (make_quadrature ex_basix (face_cell (cell_of "TRI3")) (gauss_of "TRI3"))) 0) with 1. rewrite Rmult_1_r.
    unfold norm2, face_edge, physical_coos, cell_node. cbn in Hs. destruct Hs as [Hs|[Hs|[Hs|[]]]]; injection Hs as <- <-; cbn; unfold pt; cbn.
    + replace (_ + _) with (Rsqr (1 / 2)) by (unfold Rsqr; lra). apply sqrt_Rsqr. lra.
    + replace (_ + _) with (Rsqr (1 / 2)) by (unfold Rsqr; lra). apply sqrt_Rsqr. lra.
    + replace (_ + _) with 1 by lra. apply sqrt_1.
  - cbn. lia.
  - rewrite <- (proj1 (affine_volume ex_basix ex_documented (fan src cau) "TRI3" ltac:(cbn; tauto) tri_E_ok c _ _ (tri_affine (fan src cau) c)) 0%nat), fan_det by lia. destruct c as [|[|[|c]]]; [| | |lia]; cbn; lra.
Qed.
Lemma fan_face_vals src cau s a : In s [(0, 1); (2, 0); (1, 2)]%nat -> (a < 3)%nat -> face_shape_vals (f_ele (fan src cau)) (snd s) 0%nat a = if Nat.eqb a (snd s) then 0 else 1 / 2.
Proof.
  intros Hs Ha. cbn in Hs. destruct Hs as [<-|[<-|[<-|[]]]]; destruct a as [|[|[|a]]]; try lia; cbn; unfold lagrange, coord; cbn; lra.
Qed.
Lemma mid_left src cau s x : In x [(0, 1); (2, 0)]%nat -> at_face (fan src cau) (mid s) x 0%nat 0%nat = (1 + s) / 2 /\ at_face (fan src cau) bump x 0%nat 0%nat = 1 / 2.
Proof.
  intros Hx. assert (Hx' : In x [(0, 1); (2, 0); (1, 2)]%nat) by (cbn in *; tauto).
  unfold at_face, convert_neumann_from_dof. change (num_nodes (f_ele (fan src cau))) with 3%nat. unfold sumN. cbn [seq sumR].
  rewrite !(fan_face_vals src cau x) by (assumption || lia). cbn in Hx. destruct Hx as [<-|[<-|[]]]; unfold mid, bump, cell_node; cbn; lra.
Qed.
Lemma mid_right src cau : at_face (fan src cau) bump (1, 2)%nat 0%nat 0%nat = 0.
Proof.
  unfold at_face, convert_neumann_from_dof. change (num_nodes (f_ele (fan src cau))) with 3%nat. unfold sumN. cbn [seq sumR].
  change 2%nat with (snd (1, 2)%nat). rewrite !(fan_face_vals src cau (1, 2)%nat) by (cbn; tauto || lia). unfold bump, cell_node; cbn; lra.
Qed.
Definition cb_fan : fem R := fan (Some cb_force) (Some cb_cauchy).
Definition fan_iv : internal_vars R := mkIv [] [] None (fun _ => []).
Lemma cb_fan_class : cb_class cb_fan.
Proof. repeat split; reflexivity. Qed.
Lemma cb_fan_faces : cauchy_faces cb_fan = [((0, 1)%nat, cb_map); ((2, 0)%nat, cb_map); ((1, 2)%nat, cb_map)].
Proof.
  unfold cauchy_faces. change (cauchy_bc_info cb_fan) with (Some cb_cauchy). cbn [cb_cauchy]. unfold cauchy_selection. cbn [combine flat_map fst snd].
  unfold cb_fan. destruct (fan_sides (Some cb_force) (Some cb_cauchy)) as [-> ->]. reflexivity.
Qed.
Lemma mid_flux s : cauchy_power cb_fan (mid s) bump = 5 / 8 * (1 + s) ^ 2.
Proof.
  unfold cauchy_power. rewrite cb_fan_faces. cbn [sumR fst snd]. change (num_face_quads (f_ele cb_fan)) with 1%nat. unfold dot_vec. change (vec cb_fan) with 1%nat.
  unfold sumN, cb_map. cbn [seq sumR]. unfold cb_fan. rewrite !fan_length by (cbn; tauto).
  rewrite mid_right. destruct (mid_left (Some cb_force) (Some cb_cauchy) s (0, 1)%nat ltac:(cbn; tauto)) as [-> ->]. destruct (mid_left (Some cb_force) (Some cb_cauchy) s (2, 0)%nat ltac:(cbn; tauto)) as [-> ->]. cbn [fst Nat.eqb]. field.
Qed.
Lemma cb_force_bound x k : 0 <= x 0%nat -> - x 0%nat <= cb_force x k.
Proof.
  intros Hx. unfold cb_force. pose proof (SIN_bound (5 * PI * x 1%nat)) as [H1 _]. set (e := - _ / (2 / 100)). pose proof (exp_pos e). nra.
Qed.
Lemma fan_shape src cau a : (a < 3)%nat -> shape_vals (f_ele (fan src cau)) 0%nat a = 1 / 3.
Proof. intros Ha. destruct a as [|[|[|a]]]; [| | |lia]; cbn; unfold lagrange, coord; cbn; lra. Qed.
Lemma fan_load : - (2 / 9) <= load_work cb_fan [] fan_iv bump.
Proof.
  unfold load_work. replace (neumann_power cb_fan [] fan_iv bump) with 0 by reflexivity. unfold body_power.
  change (num_cells cb_fan) with 3%nat. change (num_quads (f_ele cb_fan)) with 1%nat. unfold dot_vec. change (vec cb_fan) with 1%nat.
  assert (Hq : forall c, at_quad cb_fan bump c 0%nat 0%nat = 1 / 3 * (bump (cell_node cb_fan c 0%nat) 0%nat + bump (cell_node cb_fan c 1%nat) 0%nat + bump (cell_node cb_fan c 2%nat) 0%nat)).
  { intros c. unfold at_quad, convert_from_dof_to_quad. change (num_nodes (f_ele cb_fan)) with 3%nat. unfold sumN. cbn [seq sumR]. unfold cb_fan. rewrite !fan_shape by lia. ring. }
  assert (Hx : forall c, physical_quad_point cb_fan c 0%nat 0%nat = 1 / 3 * (physical_coos cb_fan c 0%nat 0%nat + physical_coos cb_fan c 1%nat 0%nat + physical_coos cb_fan c 2%nat 0%nat)).
  { intros c. unfold physical_quad_point. change (num_nodes (f_ele cb_fan)) with 3%nat. unfold sumN. cbn [seq sumR]. unfold cb_fan. rewrite !fan_shape by lia. ring. }
  assert (B0 : forall c x, physical_quad_point cb_fan c 0%nat 0%nat = x -> 0 <= x -> - x <= body_load cb_fan fan_iv c 0%nat 0%nat).
  { intros c x E Hxx. unfold body_load. cbn [iv_body fan_iv source_info cb_fan fan]. rewrite <- E. apply cb_force_bound. fold cb_fan. rewrite E. exact Hxx. }
  assert (C0 := B0 0%nat (1 / 3) ltac:(rewrite Hx; unfold physical_coos, cell_node; cbn; unfold pt; cbn; lra) ltac:(lra)).
  assert (C1 := B0 1%nat (2 / 3) ltac:(rewrite Hx; unfold physical_coos, cell_node; cbn; unfold pt; cbn; lra) ltac:(lra)).
  assert (C2 := B0 2%nat (1 / 3) ltac:(rewrite Hx; unfold physical_coos, cell_node; cbn; unfold pt; cbn; lra) ltac:(lra)).
  clear B0. unfold sumN. cbn [seq sumR]. rewrite !Hq. assert (Hw : forall c, (c < 3)%nat -> JxW cb_fan c 0%nat = nth c [1/4; 1/2; 1/4] 0) by (intros c Hc; apply (fan_weight (Some cb_force) (Some cb_cauchy) c 0%nat Hc); lia). rewrite !Hw by lia. cbn [nth].
  set (b0 := body_load _ _ 0%nat _ _) in *. set (b1 := body_load _ _ 1%nat _ _) in *. set (b2 := body_load _ _ 2%nat _ _) in *.
  unfold bump, cell_node. cbn [cells cb_fan fan fan_cells nth Nat.eqb]. lra.
Qed.
(** all nodes but the middle one are fixed at 1 *)
Lemma fan_fixed n k : (n < 5)%nat -> (k < 1)%nat -> fixed cb_fan [demo_bottom; cb_top] [0; 0]%nat n k <-> n <> 4%nat.
Proof.
  intros Hn Hk. pose proof (fan_bottom (Some cb_force) (Some cb_cauchy) n Hn) as HB. pose proof (fan_top (Some cb_force) (Some cb_cauchy) n Hn) as HT. fold cb_fan in HB, HT.
  unfold fixed, applies. cbn [length]. split.
  - intros (i & Hi & _ & Hl) ->. destruct i as [|[|i]]; [| |lia]; cbn [nth] in Hl; [rewrite HB in Hl|rewrite HT in Hl]; discriminate Hl.
  - intros H. assert (n < 2 \/ 2 <= n < 4)%nat as [H2|H2] by lia; [exists 0%nat|exists 1%nat]; (split; [lia|]); (split; [cbn; lia|]); cbn [nth]; [rewrite HB|rewrite HT]; clear HB HT; five n; try lia; reflexivity.
Qed.
Lemma mid_solves s : 5 / 2 * (s - 1) + 5 / 8 * (1 + s) ^ 2 = load_work cb_fan [] fan_iv bump ->
  let '(locs, vecs, fns) := cb_dirichlet in discrete_solution cb_fan locs vecs fns [] fan_iv (mid s).
Proof.
  intros He. cbn [cb_dirichlet]. split.
  - intros i n k Hn [Ha _]. change (num_total_nodes cb_fan) with 5%nat in Hn. assert (Hf : fixed cb_fan [demo_bottom; cb_top] [0; 0]%nat n k) by (exists i; exact Ha).
    destruct Ha as (Hi & Hk & _). cbn [length] in Hi. assert (k = 0%nat) by (destruct i as [|[|i]]; cbn in Hk; lia). subst k. apply fan_fixed in Hf; [|exact Hn|lia].
    unfold mid. replace (Nat.eqb n 4) with false by (symmetry; now apply Nat.eqb_neq). destruct i as [|[|i]]; [| |lia]; reflexivity.
  - destruct (fan_loads (Some cb_force) (Some cb_cauchy)) as (Hiv & Hneu & Hfc). fold cb_fan in Hiv, Hneu, Hfc. fold fan_iv in Hiv.
    destruct (virtual_work cb_fan (fan_wf _ _) [] (mid s) fan_iv Hiv ltac:(cbn; lia) Hneu Hfc) as (r & Hr & _). exists r. split; [exact Hr|]. intros n k Hn Hk Hf. change (n < 5)%nat in Hn. change (k < 1)%nat in Hk.
    assert (n = 4%nat) by (destruct (Nat.eq_dec n 4) as [E|E]; [exact E|exfalso; apply Hf; now apply fan_fixed]). subst n. assert (k = 0%nat) by lia. subst k.
    pose proof (full_residual cb_fan [] fan_iv (fan_wf _ _) Hiv ltac:(cbn; lia) Hneu Hfc (mid s) r Hr bump) as H.
    unfold full_power in H. rewrite mid_flux, (power_form cb_fan eq_refl fan_iv) in H. unfold cb_fan at 3 in H. rewrite mid_energy in H.
    change (num_total_nodes cb_fan) with 5%nat in H. change (vec cb_fan) with 1%nat in H. unfold sumN, bump in H. cbn [seq sumR Nat.eqb] in H. fold bump in H. lra.
Qed.
Lemma two_solutions : exists u w, (let '(locs, vecs, fns) := cb_dirichlet in discrete_solution cb_fan locs vecs fns [] fan_iv u /\ discrete_solution cb_fan locs vecs fns [] fan_iv w) /\
  at_face cb_fan u (0, 1)%nat 0%nat 0%nat < 0 < at_face cb_fan w (0, 1)%nat 0%nat 0%nat.
Proof.
  pose proof fan_load as HL. set (f := load_work cb_fan [] fan_iv bump) in HL. set (D := (5 / 2) ^ 2 + 5 / 2 * (5 + f)).
  assert (HD : (5 / 2) ^ 2 < D) by (unfold D; nra). assert (HD0 : 0 <= D) by nra. pose proof (sqrt_sqrt D HD0) as Hs. assert (Hr : 5 / 2 < sqrt D) by (replace (5 / 2) with (sqrt ((5 / 2) ^ 2)) by (apply sqrt_pow2; lra); apply sqrt_lt_1; nra).
  exists (mid (-1 + (- (5 / 2) - sqrt D) / (5 / 4))), (mid (-1 + (- (5 / 2) + sqrt D) / (5 / 4))). split.
  - split; apply mid_solves; fold f; unfold D in Hs at 3; nra.
  - unfold cb_fan. rewrite !(proj1 (mid_left _ _ _ (0, 1)%nat ltac:(cbn; tauto))). lra.
Qed.
(** ** heat exchange on the left side with surroundings at 3, nothing fixed *)
Definition warm (h : R) : (nat -> R) -> nat -> R := fun u k => h * (u k - 3).
Definition warm_fan (h : R) : fem R := fan None (Some ([demo_left], [warm h])).
Definition warm_cjac (h : R) : ((nat -> R) -> nat -> R) -> nodal -> (nat -> nat -> R) -> (nat -> R) -> jac4 :=
  fun _ _ fsv sc a k b l => delta k l * sumN 1 (fun p => h * fsv p b * fsv p a * sc p).
Lemma warm_faces h : cauchy_faces (warm_fan h) = [((0, 1)%nat, warm h); ((2, 0)%nat, warm h)].
Proof.
  unfold cauchy_faces. change (cauchy_bc_info (warm_fan h)) with (Some ([demo_left], [warm h])). cbv iota. unfold cauchy_selection. cbn [combine flat_map fst snd].
  unfold warm_fan. rewrite (proj1 (fan_sides None (Some ([demo_left], [warm h])))). reflexivity.
Qed.
Lemma warm_robin h : robin_flux (warm_fan h) h (warm h).
Proof. intros a k _. unfold warm. ring. Qed.
Lemma warm_snd h x : In x (cauchy_faces (warm_fan h)) -> snd x = warm h.
Proof. rewrite warm_faces. intros [<-|[<-|[]]]; reflexivity. Qed.
Lemma warm_robin_faces h : 0 <= h -> robin_faces (warm_fan h).
Proof. intros Hh x Hx. exists h. split; [exact Hh|]. rewrite (warm_snd h x Hx). apply warm_robin. Qed.
Lemma warm_jacobians h : exact_face_jacobians (warm_fan h) (warm_cjac h).
Proof.
  intros sol x Hx d a k Ha Hk. unfold cauchy_jac. rewrite (warm_snd h x Hx).
  eapply dl_eq; [apply (dl_line (cauchy_kernel (warm_fan h) (warm h) (cells_sol (warm_fan h) sol (fst (fst x))) (face_shape_vals (f_ele (warm_fan h)) (snd (fst x))) (nanson_scale (warm_fan h) (fst x)) a k))| |reflexivity].
  intros t. cbv beta. set (fsv := face_shape_vals _ _). set (sc := nanson_scale _ _). assert (k = 0%nat) by (change (vec (warm_fan h)) with 1%nat in Hk; lia). subst k.
  unfold cauchy_kernel, jac_mul, warm_cjac, add_step, delta, warm. change (num_face_quads (f_ele (warm_fan h))) with 1%nat. change (num_nodes (f_ele (warm_fan h))) with 3%nat. change (vec (warm_fan h)) with 1%nat.
  unfold sumN. cbn [seq sumR Nat.eqb]. ring.
Qed.
Lemma warm_cells h iv : exact_jacobians (warm_fan h) iv (unit_jac (warm_fan h)).
Proof. apply (unit_jac_exact (warm_fan h) (fun _ => poisson_map) eq_refl (poisson_linear _) eq_refl). intros vars G H k d HG Hk Hd. now apply HG. Qed.
Lemma warm_anchored h : 0 < h -> anchored (warm_fan h) (exchanging (warm_fan h)) [] [] 0.
Proof.
  intros Hh n Hn. exists 4%nat. split; [apply (fan_linked None (Some ([demo_left], [warm h])) n 4 Hn); lia|]. split; [cbn; lia|]. right.
  exists ((0, 1)%nat, warm h), 2%nat, 0%nat. split; [rewrite warm_faces; now left|]. split; [exists h; split; [exact Hh|apply warm_robin]|]. split; [cbn; lia|]. split; [reflexivity|]. split; [cbn; lia|].
  cbn [fst]. unfold warm_fan. rewrite fan_length by (cbn; tauto). cbn. lra.
Qed.
Lemma warm_loose k : ~ anchored (warm_fan 0) (exchanging (warm_fan 0)) [] [] k.
Proof.
  intros H. destruct (H 0%nat ltac:(cbn; lia)) as (m & _ & _ & [(i & Hi & _)|(x & a & p & Hx & (h & Hh & Hr) & _)]); [cbn in Hi; lia|].
  rewrite (warm_snd 0 x Hx) in Hr. specialize (Hr (fun _ => 1) 0%nat ltac:(cbn; lia)). unfold warm in Hr. lra.
Qed.
(** the constant temperature 3 is a solution *)
Lemma warm_three h : discrete_solution (warm_fan h) [] [] [] [] fan_iv (fun _ _ => 3).
Proof.
  split; [intros i n k _ [(Hi & _) _]; cbn in Hi; lia|].
  destruct (fan_loads None (Some ([demo_left], [warm h]))) as (Hiv & Hneu & Hfc). fold (warm_fan h) in Hiv, Hneu, Hfc. fold fan_iv in Hiv.
  destruct (virtual_work (warm_fan h) (fan_wf _ _) [] (fun _ _ => 3) fan_iv Hiv ltac:(cbn; lia) Hneu Hfc) as (r & Hr & _). exists r. split; [exact Hr|]. intros n k Hn Hk _. change (n < 5)%nat in Hn. change (k < 1)%nat in Hk. assert (k = 0%nat) by lia. subst k.
  pose proof (full_residual (warm_fan h) [] fan_iv (fan_wf _ _) Hiv ltac:(cbn; lia) Hneu Hfc (fun _ _ => 3) r Hr (fun m _ => if Nat.eqb m n then 1 else 0)) as H.
  assert (Hz : full_power (warm_fan h) fan_iv (fun _ _ => 3) (fun m _ => if Nat.eqb m n then 1 else 0) = 0).
  { unfold full_power. rewrite (power_form (warm_fan h) eq_refl fan_iv), (lp_form (warm_fan h) eq_refl). rewrite (sumN_zero (num_cells (warm_fan h))).
    - unfold cauchy_power. rewrite warm_faces. cbn [sumR fst snd]. change (num_face_quads (f_ele (warm_fan h))) with 1%nat. unfold dot_vec. change (vec (warm_fan h)) with 1%nat. unfold sumN. cbn [seq sumR]. unfold warm.
      rewrite (at_face_const (warm_fan h) ex_basix "TRI3" (fan_mesh _ _) (fun _ _ => 3) (0, 1)%nat 0%nat 0%nat 3) by (cbn; lia || reflexivity).
      rewrite (at_face_const (warm_fan h) ex_basix "TRI3" (fan_mesh _ _) (fun _ _ => 3) (2, 0)%nat 0%nat 0%nat 3) by (cbn; lia || reflexivity). ring.
    - intros c Hc. apply sumN_zero. intros q Hq. rewrite sumN_zero; [ring|]. intros i Hi. apply sumN_zero. intros d Hd.
      rewrite (constant_grad (warm_fan h) ex_basix "TRI3" (fan_mesh _ _) (fun _ _ => 3) c q i d 3 Hc Hq (fun _ _ => eq_refl)). ring. }
  rewrite Hz in H. replace (load_work _ _ _ _) with 0 in H.
  - change (num_total_nodes (warm_fan h)) with 5%nat in H. change (vec (warm_fan h)) with 1%nat in H. unfold sumN in H. cbn [seq sumR] in H. five n; cbn [Nat.eqb] in H; lra.
  - unfold load_work. replace (neumann_power (warm_fan h) [] fan_iv (fun m _ => if Nat.eqb m n then 1 else 0)) with 0 by reflexivity. rewrite Rplus_0_r. unfold body_power. symmetry. apply sumN_zero. intros c _. apply sumN_zero. intros q _. unfold dot_vec. rewrite sumN_zero; [ring|]. intros i _. unfold body_load. cbn [iv_body fan_iv source_info warm_fan fan]. ring.
Qed.
(** the third power grows *)
Lemma cubic_monotone (F : fem R) : vec F = 1%nat -> monotone_flux F (fun u k => u k ^ 3) /\ strict_flux F (fun u k => u k ^ 3) 0.
Proof.
  intros Hv. assert (P : forall x y : R, (x ^ 3 - y ^ 3) * (x - y) = (x - y) ^ 2 * ((x + y / 2) ^ 2 + 3 / 4 * y ^ 2)) by (intros; field).
  split.
  - intros a b. unfold dot_vec. rewrite Hv. unfold sumN. cbn [seq sumR]. rewrite P. pose proof (pow2_ge_0 (a 0%nat - b 0%nat)). pose proof (pow2_ge_0 (a 0%nat + b 0%nat / 2)). pose proof (pow2_ge_0 (b 0%nat)). nra.
  - intros a b. unfold dot_vec. rewrite Hv. unfold sumN. cbn [seq sumR]. rewrite P, Rplus_0_r. intros H. apply Rmult_integral in H as [H|H].
    + assert (a 0%nat - b 0%nat = 0) by (apply NNPP; intros Hn; pose proof (pow_nonzero _ 2 Hn); contradiction). lra.
    + pose proof (pow2_ge_0 (a 0%nat + b 0%nat / 2)). pose proof (pow2_ge_0 (b 0%nat)). assert (Hb : b 0%nat ^ 2 = 0) by lra. assert (b 0%nat = 0) by (apply NNPP; intros Hn; pose proof (pow_nonzero _ 2 Hn); contradiction).
      assert (Ha : (a 0%nat + b 0%nat / 2) ^ 2 = 0) by lra. assert (a 0%nat + b 0%nat / 2 = 0) by (apply NNPP; intros Hn; pose proof (pow_nonzero _ 2 Hn); contradiction). lra.
Qed.
Close Scope R_scope.
