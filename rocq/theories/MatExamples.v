(** * Concrete problems meeting the hypotheses of the theorems about material models. *)
From Coq Require Import Lra Lia String.
From Verif Require Import Prelude PreludeFacts FemModel FemFacts FemSpec FemProofs FemAsmProofs FemGeoProofs FemExamples
  MatModel MatSpec MatProofs MatPlasticProofs MatFemProofs MatHyperProofs MatPostProofs MatThermoProofs MatTopProofs MatFractureProofs MatLawProofs.
Open Scope R_scope.

(** the unit square cut into two triangles *)
Definition square_fem {V : Type} (k : nat) tm mm nb : fem V := mkFem tri3 4 square_pts square_cells k tm mm (fun u => u) None nb None.
Lemma sq_wf {V} k tm mm nb : wf_mesh (@square_fem V k tm mm nb).
Proof. repeat constructor. Qed.
Lemma sq_weights {V} k tm mm nb c q : (c < 2)%nat -> (q < 1)%nat -> JxW (@square_fem V k tm mm nb) c q = / 2.
Proof.
  intros Hc Hq. lt_cases q. lt_cases c; unfold JxW, jacobian_det, jacobian_dx_deta, physical_coos, cell_node, sumN; cbn; unfold square_pts, pick3, pick2, pick; cbn; lra.
Qed.
Lemma sq_positive {V} k tm mm nb : positive_weights (@square_fem V k tm mm nb).
Proof. intros c q Hc Hq. rewrite sq_weights by assumption. lra. Qed.
Lemma sq_volume {V} k tm mm nb : volume (@square_fem V k tm mm nb) = 1.
Proof. unfold volume. change (num_cells (@square_fem V k tm mm nb)) with 2%nat. unfold sumN. cbn [seq sumR]. change (num_quads (f_ele (@square_fem V k tm mm nb))) with 1%nat. cbn [seq sumR]. rewrite !sq_weights by lia. lra. Qed.
Lemma sq_tables {V} k tm mm nb : fem_tables (@square_fem V k tm mm nb).
Proof.
  split; [right; now left|]. split; [|split; [|split]].
  - intros q j Hq Hj; cbn in Hq, Hj; lt_cases q; lt_cases j; crunch.
  - intros q Hq; cbn in Hq; lt_cases q; crunch.
  - intros f p Hf Hp; cbn in Hf, Hp; lt_cases p; lt_cases f; crunch.
  - intros c q Hc Hq; cbn in Hc, Hq; lt_cases q; lt_cases c; crunch.
Qed.
Definition elastic_fem : fem unit := square_fem 2 (Some (fun _ => linear_elastic_stress 2)) None None.
Lemma ex_elastic : elastic_problem elastic_fem no_vars [] .
Proof. split; [apply sq_wf|]. repeat split; try constructor; try (cbn; lia). Qed.
Definition plastic_fem : fem mat := square_fem 2 (Some (plastic_tensor_map 2)) None None.
Lemma ex_plastic : plastic_problem plastic_fem [].
Proof. split; [apply sq_wf|]. repeat split; try constructor; try (cbn; lia). Qed.
Definition bottom_face : list (nat * nat) := [(0, 2)]%nat.
Definition heat_fem : fem (nat -> R) := square_fem 1 (Some thermal_tensor_map) (Some (thermal_mass_map (/ 10))) (Some [neumann_walls]).
Lemma ex_heat : heat_problem heat_fem (/ 10) [bottom_face].
Proof. split; [apply sq_wf|]. repeat split; try constructor; try (cbn; lia); repeat constructor. Qed.
Definition damage_fem : fem R := square_fem 1 (Some (fun _ => phase_tensor_map)) (Some phase_mass_of) None.
Lemma ex_damage : damage_problem damage_fem [].
Proof. split; [apply sq_wf|]. repeat split; try constructor; try (cbn; lia). Qed.
(** quarter turn *)
Definition quarter : mat := fun i j => match i, j with 0%nat, 1%nat => -1 | 1%nat, 0%nat => 1 | 2%nat, 2%nat => 1 | _, _ => 0 end.
Lemma quarter_rotation : rotation 3 quarter /\ rotation 2 quarter.
Proof.
  split; (split; [split|]).
  1,2: intros i j Hi Hj; unfold matmul, transpose, sumN; lt_cases i; lt_cases j; cbn; unfold identity; cbn; lra.
  - cbn; lra.
  - intros i j Hi Hj; unfold matmul, transpose, sumN; lt_cases i; lt_cases j; cbn; unfold identity; cbn; lra.
  - intros i j Hi Hj; unfold matmul, transpose, sumN; lt_cases i; lt_cases j; cbn; unfold identity; cbn; lra.
  - cbn; lra.
Qed.
(** stretch by a in the first direction *)
Definition stretch (a : R) : mat := fun i j => if Nat.eqb i j then (if Nat.eqb i 0 then a else 1) else 0.
(** two diagonal directions *)
Definition diagonal (a b c : R) : mat := fun i j => match i, j with 0%nat, 0%nat => a | 1%nat, 1%nat => b | 2%nat, 2%nat => c | _, _ => 0 end.
Lemma diagonal_eigen a b c : eigen_of 3 (diagonal a b c) (pick [a; b; c]) identity.
Proof.
  split; [split|]; intros i j Hi Hj; unfold matmul, transpose, identity, sumN; lt_cases i; lt_cases j; cbn; lra.
Qed.

(** ** a tetrahedron whose first face is its top, and one whose first face is its bottom *)
Definition tet_traction (pts : list (list R)) : fem unit :=
  mkFem tet_ele 4 (pick2 pts) [[0; 1; 2; 3]]%nat 3 (Some (fun _ => linear_elastic_stress 3)) None (fun u => u) None None None.
Definition top_tet : fem unit := tet_traction [[0; 0; 0]; [0; 1; 0]; [1; 0; 0]; [0; 0; -1]].
Definition bottom_tet : fem unit := tet_traction [[0; 0; 0]; [1; 0; 0]; [0; 1; 0]; [0; 0; 1]].
Definition ground (x : point) : bool := Reqb (x 2%nat) 0.
Lemma tet_faces : boundary_inds top_tet ground = [(0, 0)]%nat /\ boundary_inds bottom_tet ground = [(0, 0)]%nat.
Proof.
  assert (R0 : Reqb 0 0 = true) by now apply Reqb_true.
  split; unfold boundary_inds, boundary_flag, physical_coos, cell_node, ground; cbn -[Reqb]; unfold pick2, pick; cbn -[Reqb]; rewrite ?R0; reflexivity.
Qed.
Lemma top_normal p : unit_normal top_tet (0, 0)%nat p 0%nat = 0 /\ unit_normal top_tet (0, 0)%nat p 1%nat = 0 /\ unit_normal top_tet (0, 0)%nat p 2%nat = 1
  /\ det 3 (face_jacobian top_tet (0, 0)%nat p) = 1 /\ nanson_scale top_tet (0, 0)%nat p = / 2.
Proof.
  assert (D0 : normal_dir top_tet (0, 0)%nat p 0%nat = 0 /\ normal_dir top_tet (0, 0)%nat p 1%nat = 0 /\ normal_dir top_tet (0, 0)%nat p 2%nat = 1).
  { unfold normal_dir, inv, face_jacobian, physical_coos, cell_node, sumN. cbn. unfold pick2, pick. cbn. repeat split; field. }
  destruct D0 as (A & B & C). unfold unit_normal. change (dim top_tet) with 3%nat. unfold sumN. cbn [seq sumR]. rewrite A, B, C.
  replace (0 ^ 2 + (0 ^ 2 + (1 ^ 2 + 0))) with 1 by ring. rewrite sqrt_1. split; [lra|]. split; [lra|]. split; [lra|].
  assert (D1 : det 3 (face_jacobian top_tet (0, 0)%nat p) = 1) by (unfold face_jacobian, physical_coos, cell_node, sumN; cbn; unfold pick2, pick; cbn; ring).
  split; [exact D1|]. unfold nanson_scale. change (dim top_tet) with 3%nat. rewrite D1.
  change (fun j => sumN 3 (fun i => face_normals (f_ele top_tet) (snd (0, 0)%nat) i * inv 3 (face_jacobian top_tet (0, 0)%nat p) i j) ^ 2) with (fun j => normal_dir top_tet (0, 0)%nat p j ^ 2).
  unfold sumN. cbn [seq sumR]. rewrite A, B, C. replace (0 ^ 2 + (0 ^ 2 + (1 ^ 2 + 0))) with 1 by ring. rewrite sqrt_1. cbn. lra.
Qed.
Lemma bottom_normal p : unit_normal bottom_tet (0, 0)%nat p 0%nat = 0 /\ unit_normal bottom_tet (0, 0)%nat p 1%nat = 0 /\ unit_normal bottom_tet (0, 0)%nat p 2%nat = -1
  /\ det 3 (face_jacobian bottom_tet (0, 0)%nat p) = 1 /\ nanson_scale bottom_tet (0, 0)%nat p = / 2.
Proof.
  assert (D0 : normal_dir bottom_tet (0, 0)%nat p 0%nat = 0 /\ normal_dir bottom_tet (0, 0)%nat p 1%nat = 0 /\ normal_dir bottom_tet (0, 0)%nat p 2%nat = -1).
  { unfold normal_dir, inv, face_jacobian, physical_coos, cell_node, sumN. cbn. unfold pick2, pick. cbn. repeat split; field. }
  destruct D0 as (A & B & C). unfold unit_normal. change (dim bottom_tet) with 3%nat. unfold sumN. cbn [seq sumR]. rewrite A, B, C.
  replace (0 ^ 2 + (0 ^ 2 + ((-1) ^ 2 + 0))) with 1 by ring. rewrite sqrt_1. split; [lra|]. split; [lra|]. split; [lra|].
  assert (D1 : det 3 (face_jacobian bottom_tet (0, 0)%nat p) = 1) by (unfold face_jacobian, physical_coos, cell_node, sumN; cbn; unfold pick2, pick; cbn; ring).
  split; [exact D1|]. unfold nanson_scale. change (dim bottom_tet) with 3%nat. rewrite D1.
  change (fun j => sumN 3 (fun i => face_normals (f_ele bottom_tet) (snd (0, 0)%nat) i * inv 3 (face_jacobian bottom_tet (0, 0)%nat p) i j) ^ 2) with (fun j => normal_dir bottom_tet (0, 0)%nat p j ^ 2).
  unfold sumN. cbn [seq sumR]. rewrite A, B, C. replace (0 ^ 2 + (0 ^ 2 + ((-1) ^ 2 + 0))) with 1 by ring. rewrite sqrt_1. cbn. lra.
Qed.
Lemma tet_grads : face_grads_sum_zero top_tet /\ face_grads_sum_zero bottom_tet.
Proof. split; intros f p j Hf Hp Hj; cbn in Hj; unfold sumN; lt_cases j; cbn; unfold pick2, pick; cbn; lra. Qed.
(** pulling up: u = (0, 0, z) *)
Definition pull_up : mat := diagonal 0 0 1.

(** ** one loaded degree of freedom: the vertical displacement of the corner (0, 0) *)
Definition plate_fem (load : point -> nat -> R) : fem (list R) := square_fem 2 (Some (case_tensor_map (PlaneStress 3) 2)) None (Some [fun x _ => load x]).
Lemma ex_plate load : topopt_problem (plate_fem load) (PlaneStress 3) bottom_face load.
Proof. split; [apply sq_wf|]. repeat split; try constructor; try (cbn; lia); try lra; repeat constructor. Qed.
Definition corner : nodal := fun n k => if Nat.eqb n 0 && Nat.eqb k 1 then 1 else 0.
Definition all_but_corner (n k : nat) : bool := negb (Nat.eqb n 0 && Nat.eqb k 1).
(** stiffness of that degree of freedom for a unit modulus *)
Definition corner_stiffness : R := 100 / 91 * (27 / 40).
Definition plate_load (E : R) : point -> nat -> R := fun _ k => if Nat.eqb k 1 then 2 * (E * corner_stiffness) else 0.
Lemma corner_compliance E v : (forall n k, v n k = v 0%nat 1%nat * corner n k) ->
  compute_compliance (plate_fem (plate_load E)) bottom_face (plate_load E) v = E * corner_stiffness * v 0%nat 1%nat.
Proof.
  intros Hv. unfold compute_compliance, bottom_face. cbn [sumR fst snd]. change (num_face_quads (f_ele (plate_fem (plate_load E)))) with 1%nat.
  change (vec (plate_fem (plate_load E))) with 2%nat. change (num_nodes (f_ele (plate_fem (plate_load E)))) with 3%nat. unfold sumN. cbn [seq sumR].
  change (nanson_scale (plate_fem (plate_load E)) (0, 2)%nat 0%nat) with (nanson_scale fem_scalar (0, 2)%nat 0%nat). rewrite ex_bottom_length.
  unfold plate_load. cbn [Nat.eqb]. unfold cell_node. cbn [cells plate_fem square_fem square_cells nth].
  rewrite (Hv 0%nat 0%nat), (Hv 1%nat 0%nat), (Hv 2%nat 0%nat), (Hv 1%nat 1%nat), (Hv 2%nat 1%nat). unfold corner. cbn. unfold pick3, pick2, pick. cbn. lra.
Qed.
Lemma corner_energy load u v : (forall n k, u n k = u 0%nat 1%nat * corner n k) -> (forall n k, v n k = v 0%nat 1%nat * corner n k) ->
  sumN 2 (fun c => sumN 1 (fun q => JxW (plate_fem load) c q * ddot 2 (plane_unit (sol_to_grad (plate_fem load) u c q)) (sol_to_grad (plate_fem load) v c q)))
  = corner_stiffness * u 0%nat 1%nat * v 0%nat 1%nat.
Proof.
  intros Hu Hv. unfold sumN at 1 2. cbn [seq sumR]. unfold plate_fem. rewrite !sq_weights by lia.
  assert (G : forall c (w : nodal), (forall n k, w n k = w 0%nat 1%nat * corner n k) -> (c < 2)%nat ->
    let g := sol_to_grad (plate_fem load) w c 0%nat in g 0%nat 0%nat = 0 /\ g 0%nat 1%nat = 0
    /\ g 1%nat 0%nat = (if Nat.eqb c 0 then - w 0%nat 1%nat else 0) /\ g 1%nat 1%nat = (if Nat.eqb c 0 then 0 else - w 0%nat 1%nat)).
  { intros c w Hw Hc. cbv zeta. unfold sol_to_grad, cells_sol, shape_grads, jacobian_deta_dx, inv, jacobian_dx_deta, physical_coos, cell_node, sumN.
    lt_cases c; cbn; rewrite ?(Hw 0%nat 0%nat), ?(Hw 1%nat 0%nat), ?(Hw 2%nat 0%nat), ?(Hw 3%nat 0%nat), ?(Hw 1%nat 1%nat), ?(Hw 2%nat 1%nat), ?(Hw 3%nat 1%nat); unfold corner, square_pts, pick3, pick2, pick; cbn; repeat split; field. }
  destruct (G 0%nat u Hu ltac:(lia)) as (A1 & A2 & A3 & A4). destruct (G 1%nat u Hu ltac:(lia)) as (B1 & B2 & B3 & B4).
  destruct (G 0%nat v Hv ltac:(lia)) as (C1 & C2 & C3 & C4). destruct (G 1%nat v Hv ltac:(lia)) as (D1 & D2 & D3 & D4). cbn [Nat.eqb] in *.
  unfold plate_fem in *. unfold ddot, sumN. cbn [seq sumR]. unfold plane_unit, strain.
  rewrite A1, A2, A3, A4, B1, B2, B3, B4, C1, C2, C3, C4, D1, D2, D3, D4. unfold corner_stiffness, nu. field.
Qed.
Close Scope R_scope.
