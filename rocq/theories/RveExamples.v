(** * A concrete representative volume element: eight hexahedra in the unit cube. *)
From Coq Require Import String Lra Lia FunctionalExtensionality.
From Verif Require Import Prelude PreludeFacts FemModel FemFacts FemSpec FemGeoProofs SolverModel SolverSpec SolverFemProofs MatModel MatSpec MatProofs MatHyperProofs BasisModel BasisSpec BasisProofs BasisQuadProofs BasisExamples CrysSpec CrysDiffProofs RveModel RveSpec RveProofs RveMeanProofs RveDataProofs RveSolveProofs.
From Verif Require MeshModel MeshProofs.
Open Scope R_scope.

Definition hex_E : ele := match element_tables ex_basix "HEX8" with Ok E => E | Err _ => tet_E end.
Lemma hex_E_ok : element_tables ex_basix "HEX8" = Ok hex_E.
Proof. unfold hex_E. destruct (element_tables_ok ex_basix ex_documented "HEX8" ltac:(cbn; tauto)) as (fi & _ & E). rewrite E. reflexivity. Qed.
(** N^3 elements in a cube of side len *)
Definition cube {V} (N : nat) (len : R) (tm : list V -> mat -> mat) : fem V :=
  let m := MeshModel.box_mesh N N N len len len in
  mkFem hex_E (List.length (MeshModel.points m))
    (fun n d => let '(x, y, z) := nth n (MeshModel.points m) (0, 0, 0) in match d with 0%nat => x | 1%nat => y | _ => z end)
    (MeshModel.cells m) 3 (Some tm) None (fun u => u) None None None.
Lemma cube_mesh {V} N len (tm : list V -> mat -> mat) : let m := MeshModel.box_mesh N N N len len len in has_mesh3 (cube N len tm) (MeshModel.points m) (MeshModel.cells m).
Proof. split; [reflexivity|]. intros n x y z H. unfold cube. cbn [points]. rewrite (nth_error_nth _ _ _ H). auto. Qed.
Lemma cube_shape {V} N len (tm : list V -> mat -> mat) : dim (cube N len tm) = 3%nat /\ num_nodes (f_ele (cube N len tm)) = 8%nat.
Proof. destruct (dims ex_basix ex_documented (cube N len tm) "HEX8" ltac:(cbn; tauto) hex_E_ok) as (-> & -> & _). split; reflexivity. Qed.
Lemma cube_wf {V} len (tm : list V -> mat -> mat) : wf_mesh (cube 2 len tm).
Proof.
  unfold wf_mesh. rewrite (proj2 (cube_shape 2 len tm)). unfold cube. cbn [cells num_total_nodes]. 
  change (List.length (MeshModel.points (MeshModel.box_mesh 2 2 2 len len len))) with 27%nat. vm_compute. repeat (constructor; [split; [reflexivity|repeat (constructor; [lia|]); constructor]|]). constructor.
Qed.
Lemma cube_count {V} len (tm : list V -> mat -> mat) : num_cells (cube 2 len tm) = 8%nat.
Proof. reflexivity. Qed.
Lemma cube_fine : / 100000 * (1 + 1) < 1 / INR 2.
Proof. cbn [INR]. lra. Qed.
(** the gradient of the energy exists *)
Definition P_ex (E nu : R) : mat -> mat := PK 3 (E / (2 * (1 + nu))) (E / (3 * (1 - 2 * nu))).
Lemma P_ex_ok : psi_contract P_ex.
Proof. intros E nu. apply PK_is_grad. unfold small_dim. auto. Qed.
(** matrix material only, no forces besides the internal ones *)
Definition jac0 : nodal -> (nat -> nat -> nat -> R) -> (nat -> R) -> (nat -> nat -> nat -> R) -> list (nat -> R) -> list (nat -> R) -> jac4 := fun _ _ _ _ _ _ _ _ _ _ => 0.
Definition cjac0 : ((nat -> R) -> nat -> R) -> nodal -> (nat -> nat -> R) -> (nat -> R) -> jac4 := fun _ _ _ _ _ _ _ _ => 0.
Definition cell_fem (H : mat) : fem R := cube 2 1 (rve_tensor_map P_ex H).
Lemma cell_internal g info H : only_internal (cell_fem H) (moduli_vars (cell_fem H) g info).
Proof. repeat split; reflexivity. Qed.
Lemma cell_problem g info H : exists P, fem_problem (cell_fem H) [] (moduli_vars (cell_fem H) g info) jac0 cjac0 (Some rve_dirichlet) (Some (rve_periodic 1)) None = Ok P.
Proof.
  destruct (dirichlet_corner (cell_fem H) 2 1 ltac:(lia) ltac:(lra) (cube_mesh 2 1 _) eq_refl (proj1 (cube_shape 2 1 _)) cube_fine) as (nl & vl & xl & Hd & _).
  destruct (conditions_found (cell_fem H) 2 1 ltac:(lia) ltac:(lra) (cube_mesh 2 1 _) eq_refl (proj1 (cube_shape 2 1 _)) cube_fine) as (l & Hl & _).
  unfold fem_problem. rewrite Hd. cbn [bind]. rewrite Hl. cbn [bind]. eexists. reflexivity.
Qed.
(** stretch by 1 + t in the first direction *)
Definition stretch (s : R) : mat := fun i j => if Nat.eqb i 0 && Nat.eqb j 0 then s else 0.
Lemma stretch_oriented s c q : 0 < 1 + s -> 0 < det 3 (total (cell_fem (stretch s)) (stretch s) zeros c q).
Proof.
  intros Hs. replace (total (cell_fem (stretch s)) (stretch s) zeros c q) with (fun i j => eye i j + stretch s i j).
  - unfold det, eye, stretch. cbn [Nat.eqb andb]. lra.
  - extensionality a. extensionality b. unfold total, sol_to_grad, zeros. rewrite sumN_zero by (intros; ring). ring.
Qed.
Lemma stretch_path s : path (fun t => stretch (s + t)) (stretch 1).
Proof.
  intros i j _ _. unfold stretch. destruct (_ && _); [|apply dl_const]. eapply dl_eq; [apply (dl_line s 1)|intros t; cbn beta; ring|reflexivity].
Qed.
(** a quadratic network: nn C = sum of (C_n - 1)^2 over the diagonal *)
Definition nn_ex (C : nat -> R) : R := (C 0%nat - 1) * (C 0%nat - 1) + (C 1%nat - 1) * (C 1%nat - 1) + (C 2%nat - 1) * (C 2%nat - 1).
Definition dnn_ex (C : nat -> R) (n : nat) : R := if Nat.ltb n 3 then 2 * (C n - 1) else 0.
Lemma nn_ex_ok : nn_grad nn_ex dnn_ex.
Proof.
  intros X X' H.
  assert (A : forall n, (n < 3)%nat -> derivable_pt_lim (fun t => (X t n - 1) * (X t n - 1)) 0 (2 * (X 0 n - 1) * X' n)).
  { intros n Hn. assert (D : derivable_pt_lim (fun t => X t n - 1) 0 (X' n)).
    { eapply dl_eq; [apply dl_sub; [apply (H n); lia|apply (dl_const 1)]|reflexivity|ring]. }
    eapply dl_eq; [apply (dl_mul (fun t => X t n - 1) (fun t => X t n - 1) _ _ _ D D)|reflexivity|ring]. }
  eapply dl_eq; [apply dl_add; [apply dl_add; [apply (A 0%nat); lia|apply (A 1%nat); lia]|apply (A 2%nat); lia]|reflexivity|].
  unfold sumN, dnn_ex. cbn [seq sumR]. change (Nat.ltb 0 3) with true. change (Nat.ltb 1 3) with true. change (Nat.ltb 2 3) with true. change (Nat.ltb 3 3) with false. change (Nat.ltb 4 3) with false. change (Nat.ltb 5 3) with false. cbv iota. ring.
Qed.
(** its gradient *)
Lemma nn_has_grad nn dnn : nn_grad nn dnn ->
  is_grad 3 (psi_nn nn) (fun _ => True) (fun D i j => 2 * matmul 3 D (half_sym (dnn (tensor_to_flat (matmul 3 (transpose D) D)))) i j).
Proof. intros Hn D i j _ Hi Hj. now apply nn_derivative. Qed.
(** three samples taken in order, energy = first component *)
Definition samples3 : list (nat -> R) := [fun _ => 1; fun _ => 2; fun _ => 3].
Definition choose_first (_ : nat) (l : list nat) : nat := hd 0%nat l.
Definition energy00 (H : mat) (_ : unit) : R := H 0%nat 0%nat.
Close Scope R_scope.
