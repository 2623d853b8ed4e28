(** * Concrete box meshes for the examples. *)
From Coq Require Import String Lra Lia.
From Verif Require Import Prelude PreludeFacts FemModel FemFacts FemSpec FemGeoProofs BasisModel BasisSpec BasisQuadProofs BasisExamples FemMatProofs SolverModel SolverSpec SolverFemProofs SolverExamples MatModel MatSpec CrysSpec RveModel RveSpec RveProofs RveExamples BoxSpec BoxProofs BoxPatchProofs BoxRveProofs.
From Verif Require MeshModel.
Open Scope R_scope.
Open Scope list_scope.

Definition brick {V} (Nx Ny Nz : nat) (Lx Ly Lz : R) (tm : list V -> mat -> mat) (neu : option (list (point -> list V -> nat -> R))) : fem V :=
  let m := MeshModel.box_mesh Nx Ny Nz Lx Ly Lz in
  mkFem hex_E (List.length (MeshModel.points m))
    (fun n d => let '(x, y, z) := nth n (MeshModel.points m) (0, 0, 0) in match d with 0%nat => x | 1%nat => y | _ => z end)
    (MeshModel.cells m) 3 (Some tm) None (fun u => u) None neu None.
Lemma brick_mesh {V} Nx Ny Nz Lx Ly Lz (tm : list V -> mat -> mat) neu : let m := MeshModel.box_mesh Nx Ny Nz Lx Ly Lz in
  has_mesh3 (brick Nx Ny Nz Lx Ly Lz tm neu) (MeshModel.points m) (MeshModel.cells m).
Proof. split; [reflexivity|]. intros n x y z H. unfold brick. cbn [points]. rewrite (nth_error_nth _ _ _ H). auto. Qed.
(** a bar of 1 x 2 x 3 elements, 2 x 3 x 1 long, stress three times the gradient, pulled at x = 2 *)
Definition three_times (_ : list R) (G : mat) : mat := fun i j => 3 * G i j.
Definition pull : point -> list R -> nat -> R := fun _ _ k => match k with 0%nat => 3 | _ => 0 end.
Definition bar : fem R := brick 1 2 3 2 3 1 three_times (Some [pull]).
Definition far_end : point -> bool := fun p => Reqb (p 0%nat) 2.
Definition no_vars : internal_vars R := mkIv [] [] None (fun _ => []).
Lemma far_end_ok : picks_plane bar far_end 0 2.
Proof. intros n _. unfold far_end. apply Reqb_true. Qed.
Definition e00 : mat := fun i j => match i, j with 0%nat, 0%nat => 1 | _, _ => 0 end.
Lemma bar_stress b c q k d : (c < num_cells bar)%nat -> (q < num_quads (f_ele bar))%nat -> (d < 3)%nat ->
  stress bar no_vars (affine_field bar b e00) c q k d = 3 * e00 k d.
Proof.
  intros Hc Hq Hd. unfold stress. cbn [tensor_map bar brick]. unfold three_times. f_equal.
  exact (box_affine_grad ex_basix ex_documented bar 1 2 3 2 3 1 ltac:(lia) ltac:(lia) ltac:(lia) ltac:(lra) ltac:(lra) ltac:(lra) (brick_mesh _ _ _ _ _ _ _ _) eq_refl hex_E_ok b e00 c q k d Hc Hq Hd).
Qed.
(** one hexahedron between the grips of the tensile test *)
Definition grip : fem R := brick 1 1 1 1 1 1 (dns_tensor_map P_ex) None.
Definition z_stretch (s : R) : mat := fun i j => if Nat.eqb i 2 && Nat.eqb j 2 then s else 0.
Definition stretched (s : R) : nodal := fun n k => if Nat.eqb k 2 then s * points grip n 2%nat else 0.
Definition grip_problem (rel t : R) : problem :=
  match fem_problem grip [] (moduli_vars grip (default_args 1 1 1) AllOut) jac0 cjac0 (Some (tensile_dirichlet 1 (rel + t))) None None with Ok p => p | Err _ => per 4 end.
Lemma grip_ok rel t : fem_problem grip [] (moduli_vars grip (default_args 1 1 1) AllOut) jac0 cjac0 (Some (tensile_dirichlet 1 (rel + t))) None None = Ok (grip_problem rel t).
Proof. reflexivity. Qed.
Lemma stretched_path rel : nodal_path (fun t => stretched (rel + t)) (stretched 1).
Proof.
  intros n k. unfold stretched. destruct (Nat.eqb k 2); [|apply dl_const].
  eapply dl_eq; [apply (dl_line (rel * points grip n 2%nat) (1 * points grip n 2%nat))|intros t; cbn beta; ring|reflexivity].
Qed.
Lemma stretched_affine s n k : (k < 3)%nat -> stretched s n k = affine_field grip (fun _ => 0) (z_stretch s) n k.
Proof.
  intros Hk. unfold stretched, affine_field, z_stretch. rewrite (proj1 (box_dim ex_basix ex_documented grip hex_E_ok)). unfold sumN. cbn [seq sumR Nat.eqb]. destruct k as [|[|[|k]]]; try lia; cbn [Nat.eqb andb]; ring.
Qed.
Lemma stretched_grad s c q i j : (c < num_cells grip)%nat -> (q < num_quads (f_ele grip))%nat -> (i < 3)%nat -> (j < 3)%nat -> sol_to_grad grip (stretched s) c q i j = z_stretch s i j.
Proof.
  intros Hc Hq Hi Hj. rewrite <- (box_affine_grad ex_basix ex_documented grip 1 1 1 1 1 1 ltac:(lia) ltac:(lia) ltac:(lia) ltac:(lra) ltac:(lra) ltac:(lra) (brick_mesh _ _ _ _ _ _ _ _) eq_refl hex_E_ok (fun _ => 0) (z_stretch s) c q i j Hc Hq Hj).
  unfold sol_to_grad. apply sumN_ext. intros a _. now rewrite stretched_affine.
Qed.
Lemma stretched_oriented s : 0 < 1 + s -> orientation grip mzero (stretched s).
Proof.
  intros Hs c q Hc Hq. unfold total, mzero. cbn [det]. rewrite !stretched_grad by (assumption || lia). unfold z_stretch, eye. cbn [Nat.eqb andb]. lra.
Qed.
Lemma grip_level n : (n < num_total_nodes grip)%nat -> points grip n 2%nat = 0 \/ points grip n 2%nat = 1.
Proof.
  intros Hn. destruct (node_surj grip 1 1 1 1 1 1 eq_refl n Hn) as (i & j & k & Hi & Hj & Hk & ->).
  rewrite (node_point grip 1 1 1 1 1 1 ltac:(lia) ltac:(lia) ltac:(lia) (brick_mesh _ _ _ _ _ _ _ _) eq_refl i j k 2 Hi Hj Hk ltac:(lia)).
  cbn [along]. destruct k as [|[|k]]; [left; cbn [INR]; field|right; cbn [INR]; field|lia].
Qed.
Lemma plane_at x n : (x = 0 \/ x = 1) -> (n < num_total_nodes grip)%nat -> (on_plane 2 x (points grip n) = true <-> points grip n 2%nat = x).
Proof.
  intros Hx Hn. assert (Hh : exists hi, x = side_coord 1 1 1 (2%nat, hi)) by (destruct Hx as [-> | ->]; [exists false|exists true]; reflexivity). destruct Hh as [hi ->].
  exact (isclose_side grip 1 1 1 1 1 1 ltac:(lia) ltac:(lia) ltac:(lia) ltac:(lra) ltac:(lra) ltac:(lra) (brick_mesh _ _ _ _ _ _ _ _) eq_refl _ 2 hi ltac:(lia) ltac:(cbn [along INR]; lra) eq_refl n Hn).
Qed.
Lemma grip_held rel t : constraints_hold (grip_problem rel t) (stretched (rel + t)).
Proof.
  split.
  - intros n k x Hx. apply (tensile_in grip (default_args 1 1 1) AllOut [] jac0 cjac0 1 rel None (grip_problem rel) (grip_ok rel)) in Hx as (Hn & i & Hi & -> & Hl & ->).
    unfold stretched. do 6 (destruct i as [|i]; [cbn [nth fst snd tensile_dirichlet] in *; cbn [Nat.eqb]; first [reflexivity | (apply plane_at in Hl; [rewrite Hl; ring|auto|exact Hn])]|]). lia.
  - intros a b k [].
Qed.
Lemma grip_equilibrium rel : in_equilibrium (grip_problem rel 0) (stretched (rel + 0)).
Proof.
  destruct (newton_spec grip (box_wf ex_basix ex_documented grip 1 1 1 1 1 1 ltac:(lia) ltac:(lia) ltac:(lia) (brick_mesh _ _ _ _ _ _ _ _) eq_refl hex_E_ok) jac0 cjac0 [] (stretched (rel + 0)) (moduli_vars grip (default_args 1 1 1) AllOut)) as (r & ijv & H1 & _).
  - apply moduli_sized.
  - cbn. lia.
  - exact I.
  - intros ? [].
  - exists r, ijv. split; [exact H1|]. intros n k [Hn Hk] Hp. exfalso. change (num_nodes_p (grip_problem rel 0)) with (num_total_nodes grip) in Hn. change (pvec (grip_problem rel 0)) with 3%nat in Hk.
    unfold prescribed in Hp. destruct (find _ _) eqn:Ef in Hp; [discriminate|]. 
    assert (Hno : forall x, ~ In ((n, k), x) (conditions (grip_problem rel 0))).
    { intros x Hx. apply in_rev in Hx. pose proof (find_none _ _ Ef _ Hx) as Hf. cbn [fst snd] in Hf. rewrite !Nat.eqb_refl in Hf. discriminate. }
    assert (Hi : exists i, (i < 6)%nat /\ k = nth i [0; 1; 2; 0; 1; 2]%nat 0%nat /\ nth i (fst (fst (tensile_dirichlet 1 rel))) (fun _ => false) (points grip n) = true).
    { destruct (grip_level n Hn) as [Hz | Hz].
      - exists k. destruct k as [|[|[|k]]]; try lia; (split; [lia|]; split; [reflexivity|]); cbn [nth fst tensile_dirichlet]; apply plane_at; auto.
      - exists (3 + k)%nat. destruct k as [|[|[|k]]]; try lia; (split; [lia|]; split; [reflexivity|]); cbn [nth fst tensile_dirichlet Nat.add]; apply plane_at; auto. }
    destruct Hi as (i & Hi & Ek & Hl). apply (Hno (nth i (snd (tensile_dirichlet 1 (rel + 0))) (fun _ => 0) (points grip n))).
    apply (tensile_in grip (default_args 1 1 1) AllOut [] jac0 cjac0 1 rel None (grip_problem rel) (grip_ok rel)). split; [exact Hn|]. exists i. auto.
Qed.
Close Scope R_scope.
