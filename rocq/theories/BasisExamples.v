(** * A concrete basix with the documented properties, and small meshes. *)
From Coq Require Import String FunctionalExtensionality Lra Lia QArith Qreals.
From Verif Require Import Prelude FemModel FemSpec FemFacts BasisModel BasisSpec BasisProofs BasisFaceProofs BasisQuadProofs.
Open Scope R_scope.

Definition pt (l : list R) : point := fun k => nth k l 0.
(** half the distance of the two Gauss points on the unit interval *)
Definition g2 : R := / (2 * sqrt 3).
Lemma g2_sq : g2 * g2 = 1 / 12.
Proof. unfold g2. pose proof (sqrt_sqrt 3 ltac:(lra)). pose proof (sqrt_lt_R0 3 ltac:(lra)). field_simplify; [|lra]. replace (sqrt 3 ^ 2) with 3 by (cbn; lra). field. Qed.
Lemma g2_range : 0 < g2 < 1 / 2.
Proof.
  unfold g2. assert (1 < sqrt 3) by (rewrite <- sqrt_1; apply sqrt_lt_1; lra). split; [apply Rinv_0_lt_compat; lra|].
  unfold Rdiv. rewrite Rmult_1_l. apply Rinv_lt_contravar; lra.
Qed.
Definition lo : R := 1 / 2 - g2.
Definition hi : R := 1 / 2 + g2.
Definition ex_quadrature (c : cell_type) (m : nat) : list point * list R :=
  match c, m with
  | hexahedron, 2%nat => (map pt [[lo; lo; lo]; [hi; lo; lo]; [lo; hi; lo]; [hi; hi; lo]; [lo; lo; hi]; [hi; lo; hi]; [lo; hi; hi]; [hi; hi; hi]], repeat (1/8) 8)
  | quadrilateral, 2%nat => (map pt [[lo; lo]; [hi; lo]; [lo; hi]; [hi; hi]], repeat (1/4) 4)
  | triangle, 2%nat => (map pt [[1/6; 1/6]; [2/3; 1/6]; [1/6; 2/3]], repeat (1/6) 3)
  | _, _ => ([fun _ => if simplex c then 1 / INR (cell_dim c + 1) else 1/2], [ref_volume c])
  end.
Definition ex_normals (c : cell_type) (f : nat) : point :=
  match c, f with
  | interval, 0%nat => pt [-1] | interval, _ => pt [1]
  | triangle, 0%nat => pt [/ sqrt 2; / sqrt 2] | triangle, 1%nat => pt [-1; 0] | triangle, _ => pt [0; -1]
  | quadrilateral, 0%nat => pt [0; -1] | quadrilateral, 1%nat => pt [-1; 0] | quadrilateral, 2%nat => pt [1; 0] | quadrilateral, _ => pt [0; 1]
  | tetrahedron, 0%nat => pt [/ sqrt 3; / sqrt 3; / sqrt 3] | tetrahedron, 1%nat => pt [-1; 0; 0] | tetrahedron, 2%nat => pt [0; -1; 0] | tetrahedron, _ => pt [0; 0; -1]
  | hexahedron, 0%nat => pt [0; 0; -1] | hexahedron, 1%nat => pt [0; -1; 0] | hexahedron, 2%nat => pt [-1; 0; 0]
  | hexahedron, 3%nat => pt [1; 0; 0] | hexahedron, 4%nat => pt [0; 1; 0] | hexahedron, _ => pt [0; 0; 1]
  end.
Definition ex_basix : basix :=
  mkBasix ex_quadrature (fun f c degree => length (basix_dofs f c degree))
    (fun _ c degree x k => lagrange c degree (nth k (basix_dofs P c degree) []) x)
    (fun _ c degree x k j => peval (cell_dim c) (pder (cell_dim c) j (plagrange c degree (nth k (basix_dofs P c degree) []))) x)
    (fun c => map (fun p => coord p) (basix_vertices c)) cell_dim basix_facets
    (fun c f i v => facet_vertex c f (S v) i - facet_vertex c f 0 i) ex_normals.
Lemma ex_in_cell c m : Forall (in_cell c) (fst (ex_quadrature c m)).
Proof.
  pose proof g2_range.
  assert (Hdef : in_cell c (fun _ => if simplex c then 1 / INR (cell_dim c + 1) else 1 / 2)).
  { destruct c; split; cbn [simplex cell_dim Nat.add INR]; try (intros; lra); try discriminate; intros _; unfold sumN; cbn; lra. }
  destruct c; try (apply Forall_cons; [exact Hdef|apply Forall_nil]); destruct m as [|[|[|m]]];
    try (apply Forall_cons; [exact Hdef|apply Forall_nil]); clear Hdef; unfold ex_quadrature; cbn [fst map];
    repeat (apply Forall_cons; [|]); try apply Forall_nil; (split; [cbn [cell_dim]; intros k Hk; destruct k as [|[|[|k]]]; try lia; unfold pt, lo, hi; cbn [nth]; lra|
      cbn [simplex]; try discriminate; intros _; unfold sumN, pt; cbn; lra]).
Qed.
Lemma ex_documented : documented_basix ex_basix.
Proof.
  assert (H2 : sqrt 2 * sqrt 2 = 2) by (apply sqrt_sqrt; lra). assert (P2 : 0 < sqrt 2) by (apply sqrt_lt_R0; lra).
  assert (H3 : sqrt 3 * sqrt 3 = 3) by (apply sqrt_sqrt; lra). assert (P3 : 0 < sqrt 3) by (apply sqrt_lt_R0; lra).
  assert (I2 : 0 < / sqrt 2) by now apply Rinv_0_lt_compat. assert (I3 : 0 < / sqrt 3) by now apply Rinv_0_lt_compat.
  assert (S2 : / sqrt 2 * / sqrt 2 = 1 / 2) by (rewrite <- Rinv_mult, H2; field).
  assert (S3 : / sqrt 3 * / sqrt 3 = 1 / 3) by (rewrite <- Rinv_mult, H3; field).
  split; [|split; [|split; [|split; [|split; [|split]]]]].
  - intros c. split; [reflexivity|]. split; [reflexivity|]. split; [apply map_length|]. intros v d Hv. cbn [geometry ex_basix].
    rewrite (nth_indep _ origin (coord [])) by (now rewrite map_length). rewrite (map_nth (fun p => coord p)). reflexivity.
  - reflexivity.
  - reflexivity.
  - intros f c degree x k j Hj. cbn [tabulate_vals tabulate_grads ex_basix]. eapply dl_ext; [|apply peval_der, Hj].
    intros s. apply peval_lagrange.
  - intros c m. cbn [make_quadrature ex_basix]. pose proof (ex_in_cell c m) as Hi. destruct (ex_quadrature c m) as [pts w] eqn:E.
    cbn [fst] in Hi. split; [|split; [|exact Hi]].
    + destruct c; destruct m as [|[|[|m]]]; injection E as <- <-; reflexivity.
    + destruct c; destruct m as [|[|[|m]]]; injection E as <- <-; cbn [sumR repeat ref_volume]; lra.
  - reflexivity.
  - intros c f Hf. cbn [facet_outward_normals ex_basix]. cbn zeta. split.
    + destruct c; cbn [basix_facets basix_faces basix_edges length] in Hf; destruct f as [|[|[|[|[|[|f]]]]]]; try lia;
        cbn [cell_dim ex_normals]; unfold sumN, pt; cbn [seq sumR nth]; lra.
    + intros v Hv. destruct c; cbn [basix_facets basix_faces basix_edges length] in Hf; destruct f as [|[|[|[|[|[|f]]]]]]; try lia;
        cbn [basix_vertices length] in Hv; destruct v as [|[|[|[|[|[|[|[|v]]]]]]]]; try lia;
        cbn [cell_dim ex_normals basix_facets basix_faces basix_edges basix_vertices nth]; unfold sumN, pt, coord; cbn [seq sumR nth INR];
        (split; [intros Hi; first [lra | exfalso; cbn [In] in Hi; lia]|intros Hi; first [lra | exfalso; apply Hi; cbn [In]; tauto]]).
Qed.
(** the rules of HEX8, TRI6 and TET4 are exact *)
Lemma ex_exact_hex : exact_rule ex_basix hexahedron 2.
Proof.
  intros e He. cbn [make_quadrature ex_basix ex_quadrature]. cbn [degree_ok simplex cell_dim seq forallb] in He.
  apply andb_true_iff in He. destruct He as [H0 He]. apply andb_true_iff in He. destruct He as [H1 He]. apply andb_true_iff in He. destruct He as [H2 _].
  apply Nat.leb_le in H0, H1, H2.
  assert (M : forall n, (n <= 2)%nat -> (lo ^ n + hi ^ n) / 2 = 1 / INR (S n)).
  { pose proof g2_sq. intros n Hn. unfold lo, hi. destruct n as [|[|[|n]]]; try lia; cbn [pow INR]; nra || field || lra. }
  unfold moment, mono, prodN, sumN. cbn [simplex cell_dim seq fold_right map length sumR repeat nth pt]. unfold pt. cbn [nth].
  rewrite <- (M _ H0), <- (M _ H1), <- (M _ H2). field.
Qed.
Lemma ex_exact_quad : exact_rule ex_basix quadrilateral 2.
Proof.
  intros e He. cbn [make_quadrature ex_basix ex_quadrature]. cbn [degree_ok simplex cell_dim seq forallb] in He.
  apply andb_true_iff in He. destruct He as [H0 He]. apply andb_true_iff in He. destruct He as [H1 _].
  apply Nat.leb_le in H0, H1.
  assert (M : forall n, (n <= 2)%nat -> (lo ^ n + hi ^ n) / 2 = 1 / INR (S n)).
  { pose proof g2_sq. intros n Hn. unfold lo, hi. destruct n as [|[|[|n]]]; try lia; cbn [pow INR]; nra || field || lra. }
  unfold moment, mono, prodN, sumN. cbn [simplex cell_dim seq fold_right map length sumR repeat nth pt]. unfold pt. cbn [nth].
  rewrite <- (M _ H0), <- (M _ H1). field.
Qed.
Lemma ex_exact_tri : exact_rule ex_basix triangle 2.
Proof.
  intros e He. cbn [make_quadrature ex_basix ex_quadrature]. unfold degree_ok in He. cbn [simplex cell_dim] in He. apply Nat.leb_le in He.
  unfold sum_nat in He. cbn [seq fold_right] in He.
  unfold moment, mono, prodN, sumN, sum_nat. cbn [simplex cell_dim seq fold_right map length sumR repeat nth pt]. unfold pt. cbn [nth].
  destruct (nth 0 e 0%nat) as [|[|[|a]]]; destruct (nth 1 e 0%nat) as [|[|[|b]]]; try lia; cbn [Nat.add pow fact Nat.mul INR]; field.
Qed.
Lemma ex_exact_tet : exact_rule ex_basix tetrahedron 0.
Proof.
  intros e He. cbn [make_quadrature ex_basix ex_quadrature]. unfold degree_ok in He. cbn [simplex cell_dim] in He. apply Nat.leb_le in He.
  unfold sum_nat in He. cbn [seq fold_right] in He.
  unfold moment, mono, prodN, sumN, sum_nat. cbn [simplex cell_dim seq fold_right map length sumR repeat nth ref_volume].
  replace (nth 0 e 0%nat) with 0%nat by lia. replace (nth 1 e 0%nat) with 0%nat by lia. replace (nth 2 e 0%nat) with 0%nat by lia.
  cbn [Nat.add pow fact Nat.mul INR]. field.
Qed.
(** one tetrahedron with edges 2, 3, 1 *)
Definition tet_mesh (E : ele) : fem unit :=
  mkFem E 4 (fun n => nth n (map pt [[0; 0; 0]; [2; 0; 0]; [0; 3; 0]; [0; 0; 1]]) origin) [[0; 1; 2; 3]]%nat 1 None None (fun u => u) None None None.
Definition tet_E : ele := match element_tables ex_basix "TET4" with Ok E => E | Err _ => mkEle 0 0 0 0 (fun _ _ => 0) (fun _ _ _ => 0) (fun _ => 0) (fun _ _ _ => 0) (fun _ _ _ _ => 0) (fun _ _ => 0) (fun _ _ => 0) [] end.
Lemma tet_E_ok : element_tables ex_basix "TET4" = Ok tet_E.
Proof. unfold tet_E. destruct (element_tables_ok ex_basix ex_documented "TET4" ltac:(cbn; tauto)) as (fi & _ & E). rewrite E. reflexivity. Qed.
Definition diag3 (a b c : R) : mat := fun i j => if Nat.eqb i j then nth i [a; b; c] 0 else 0.
Lemma tet_affine : affine_cell (tet_mesh tet_E) "TET4" 0 (diag3 2 3 1) origin.
Proof.
  intros a i Ha Hi. cbn in Ha, Hi. unfold physical_coos, cell_node, node_at, sumN, coord, diag3, origin.
  destruct i as [|[|[|i]]]; try lia; destruct a as [|[|[|[|a]]]]; try lia; cbn; unfold pt; cbn; lra.
Qed.
Close Scope R_scope.
