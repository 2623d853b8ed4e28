(** * Properties of the reference-element tables (jax_am/fem/basis.py) and of check_mesh_TET4,
    get_meshio_cell_type (jax_am/fem/generate_mesh.py). *)
From Coq Require Import String FunctionalExtensionality Lra Lia Permutation.
From Verif Require Import Prelude FemModel FemSpec FemFacts FemGeoProofs BasisModel BasisSpec BasisProofs BasisFaceProofs BasisQuadProofs BasisMeshProofs BasisExamples.
From Verif Require MeshModel.
Open Scope R_scope.

(** ** C50 *)
Theorem node_order_matches_mesh : forall t,
  (In t supported -> exists fam c fc m degree re_order, get_elements t = Ok (fam, c, fc, m, degree, re_order) /\
     length re_order = length (mesh_nodes t) /\ Permutation re_order (seq 0 (length (basix_dofs fam c degree))) /\
     (forall i, (i < length re_order)%nat -> nth i (mesh_nodes t) [] = nth (nth i re_order 0%nat) (basix_dofs fam c degree) []) /\
     NoDup (mesh_nodes t)) /\
  (~ In t supported -> get_elements t = Err NotImplementedError).
Proof.
  intros t. split; [|apply get_elements_unsupported]. intros H. destruct (order_facts t H) as (El & Ed & _).
  do 6 eexists. split; [exact (get_elements_ok t H)|]. split; [exact El|]. rewrite Ed. split; [now apply order_perm|].
  split; [|now apply mesh_nodes_NoDup]. intros i Hi. apply order_node; [exact H|]. now rewrite <- El.
Qed.
Print Assumptions node_order_matches_mesh.
Theorem reorder_inds_inverts : forall inds re_order, NoDup re_order ->
  ((forall row ind, In row inds -> In ind row -> In ind re_order) ->
     exists r, reorder_inds inds re_order = Ok r /\ Forall2 (Forall2 (fun ind k => nth_error re_order k = Some ind)) inds r) /\
  ((exists row ind, In row inds /\ In ind row /\ ~ In ind re_order) -> reorder_inds inds re_order = Err ValueError).
Proof. exact reorder_inverts. Qed.
Print Assumptions reorder_inds_inverts.
Theorem face_lists_match_facets : forall B t E f, documented_basix B -> In t supported -> element_tables B t = Ok E ->
  length (face_inds E) = length (basix_facets (cell_of t)) /\
  ((f < length (face_inds E))%nat ->
     length (nth f (face_inds E) []) = length (nth f (basix_facets (cell_of t)) []) /\
     (forall v, (v < length (nth f (face_inds E) []))%nat ->
        node_at t (nth v (nth f (face_inds E) []) 0%nat) = facet_vertex (cell_of t) f v) /\
     forall i, (i < length (basix_vertices (cell_of t)))%nat ->
        (In i (nth f (face_inds E) []) <-> on_facet (cell_of t) f (nth i (mesh_nodes t) []))).
Proof.
  intros B t E f HB H HE. destruct (tables_given B HB t E H HE) as (fi & Er & ->). cbn [face_inds tables].
  destruct (reorder_ok t H) as (fi' & Er' & El & Hr). assert (fi' = fi) as -> by congruence. split; [exact El|]. intros Hf.
  split; [apply (Hr f 0%nat Hf)|]. split.
  - intros v Hv. unfold node_at, facet_vertex. destruct (Hr f v Hf) as [_ Hx]. destruct (Hx Hv) as (_ & _ & ->). reflexivity.
  - intros i Hi. now apply face_list_exact.
Qed.
Print Assumptions face_lists_match_facets.
Example node_order_case : In "TET10"%string supported /\ nth 4 (mesh_nodes "TET10") [] = [1; 0; 0]%nat /\
  nth 9 (basix_dofs P tetrahedron 2) [] = [1; 0; 0]%nat /\ reorder_inds [[0; 1; 2; 3]]%nat [0; 1; 3; 2; 4; 5; 7; 6]%nat = Ok [[0; 1; 3; 2]]%nat.
Proof. split; [cbn; tauto|]. repeat split. Qed.

(** ** C91 *)
Theorem shape_tables_are_nodal : forall B t, documented_basix B -> In t lagrange_types ->
  exists E xs, element_tables B t = Ok E /\
  e_dim E = cell_dim (cell_of t) /\ num_nodes E = length (mesh_nodes t) /\
  sumN (num_quads E) (quad_weights E) = ref_volume (cell_of t) /\
  (forall q, (q < num_quads E)%nat -> in_cell (cell_of t) (xs q) /\
     (forall d, (d < e_dim E)%nat -> sumN (num_nodes E) (fun i => shape_vals E q i * node_at t i d) = xs q d) /\
     forall i, (i < num_nodes E)%nat -> shape_vals E q i = node_shape t i (xs q) /\
       forall j, (j < e_dim E)%nat -> derivable_pt_lim (fun s => node_shape t i (shift (xs q) j s)) 0 (shape_grads_ref E q i j)) /\
  (forall i j, (i < num_nodes E)%nat -> (j < num_nodes E)%nat -> node_shape t i (node_at t j) = if Nat.eqb i j then 1 else 0).
Proof.
  intros B t HB H. destruct (lagrange_supported t H) as [Hs _]. destruct (element_tables_ok B HB t Hs) as (fi & _ & HE).
  exists (tables B t fi), (quad_point B t). split; [exact HE|]. destruct (order_facts t Hs) as (El & _).
  cbn [e_dim num_nodes num_quads quad_weights shape_vals shape_grads_ref tables]. rewrite El. split; [reflexivity|]. split; [reflexivity|].
  split; [now apply weights_sum|]. split; [|intros i j Hi Hj; now apply node_kronecker].
  intros q Hq. split; [now apply quad_in_cell|]. split.
  - intros d Hd. rewrite <- (node_shape_linear t (quad_point B t q) d H Hd). apply sumN_ext. intros i Hi. now rewrite tabulated.
  - intros i Hi. split; [now apply tabulated|]. intros j Hj. now apply tabulated_grad.
Qed.
Print Assumptions shape_tables_are_nodal.
Theorem tables_meet_fem_assumptions : forall V (F : fem V) B t, documented_basix B -> In t lagrange_types -> element_tables B t = Ok (f_ele F) ->
  vals_sum_one F /\ grads_sum_zero F /\ face_vals_sum_one F /\ small_dim (dim F).
Proof.
  intros V F B t HB H HE. destruct (lagrange_supported t H) as [Hs _]. destruct (order_facts t Hs) as (El & _).
  destruct (dims B HB F t H HE) as (Hd & _ & Hdd). destruct (tables_given B HB t _ Hs HE) as (fi & _ & EE).
  unfold vals_sum_one, grads_sum_zero, face_vals_sum_one, small_dim. rewrite Hd. unfold dim in Hd. rewrite Hd. rewrite EE.
  cbn [num_nodes num_quads shape_vals shape_grads_ref face_shape_vals num_face_quads face_inds tables]. rewrite El.
  split; [|split; [|split; [|lia]]].
  - intros q _. rewrite <- (node_shape_sum t (quad_point B t q) H). apply sumN_ext. intros i Hi. now apply tabulated.
  - intros q j _ Hj. now apply grads_complete.
  - intros f p _ _. rewrite <- (node_shape_sum t (face_point B t f p) H). apply sumN_ext. intros i Hi. now apply tabulated.
Qed.
Print Assumptions tables_meet_fem_assumptions.
Example shape_tables_case : documented_basix ex_basix /\ In "HEX8"%string lagrange_types /\ node_shape "HEX8" 6 (pt [1/2; 1/2; 1]) = 1/4.
Proof. split; [exact ex_documented|]. split; [cbn; tauto|]. unfold node_shape, lagrange, prodN. cbn. unfold pt. cbn. field. Qed.

(** ** C92 *)
Theorem face_tables_live_on_facets : forall B t E f, documented_basix B -> In t lagrange_types -> element_tables B t = Ok E -> (f < length (face_inds E))%nat ->
  sumN (num_face_quads E) (face_quad_weights E f) = facet_size (cell_of t) f /\
  exists ys, forall p, (p < num_face_quads E)%nat ->
    in_cell (face_cell (cell_of t)) (ys p) /\ in_cell (cell_of t) (facet_point (cell_of t) f (ys p)) /\
    sumN (e_dim E) (fun d => face_normals E f d * (facet_point (cell_of t) f (ys p) d - facet_vertex (cell_of t) f 0 d)) = 0 /\
    forall i, (i < num_nodes E)%nat ->
      face_shape_vals E f p i = node_shape t i (facet_point (cell_of t) f (ys p)) /\
      (forall j, (j < e_dim E)%nat -> derivable_pt_lim (fun s => node_shape t i (shift (facet_point (cell_of t) f (ys p)) j s)) 0 (face_shape_grads_ref E f p i j)) /\
      (~ on_facet (cell_of t) f (nth i (mesh_nodes t) []) -> face_shape_vals E f p i = 0).
Proof.
  intros B t E f HB H HE Hf. destruct (lagrange_supported t H) as [Hs _]. destruct (order_facts t Hs) as (El & _).
  destruct (tables_given B HB t E Hs HE) as (fi & Er & ->). destruct (reorder_ok t Hs) as (fi' & Er' & Efl & _).
  assert (fi' = fi) as -> by congruence. cbn [face_inds num_face_quads face_quad_weights num_nodes e_dim face_normals face_shape_vals face_shape_grads_ref tables] in *.
  rewrite Efl in Hf. rewrite El. pose proof (cell_of_not_interval t) as Hc. split.
  - rewrite sumN_scal_r, (weights_sum B HB), (size_jacobian_ok B HB _ _ Hc Hf). field. clear. destruct (face_cell (cell_of t)); cbn; lra.
  - exists (fun p => nth p (fst (make_quadrature B (face_cell (cell_of t)) (gauss_of t))) origin). intros p Hp.
    assert (Hy : in_cell (face_cell (cell_of t)) (nth p (fst (make_quadrature B (face_cell (cell_of t)) (gauss_of t))) origin)) by now apply quad_in_cell.
    split; [exact Hy|]. split; [now apply facet_point_in_cell|]. split.
    + destruct (normal_facts B HB (cell_of t) f Hf Hc) as [_ Ho]. unfold facet_point. set (y := nth p _ _) in *.
      rewrite (sumN_ext _ _ (fun d => sumN (cell_dim (cell_of t) - 1) (fun k => y k * (facet_outward_normals B (cell_of t) f d * (facet_vertex (cell_of t) f (S k) d - facet_vertex (cell_of t) f 0 d))))).
      * rewrite sumN_swap. apply sumN_zero. intros k Hk. rewrite sumN_scal, (Ho k Hk). ring.
      * intros d _. match goal with |- ?a * (?b + ?s - ?c) = _ => transitivity (a * s); [ring|] end.
        rewrite <- sumN_scal. apply sumN_ext. intros; ring.
    + intros i Hi. rewrite (face_point_facet B HB t f p Hf). split; [now apply tabulated|]. split; [intros j Hj; now apply tabulated_grad|].
      intros Hn. rewrite tabulated by assumption. now apply off_facet_zero.
Qed.
Print Assumptions face_tables_live_on_facets.
Example face_tables_case : facet_point tetrahedron 0 (pt [1/3; 1/3]) 0%nat = 1/3 /\ on_facet tetrahedron 0 (nth 1 (mesh_nodes "TET4") []) /\
  ~ on_facet tetrahedron 0 (nth 0 (mesh_nodes "TET4") []).
Proof.
  split; [unfold facet_point, facet_vertex, coord, sumN, pt; cbn; field|]. rewrite <- !on_facet_b_spec. split; [reflexivity|]. cbn. discriminate.
Qed.

(** ** C93 *)
Theorem affine_cell_measures : forall V (F : fem V) B t c A b, documented_basix B -> In t lagrange_types -> element_tables B t = Ok (f_ele F) ->
  affine_cell F t c A b ->
  (forall q i j, (i < dim F)%nat -> (j < dim F)%nat -> jacobian_dx_deta F c q i j = A i j) /\
  sumN (num_quads (f_ele F)) (JxW F c) = det (dim F) A * ref_volume (cell_of t) /\
  (0 < det (dim F) A -> forall f, (f < length (face_inds (f_ele F)))%nat ->
     sumN (num_face_quads (f_ele F)) (nanson_scale F (c, f)) =
     (if Nat.eqb (dim F) 3 then norm3 (cross (face_edge F c f 0) (face_edge F c f 1)) else norm2 (face_edge F c f 0)) * ref_volume (face_cell (cell_of t))).
Proof.
  intros V F B t c A b HB H HE HA. destruct (dims B HB F t H HE) as (-> & _). split; [|split].
  - intros q i j Hi Hj. now apply (affine_jacobian B HB F t H HE c A b).
  - now apply (affine_volume B HB F t H HE c A b).
  - intros Hd f Hf. now apply (affine_area B HB F t H HE c A b f).
Qed.
Print Assumptions affine_cell_measures.
Theorem box_mesh_quadrature_volume : forall V (F : fem V) B Nx Ny Nz Lx Ly Lz, documented_basix B -> (0 < Nx)%nat -> (0 < Ny)%nat -> (0 < Nz)%nat ->
  let m := MeshModel.box_mesh Nx Ny Nz Lx Ly Lz in
  has_mesh3 F (MeshModel.points m) (MeshModel.cells m) -> element_tables B "HEX8" = Ok (f_ele F) ->
  (forall c q, (c < num_cells F)%nat -> jacobian_det F c q = Lx / INR Nx * (Ly / INR Ny) * (Lz / INR Nz)) /\
  sumN (num_cells F) (fun c => sumN (num_quads (f_ele F)) (JxW F c)) = Lx * Ly * Lz.
Proof. intros V F B Nx Ny Nz Lx Ly Lz HB. exact (brick_volume B HB F Nx Ny Nz Lx Ly Lz). Qed.
Print Assumptions box_mesh_quadrature_volume.
Theorem rectangle_mesh_quadrature_area : forall V (F : fem V) B Nx Ny Lx Ly, documented_basix B -> (0 < Nx)%nat -> (0 < Ny)%nat ->
  let m := MeshModel.rectangle_mesh Nx Ny Lx Ly in
  has_mesh2 F (MeshModel.points m) (MeshModel.cells m) -> element_tables B "QUAD4" = Ok (f_ele F) ->
  (forall c q, (c < num_cells F)%nat -> jacobian_det F c q = Lx / INR Nx * (Ly / INR Ny)) /\
  sumN (num_cells F) (fun c => sumN (num_quads (f_ele F)) (JxW F c)) = Lx * Ly.
Proof. intros V F B Nx Ny Lx Ly HB. exact (rect_area B HB F Nx Ny Lx Ly). Qed.
Print Assumptions rectangle_mesh_quadrature_area.
Example affine_cell_case : affine_cell (tet_mesh tet_E) "TET4" 0 (diag3 2 3 1) origin /\ sumN (num_quads tet_E) (JxW (tet_mesh tet_E) 0) = 1 /\
  sumN (num_face_quads tet_E) (nanson_scale (tet_mesh tet_E) (0, 3)%nat) = 3.
Proof.
  split; [exact tet_affine|].
  destruct (affine_cell_measures _ (tet_mesh tet_E) ex_basix "TET4" 0 _ _ ex_documented ltac:(cbn; tauto) tet_E_ok tet_affine) as (_ & Hv & Ha).
  assert (Hd : dim (tet_mesh tet_E) = 3%nat) by (apply (dims ex_basix ex_documented (tet_mesh tet_E) "TET4" ltac:(cbn; tauto) tet_E_ok)).
  rewrite Hd in *. cbn [f_ele tet_mesh] in *. split.
  - rewrite Hv. unfold diag3. cbn. field.
  - assert (Hf : face_inds tet_E = [[1; 2; 3]; [0; 2; 3]; [0; 1; 3]; [0; 1; 2]]%nat).
    { destruct (element_tables_ok ex_basix ex_documented "TET4" ltac:(cbn; tauto)) as (fi & Er & E). unfold tet_E. rewrite E. cbn [face_inds tables].
      vm_compute in Er. congruence. }
    rewrite Ha; [|unfold diag3; cbn; lra|rewrite Hf; cbn; lia]. cbn [Nat.eqb]. change (ref_volume (face_cell (cell_of "TET4"))) with (1 / 2).
    unfold norm3, cross, face_edge. cbn [f_ele tet_mesh]. rewrite Hf. unfold physical_coos, cell_node. cbn. unfold pt. cbn.
    match goal with |- sqrt ?x * _ = _ => replace x with (6 * 6) by ring end. rewrite sqrt_square by lra. field.
Qed.

(** ** C94 *)
Theorem tet4_quality_is_six_volumes : forall V (F : fem V) B qs, documented_basix B -> element_tables B "TET4" = Ok (f_ele F) ->
  check_mesh_TET4 (points F) (cells F) = Ok qs ->
  length qs = num_cells F /\
  (forall c, (c < num_cells F)%nat -> (forall q, jacobian_det F c q = nth c qs 0) /\ sumN (num_quads (f_ele F)) (JxW F c) = nth c qs 0 / 6) /\
  (get_shape_grads F = Err LinAlgError <-> In 0 qs).
Proof.
  intros V F B qs HB HE Hq. split; [unfold num_cells; eapply mapM_len; exact Hq|]. split; [|now apply (tet_singular B HB F)].
  intros c Hc. destruct (tet_quality B HB F qs c HE Hq Hc) as (_ & H). exact H.
Qed.
Print Assumptions tet4_quality_is_six_volumes.
(** reversing two nodes changes the sign; the value does not depend on the position of the cell *)
Theorem tet4_quality_orientation : forall p1 p2 p3 p4 (s : point),
  quality p2 p1 p3 p4 = - quality p1 p2 p3 p4 /\ quality p1 p3 p2 p4 = - quality p1 p2 p3 p4 /\ quality p1 p2 p4 p3 = - quality p1 p2 p3 p4 /\
  quality (fun i => p1 i + s i) (fun i => p2 i + s i) (fun i => p3 i + s i) (fun i => p4 i + s i) = quality p1 p2 p3 p4.
Proof. intros. unfold quality. repeat split; ring. Qed.
Print Assumptions tet4_quality_orientation.
Theorem meshio_types_match : forall t,
  (In t supported -> exists s, get_meshio_cell_type t = Ok s /\ In (s, length (mesh_nodes t)) meshio_num_nodes) /\
  (~ In t supported -> get_meshio_cell_type t = Err NotImplementedError) /\
  (forall t' s, get_meshio_cell_type t = Ok s -> get_meshio_cell_type t' = Ok s -> t = t').
Proof.
  assert (Hsup : forall t, In t supported -> exists s, get_meshio_cell_type t = Ok s /\ In (s, length (mesh_nodes t)) meshio_num_nodes).
  { intros t H. repeat (destruct H as [<- | H]; [eexists; split; [reflexivity|vm_compute; tauto]|]). destruct H. }
  assert (Hun : forall t, ~ In t supported -> get_meshio_cell_type t = Err NotImplementedError).
  { intros t H. unfold get_meshio_cell_type.
    repeat match goal with |- (if String.eqb t ?s then _ else _) = _ => destruct (String.eqb_spec t s) as [-> | _]; [exfalso; apply H; cbn; tauto|] end. reflexivity. }
  intros t. split; [apply Hsup|]. split; [apply Hun|]. intros t' s E E'.
  destruct (in_dec string_dec t supported) as [H | H]; [|rewrite (Hun t H) in E; discriminate].
  destruct (in_dec string_dec t' supported) as [H' | H']; [|rewrite (Hun t' H') in E'; discriminate].
  repeat (destruct H as [<- | H]; [injection E as <-; repeat (destruct H' as [<- | H']; [try reflexivity; discriminate E'|]); destruct H'|]). destruct H.
Qed.
Print Assumptions meshio_types_match.
Example tet4_quality_case : check_mesh_TET4 (points (tet_mesh tet_E)) [[0; 1; 2; 3]; [0; 2; 1; 3]]%nat = Ok [6; -6].
Proof. unfold check_mesh_TET4. cbn. unfold quality, pt. cbn. repeat f_equal; ring. Qed.

(** ** C95 *)
Theorem stiffness_fully_integrated : forall B t E fam c fc m degree ro a b i j, documented_basix B -> In t lagrange_types ->
  get_elements t = Ok (fam, c, fc, m, degree, ro) -> exact_rule B c m -> element_tables B t = Ok E ->
  (a < num_nodes E)%nat -> (b < num_nodes E)%nat -> (i < e_dim E)%nat -> (j < e_dim E)%nat ->
  exists p, (forall x ga gb, derivable_pt_lim (fun s => node_shape t a (shift x i s)) 0 ga -> derivable_pt_lim (fun s => node_shape t b (shift x j s)) 0 gb ->
      peval (e_dim E) p x = ga * gb) /\
    sumN (num_quads E) (fun q => quad_weights E q * (shape_grads_ref E q a i * shape_grads_ref E q b j)) = integral c p.
Proof.
  intros B t E fam c fc m degree ro a b i j HB H Hg Hx HE. destruct (lagrange_supported t H) as [Hs _].
  rewrite (get_elements_ok t Hs) in Hg. injection Hg as <- <- <- <- <- <-. exact (stiffness_exact B HB t E a b i j Hx H HE).
Qed.
Print Assumptions stiffness_fully_integrated.
Theorem mass_fully_integrated_on_boxes : forall B t E fam c fc m degree ro a b, documented_basix B -> In t lagrange_types -> simplex c = false ->
  get_elements t = Ok (fam, c, fc, m, degree, ro) -> exact_rule B c m -> element_tables B t = Ok E ->
  (a < num_nodes E)%nat -> (b < num_nodes E)%nat ->
  exists p, (forall x, peval (e_dim E) p x = node_shape t a x * node_shape t b x) /\
    sumN (num_quads E) (fun q => quad_weights E q * (shape_vals E q a * shape_vals E q b)) = integral c p.
Proof.
  intros B t E fam c fc m degree ro a b HB H Hsx Hg Hx HE. destruct (lagrange_supported t H) as [Hs _].
  rewrite (get_elements_ok t Hs) in Hg. injection Hg as <- <- <- <- <- <-. exact (mass_exact B HB t E a b Hx H Hsx HE).
Qed.
Print Assumptions mass_fully_integrated_on_boxes.
(** The tetrahedron TET4 has a one-point rule: its consistent mass matrix is not integrated exactly,
    and a field that vanishes at the centroid has no mass. *)
Theorem tet4_mass_integration_refuted : exists B E, documented_basix B /\ exact_rule B tetrahedron 0 /\ element_tables B "TET4" = Ok E /\
  (exists p, (forall x, peval 3 p x = node_shape "TET4" 1 x * node_shape "TET4" 1 x) /\
     sumN (num_quads E) (fun q => quad_weights E q * (shape_vals E q 1 * shape_vals E q 1)) <> integral tetrahedron p) /\
  exists u : nat -> R, u 1%nat = 1 /\ forall q, (q < num_quads E)%nat -> sumN (num_nodes E) (fun i => shape_vals E q i * u i) = 0.
Proof.
  exists ex_basix, tet_E. split; [exact ex_documented|]. split; [exact ex_exact_tet|]. split; [exact tet_E_ok|].
  destruct (tables_given ex_basix ex_documented "TET4" _ ltac:(cbn; tauto) tet_E_ok) as (fi & _ & ->).
  assert (Hv : forall q i, (q < 1)%nat -> (i < 4)%nat -> shape_vals (tables ex_basix "TET4" fi) q i = 1 / 4).
  { intros q i Hq Hi. cbn [shape_vals tables]. rewrite (tabulated ex_basix ex_documented) by (cbn; tauto || (cbn; lia)).
    assert (q = 0%nat) as -> by lia. unfold quad_point, node_shape, lagrange, sumN, prodN. cbn.
    destruct i as [|[|[|[|i]]]]; try lia; cbn; field. }
  split.
  - exists (pmul 3 (pshape "TET4" 1) (pshape "TET4" 1)). split.
    + intros x. rewrite peval_mul. change 3%nat with (cell_dim (cell_of "TET4")). now rewrite peval_shape.
    + change (num_quads (tables ex_basix "TET4" fi)) with 1%nat. unfold sumN. cbn [seq sumR]. rewrite Hv by lia.
      change (quad_weights (tables ex_basix "TET4" fi) 0) with (1 / 6).
      let p := eval vm_compute in (pmul 3 (pshape "TET4" 1) (pshape "TET4" 1)) in change (pmul 3 (pshape "TET4" 1) (pshape "TET4" 1)) with p.
      unfold integral, moment, prodN, sum_nat, QArith_base.Qnum, Q2R. cbn. lra.
  - exists (fun i => if Nat.eqb i 1 then 1 else if Nat.eqb i 0 then -1 else 0). split; [reflexivity|]. intros q Hq.
    change (num_nodes (tables ex_basix "TET4" fi)) with 4%nat. change (num_quads (tables ex_basix "TET4" fi)) with 1%nat in Hq.
    unfold sumN. cbn [seq sumR Nat.eqb]. rewrite !Hv by lia. field.
Qed.
Print Assumptions tet4_mass_integration_refuted.
Example stiffness_case : exact_rule ex_basix hexahedron 2 /\ exact_rule ex_basix triangle 2 /\ exact_rule ex_basix tetrahedron 0.
Proof. split; [exact ex_exact_hex|]. split; [exact ex_exact_tri|exact ex_exact_tet]. Qed.
Close Scope R_scope.
