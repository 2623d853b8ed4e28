(** * Tetrahedra, bricks and rectangles: the integration weights measure the mesh. *)
From Coq Require Import String FunctionalExtensionality Lra Lia.
From Verif Require Import Prelude PreludeFacts FemModel FemSpec FemFacts FemGeoProofs BasisModel BasisSpec BasisProofs BasisFaceProofs BasisQuadProofs.
From Verif Require MeshModel MeshSpec MeshProofs.
Open Scope R_scope.

Lemma mapM_len {A C} (f : A -> res C) l : forall r, mapM f l = Ok r -> length r = length l.
Proof.
  induction l as [|a l IH]; intros r; cbn [mapM bind]; [intros H; injection H as <-; reflexivity|].
  destruct (f a); cbn [bind]; [|discriminate]. destruct (mapM f l) as [r'|] eqn:E; cbn [bind]; [|discriminate]. intros H. injection H as <-.
  cbn [length]. now rewrite (IH r' eq_refl).
Qed.
(** ** order translation *)
Lemma reorder_inverts inds ro : NoDup ro ->
  ((forall row ind, In row inds -> In ind row -> In ind ro) ->
     exists r, reorder_inds inds ro = Ok r /\ Forall2 (Forall2 (fun ind k => nth_error ro k = Some ind)) inds r) /\
  ((exists row ind, In row inds /\ In ind row /\ ~ In ind ro) -> reorder_inds inds ro = Err ValueError).
Proof.
  intros Hn. unfold reorder_inds. set (g := fun ind : nat => match positions ind ro with [k] => Ok k | _ => Err ValueError end).
  assert (Hg : forall ind, (In ind ro -> exists k, g ind = Ok k /\ nth_error ro k = Some ind) /\ (~ In ind ro -> g ind = Err ValueError)).
  { intros ind. split; intros Hi.
    - apply (In_nth _ _ 0%nat) in Hi. destruct Hi as (k & Hk & E). exists k. unfold g. rewrite (positions_unique ind ro k Hn Hk E).
      split; [reflexivity|]. rewrite <- E. now apply nth_error_nth'.
    - unfold g. now rewrite positions_none. }
  assert (Hrow : forall row, ((forall ind, In ind row -> In ind ro) -> exists r, mapM g row = Ok r /\ Forall2 (fun ind k => nth_error ro k = Some ind) row r) /\
    ((exists ind, In ind row /\ ~ In ind ro) -> mapM g row = Err ValueError)).
  { induction row as [|a row IH]; split; intros H.
    - exists []. split; [reflexivity|constructor].
    - destruct H as (? & [] & _).
    - destruct (proj1 (Hg a) (H a (or_introl eq_refl))) as (k & Ek & Nk). destruct (proj1 IH (fun i Hi => H i (or_intror Hi))) as (r & Er & Fr).
      exists (k :: r). cbn [mapM bind]. rewrite Ek. cbn [bind]. rewrite Er. split; [reflexivity|now constructor].
    - cbn [mapM bind]. destruct (in_dec Nat.eq_dec a ro) as [Ha | Ha].
      + destruct (proj1 (Hg a) Ha) as (k & -> & _). cbn [bind]. rewrite (proj2 IH); [reflexivity|].
        destruct H as (i & [<- | Hi] & Hni); [contradiction|]. eauto.
      + now rewrite (proj2 (Hg a) Ha). }
  induction inds as [|row inds IH]; split; intros H.
  - exists []. split; [reflexivity|constructor].
  - destruct H as (? & ? & [] & _).
  - destruct (proj1 (Hrow row) (fun i Hi => H row i (or_introl eq_refl) Hi)) as (r & Er & Fr).
    destruct (proj1 IH (fun w i Hw Hi => H w i (or_intror Hw) Hi)) as (rs & Ers & Frs).
    exists (r :: rs). cbn [mapM bind]. rewrite Er. cbn [bind]. rewrite Ers. split; [reflexivity|now constructor].
  - cbn [mapM bind]. destruct (Forall_dec (fun i => In i ro) (fun i => in_dec Nat.eq_dec i ro) row) as [Ha | Ha].
    + rewrite Forall_forall in Ha. destruct (proj1 (Hrow row) Ha) as (r & -> & _). cbn [bind]. rewrite (proj2 IH); [reflexivity|].
      destruct H as (w & i & [<- | Hw] & Hi & Hni); [exfalso; auto|]. eauto.
    + rewrite (proj2 (Hrow row)); [reflexivity|]. apply Exists_Forall_neg in Ha; [|intros i; destruct (in_dec Nat.eq_dec i ro); tauto].
      apply Exists_exists in Ha. exact Ha.
Qed.
(** the corner nodes on a facet are the nodes of its face list *)
Definition on_facet_b (c : cell_type) (f : nat) (p : pos) : bool :=
  let fv := nth f (basix_facets c) [] in
  if simplex c then forallb (fun v => existsb (Nat.eqb v) fv || match v with 0%nat => Nat.eqb (fold_right Nat.add 0%nat p) 2 | S k => Nat.eqb (nth k p 0%nat) 0 end) (seq 0 (length (basix_vertices c)))
  else existsb (fun k => existsb (fun s => forallb (fun v => Nat.eqb (nth k (nth v (basix_vertices c) []) 0%nat) s) fv && Nat.eqb (nth k p 0%nat) s) [0; 2]%nat) (seq 0 (cell_dim c)).
Lemma existsb_eqb k l : existsb (Nat.eqb k) l = true <-> In k l.
Proof. rewrite existsb_exists. split; [intros (y & Hy & E); apply Nat.eqb_eq in E; now subst|intros H; exists k; split; [exact H|apply Nat.eqb_refl]]. Qed.
Lemma on_facet_b_spec c f p : on_facet_b c f p = true <-> on_facet c f p.
Proof.
  unfold on_facet_b, on_facet. destruct (simplex c).
  - rewrite forallb_forall. split.
    + intros H v Hv Hn. specialize (H v ltac:(apply in_seq; lia)). apply orb_true_iff in H. rewrite existsb_eqb in H. destruct H as [H | H]; [contradiction|].
      destruct v; now apply Nat.eqb_eq.
    + intros H v Hv. apply in_seq in Hv. apply orb_true_iff. rewrite existsb_eqb. destruct (in_dec Nat.eq_dec v (nth f (basix_facets c) [])) as [Hi | Hi]; [now left|right].
      specialize (H v ltac:(lia) Hi). destruct v; now apply Nat.eqb_eq.
  - rewrite existsb_exists. split.
    + intros (k & Hk & H). apply existsb_exists in H. destruct H as (s & Hs & H). apply andb_true_iff in H. destruct H as [H1 H2]. apply in_seq in Hk.
      exists k, s. split; [lia|]. split; [cbn in Hs; lia|]. rewrite forallb_forall in H1. split; [intros v Hv; now apply Nat.eqb_eq, H1|now apply Nat.eqb_eq].
    + intros (k & s & Hk & Hs & H1 & H2). exists k. split; [apply in_seq; lia|]. apply existsb_exists. exists s. split; [cbn; lia|].
      apply andb_true_iff. split; [apply forallb_forall; intros v Hv; now apply Nat.eqb_eq, H1|now apply Nat.eqb_eq].
Qed.
Lemma face_list_exact t fi f i : In t supported -> reorder_inds (basix_facets (cell_of t)) (order_of t) = Ok fi -> (f < length fi)%nat ->
  (i < length (basix_vertices (cell_of t)))%nat -> (In i (nth f fi []) <-> on_facet (cell_of t) f (nth i (mesh_nodes t) [])).
Proof.
  intros H Er Hf Hi. rewrite <- existsb_eqb, <- on_facet_b_spec.
  enough (existsb (Nat.eqb i) (nth f fi []) = on_facet_b (cell_of t) f (nth i (mesh_nodes t) [])) as -> by reflexivity.
  assert (Hall : match reorder_inds (basix_facets (cell_of t)) (order_of t) with
    | Ok fi => forallb (fun f => forallb (fun i => Bool.eqb (existsb (Nat.eqb i) (nth f fi [])) (on_facet_b (cell_of t) f (nth i (mesh_nodes t) [])))
                 (seq 0 (length (basix_vertices (cell_of t))))) (seq 0 (length fi)) = true
    | Err _ => True end).
  { clear -H. repeat (destruct H as [<- | H]; [vm_compute; reflexivity|]). destruct H. }
  rewrite Er in Hall. rewrite forallb_forall in Hall. specialize (Hall f ltac:(apply in_seq; lia)). rewrite forallb_forall in Hall.
  apply Bool.eqb_prop, Hall, in_seq. lia.
Qed.

Section Measure.
Context {V : Type}.
Variable B : basix.
Hypothesis HB : documented_basix B.
Variable F : fem V.
(** ** tetrahedra *)
Definition edges4 (c : nat) : mat := fun i j => physical_coos F c (S j) i - physical_coos F c 0 i.
Lemma tet_is_affine c : affine_cell F "TET4" c (edges4 c) (physical_coos F c 0).
Proof.
  intros a i Ha Hi. cbn in Ha, Hi. unfold edges4, node_at, coord, sumN.
  destruct a as [|[|[|[|a]]]]; try lia; cbn; lra.
Qed.
Lemma tet_det c : det 3 (edges4 c) = quality (physical_coos F c 0) (physical_coos F c 1) (physical_coos F c 2) (physical_coos F c 3).
Proof. unfold edges4, quality. cbn [det]. ring. Qed.
Lemma tet_quality qs c : element_tables B "TET4" = Ok (f_ele F) -> check_mesh_TET4 (points F) (cells F) = Ok qs ->
  (c < num_cells F)%nat ->
  length qs = num_cells F /\ (forall q, jacobian_det F c q = nth c qs 0) /\ sumN (num_quads (f_ele F)) (JxW F c) = nth c qs 0 / 6.
Proof.
  intros HE Hq Hc. unfold check_mesh_TET4 in Hq. set (h := fun c0 : list nat => match c0 with [a; b; c; d] => Ok (quality (points F a) (points F b) (points F c) (points F d)) | _ => Err ValueError end) in *.
  assert (Hlen : length qs = num_cells F) by (unfold num_cells; eapply mapM_len; exact Hq).
  split; [exact Hlen|].
  assert (E : nth c qs 0 = det 3 (edges4 c)).
  { unfold num_cells in Hc. pose proof (nth_error_nth' (cells F) [] Hc) as En. destruct (mapM_ok_nth h (cells F) qs c _ Hq En) as (y & Hy & Ey).
    rewrite (nth_error_nth _ _ 0 Ey). rewrite tet_det. unfold physical_coos, cell_node. unfold h in Hy.
    destruct (nth c (cells F) []) as [|n0 [|n1 [|n2 [|n3 [|? ?]]]]]; try discriminate Hy. injection Hy as <-. reflexivity. }
  destruct (affine_volume B HB F "TET4" ltac:(cbn; tauto) HE c _ _ (tet_is_affine c)) as [Hd Hv].
  change (cell_of "TET4") with tetrahedron in *. cbn [cell_dim ref_volume] in *. rewrite E. split; [exact Hd|]. rewrite Hv. field.
Qed.
Lemma weights_nonempty : element_tables B "TET4" = Ok (f_ele F) -> (0 < num_quads (f_ele F))%nat.
Proof.
  intros HE. destruct (tables_given B HB "TET4" _ ltac:(cbn; tauto) HE) as (fi & _ & ->). cbn [num_quads tables].
  pose proof (weights_sum B HB (cell_of "TET4") (gauss_of "TET4")) as Hw. destruct (length _); [|lia]. cbn in Hw. lra.
Qed.
Lemma tet_singular qs : element_tables B "TET4" = Ok (f_ele F) -> check_mesh_TET4 (points F) (cells F) = Ok qs ->
  (get_shape_grads F = Err LinAlgError <-> In 0 qs).
Proof.
  intros HE Hq. rewrite <- linear_jacobian_error. pose proof (weights_nonempty HE) as Hne. split.
  - intros (c & q & Hc & _ & Hz). destruct (tet_quality qs c HE Hq Hc) as (Hl & Hd & _). rewrite Hd in Hz. rewrite <- Hz. apply nth_In. lia.
  - intros Hi. apply (In_nth _ _ 0) in Hi. destruct Hi as (c & Hc & Hz).
    assert (Hcc : (c < num_cells F)%nat) by (replace (num_cells F) with (length qs); [exact Hc|]; unfold num_cells; eapply mapM_len; exact Hq).
    exists c, 0%nat. destruct (tet_quality qs c HE Hq Hcc) as (_ & Hd & _). rewrite Hd. auto.
Qed.

(** ** bricks and rectangles *)
Definition diag (l : list R) : mat := fun i j => if Nat.eqb i j then nth i l 0 else 0.
Lemma brick_affine Nx Ny Nz Lx Ly Lz c : (0 < Nx)%nat -> (0 < Ny)%nat -> (0 < Nz)%nat ->
  let m := MeshModel.box_mesh Nx Ny Nz Lx Ly Lz in
  has_mesh3 F (MeshModel.points m) (MeshModel.cells m) -> (c < num_cells F)%nat ->
  exists b, affine_cell F "HEX8" c (diag [Lx / INR Nx; Ly / INR Ny; Lz / INR Nz]) b.
Proof.
  intros Hx Hy Hz m [Hcells Hpts] Hc. unfold num_cells in Hc. rewrite Hcells in Hc. unfold m in Hc.
  rewrite (MeshProofs.box_cells_length Nx Ny Nz Lx Ly Lz Hx Hy Hz) in Hc.
  destruct (decode3 _ _ _ _ Hc) as (Hi & Hj & Hk & En). set (i := (c / Nz / Ny)%nat) in *. set (j := ((c / Nz) mod Ny)%nat) in *. set (k := (c mod Nz)%nat) in *.
  pose proof (MeshProofs.box_cell_at Nx Ny Nz Lx Ly Lz Hx Hy Hz i j k Hi Hj Hk) as Ec. rewrite En in Ec. cbn beta in Ec. fold m in Ec. rewrite <- Hcells in Ec.
  assert (HP : forall a b e, (a <= Nx)%nat -> (b <= Ny)%nat -> (e <= Nz)%nat ->
    points F (a * ((Ny + 1) * (Nz + 1)) + b * (Nz + 1) + e)%nat 0%nat = INR a * Lx / INR Nx /\
    points F (a * ((Ny + 1) * (Nz + 1)) + b * (Nz + 1) + e)%nat 1%nat = INR b * Ly / INR Ny /\
    points F (a * ((Ny + 1) * (Nz + 1)) + b * (Nz + 1) + e)%nat 2%nat = INR e * Lz / INR Nz).
  { intros a b e Ha Hb He. apply Hpts. exact (MeshProofs.box_point_at Nx Ny Nz Lx Ly Lz Hx Hy Hz a b e Ha Hb He). }
  exists (fun d => nth d [INR i * Lx / INR Nx; INR j * Ly / INR Ny; INR k * Lz / INR Nz] 0).
  assert (Nx0 : INR Nx <> 0) by (apply not_0_INR; lia). assert (Ny0 : INR Ny <> 0) by (apply not_0_INR; lia). assert (Nz0 : INR Nz <> 0) by (apply not_0_INR; lia).
  intros a d Ha Hd. cbn in Ha, Hd. unfold physical_coos, cell_node. rewrite (nth_error_nth _ _ [] Ec).
  pose proof (HP i j k ltac:(lia) ltac:(lia) ltac:(lia)) as (P0 & P1 & P2).
  pose proof (HP (S i) j k ltac:(lia) ltac:(lia) ltac:(lia)) as (Q0 & Q1 & Q2).
  pose proof (HP (S i) (S j) k ltac:(lia) ltac:(lia) ltac:(lia)) as (R0 & R1 & R2).
  pose proof (HP i (S j) k ltac:(lia) ltac:(lia) ltac:(lia)) as (S0 & S1 & S2).
  pose proof (HP i j (S k) ltac:(lia) ltac:(lia) ltac:(lia)) as (T0 & T1 & T2).
  pose proof (HP (S i) j (S k) ltac:(lia) ltac:(lia) ltac:(lia)) as (U0 & U1 & U2).
  pose proof (HP (S i) (S j) (S k) ltac:(lia) ltac:(lia) ltac:(lia)) as (V0 & V1 & V2).
  pose proof (HP i (S j) (S k) ltac:(lia) ltac:(lia) ltac:(lia)) as (W0 & W1 & W2).
  clear HP Ec En Hc Hcells Hpts. unfold sumN, node_at, coord, diag.
  destruct a as [|[|[|[|[|[|[|[|a]]]]]]]]; try lia; destruct d as [|[|[|d]]]; try lia; cbn [nth];
    rewrite ?P0, ?P1, ?P2, ?Q0, ?Q1, ?Q2, ?R0, ?R1, ?R2, ?S0, ?S1, ?S2, ?T0, ?T1, ?T2, ?U0, ?U1, ?U2, ?V0, ?V1, ?V2, ?W0, ?W1, ?W2;
    change (cell_dim (cell_of "HEX8")) with 3%nat; change (mesh_nodes "HEX8") with vtk_hex; unfold vtk_hex;
    cbn [seq sumR nth Nat.eqb]; rewrite ?S_INR; cbn [INR]; field; assumption.
Qed.
Lemma brick_volume Nx Ny Nz Lx Ly Lz : (0 < Nx)%nat -> (0 < Ny)%nat -> (0 < Nz)%nat ->
  let m := MeshModel.box_mesh Nx Ny Nz Lx Ly Lz in
  has_mesh3 F (MeshModel.points m) (MeshModel.cells m) -> element_tables B "HEX8" = Ok (f_ele F) ->
  (forall c q, (c < num_cells F)%nat -> jacobian_det F c q = Lx / INR Nx * (Ly / INR Ny) * (Lz / INR Nz)) /\
  sumN (num_cells F) (fun c => sumN (num_quads (f_ele F)) (JxW F c)) = Lx * Ly * Lz.
Proof.
  intros Hx Hy Hz m Hm HE.
  assert (Nx0 : INR Nx <> 0) by (apply not_0_INR; lia). assert (Ny0 : INR Ny <> 0) by (apply not_0_INR; lia). assert (Nz0 : INR Nz <> 0) by (apply not_0_INR; lia).
  assert (Hall : forall c, (c < num_cells F)%nat -> (forall q, jacobian_det F c q = Lx / INR Nx * (Ly / INR Ny) * (Lz / INR Nz)) /\
     sumN (num_quads (f_ele F)) (JxW F c) = Lx / INR Nx * (Ly / INR Ny) * (Lz / INR Nz)).
  { intros c Hc. destruct (brick_affine Nx Ny Nz Lx Ly Lz c Hx Hy Hz Hm Hc) as (b & HA).
    destruct (affine_volume B HB F "HEX8" ltac:(cbn; tauto) HE c _ _ HA) as [Hd Hv].
    change (cell_of "HEX8") with hexahedron in *. cbn [cell_dim ref_volume det] in *. unfold diag in *. cbn [Nat.eqb nth] in *.
    split; [intros q; rewrite Hd|rewrite Hv]; field; auto. }
  split; [intros c q Hc; now apply Hall|].
  rewrite (sumN_ext _ _ (fun _ => Lx / INR Nx * (Ly / INR Ny) * (Lz / INR Nz))) by (intros c Hc; now apply Hall).
  rewrite sumN_const. unfold num_cells. destruct Hm as [-> _]. unfold m. rewrite (MeshProofs.box_cells_length Nx Ny Nz Lx Ly Lz Hx Hy Hz), !mult_INR. field. auto.
Qed.
Lemma rect_affine Nx Ny Lx Ly c : (0 < Nx)%nat -> (0 < Ny)%nat ->
  let m := MeshModel.rectangle_mesh Nx Ny Lx Ly in
  has_mesh2 F (MeshModel.points m) (MeshModel.cells m) -> (c < num_cells F)%nat ->
  exists b, affine_cell F "QUAD4" c (diag [Lx / INR Nx; Ly / INR Ny]) b.
Proof.
  intros Hx Hy m [Hcells Hpts] Hc. unfold num_cells in Hc. rewrite Hcells in Hc. unfold m in Hc.
  rewrite (MeshProofs.rect_cells_eq Nx Ny Lx Ly Hx Hy), flat2_length in Hc.
  destruct (decode2 _ _ _ Hc) as (Hi & Hj & En). set (i := (c / Ny)%nat) in *. set (j := (c mod Ny)%nat) in *.
  pose proof (MeshProofs.rect_cell_at Nx Ny Lx Ly Hx Hy i j Hi Hj) as Ec. rewrite En in Ec. cbn beta in Ec. fold m in Ec. rewrite <- Hcells in Ec.
  assert (HP : forall a b, (a <= Nx)%nat -> (b <= Ny)%nat ->
    points F (a * (Ny + 1) + b)%nat 0%nat = INR a * Lx / INR Nx /\ points F (a * (Ny + 1) + b)%nat 1%nat = INR b * Ly / INR Ny).
  { intros a b Ha Hb. apply Hpts. exact (MeshProofs.rect_point_at Nx Ny Lx Ly Hx Hy a b Ha Hb). }
  exists (fun d => nth d [INR i * Lx / INR Nx; INR j * Ly / INR Ny] 0).
  assert (Nx0 : INR Nx <> 0) by (apply not_0_INR; lia). assert (Ny0 : INR Ny <> 0) by (apply not_0_INR; lia).
  intros a d Ha Hd. cbn in Ha, Hd. unfold physical_coos, cell_node. rewrite (nth_error_nth _ _ [] Ec).
  pose proof (HP i j ltac:(lia) ltac:(lia)) as (P0 & P1).
  pose proof (HP (S i) j ltac:(lia) ltac:(lia)) as (Q0 & Q1).
  pose proof (HP (S i) (S j) ltac:(lia) ltac:(lia)) as (R0 & R1).
  pose proof (HP i (S j) ltac:(lia) ltac:(lia)) as (S0 & S1).
  clear HP Ec En Hc Hcells Hpts. unfold sumN, node_at, coord, diag.
  destruct a as [|[|[|[|a]]]]; try lia; destruct d as [|[|d]]; try lia; cbn [nth];
    rewrite ?P0, ?P1, ?Q0, ?Q1, ?R0, ?R1, ?S0, ?S1;
    change (cell_dim (cell_of "QUAD4")) with 2%nat; change (mesh_nodes "QUAD4") with vtk_quad; unfold vtk_quad;
    cbn [seq sumR nth Nat.eqb]; rewrite ?S_INR; cbn [INR]; field; assumption.
Qed.
Lemma rect_area Nx Ny Lx Ly : (0 < Nx)%nat -> (0 < Ny)%nat ->
  let m := MeshModel.rectangle_mesh Nx Ny Lx Ly in
  has_mesh2 F (MeshModel.points m) (MeshModel.cells m) -> element_tables B "QUAD4" = Ok (f_ele F) ->
  (forall c q, (c < num_cells F)%nat -> jacobian_det F c q = Lx / INR Nx * (Ly / INR Ny)) /\
  sumN (num_cells F) (fun c => sumN (num_quads (f_ele F)) (JxW F c)) = Lx * Ly.
Proof.
  intros Hx Hy m Hm HE.
  assert (Nx0 : INR Nx <> 0) by (apply not_0_INR; lia). assert (Ny0 : INR Ny <> 0) by (apply not_0_INR; lia).
  assert (Hall : forall c, (c < num_cells F)%nat -> (forall q, jacobian_det F c q = Lx / INR Nx * (Ly / INR Ny)) /\
     sumN (num_quads (f_ele F)) (JxW F c) = Lx / INR Nx * (Ly / INR Ny)).
  { intros c Hc. destruct (rect_affine Nx Ny Lx Ly c Hx Hy Hm Hc) as (b & HA).
    destruct (affine_volume B HB F "QUAD4" ltac:(cbn; tauto) HE c _ _ HA) as [Hd Hv].
    change (cell_of "QUAD4") with quadrilateral in *. cbn [cell_dim ref_volume det] in *. unfold diag in *. cbn [Nat.eqb nth] in *.
    split; [intros q; rewrite Hd|rewrite Hv]; field; auto. }
  split; [intros c q Hc; now apply Hall|].
  rewrite (sumN_ext _ _ (fun _ => Lx / INR Nx * (Ly / INR Ny))) by (intros c Hc; now apply Hall).
  rewrite sumN_const. unfold num_cells. destruct Hm as [-> _]. unfold m. rewrite (MeshProofs.rect_cells_eq Nx Ny Lx Ly Hx Hy), flat2_length, !mult_INR. field. auto.
Qed.
End Measure.
Close Scope R_scope.
