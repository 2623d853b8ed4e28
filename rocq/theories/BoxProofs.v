(** * The sides of a box mesh: selected faces, areas, the divergence theorem. *)
From Coq Require Import String Lra Lia.
From Verif Require Import Prelude PreludeFacts FemModel FemFacts FemSpec FemGeoProofs FemAsmProofs BasisModel BasisSpec BasisProofs BasisFaceProofs BasisQuadProofs BasisMeshProofs RveMeanProofs BoxSpec.
From Verif Require MeshModel MeshSpec MeshProofs.
Open Scope R_scope.
Open Scope list_scope.

(** ** the reference cube *)
Definition off (a d : nat) : nat := if Nat.eqb (nth d (nth a vtk_hex []) 0%nat) 0 then 0 else 1.
Definition hex_faces : list (list nat) := [[0; 1; 3; 2]; [0; 1; 4; 5]; [0; 3; 4; 7]; [1; 2; 5; 6]; [3; 2; 7; 6]; [4; 5; 7; 6]]%nat.
Definition fdir (f : nat) : nat := nth f [2; 1; 0; 0; 1; 2]%nat 0%nat.
Definition fhi (f : nat) : bool := Nat.leb 3 f.
Definition face_of (d : nat) (hi : bool) : nat := if hi then (3 + d)%nat else (2 - d)%nat.
Lemma hex_face_inds : reorder_inds (basix_facets (cell_of "HEX8")) (order_of "HEX8") = Ok hex_faces.
Proof. reflexivity. Qed.

Section Quadrature.
Variable B : basix.
Hypothesis HB : documented_basix B.
Hypothesis Hq4 : exact_rule B quadrilateral 2.
Variable E : ele.
Hypothesis HE : element_tables B "HEX8" = Ok E.
Let w p := nth p (snd (make_quadrature B quadrilateral 2)) 0.
Let y p := nth p (fst (make_quadrature B quadrilateral 2)) origin.
Lemma hex_tables : E = tables B "HEX8" hex_faces.
Proof. destruct (tables_given B HB "HEX8" E ltac:(cbn; tauto) HE) as (fi & Hr & ->). rewrite hex_face_inds in Hr. now injection Hr as <-. Qed.
Lemma bilinear c0 c1 c2 c3 : sumN (num_face_quads E) (fun p => w p * (c0 + c1 * y p 0%nat + c2 * y p 1%nat + c3 * (y p 0%nat * y p 1%nat))) = c0 + c1 / 2 + c2 / 2 + c3 / 4.
Proof.
  replace (num_face_quads E) with (length (fst (make_quadrature B quadrilateral 2))) by (rewrite hex_tables; reflexivity).
  pose proof (Hq4 [] eq_refl) as M0. pose proof (Hq4 [1%nat] eq_refl) as M1. pose proof (Hq4 [0; 1]%nat eq_refl) as M2. pose proof (Hq4 [1; 1]%nat eq_refl) as M3.
  unfold w, y. destruct (make_quadrature B quadrilateral 2) as [pts ws]. cbn [fst snd] in *.
  rewrite (sumN_ext _ _ (fun q => c0 * (nth q ws 0 * mono (cell_dim quadrilateral) [] (nth q pts origin)) + c1 * (nth q ws 0 * mono (cell_dim quadrilateral) [1%nat] (nth q pts origin))
     + c2 * (nth q ws 0 * mono (cell_dim quadrilateral) [0; 1]%nat (nth q pts origin)) + c3 * (nth q ws 0 * mono (cell_dim quadrilateral) [1; 1]%nat (nth q pts origin)))).
  - rewrite !sumN_add, !sumN_scal, M0, M1, M2, M3. unfold moment, prodN. cbn. field.
  - intros q _. unfold mono, prodN. cbn. ring.
Qed.
(** the integral over face f of the shape function of node a *)
Lemma face_shape_integral f a : (f < 6)%nat -> (a < 8)%nat ->
  sumN (num_face_quads E) (fun p => w p * face_shape_vals E f p a) = if Nat.eqb (off a (fdir f)) (if fhi f then 1 else 0) then 1 / 4 else 0.
Proof.
  intros Hf Ha.
  assert (Hv : forall p, face_shape_vals E f p a = node_shape "HEX8" a (facet_point hexahedron f (y p))).
  { intros p. rewrite hex_tables. cbn [face_shape_vals tables]. rewrite (face_point_facet B HB "HEX8" f p Hf). apply tabulated; [exact HB|cbn; tauto|exact Ha]. }
  rewrite (sumN_ext _ _ (fun p => w p * node_shape "HEX8" a (facet_point hexahedron f (y p)))) by (intros p _; now rewrite Hv).
  assert (Hfit : forall c0 c1 c2 c3 z, (forall p, node_shape "HEX8" a (facet_point hexahedron f (y p)) = c0 + c1 * y p 0%nat + c2 * y p 1%nat + c3 * (y p 0%nat * y p 1%nat)) ->
    c0 + c1 / 2 + c2 / 2 + c3 / 4 = z -> sumN (num_face_quads E) (fun p => w p * node_shape "HEX8" a (facet_point hexahedron f (y p))) = z).
  { intros c0 c1 c2 c3 z Hc <-. rewrite <- bilinear. apply sumN_ext. intros p _. now rewrite Hc. }
  unfold node_shape, lagrange, facet_point, facet_vertex, coord, prodN, sumN in *.
  do 6 (destruct f as [|f]; [do 8 (destruct a as [|a]; [cbn in Hfit |- *;
     first [ apply (Hfit 0 0 0 0); [intros p; field|field] | apply (Hfit 1 (-1) (-1) 1); [intros p; field|field] | apply (Hfit 0 1 0 (-1)); [intros p; field|field]
           | apply (Hfit 0 0 1 (-1)); [intros p; field|field] | apply (Hfit 0 0 0 1); [intros p; field|field] ]|]); lia|]). lia.
Qed.
End Quadrature.

Section Box.
Context {V : Type}.
Variable B : basix.
Hypothesis HB : documented_basix B.
Variable F : fem V.
Local Notation E := (f_ele F).
Variables (Nx Ny Nz : nat) (Lx Ly Lz : R).
Hypothesis Hx : (0 < Nx)%nat.
Hypothesis Hy : (0 < Ny)%nat.
Hypothesis Hz : (0 < Nz)%nat.
Hypothesis Hlx : 0 < Lx.
Hypothesis Hly : 0 < Ly.
Hypothesis Hlz : 0 < Lz.
Local Notation m := (MeshModel.box_mesh Nx Ny Nz Lx Ly Lz).
Hypothesis Hmesh : has_mesh3 F (MeshModel.points m) (MeshModel.cells m).
Hypothesis Hnodes : num_total_nodes F = length (MeshModel.points m).
Hypothesis HE : element_tables B "HEX8" = Ok E.
Local Notation N := (along Nx Ny Nz).
Local Notation L := (along Lx Ly Lz).
Definition hh (d : nat) : R := L d / INR (N d).
Definition node (i j k : nat) : nat := (i * ((Ny + 1) * (Nz + 1)) + j * (Nz + 1) + k)%nat.
Definition cellno (i j k : nat) : nat := (Ny * Nz * i + (Nz * j + k))%nat.
Lemma N_pos d : (0 < N d)%nat. Proof. destruct d as [|[|d]]; assumption. Qed.
Lemma L_pos d : 0 < L d. Proof. destruct d as [|[|d]]; assumption. Qed.
Lemma hh_pos d : 0 < hh d.
Proof. unfold hh. apply Rdiv_lt_0_compat; [apply L_pos|]. apply lt_0_INR, N_pos. Qed.
Lemma box_dim : dim F = 3%nat /\ num_nodes E = 8%nat.
Proof. destruct (dims B HB F "HEX8" ltac:(cbn; tauto) HE) as (-> & -> & _). split; reflexivity. Qed.
Lemma box_faces : face_inds E = hex_faces.
Proof. rewrite (hex_tables B HB E HE). reflexivity. Qed.
Lemma box_num_cells : num_cells F = (Nx * (Ny * Nz))%nat.
Proof. unfold num_cells. destruct Hmesh as [-> _]. now apply MeshProofs.box_cells_length. Qed.
Lemma box_sum f : sumN (num_cells F) f = sumN Nx (fun i => sumN Ny (fun j => sumN Nz (fun k => f (cellno i j k)))).
Proof. rewrite box_num_cells, sumN_mul. apply sumN_ext. intros i _. now rewrite sumN_mul. Qed.
Lemma cellno_lt i j k : (i < Nx)%nat -> (j < Ny)%nat -> (k < Nz)%nat -> (cellno i j k < num_cells F)%nat.
Proof.
  intros Hi Hj Hk. rewrite box_num_cells. unfold cellno. assert (H1 : (Nz * j + k < Ny * Nz)%nat) by nia. assert (H2 : ((i + 1) * (Ny * Nz) <= Nx * (Ny * Nz))%nat) by (apply Nat.mul_le_mono_r; lia). lia.
Qed.
Lemma cellno_surj c : (c < num_cells F)%nat -> exists i j k, (i < Nx)%nat /\ (j < Ny)%nat /\ (k < Nz)%nat /\ c = cellno i j k.
Proof.
  rewrite box_num_cells. intros Hc. destruct (decode3 _ _ _ _ Hc) as (Hi & Hj & Hk & En). do 3 eexists. split; [exact Hi|]. split; [exact Hj|]. split; [exact Hk|]. unfold cellno. rewrite <- En at 1. lia.
Qed.
Lemma cell_node_at i j k a : (i < Nx)%nat -> (j < Ny)%nat -> (k < Nz)%nat -> (a < 8)%nat ->
  cell_node F (cellno i j k) a = node (i + off a 0) (j + off a 1) (k + off a 2).
Proof.
  intros Hi Hj Hk Ha. unfold cell_node. destruct Hmesh as [-> _].
  pose proof (MeshProofs.box_cell_at Nx Ny Nz Lx Ly Lz Hx Hy Hz i j k Hi Hj Hk) as Hc.
  replace (i * (Ny * Nz) + j * Nz + k)%nat with (cellno i j k) in Hc by (unfold cellno; lia). rewrite (nth_error_nth _ _ [] Hc).
  do 8 (destruct a as [|a]; [cbn [nth off vtk_hex Nat.eqb]; unfold off, vtk_hex; cbn [nth Nat.eqb]; unfold node; rewrite ?Nat.add_0_r, ?Nat.add_1_r; reflexivity|]). lia.
Qed.
Lemma node_lt i j k : (i <= Nx)%nat -> (j <= Ny)%nat -> (k <= Nz)%nat -> (node i j k < num_total_nodes F)%nat.
Proof. intros. rewrite Hnodes, MeshProofs.box_points_length by assumption. unfold node.
  assert (H1' : (j * (Nz + 1) + k < (Ny + 1) * (Nz + 1))%nat) by nia. assert (H2' : ((i + 1) * ((Ny + 1) * (Nz + 1)) <= (Nx + 1) * ((Ny + 1) * (Nz + 1)))%nat) by (apply Nat.mul_le_mono_r; lia). lia.
Qed.
Lemma node_point i j k d : (i <= Nx)%nat -> (j <= Ny)%nat -> (k <= Nz)%nat -> (d < 3)%nat -> points F (node i j k) d = INR (along i j k d) * L d / INR (N d).
Proof.
  intros Hi Hj Hk Hd. destruct Hmesh as [_ Hp]. destruct (Hp _ _ _ _ (MeshProofs.box_point_at Nx Ny Nz Lx Ly Lz Hx Hy Hz i j k Hi Hj Hk)) as (P0 & P1 & P2).
  destruct d as [|[|[|d]]]; try lia; assumption.
Qed.
Lemma node_surj n : (n < num_total_nodes F)%nat -> exists i j k, (i <= Nx)%nat /\ (j <= Ny)%nat /\ (k <= Nz)%nat /\ n = node i j k.
Proof.
  rewrite Hnodes, MeshProofs.box_points_length by assumption. intros Hn. destruct (decode3 _ _ _ _ Hn) as (Hi & Hj & Hk & En). do 3 eexists.
  split; [apply Nat.lt_succ_r; rewrite <- Nat.add_1_r; exact Hi|]. split; [apply Nat.lt_succ_r; rewrite <- Nat.add_1_r; exact Hj|].
  split; [apply Nat.lt_succ_r; rewrite <- Nat.add_1_r; exact Hk|]. symmetry. exact En.
Qed.
Lemma off_le a d : (off a d <= 1)%nat.
Proof. unfold off. destruct (Nat.eqb _ 0); lia. Qed.
(** the plane of a side, in terms of grid numbers *)
Definition level (d : nat) (hi : bool) : nat := if hi then N d else 0%nat.
Lemma on_level d hi x : (INR x * L d / INR (N d) = side_coord Lx Ly Lz (d, hi)) <-> x = level d hi.
Proof.
  pose proof (L_pos d) as HL. pose proof (N_pos d) as HN. assert (HN' : 0 < INR (N d)) by now apply lt_0_INR. unfold side_coord, level. cbn [fst snd].
  split.
  - intros H. apply INR_eq. assert (HH : INR x * L d = (if hi then L d else 0) * INR (N d)) by (rewrite <- H; field; lra).
    destruct hi; [apply (Rmult_eq_reg_l (L d)); [rewrite Rmult_comm, HH; ring|lra]|]. cbn [INR]. rewrite Rmult_0_l in HH. apply Rmult_integral in HH as [HH | HH]; [exact HH|lra].
  - intros ->. destruct hi; [field; lra|cbn [INR]; unfold Rdiv; ring].
Qed.
Lemma loc_node loc d hi i j k : picks_plane F loc d (side_coord Lx Ly Lz (d, hi)) -> (d < 3)%nat -> (i <= Nx)%nat -> (j <= Ny)%nat -> (k <= Nz)%nat ->
  loc (points F (node i j k)) = Nat.eqb (along i j k d) (level d hi).
Proof.
  intros Hl Hd Hi Hj Hk. pose proof (Hl _ (node_lt i j k Hi Hj Hk)) as Hn. rewrite (node_point i j k d Hi Hj Hk Hd), on_level in Hn.
  destruct (Nat.eqb_spec (along i j k d) (level d hi)) as [E0 | E0]; [now apply Hn|]. apply Bool.not_true_is_false. tauto.
Qed.
(** ** the faces picked by a side *)
Lemma flag_eq loc d hi i j k f : picks_plane F loc d (side_coord Lx Ly Lz (d, hi)) -> (d < 3)%nat -> (i < Nx)%nat -> (j < Ny)%nat -> (k < Nz)%nat -> (f < 6)%nat ->
  boundary_flag F loc (cellno i j k) f = Nat.eqb f (face_of d hi) && Nat.eqb (along i j k d) (if hi then N d - 1 else 0)%nat.
Proof.
  intros Hl Hd Hi Hj Hk Hf. unfold boundary_flag. rewrite box_faces.
  assert (Hin : forall a, In a (nth f hex_faces []) -> (a < 8)%nat).
  { intros a Ha. do 6 (destruct f as [|f]; [cbn in Ha; lia|]). lia. }
  transitivity (forallb (fun a => Nat.eqb (along i j k d + off a d) (level d hi)) (nth f hex_faces [])).
  { revert Hin. generalize (nth f hex_faces []) as l. induction l as [|a l IH]; intros Hin; [reflexivity|]. cbn [forallb]. rewrite IH by (intros; apply Hin; now right). f_equal.
    unfold physical_coos. assert (Ha : (a < 8)%nat) by (apply Hin; now left). rewrite cell_node_at by assumption.
    pose proof (off_le a 0). pose proof (off_le a 1). pose proof (off_le a 2).
    rewrite (loc_node loc d hi) by (assumption || lia). f_equal. destruct d as [|[|[|d]]]; try lia; reflexivity. }
  assert (Hr : (along i j k d < N d)%nat) by (destruct d as [|[|[|d]]]; try lia; assumption).
  set (x := along i j k d) in *. pose proof (N_pos d) as HN. unfold level. clearbody x.
  set (T := if hi then N d else 0%nat). 
  assert (H0 : Nat.eqb (x + 0) T = negb hi && Nat.eqb x 0).
  { rewrite Nat.add_0_r. unfold T. destruct hi; cbn [negb andb]; [apply Nat.eqb_neq; lia|reflexivity]. }
  assert (H1 : Nat.eqb (x + 1) T = hi && Nat.eqb x (N d - 1)).
  { unfold T. destruct hi; cbn [andb]; [|apply Nat.eqb_neq; lia]. destruct (Nat.eqb_spec (x + 1) (N d)); destruct (Nat.eqb_spec x (N d - 1)); try reflexivity; lia. }
  clearbody T. clear Hin Hl.
  do 6 (destruct f as [|f]; [destruct d as [|[|[|d]]]; try lia; unfold hex_faces, off, vtk_hex; cbn [nth forallb Nat.eqb face_of]; rewrite ?H0, ?H1;
     destruct hi; cbn [face_of negb andb Nat.eqb Nat.add Nat.sub]; rewrite ?Bool.andb_false_r, ?Bool.andb_true_r, ?Bool.andb_diag; try reflexivity; 
     repeat (destruct (Nat.eqb x _)); reflexivity|]). lia.
Qed.
Lemma sumR_keep {A} (p : A -> bool) (l : list A) g : sumR (filter p l) g = sumR l (fun x => if p x then g x else 0).
Proof. induction l as [|x l IH]; [reflexivity|]. cbn [filter]. destruct (p x) eqn:Ex; cbn [sumR]; rewrite ?Ex, IH; [reflexivity|ring]. Qed.
(** the faces of the side: one per cell of the outer layer *)
Definition layer (d : nat) (hi : bool) (p r : nat) : nat :=
  let x := (if hi then N d - 1 else 0)%nat in match d with 0%nat => cellno x p r | 1%nat => cellno p x r | _ => cellno p r x end.
Lemma side_sum loc d hi g : picks_plane F loc d (side_coord Lx Ly Lz (d, hi)) -> (d < 3)%nat ->
  sumR (boundary_inds F loc) g = sumN (along Ny Nx Nx d) (fun p => sumN (along Nz Nz Ny d) (fun r => g (layer d hi p r, face_of d hi))).
Proof.
  intros Hl Hd. unfold boundary_inds. rewrite sumR_keep, sumR_flat2. cbn [fst snd]. fold (sumN (num_cells F) (fun c => sumR (seq 0 (length (face_inds E))) (fun f => if boundary_flag F loc c f then g (c, f) else 0))).
  rewrite box_sum.
  assert (Hc : forall i j k, (i < Nx)%nat -> (j < Ny)%nat -> (k < Nz)%nat ->
    sumR (seq 0 (length (face_inds E))) (fun f => if boundary_flag F loc (cellno i j k) f then g (cellno i j k, f) else 0)
    = if Nat.eqb (along i j k d) (if hi then N d - 1 else 0)%nat then g (cellno i j k, face_of d hi) else 0).
  { intros i j k Hi Hj Hk. rewrite box_faces. change (length hex_faces) with 6%nat.
    rewrite (sumR_ext _ _ (fun f => if Nat.eqb f (face_of d hi) && Nat.eqb (along i j k d) (if hi then N d - 1 else 0)%nat then g (cellno i j k, f) else 0)).
    2: { intros f Hf. apply in_seq in Hf. rewrite (flag_eq loc d hi) by (assumption || lia). reflexivity. }
    assert (Hfo : (face_of d hi < 6)%nat) by (unfold face_of; destruct hi; lia). revert Hfo. generalize (face_of d hi) as fo. intros fo Hfo.
    destruct (Nat.eqb (along i j k d) _).
    - do 6 (destruct fo as [|fo]; [cbn; ring|]). lia.
    - apply sumR_zero. intros f _. now rewrite Bool.andb_false_r. }
  rewrite (sumN_ext Nx _ (fun i => sumN Ny (fun j => sumN Nz (fun k => if Nat.eqb (along i j k d) (if hi then N d - 1 else 0)%nat then g (cellno i j k, face_of d hi) else 0)))).
  2: { intros i Hi. apply sumN_ext. intros j Hj. apply sumN_ext. intros k Hk. now apply Hc. }
  assert (Hx0 : ((if hi then N d - 1 else 0) < N d)%nat) by (pose proof (N_pos d); destruct hi; lia).
  assert (Hpick : forall n x0 (h : nat -> R), (x0 < n)%nat -> sumN n (fun i => if Nat.eqb i x0 then h i else 0) = h x0).
  { intros n x0 h Hlt. rewrite <- (sumN_pick n x0 h Hlt). apply sumN_ext. intros i _. destruct (Nat.eqb i x0); [ring|ring]. }
  unfold layer. set (x0 := (if hi then N d - 1 else 0)%nat) in *. clearbody x0.
  destruct d as [|[|[|d]]]; try lia; cbn [along] in *.
  - rewrite sumN_swap. apply sumN_ext. intros j _. rewrite sumN_swap. apply sumN_ext. intros k _. now apply (Hpick Nx x0 (fun i => g (cellno i j k, face_of 0 hi))).
  - apply sumN_ext. intros i _. rewrite sumN_swap. apply sumN_ext. intros k _. now apply (Hpick Ny x0 (fun j => g (cellno i j k, face_of 1 hi))).
  - apply sumN_ext. intros i _. apply sumN_ext. intros j _. now apply (Hpick Nz x0 (fun k => g (cellno i j k, face_of 2 hi))).
Qed.
Lemma layer_lt d hi p r : (d < 3)%nat -> (p < along Ny Nx Nx d)%nat -> (r < along Nz Nz Ny d)%nat -> (layer d hi p r < num_cells F)%nat.
Proof.
  intros Hd Hp Hr. unfold layer. assert (Hx0 : ((if hi then N d - 1 else 0) < N d)%nat) by (pose proof (N_pos d); destruct hi; lia).
  destruct d as [|[|[|d]]]; try lia; cbn [along] in *; apply cellno_lt; assumption.
Qed.
(** ** areas *)
Definition farea (d : nat) : R := along (hh 1 * hh 2) (hh 0 * hh 2) (hh 0 * hh 1) d.
Lemma farea_pos d : 0 < farea d.
Proof. unfold farea. pose proof (hh_pos 0). pose proof (hh_pos 1). pose proof (hh_pos 2). destruct d as [|[|d]]; cbn [along]; nra. Qed.
Lemma sqrt_of x y : 0 <= y -> x = y * y -> sqrt x = y.
Proof. intros Hp ->. now apply sqrt_square. Qed.
Lemma box_det_pos : 0 < det 3 (diag [Lx / INR Nx; Ly / INR Ny; Lz / INR Nz]).
Proof.
  pose proof (hh_pos 0) as H0. pose proof (hh_pos 1) as H1. pose proof (hh_pos 2) as H2. unfold hh in *. cbn [along] in *. cbn [det]. unfold diag. cbn [Nat.eqb nth].
  match goal with |- 0 < ?e => replace e with (Lx / INR Nx * (Ly / INR Ny) * (Lz / INR Nz)) by ring end. apply Rmult_lt_0_compat; [now apply Rmult_lt_0_compat|assumption].
Qed.
Lemma box_nanson c f p : (c < num_cells F)%nat -> (f < 6)%nat -> nanson_scale F (c, f) p = farea (fdir f) * nth p (snd (make_quadrature B quadrilateral 2)) 0.
Proof.
  intros Hc Hf. destruct (brick_affine F Nx Ny Nz Lx Ly Lz c Hx Hy Hz Hmesh Hc) as (b & HA).
  assert (Hfl : (f < length (face_inds E))%nat) by (rewrite box_faces; exact Hf).
  rewrite (affine_nanson B HB F "HEX8" ltac:(cbn; tauto) HE c _ b f p HA Hfl box_det_pos). cbn [Nat.eqb cell_dim cell_of]. change (Nat.eqb (cell_dim (cell_of "HEX8")) 3) with true. cbv iota.
  f_equal. pose proof (farea_pos (fdir f)) as Hp.
  assert (He : forall k i, (k < 2)%nat -> (i < 3)%nat -> face_edge F c f k i = push (diag [hh 0; hh 1; hh 2]) 3 (fun j => facet_vertex hexahedron f (S k) j - facet_vertex hexahedron f 0 j) i).
  { intros k i Hk Hi. exact (face_edge_push B HB F "HEX8" ltac:(cbn; tauto) HE c _ b f k i HA Hfl Hk Hi). }
  unfold norm3, cross. rewrite !He by lia. apply sqrt_of; [lra|].
  unfold farea, push, sumN, diag, facet_vertex, coord, fdir. do 6 (destruct f as [|f]; [cbn; field|]). lia.
Qed.
Hypothesis Hq4 : exact_rule B quadrilateral 2.
Lemma box_face_integral v c f i : (c < num_cells F)%nat -> (f < 6)%nat ->
  sumN (num_face_quads E) (fun p => nanson_scale F (c, f) p * at_face F v (c, f) p i)
  = farea (fdir f) / 4 * sumN 8 (fun a => if Nat.eqb (off a (fdir f)) (if fhi f then 1 else 0) then v (cell_node F c a) i else 0).
Proof.
  intros Hc Hf. unfold at_face, convert_neumann_from_dof. cbn [fst snd]. destruct box_dim as [_ ->].
  rewrite (sumN_ext _ _ (fun p => sumN 8 (fun a => farea (fdir f) * v (cell_node F c a) i * (nth p (snd (make_quadrature B quadrilateral 2)) 0 * face_shape_vals E f p a)))).
  - rewrite sumN_swap, <- sumN_scal. apply sumN_ext. intros a Ha. rewrite sumN_scal, (face_shape_integral B HB Hq4 E HE f a Hf Ha). destruct (Nat.eqb _ _); field.
  - intros p _. rewrite box_nanson by assumption. rewrite <- sumN_scal. apply sumN_ext. intros a _. ring.
Qed.
(** area of a side *)
Lemma box_area loc d hi : picks_plane F loc d (side_coord Lx Ly Lz (d, hi)) -> (d < 3)%nat ->
  face_integral F loc (fun _ _ => 1) = along (Ly * Lz) (Lx * Lz) (Lx * Ly) d.
Proof.
  intros Hl Hd. unfold face_integral. rewrite (side_sum loc d hi _ Hl Hd).
  assert (Hfd : fdir (face_of d hi) = d /\ (face_of d hi < 6)%nat) by (unfold face_of; destruct d as [|[|[|d]]]; try lia; destruct hi; cbn; lia). destruct Hfd as [Hfd Hf6].
  rewrite (sumN_ext _ _ (fun p => sumN (along Nz Nz Ny d) (fun r => farea d))).
  2: { intros p Hp. apply sumN_ext. intros r Hr.
       rewrite (sumN_ext _ _ (fun q => farea d * nth q (snd (make_quadrature B quadrilateral 2)) 0)) by (intros q _; rewrite box_nanson, Hfd by (try assumption; now apply layer_lt); ring).
       rewrite sumN_scal. replace (num_face_quads E) with (length (fst (make_quadrature B quadrilateral 2))) by (rewrite (hex_tables B HB E HE); reflexivity).
       rewrite (weights_sum B HB). cbn [ref_volume]. ring. }
  rewrite !sumN_const. assert (INR Nx <> 0) by (apply not_0_INR; lia). assert (INR Ny <> 0) by (apply not_0_INR; lia). assert (INR Nz <> 0) by (apply not_0_INR; lia).
  unfold farea, hh. destruct d as [|[|[|d]]]; try lia; cbn [along]; rewrite ?sumN_const; field; auto.
Qed.
Lemma box_count loc d hi : picks_plane F loc d (side_coord Lx Ly Lz (d, hi)) -> (d < 3)%nat ->
  length (boundary_inds F loc) = along (Ny * Nz)%nat (Nx * Nz)%nat (Nx * Ny)%nat d.
Proof.
  intros Hl Hd. apply INR_eq. rewrite <- (Rmult_1_r (INR (length _))), <- sumR_const, (side_sum loc d hi _ Hl Hd).
  rewrite (sumN_ext _ _ (fun _ => INR (along Nz Nz Ny d))) by (intros; rewrite sumN_const; ring). rewrite sumN_const.
  destruct d as [|[|[|d]]]; try lia; cbn [along]; rewrite mult_INR; ring.
Qed.
Lemma box_side_faces loc d hi s : picks_plane F loc d (side_coord Lx Ly Lz (d, hi)) -> (d < 3)%nat ->
  (In s (boundary_inds F loc) <-> exists p r, (p < along Ny Nx Nx d)%nat /\ (r < along Nz Nz Ny d)%nat /\ s = (layer d hi p r, face_of d hi)).
Proof.
  intros Hl Hd. unfold boundary_inds. rewrite filter_In. destruct s as [c f]. cbn [fst snd]. unfold flat2. rewrite in_flat_map. rewrite box_faces. change (length hex_faces) with 6%nat. split.
  - intros [(c' & Hc & Hf) Hb]. apply in_seq in Hc. apply in_map_iff in Hf as (f' & Ef & Hf). injection Ef as -> ->. apply in_seq in Hf.
    destruct (cellno_surj c ltac:(lia)) as (i & j & k & Hi & Hj & Hk & ->). rewrite (flag_eq loc d hi) in Hb by (assumption || lia). apply andb_true_iff in Hb as [H1 H2].
    apply Nat.eqb_eq in H1, H2. subst f. unfold layer. rewrite <- H2. destruct d as [|[|[|d]]]; try lia; cbn [along] in *.
    + exists j, k. auto.
    + exists i, k. auto.
    + exists i, j. auto.
  - intros (p & r & Hp & Hr & Es). injection Es as -> ->. pose proof (layer_lt d hi p r Hd Hp Hr) as Hlt.
    assert (Hf6 : (face_of d hi < 6)%nat) by (unfold face_of; destruct hi; lia). split.
    + exists (layer d hi p r). split; [apply in_seq; lia|]. apply in_map_iff. exists (face_of d hi). split; [reflexivity|]. apply in_seq. lia.
    + unfold layer. assert (Hx0 : ((if hi then N d - 1 else 0) < N d)%nat) by (pose proof (N_pos d); destruct hi; lia).
      destruct d as [|[|[|d]]]; try lia; cbn [along] in *; [rewrite (flag_eq loc 0 hi)|rewrite (flag_eq loc 1 hi)|rewrite (flag_eq loc 2 hi)]; try (assumption || lia); cbn [along]; now rewrite !Nat.eqb_refl.
Qed.
Lemma box_face_on_side loc d hi c f : picks_plane F loc d (side_coord Lx Ly Lz (d, hi)) -> (d < 3)%nat -> In (c, f) (boundary_inds F loc) ->
  (c < num_cells F)%nat /\ forall n, In n (nth f (face_inds E) []) -> points F (cell_node F c n) d = side_coord Lx Ly Lz (d, hi).
Proof.
  intros Hl Hd Hin. apply (box_side_faces loc d hi (c, f) Hl Hd) in Hin as (p & r & Hp & Hr & Es). injection Es as -> ->. split; [now apply layer_lt|].
  intros n Hn. rewrite box_faces in Hn. assert (Hn8 : (n < 8)%nat /\ off n d = if hi then 1%nat else 0%nat).
  { unfold face_of, hex_faces in Hn. destruct d as [|[|[|d]]]; try lia; destruct hi; cbn [nth Nat.add Nat.sub In] in Hn; decompose [or] Hn; try contradiction; subst n; split; try lia; reflexivity. }
  destruct Hn8 as [Hn8 Ho]. pose proof (N_pos d). unfold layer.
  pose proof (off_le n 0). pose proof (off_le n 1). pose proof (off_le n 2).
  destruct d as [|[|[|d]]]; try lia; cbn [along] in *; (rewrite cell_node_at by (destruct hi; lia); rewrite node_point by (destruct hi; lia)); apply (on_level _ hi); cbn [along level]; unfold level; rewrite Ho; destruct hi; cbn [along]; lia.
Qed.
(** ** the divergence theorem *)
Hypothesis Hq8 : exact_rule B hexahedron 2.
Lemma box_jac c q i j : (c < num_cells F)%nat -> (i < 3)%nat -> (j < 3)%nat -> jacobian_dx_deta F c q i j = if Nat.eqb i j then hh i else 0.
Proof.
  intros Hc Hi Hj. destruct (brick_affine F Nx Ny Nz Lx Ly Lz c Hx Hy Hz Hmesh Hc) as (b & HA).
  rewrite (affine_jacobian B HB F "HEX8" ltac:(cbn; tauto) HE c _ b q i j HA Hi Hj). unfold diag, hh.
  destruct i as [|[|[|i]]]; try lia; destruct j as [|[|[|j]]]; try lia; reflexivity.
Qed.
Lemma box_det c q : (c < num_cells F)%nat -> jacobian_det F c q = hh 0 * hh 1 * hh 2.
Proof. intros Hc. unfold jacobian_det. destruct box_dim as [-> _]. cbn [det]. rewrite !box_jac by (assumption || lia). cbn [Nat.eqb]. ring. Qed.
Lemma box_invertible : invertible_cells F.
Proof. intros c q Hc _. rewrite box_det by exact Hc. pose proof (hh_pos 0). pose proof (hh_pos 1). pose proof (hh_pos 2). apply Rgt_not_eq. apply Rmult_lt_0_compat; [now apply Rmult_lt_0_compat|assumption]. Qed.
Lemma box_grads_sum : grads_sum_zero F.
Proof.
  intros q j Hq Hj. destruct box_dim as [Hd Hn]. unfold dim in Hd. rewrite Hn. rewrite Hd in Hj.
  rewrite (hex_tables B HB E HE). cbn [shape_grads_ref tables]. exact (proj1 (grads_complete B HB "HEX8" _ j ltac:(cbn; tauto) Hj)).
Qed.
Lemma box_shape_grads c q a d : (c < num_cells F)%nat -> (d < 3)%nat -> shape_grads F c q a d = shape_grads_ref E q a d / hh d.
Proof.
  intros Hc Hd. pose proof (hh_pos 0) as H0. pose proof (hh_pos 1) as H1. pose proof (hh_pos 2) as H2. unfold shape_grads. destruct box_dim as [Hdm _]. rewrite Hdm.
  rewrite (sumN_ext 3 _ (fun i => shape_grads_ref E q a i / hh d * delta i d)).
  - now rewrite sumN_delta.
  - intros i Hi. unfold Rdiv. rewrite Rmult_assoc. f_equal. unfold jacobian_deta_dx, inv. rewrite Hdm.
    replace (det 3 (jacobian_dx_deta F c q)) with (hh 0 * hh 1 * hh 2) by (rewrite <- (box_det c q Hc); unfold jacobian_det; now rewrite Hdm).
    unfold delta. destruct i as [|[|[|i]]]; try lia; destruct d as [|[|[|d]]]; try lia; cbn [adj Nat.eqb]; rewrite ?box_jac by (assumption || lia); cbn [Nat.eqb]; field; lra.
Qed.
Lemma box_cell_integral u c i d : (c < num_cells F)%nat -> (d < 3)%nat ->
  sumN (num_quads E) (fun q => JxW F c q * sol_to_grad F u c q i d) = farea d / 4 * sumN 8 (fun a => sgn_of a d * u (cell_node F c a) i).
Proof.
  intros Hc Hd. pose proof (hh_pos d) as Hhd. unfold sol_to_grad. destruct box_dim as [_ ->].
  rewrite (sumN_ext _ _ (fun q => sumN 8 (fun a => u (cell_node F c a) i * (farea d * (quad_weights E q * shape_grads_ref E q a d))))).
  - rewrite sumN_swap, <- sumN_scal. apply sumN_ext. intros a Ha. rewrite !sumN_scal, (hex_grad_integral B E a d HB Hq8 HE Ha Hd). field.
  - intros q _. rewrite <- sumN_scal. apply sumN_ext. intros a _. rewrite box_shape_grads by assumption. unfold JxW. rewrite box_det by exact Hc.
    unfold farea. destruct d as [|[|[|d]]]; try lia; cbn [along]; field; lra.
Qed.
(** sum of the nodal values at the four corners (p, r) of the grid plane number x *)
Definition corner4 (u : nodal) (i d x p r : nat) : R :=
  let at_ p r := match d with 0%nat => node x p r | 1%nat => node p x r | _ => node p r x end in
  u (at_ p r) i + u (at_ (S p) r) i + u (at_ p (S r)) i + u (at_ (S p) (S r)) i.
Lemma cell_diff u i0 d i j k : (i < Nx)%nat -> (j < Ny)%nat -> (k < Nz)%nat -> (d < 3)%nat ->
  sumN 8 (fun a => sgn_of a d * u (cell_node F (cellno i j k) a) i0)
  = match d with
    | 0%nat => corner4 u i0 0 (S i) j k - corner4 u i0 0 i j k
    | 1%nat => corner4 u i0 1 (S j) i k - corner4 u i0 1 j i k
    | _ => corner4 u i0 2 (S k) i j - corner4 u i0 2 k i j
    end.
Proof.
  intros Hi Hj Hk Hd. rewrite (sumN_ext 8 _ (fun a => sgn_of a d * u (node (i + off a 0) (j + off a 1) (k + off a 2)) i0)) by (intros a Ha; now rewrite cell_node_at).
  unfold sumN, sgn_of, off, vtk_hex, corner4. destruct d as [|[|[|d]]]; try lia; cbn [seq sumR nth Nat.eqb]; rewrite ?Nat.add_0_r, ?Nat.add_1_r; ring.
Qed.
Lemma box_divergence u i d : (d < 3)%nat ->
  volume_integral F (fun c q => sol_to_grad F u c q i d)
  = farea d / 4 * sumN (along Ny Nx Nx d) (fun p => sumN (along Nz Nz Ny d) (fun r => corner4 u i d (N d) p r - corner4 u i d 0 p r)).
Proof.
  intros Hd. unfold volume_integral. rewrite (sumN_ext _ _ (fun c => farea d / 4 * sumN 8 (fun a => sgn_of a d * u (cell_node F c a) i))) by (intros c Hc; now apply box_cell_integral).
  rewrite sumN_scal, box_sum. f_equal.
  rewrite (sumN_ext Nx _ (fun i0 => sumN Ny (fun j => sumN Nz (fun k => match d with
    | 0%nat => corner4 u i 0 (S i0) j k - corner4 u i 0 i0 j k
    | 1%nat => corner4 u i 1 (S j) i0 k - corner4 u i 1 j i0 k
    | _ => corner4 u i 2 (S k) i0 j - corner4 u i 2 k i0 j end)))).
  2: { intros x Hx'. apply sumN_ext. intros y Hy'. apply sumN_ext. intros z Hz'. now apply cell_diff. }
  destruct d as [|[|[|d]]]; try lia; cbn [along].
  - rewrite sumN_swap. apply sumN_ext. intros p _. rewrite sumN_swap. apply sumN_ext. intros r _. apply (tele Nx (fun s => corner4 u i 0 s p r)).
  - apply sumN_ext. intros p _. rewrite sumN_swap. apply sumN_ext. intros r _. apply (tele Ny (fun s => corner4 u i 1 s p r)).
  - apply sumN_ext. intros p _. apply sumN_ext. intros r _. apply (tele Nz (fun s => corner4 u i 2 s p r)).
Qed.
Lemma face_nodes u i0 d (hi : bool) i j k : (i < Nx)%nat -> (j < Ny)%nat -> (k < Nz)%nat -> (d < 3)%nat ->
  sumN 8 (fun a => if Nat.eqb (off a d) (if hi then 1 else 0) then u (cell_node F (cellno i j k) a) i0 else 0)
  = let s := (if hi then 1 else 0)%nat in
    match d with 0%nat => corner4 u i0 0 (i + s) j k | 1%nat => corner4 u i0 1 (j + s) i k | _ => corner4 u i0 2 (k + s) i j end.
Proof.
  intros Hi Hj Hk Hd. rewrite (sumN_ext 8 _ (fun a => if Nat.eqb (off a d) (if hi then 1 else 0) then u (node (i + off a 0) (j + off a 1) (k + off a 2)) i0 else 0)) by (intros a Ha; now rewrite cell_node_at).
  unfold sumN, off, vtk_hex, corner4. destruct d as [|[|[|d]]]; try lia; destruct hi; cbn [seq sumR nth Nat.eqb]; rewrite ?Nat.add_0_r, ?Nat.add_1_r; ring.
Qed.
Lemma box_side_integral loc d hi u i : picks_plane F loc d (side_coord Lx Ly Lz (d, hi)) -> (d < 3)%nat ->
  face_integral F loc (fun s p => at_face F u s p i)
  = farea d / 4 * sumN (along Ny Nx Nx d) (fun p => sumN (along Nz Nz Ny d) (fun r => corner4 u i d (level d hi) p r)).
Proof.
  intros Hl Hd. unfold face_integral. rewrite (side_sum loc d hi _ Hl Hd), <- sumN_scal. apply sumN_ext. intros p Hp. rewrite <- sumN_scal. apply sumN_ext. intros r Hr.
  assert (Hfd : fdir (face_of d hi) = d /\ fhi (face_of d hi) = hi /\ (face_of d hi < 6)%nat).
  { unfold face_of; destruct d as [|[|[|d]]]; try lia; destruct hi; cbn; auto with arith. } destruct Hfd as (Hfd & Hfh & Hf6).
  rewrite box_face_integral by (assumption || now apply layer_lt). rewrite Hfd, Hfh. f_equal.
  assert (Hx0 : ((if hi then N d - 1 else 0) < N d)%nat) by (pose proof (N_pos d); destruct hi; lia).
  assert (Hx1 : ((if hi then N d - 1 else 0) + (if hi then 1 else 0))%nat = level d hi) by (unfold level; destruct hi; lia).
  unfold layer. destruct d as [|[|[|d]]]; try lia; cbn [along] in *; rewrite face_nodes by (assumption || lia); cbv zeta iota; now rewrite Hx1.
Qed.
(** the integral of a derivative is the difference of the integrals over two opposite sides *)
Lemma box_gauss lo hi u i d : picks_plane F lo d 0 -> picks_plane F hi d (L d) -> (d < 3)%nat ->
  volume_integral F (fun c q => sol_to_grad F u c q i d) = face_integral F hi (fun s p => at_face F u s p i) - face_integral F lo (fun s p => at_face F u s p i).
Proof.
  intros H0 H1 Hd. rewrite box_divergence, (box_side_integral hi d true u i H1 Hd), (box_side_integral lo d false u i H0 Hd) by exact Hd.
  rewrite <- Rmult_minus_distr_l, <- sumN_sub. f_equal. apply sumN_ext. intros p _. now rewrite <- sumN_sub.
Qed.
(** a field that vanishes at the nodes of a side has no integral over it *)
Lemma box_side_zero loc d hi u i : picks_plane F loc d (side_coord Lx Ly Lz (d, hi)) -> (d < 3)%nat ->
  (forall n, (n < num_total_nodes F)%nat -> points F n d = side_coord Lx Ly Lz (d, hi) -> u n i = 0) -> face_integral F loc (fun s p => at_face F u s p i) = 0.
Proof.
  intros Hl Hd Hu. rewrite (box_side_integral loc d hi u i Hl Hd). rewrite (sumN_zero (along Ny Nx Nx d)); [ring|]. intros p Hp. apply sumN_zero. intros r Hr.
  assert (Hlev : (level d hi <= N d)%nat) by (unfold level; destruct hi; lia).
  assert (Hn : forall a b c, (a <= Nx)%nat -> (b <= Ny)%nat -> (c <= Nz)%nat -> along a b c d = level d hi -> u (node a b c) i = 0).
  { intros a b c Ha Hb Hc Hal. apply Hu; [now apply node_lt|]. rewrite node_point by assumption. rewrite Hal. now apply on_level. }
  unfold corner4. destruct d as [|[|[|d]]]; try lia; cbn [along] in *; rewrite !Hn by (reflexivity || lia); ring.
Qed.
End Box.
Close Scope R_scope.
