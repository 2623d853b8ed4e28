(** * The maximum principle for LinearPoisson on box meshes. *)
From Coq Require Import String FunctionalExtensionality Classical Lra Lia.
From Verif Require Import Prelude PreludeFacts FemModel FemFacts FemSpec FemGeoProofs FemAsmProofs BasisModel BasisSpec BasisProofs BasisFaceProofs BasisQuadProofs BasisMeshProofs MatModel MatSpec MatProofs RveMeanProofs SolverModel SolverSpec SolverFemProofs SolverAdProofs BoxSpec BoxProofs BoxPatchProofs WellSpec WellProofs WellBoxProofs WellMainProofs InfMainProofs ManSpec ManProofs MaxSpec.
From Verif Require MeshModel.
Open Scope R_scope.
Open Scope list_scope.

(** ** element matrices of the reference cube *)
Definition mm (a b e : nat) : R := if Nat.eqb (off a e) (off b e) then / 3 else / 6.
Definition kab (d a b : nat) : R := sgn_of a d * sgn_of b d * match d with 0%nat => mm a b 1 * mm a b 2 | 1%nat => mm a b 0 * mm a b 2 | _ => mm a b 0 * mm a b 1 end.
Definition mab (a b : nat) : R := mm a b 0 * mm a b 1 * mm a b 2.
Section Ref.
Variable B : basix.
Hypothesis HB : documented_basix B.
Hypothesis Hq8 : exact_rule B hexahedron 2.
Variable E : ele.
Hypothesis HE : element_tables B "HEX8" = Ok E.
(** products of functions of one coordinate each, linear in it *)
Definition tri (l0 l1 l2 : R * R) (p : point) : R := (fst l0 + snd l0 * p 0%nat) * (fst l1 + snd l1 * p 1%nat) * (fst l2 + snd l2 * p 2%nat).
Definition tri_c (l0 l1 l2 : R * R) (e : nat) : R :=
  (if Nat.eqb (bit e 0) 0 then fst l0 else snd l0) * (if Nat.eqb (bit e 1) 0 then fst l1 else snd l1) * (if Nat.eqb (bit e 2) 0 then fst l2 else snd l2).
Lemma tri_multi l0 l1 l2 p : tri l0 l1 l2 p = multi (tri_c l0 l1 l2) p.
Proof. unfold tri, multi, sumN, tri_c, mon. cbn [seq sumR]. cbn. ring. Qed.
Definition ip (l m : R * R) : R := fst l * fst m + (fst l * snd m + snd l * fst m) / 2 + snd l * snd m / 3.
Lemma tri_product l0 l1 l2 m0 m1 m2 : sumN (num_quads E) (fun q => quad_weights E q * (tri l0 l1 l2 (qp B q) * tri m0 m1 m2 (qp B q))) = ip l0 m0 * ip l1 m1 * ip l2 m2.
Proof.
  rewrite (sumN_ext _ _ (fun q => quad_weights E q * (multi (tri_c l0 l1 l2) (qp B q) * multi (tri_c m0 m1 m2) (qp B q)))) by (intros; now rewrite !tri_multi).
  rewrite (multi_product B HB Hq8 E HE). unfold sumN, gram, tri_c, ip. cbn [seq sumR]. cbn. field.
Qed.
Definition hat (a e : nat) : R * R := if Nat.eqb (off a e) 0 then (1, -1) else (0, 1).
Definition hatg (a d e : nat) : R * R := if Nat.eqb e d then (sgn_of a d, 0) else hat a e.
Lemma hat_val a e x : lin1 (off a e) x = fst (hat a e) + snd (hat a e) * x.
Proof. unfold lin1, hat. pose proof (off1 a e). destruct (off a e) as [|[|o]]; [| |lia]; cbn; ring. Qed.
Lemma hexval_tri a p : hexval a p = tri (hat a 0) (hat a 1) (hat a 2) p.
Proof. unfold hexval, tri. now rewrite !hat_val. Qed.
Lemma hexgrad_tri a d p : (d < 3)%nat -> hexgrad a d p = tri (hatg a d 0) (hatg a d 1) (hatg a d 2) p.
Proof. intros Hd. unfold hexgrad, tri, hatg. destruct d as [|[|[|d]]]; try lia; cbn [Nat.eqb fst snd]; rewrite !hat_val; ring. Qed.
Lemma ip_hat a b e : ip (hat a e) (hat b e) = mm a b e.
Proof. unfold ip, hat, mm. pose proof (off1 a e). pose proof (off1 b e). destruct (off a e) as [|[|o]]; [| |lia]; (destruct (off b e) as [|[|o']]; [| |lia]); cbn; field. Qed.
Lemma stiff a b d : (d < 3)%nat -> sumN (num_quads E) (fun q => quad_weights E q * (hexgrad a d (qp B q) * hexgrad b d (qp B q))) = kab d a b.
Proof.
  intros Hd. rewrite (sumN_ext _ _ (fun q => quad_weights E q * (tri (hatg a d 0) (hatg a d 1) (hatg a d 2) (qp B q) * tri (hatg b d 0) (hatg b d 1) (hatg b d 2) (qp B q)))) by (intros; now rewrite !hexgrad_tri).
  rewrite tri_product. unfold hatg, kab. destruct d as [|[|[|d]]]; try lia; cbn [Nat.eqb]; rewrite !ip_hat; unfold ip; cbn [fst snd]; field.
Qed.
Lemma massm a b : sumN (num_quads E) (fun q => quad_weights E q * (hexval a (qp B q) * hexval b (qp B q))) = mab a b.
Proof.
  rewrite (sumN_ext _ _ (fun q => quad_weights E q * (tri (hat a 0) (hat a 1) (hat a 2) (qp B q) * tri (hat b 0) (hat b 1) (hat b 2) (qp B q)))) by (intros; now rewrite !hexval_tri).
  rewrite tri_product, !ip_hat. reflexivity.
Qed.
End Ref.
(** nodes that differ in two or three coordinates *)
Definition far (a b : nat) : bool := Nat.leb 2 (length (filter (fun e => negb (Nat.eqb (off a e) (off b e))) [0; 1; 2]%nat)).
Lemma cube_form (x y : nat -> R) : sumN 8 (fun a => sumN 8 (fun b => x a * y b * (kab 0 a b + kab 1 a b + kab 2 a b))) = / 24 * sumN 8 (fun a => sumN 8 (fun b => if far a b then (x a - x b) * (y a - y b) else 0)).
Proof. unfold sumN. cbn [seq sumR]. unfold kab, mm, sgn_of, off, far, vtk_hex. cbn. field. Qed.

Section Box.
Context {V : Type}.
Variable F : fem V.
Local Notation E := (f_ele F).
Variables (B : basix) (Nx Ny Nz : nat) (Lx Ly Lz : R).
Hypothesis HF : box_hex F B Nx Ny Nz Lx Ly Lz.
Local Notation h := (hh Nx Ny Nz Lx Ly Lz).
Lemma cell_energy u v c k d : (c < num_cells F)%nat -> (d < 3)%nat ->
  sumN (num_quads E) (fun q => JxW F c q * (sol_to_grad F u c q k d * sol_to_grad F v c q k d))
  = h 0%nat * h 1%nat * h 2%nat / h d ^ 2 * sumN 8 (fun a => sumN 8 (fun b => u (cell_node F c a) k * v (cell_node F c b) k * kab d a b)).
Proof.
  intros Hc Hd. pose proof HF as (HB & Hq & Hx & Hy & Hz & H1 & H2 & H3 & Hm & Hn & HE). pose proof (h_pos F B Nx Ny Nz Lx Ly Lz HF d) as Hh.
  rewrite (sumN_ext _ _ (fun q => h 0%nat * h 1%nat * h 2%nat / h d ^ 2 * sumN 8 (fun a => sumN 8 (fun b => u (cell_node F c a) k * v (cell_node F c b) k * (quad_weights E q * (hexgrad a d (qp B q) * hexgrad b d (qp B q))))))).
  - rewrite sumN_scal. f_equal. rewrite sumN_swap. apply sumN_ext. intros a _. rewrite sumN_swap. apply sumN_ext. intros b _. rewrite sumN_scal. now rewrite (stiff B HB Hq E HE a b d Hd).
  - intros q _. rewrite !(grad_value F B Nx Ny Nz Lx Ly Lz HF) by assumption. rewrite (jxw F B Nx Ny Nz Lx Ly Lz HF) by exact Hc.
    transitivity (h 0%nat * h 1%nat * h 2%nat / h d ^ 2 * (quad_weights E q * (sumN 8 (fun a => u (cell_node F c a) k * hexgrad a d (qp B q)) * sumN 8 (fun a => v (cell_node F c a) k * hexgrad a d (qp B q))))); [field; lra|].
    f_equal. rewrite <- sumN_scal_r, <- sumN_scal. apply sumN_ext. intros a _. rewrite <- !sumN_scal. apply sumN_ext. intros b _. ring.
Qed.
Hypothesis Htm : tensor_map F = Some (fun _ => poisson_map).
Variable iv : internal_vars V.
Section Cubes.
Hypothesis Hcube : cubes Nx Ny Nz Lx Ly Lz.
Lemma cube_energy u v : energy_form F iv u v = h 0%nat / 24 * sumN (num_cells F) (fun c => sumN (vec F) (fun k => sumN 8 (fun a => sumN 8 (fun b => if far a b then
  (u (cell_node F c a) k - u (cell_node F c b) k) * (v (cell_node F c a) k - v (cell_node F c b) k) else 0)))).
Proof.
  pose proof HF as (HB & Hq & Hx & Hy & Hz & H1 & H2 & H3 & Hm & Hn & HE). rewrite (poisson_form B HB F HE Htm iv u v). rewrite <- sumN_scal. apply sumN_ext. intros c Hc. rewrite <- sumN_scal. apply sumN_ext. intros k _.
  rewrite (sumN_ext 3 _ (fun d => h 0%nat * sumN 8 (fun a => sumN 8 (fun b => u (cell_node F c a) k * v (cell_node F c b) k * kab d a b)))).
  - transitivity (h 0%nat * sumN 8 (fun a => sumN 8 (fun b => u (cell_node F c a) k * v (cell_node F c b) k * (kab 0 a b + kab 1 a b + kab 2 a b)))).
    + rewrite sumN_scal. f_equal. rewrite sumN_swap. apply sumN_ext. intros a _. rewrite sumN_swap. apply sumN_ext. intros b _. unfold sumN. cbn [seq sumR]. ring.
    + rewrite (cube_form (fun a => u (cell_node F c a) k) (fun a => v (cell_node F c a) k)). unfold Rdiv. ring.
  - intros d Hd. rewrite cell_energy by assumption. f_equal. pose proof (h_pos F B Nx Ny Nz Lx Ly Lz HF 0) as Hh. destruct Hcube as [E1 E2].
    assert (G1 : h 1%nat = h 0%nat) by (unfold hh; cbn [along]; lra). assert (G2 : h 2%nat = h 0%nat) by (unfold hh; cbn [along]; lra).
    destruct d as [|[|[|d]]]; try lia; rewrite ?G1, ?G2; field; lra.
Qed.
Lemma cube_energy_nonneg u : 0 <= energy_form F iv u u.
Proof.
  rewrite cube_energy. pose proof (h_pos F B Nx Ny Nz Lx Ly Lz HF 0). apply Rmult_le_pos; [lra|]. apply sumN_nonneg. intros c _. apply sumN_nonneg. intros k _. apply sumN_nonneg. intros a _. apply sumN_nonneg. intros b _.
  destruct (far a b); [|lra]. apply Rle_0_sqr.
Qed.
(** the part of s u above M, in component k *)
Definition above (s M : R) (u : nodal) (k : nat) : nodal := fun n k' => if Nat.eqb k' k then Rmax (s * u n k - M) 0 else 0.
Lemma above_energy s M u k : energy_form F iv (above s M u k) (above s M u k) <= s * energy_form F iv u (above s M u k).
Proof.
  rewrite !cube_energy. rewrite <- Rmult_assoc, (Rmult_comm s), Rmult_assoc. apply Rmult_le_compat_l; [pose proof (h_pos F B Nx Ny Nz Lx Ly Lz HF 0); lra|].
  rewrite <- sumN_scal. apply sumN_le. intros c _. rewrite <- sumN_scal. apply sumN_le. intros k' _. rewrite <- sumN_scal. apply sumN_le. intros a _. rewrite <- sumN_scal. apply sumN_le. intros b _.
  destruct (far a b); [|lra]. unfold above. destruct (Nat.eqb_spec k' k) as [->|]; [|lra].
  set (x := u (cell_node F c a) k). set (y := u (cell_node F c b) k). unfold Rmax. destruct (Rle_dec (s * x - M) 0), (Rle_dec (s * y - M) 0); nra.
Qed.
End Cubes.

(** ** signs of the loads *)
Lemma lin1_nonneg o x : (o <= 1)%nat -> 0 <= x <= 1 -> 0 <= lin1 o x.
Proof. intros Ho Hx. unfold lin1. destruct o as [|[|o]]; [| |lia]; cbn; lra. Qed.
Lemma hexval_nonneg a p : (forall d, (d < 3)%nat -> 0 <= p d <= 1) -> 0 <= hexval a p.
Proof. intros Hp. unfold hexval. repeat apply Rmult_le_pos; apply lin1_nonneg; try apply off1; apply Hp; lia. Qed.
Lemma qp_in q d : (q < num_quads E)%nat -> (d < 3)%nat -> 0 <= qp B q d <= 1.
Proof.
  intros Hq Hd. pose proof HF as (HB & _ & _ & _ & _ & _ & _ & _ & _ & _ & HE). rewrite (hex_tables B HB _ HE) in Hq. cbn [num_quads tables] in Hq.
  destruct HB as (_ & _ & _ & _ & Hm & _). specialize (Hm hexahedron 2%nat). unfold qp. change (cell_of "HEX8") with hexahedron in Hq. change (gauss_of "HEX8") with 2%nat in Hq. destruct (make_quadrature B hexahedron 2) as [pts w]. cbn [fst snd] in *.
  destruct Hm as (_ & _ & Hin). rewrite Forall_forall in Hin. apply (Hin (nth q pts origin)); [apply nth_In; exact Hq|exact Hd].
Qed.
Hypothesis Hw8 : nonneg_rule B hexahedron 2.
Hypothesis Hw4 : nonneg_rule B quadrilateral 2.
Lemma weight_nonneg q : 0 <= quad_weights E q.
Proof.
  pose proof HF as (HB & _ & _ & _ & _ & _ & _ & _ & _ & _ & HE). assert (Hw : quad_weights E q = nth q (snd (make_quadrature B hexahedron 2)) 0) by (rewrite (hex_tables B HB _ HE); reflexivity). rewrite Hw.
  destruct (Nat.lt_ge_cases q (length (snd (make_quadrature B hexahedron 2)))) as [Hl|Hl]; [|rewrite nth_overflow by exact Hl; lra].
  unfold nonneg_rule in Hw8. rewrite Forall_forall in Hw8. apply Hw8. now apply nth_In.
Qed.
Lemma face_weight_nonneg p : 0 <= nth p (snd (make_quadrature B quadrilateral 2)) 0.
Proof.
  destruct (Nat.lt_ge_cases p (length (snd (make_quadrature B quadrilateral 2)))) as [Hl|Hl]; [|rewrite nth_overflow by exact Hl; lra].
  unfold nonneg_rule in Hw4. rewrite Forall_forall in Hw4. apply Hw4. now apply nth_In.
Qed.
Lemma face_value_nonneg f p a : (f < 6)%nat -> (a < 8)%nat -> (p < num_face_quads E)%nat -> 0 <= face_shape_vals E f p a.
Proof.
  intros Hf Ha Hp. pose proof HF as (HB & _ & _ & _ & _ & _ & _ & _ & _ & _ & HE). rewrite (hex_tables B HB _ HE) in Hp |- *. cbn [face_shape_vals num_face_quads tables] in *.
  rewrite (face_point_facet B HB "HEX8" f p Hf). rewrite (tabulated B HB "HEX8") by first [cbn; tauto|exact Ha]. rewrite (hex_shape a _ Ha).
  set (y := nth p (fst (make_quadrature B quadrilateral 2)) origin).
  assert (Hy : forall d, (d < 2)%nat -> 0 <= y d <= 1).
  { intros d Hd. pose proof HB as (_ & _ & _ & _ & Hm & _). specialize (Hm quadrilateral 2%nat). unfold y. change (face_cell (cell_of "HEX8")) with quadrilateral in Hp. change (gauss_of "HEX8") with 2%nat in Hp.
    destruct (make_quadrature B quadrilateral 2) as [pts w]. cbn [fst snd] in *. destruct Hm as (_ & _ & Hin). rewrite Forall_forall in Hin. apply (Hin (nth p pts origin)); [apply nth_In; exact Hp|exact Hd]. }
  apply hexval_nonneg. intros d Hd. change (0 <= facet_point hexahedron f y d <= 1). pose proof (Hy 0%nat ltac:(lia)). pose proof (Hy 1%nat ltac:(lia)).
  unfold facet_point, facet_vertex, coord, sumN. do 6 (destruct f as [|f]; [destruct d as [|[|[|d]]]; try lia; cbn; lra|]). lia.
Qed.
Lemma body_sign s k w : (forall n k', 0 <= w n k') -> (forall n k', k' <> k -> w n k' = 0) -> (forall c q, 0 <= s * body_load F iv c q k) -> 0 <= s * body_power F iv w.
Proof.
  intros Hw Hk Hs. unfold body_power. rewrite <- sumN_scal. apply sumN_nonneg. intros c Hc. rewrite <- sumN_scal. apply sumN_nonneg. intros q Hq. rewrite (jxw F B Nx Ny Nz Lx Ly Lz HF c q Hc).
  unfold dot_vec. rewrite <- !sumN_scal. apply sumN_nonneg. intros k' Hk'. rewrite (quad_value F B Nx Ny Nz Lx Ly Lz HF).
  assert (Hv : 0 <= h 0%nat * h 1%nat * h 2%nat) by (pose proof (h_pos F B Nx Ny Nz Lx Ly Lz HF 0); pose proof (h_pos F B Nx Ny Nz Lx Ly Lz HF 1); pose proof (h_pos F B Nx Ny Nz Lx Ly Lz HF 2); apply Rmult_le_pos; [apply Rmult_le_pos|]; lra).
  pose proof (weight_nonneg q) as Hwt. assert (Ha : 0 <= sumN 8 (fun a => w (cell_node F c a) k' * hexval a (qp B q))).
  { apply sumN_nonneg. intros a _. apply Rmult_le_pos; [apply Hw|]. apply hexval_nonneg. intros d Hd. now apply qp_in. }
  destruct (Nat.eq_dec k' k) as [->|Hne].
  - replace (s * (h 0%nat * h 1%nat * h 2%nat * quad_weights E q * (body_load F iv c q k * sumN 8 (fun a => w (cell_node F c a) k * hexval a (qp B q)))))
      with (h 0%nat * h 1%nat * h 2%nat * quad_weights E q * (s * body_load F iv c q k) * sumN 8 (fun a => w (cell_node F c a) k * hexval a (qp B q))) by ring.
    apply Rmult_le_pos; [apply Rmult_le_pos; [apply Rmult_le_pos; assumption|apply Hs]|exact Ha].
  - rewrite (sumN_zero 8) by (intros a _; rewrite (Hk _ _ Hne); ring). rewrite !Rmult_0_r. lra.
Qed.
Lemma flux_sign s k w inds : (forall sel, In sel inds -> faces_ok F sel) -> (forall n k', 0 <= w n k') -> (forall n k', k' <> k -> w n k' = 0) -> (forall i j f p, 0 <= s * traction F iv i j f p k) -> 0 <= s * neumann_power F inds iv w.
Proof.
  intros Hf Hw Hk Hs. pose proof HF as (HB & Hq & Hx & Hy & Hz & H1 & H2 & H3 & Hm & Hn & HE). unfold neumann_power. rewrite <- sumR_scal. apply sumR_nonneg. intros [i sel] Hi. cbn [fst snd]. unfold indexed in Hi. apply in_combine_r in Hi.
  rewrite <- sumR_scal. apply sumR_nonneg. intros [j [c f]] Hj. unfold indexed in Hj. apply in_combine_r in Hj. cbn [fst snd].
  specialize (Hf sel Hi). unfold faces_ok in Hf. rewrite Forall_forall in Hf. destruct (Hf _ Hj) as [Hc Hf6]. cbn [fst snd] in Hc, Hf6. rewrite (box_faces B HB F HE) in Hf6. change (length hex_faces) with 6%nat in Hf6.
  rewrite <- sumN_scal. apply sumN_nonneg. intros p Hp. rewrite (box_nanson B HB F Nx Ny Nz Lx Ly Lz Hx Hy Hz H1 H2 H3 Hm Hn HE c f p Hc Hf6). unfold dot_vec. rewrite <- !sumN_scal. apply sumN_nonneg. intros k' Hk'.
  pose proof (farea_pos Nx Ny Nz Lx Ly Lz Hx Hy Hz H1 H2 H3 (fdir f)) as Har. pose proof (face_weight_nonneg p) as Hwt.
  unfold at_face, convert_neumann_from_dof. cbn [fst snd]. rewrite (proj2 (dims38 F B Nx Ny Nz Lx Ly Lz HF)).
  destruct (Nat.eq_dec k' k) as [->|Hne].
  - assert (Hv : 0 <= sumN 8 (fun a => w (cell_node F c a) k * face_shape_vals E f p a)) by (apply sumN_nonneg; intros a Ha; apply Rmult_le_pos; [apply Hw|now apply face_value_nonneg]).
    set (z := sumN 8 _) in *. replace (s * (farea Nx Ny Nz Lx Ly Lz (fdir f) * nth p (snd (make_quadrature B quadrilateral 2)) 0 * (traction F iv i j (c, f) p k * z))) with (farea Nx Ny Nz Lx Ly Lz (fdir f) * nth p (snd (make_quadrature B quadrilateral 2)) 0 * (s * traction F iv i j (c, f) p k) * z) by ring.
    apply Rmult_le_pos; [apply Rmult_le_pos; [apply Rmult_le_pos; [lra|assumption]|apply Hs]|exact Hv].
  - rewrite (sumN_zero 8) by (intros a _; rewrite (Hk _ _ Hne); ring). rewrite !Rmult_0_r. lra.
Qed.
(** ** the principle *)
Lemma maximum s M k inds locs vecs fns u : cubes Nx Ny Nz Lx Ly Lz -> mass_map F = None -> cauchy_bc_info F = None -> loads_ok F inds iv -> (k < vec F)%nat ->
  (forall k, (k < vec F)%nat -> exists n, (n < num_total_nodes F)%nat /\ fixed F locs vecs n k) -> discrete_solution F locs vecs fns inds iv u ->
  loads_sign F iv (- s) k -> (forall x, prescribed F locs vecs fns k x -> s * x <= M) -> forall n, (n < num_total_nodes F)%nat -> s * u n k <= M.
Proof.
  intros Hcube Hmass Hcau Hloads Hk Hfix Hu [Hb Ht] Hpre n Hn. pose proof Hloads as (Hiv & Hneu & Hfc). set (w := above s M u k).
  assert (Hw0 : forall n k', 0 <= w n k') by (intros m k'; unfold w, above; destruct (Nat.eqb k' k); [apply Rmax_r|lra]).
  assert (Hwk : forall n k', k' <> k -> w n k' = 0) by (intros m k' Hne; unfold w, above; destruct (Nat.eqb_spec k' k); [contradiction|reflexivity]).
  assert (Hadm : admissible F locs vecs w).
  { intros m k' Hm Hk' Hf. destruct (Nat.eq_dec k' k) as [->|Hne]; [|now apply Hwk]. destruct (last_exists F locs vecs m k Hf) as (i & Hi). unfold w, above. rewrite Nat.eqb_refl.
    pose proof (proj1 Hu i m k Hm Hi) as Ev. assert (s * u m k <= M) by (apply Hpre; exists i, m; auto). apply Rmax_right. lra. }
  pose proof (solution_weak F Hmass Hcau inds iv (hex_wf F B Nx Ny Nz Lx Ly Lz HF) Hiv (hex_cells F B Nx Ny Nz Lx Ly Lz HF) Hneu Hfc locs vecs fns u w Hu Hadm) as Hweak.
  pose proof (above_energy Hcube s M u k) as Hen. fold w in Hen. rewrite Hweak in Hen. unfold load_work in Hen.
  pose proof (body_sign (- s) k w Hw0 Hwk Hb) as Sb. pose proof (flux_sign (- s) k w inds Hfc Hw0 Hwk Ht) as St. pose proof (cube_energy_nonneg Hcube w) as Hnn.
  assert (Hz : energy_form F iv w w = 0) by nra. pose proof (poisson_definite F B Nx Ny Nz Lx Ly Lz HF iv locs vecs Htm Hfix w Hadm Hz n k Hn Hk) as H0.
  unfold w, above in H0. rewrite Nat.eqb_refl in H0. pose proof (Rmax_l (s * u n k - M) 0). lra.
Qed.
End Box.
Close Scope R_scope.
