(** * The energy forms of LinearPoisson and LinearElasticity on box meshes are definite. *)
From Coq Require Import String FunctionalExtensionality Lra Lia QArith Qreals.
From Verif Require Import Prelude PreludeFacts FemModel FemFacts FemSpec FemAsmProofs FemGeoProofs BasisModel BasisSpec BasisProofs BasisFaceProofs BasisQuadProofs BasisMeshProofs MatModel MatSpec MatProofs RveMeanProofs SolverModel SolverSpec BoxSpec BoxProofs BoxPatchProofs WellSpec WellProofs.
From Verif Require MeshModel.
Open Scope R_scope.
Open Scope list_scope.

(** ** gradients of the shape functions of the reference cube *)
Definition lin1 (o : nat) (x : R) : R := match o with 0%nat => 1 - x | _ => x end.
Definition hexgrad (a i : nat) (p : point) : R :=
  match i with
  | 0%nat => sgn_of a 0 * lin1 (off a 1) (p 1%nat) * lin1 (off a 2) (p 2%nat)
  | 1%nat => sgn_of a 1 * lin1 (off a 0) (p 0%nat) * lin1 (off a 2) (p 2%nat)
  | _ => sgn_of a 2 * lin1 (off a 0) (p 0%nat) * lin1 (off a 1) (p 1%nat)
  end.
Lemma hex_pder a i p : (a < 8)%nat -> (i < 3)%nat -> BasisSpec.peval 3%nat (pder 3%nat i (pshape "HEX8" a)) p = hexgrad a i p.
Proof.
  intros Ha Hi. do 8 (destruct a as [|a]; [do 3 (destruct i as [|i]; [match goal with |- BasisSpec.peval 3%nat ?q p = _ => let v := eval vm_compute in q in change q with v end;
    unfold BasisSpec.peval, mono, Q2R, hexgrad, sgn_of, off, vtk_hex, prodN; cbn; lra|]); lia|]). lia.
Qed.
(** exponents of the monomial number e < 8: bits of e *)
Definition bit (e d : nat) : nat := match d with 0%nat => (e / 4)%nat | 1%nat => ((e / 2) mod 2)%nat | _ => (e mod 2)%nat end.
Definition mon (e : nat) (p : point) : R := p 0%nat ^ bit e 0 * p 1%nat ^ bit e 1 * p 2%nat ^ bit e 2.
Definition multi (c : nat -> R) (p : point) : R := sumN 8 (fun e => c e * mon e p).
(** sum of squares with the weights of the Legendre polynomials of the cube *)
Definition sos (c : nat -> R) : R :=
  (c 0%nat + c 1%nat / 2 + c 2%nat / 2 + c 3%nat / 4 + c 4%nat / 2 + c 5%nat / 4 + c 6%nat / 4 + c 7%nat / 8) ^ 2
  + (c 1%nat + c 3%nat / 2 + c 5%nat / 2 + c 7%nat / 4) ^ 2 / 12 + (c 2%nat + c 3%nat / 2 + c 6%nat / 2 + c 7%nat / 4) ^ 2 / 12 + (c 4%nat + c 5%nat / 2 + c 6%nat / 2 + c 7%nat / 4) ^ 2 / 12
  + (c 3%nat + c 7%nat / 2) ^ 2 / 144 + (c 5%nat + c 7%nat / 2) ^ 2 / 144 + (c 6%nat + c 7%nat / 2) ^ 2 / 144 + (c 7%nat) ^ 2 / 1728.
Lemma sos_nonneg c : 0 <= sos c.
Proof. unfold sos. repeat apply Rplus_le_le_0_compat; try apply pow2_ge_0; apply Rmult_le_pos; try apply pow2_ge_0; lra. Qed.
Lemma sos_zero c : sos c = 0 -> forall p, multi c p = 0.
Proof.
  unfold sos. intros H p.
  assert (Z : forall x y k, 0 < k -> 0 <= x -> x + y ^ 2 / k = 0 -> x = 0 /\ y = 0).
  { intros x y k Hk Hx HH. pose proof (pow2_ge_0 y). assert (0 <= y ^ 2 / k) by (apply Rmult_le_pos; [assumption|apply Rlt_le, Rinv_0_lt_compat, Hk]).
    assert (E : y ^ 2 / k = 0) by lra. split; [lra|]. assert (y ^ 2 = 0) by (apply (Rmult_eq_reg_r (/ k)); [lra|apply Rinv_neq_0_compat; lra]). nra. }
  repeat match type of H with ?a + ?b ^ 2 / ?k = 0 => apply (Z a b k) in H; [let E := fresh in destruct H as [H E]|lra|
    repeat apply Rplus_le_le_0_compat; try apply pow2_ge_0; apply Rmult_le_pos; try apply pow2_ge_0; lra] end.
  unfold multi, sumN. cbn [seq sumR]. 
  assert (c 7%nat = 0) by assumption. assert (c 6%nat = 0) by lra. assert (c 5%nat = 0) by lra. assert (c 3%nat = 0) by lra. assert (c 4%nat = 0) by lra. assert (c 2%nat = 0) by lra. assert (c 1%nat = 0) by lra.
  assert (c 0%nat = 0) by nra. repeat match goal with E : c _ = 0 |- _ => rewrite E; clear E end. ring.
Qed.
Definition lc (o b : nat) : R := match o, b with 0%nat, 0%nat => 1 | 0%nat, _ => -1 | _, 0%nat => 0 | _, _ => 1 end.
Definition others (i : nat) : nat * nat := match i with 0%nat => (1, 2)%nat | 1%nat => (0, 2)%nat | _ => (0, 1)%nat end.
Definition hc (a i e : nat) : R := if Nat.eqb (bit e i) 0 then sgn_of a i * lc (off a (fst (others i))) (bit e (fst (others i))) * lc (off a (snd (others i))) (bit e (snd (others i))) else 0.
Lemma hexgrad_multi a i p : (a < 8)%nat -> (i < 3)%nat -> hexgrad a i p = multi (hc a i) p.
Proof.
  intros Ha Hi. unfold multi, sumN. cbn [seq sumR]. unfold mon, hexgrad, hc, sgn_of, off, vtk_hex.
  do 8 (destruct a as [|a]; [do 3 (destruct i as [|i]; [cbn; ring|]); lia|]). lia.
Qed.
(** the field sum_ai v_ai dN_a/dx_i *)
Definition gfield (v : nat -> nat -> R) (p : point) : R := sumN 8 (fun a => sumN 3 (fun i => v a i * hexgrad a i p)).
Definition gcoef (v : nat -> nat -> R) (e : nat) : R := sumN 8 (fun a => sumN 3 (fun i => v a i * hc a i e)).
Lemma gfield_multi v p : gfield v p = multi (gcoef v) p.
Proof.
  unfold gfield. rewrite (sumN_ext 8 _ (fun a => sumN 8 (fun e => sumN 3 (fun i => v a i * hc a i e) * mon e p))).
  - rewrite sumN_swap. unfold multi, gcoef. apply sumN_ext. intros e _. now rewrite sumN_scal_r.
  - intros a Ha. rewrite (sumN_ext 3 _ (fun i => sumN 8 (fun e => v a i * hc a i e * mon e p))).
    + rewrite sumN_swap. apply sumN_ext. intros e _. now rewrite sumN_scal_r.
    + intros i Hi. rewrite hexgrad_multi by assumption. unfold multi. rewrite <- sumN_scal. apply sumN_ext. intros; ring.
Qed.
Section Cell.
Variable B : basix.
Hypothesis HB : documented_basix B.
Hypothesis Hq8 : exact_rule B hexahedron 2.
Variable E : ele.
Hypothesis HE : element_tables B "HEX8" = Ok E.
Definition qp (q : nat) : point := nth q (fst (make_quadrature B hexahedron 2)) origin.
Lemma ref_grads q a i : (a < 8)%nat -> (i < 3)%nat -> shape_grads_ref E q a i = hexgrad a i (qp q).
Proof.
  intros Ha Hi. rewrite (hex_tables B HB E HE). cbn [shape_grads_ref tables]. rewrite <- hex_pder by assumption.
  apply (shape_der "HEX8" a i); [exact Hi|]. apply tabulated_grad; [exact HB|cbn; tauto|exact Ha|exact Hi].
Qed.
Lemma bit_le e d : (e < 8)%nat -> (bit e d <= 1)%nat.
Proof. intros He. do 8 (destruct e as [|e]; [destruct d as [|[|d]]; cbn; lia|]). lia. Qed.
Definition gram (e f : nat) : R := 1 / INR (S (bit e 0 + bit f 0)) * (1 / INR (S (bit e 1 + bit f 1)) * (1 / INR (S (bit e 2 + bit f 2)))).
Lemma mon_gram e f : (e < 8)%nat -> (f < 8)%nat -> sumN (num_quads E) (fun q => quad_weights E q * (mon e (qp q) * mon f (qp q))) = gram e f.
Proof.
  intros He Hf. replace (num_quads E) with (length (fst (make_quadrature B hexahedron 2))) by (rewrite (hex_tables B HB E HE); reflexivity).
  assert (Hw : forall q, quad_weights E q = nth q (snd (make_quadrature B hexahedron 2)) 0) by (intros; rewrite (hex_tables B HB E HE); reflexivity).
  pose proof (Hq8 [(bit e 0 + bit f 0); (bit e 1 + bit f 1); (bit e 2 + bit f 2)]%nat) as M.
  assert (HD : degree_ok hexahedron 2 [(bit e 0 + bit f 0); (bit e 1 + bit f 1); (bit e 2 + bit f 2)]%nat = true).
  { pose proof (bit_le e 0 He). pose proof (bit_le e 1 He). pose proof (bit_le e 2 He). pose proof (bit_le f 0 Hf). pose proof (bit_le f 1 Hf). pose proof (bit_le f 2 Hf).
    unfold degree_ok. cbn [simplex cell_dim seq forallb nth]. rewrite !andb_true_iff. repeat split; apply Nat.leb_le; lia. }
  specialize (M HD). unfold qp. rewrite (sumN_ext _ _ (fun q => nth q (snd (make_quadrature B hexahedron 2)) 0 * (mon e (nth q (fst (make_quadrature B hexahedron 2)) origin) * mon f (nth q (fst (make_quadrature B hexahedron 2)) origin)))) by (intros; now rewrite Hw).
  destruct (make_quadrature B hexahedron 2) as [pts ws]. cbn [fst snd] in *.
  transitivity (moment hexahedron [(bit e 0 + bit f 0); (bit e 1 + bit f 1); (bit e 2 + bit f 2)]%nat).
  - rewrite <- M. apply sumN_ext. intros q _. f_equal. unfold mono, mon, prodN. cbn [cell_dim seq fold_right nth]. rewrite !pow_add. ring.
  - unfold moment, gram, prodN. cbn [simplex cell_dim seq fold_right nth]. ring.
Qed.
Lemma multi_square c : sumN (num_quads E) (fun q => quad_weights E q * (multi c (qp q) * multi c (qp q))) = sos c.
Proof.
  rewrite (sumN_ext _ _ (fun q => sumN 8 (fun e => sumN 8 (fun f => c e * c f * (quad_weights E q * (mon e (qp q) * mon f (qp q))))))).
  - rewrite sumN_swap. rewrite (sumN_ext 8 _ (fun e => sumN 8 (fun f => c e * c f * gram e f))).
    + unfold sumN. cbn [seq sumR]. unfold gram, sos, bit. cbn. field.
    + intros e He. rewrite sumN_swap. apply sumN_ext. intros f Hf. now rewrite sumN_scal, mon_gram.
  - intros q _. unfold multi. rewrite <- sumN_scal_r, <- sumN_scal. apply sumN_ext. intros e _. rewrite <- sumN_scal, <- sumN_scal. apply sumN_ext. intros f _. ring.
Qed.
Lemma gfield_square v : 0 <= sumN (num_quads E) (fun q => quad_weights E q * (gfield v (qp q) * gfield v (qp q))) /\
  (sumN (num_quads E) (fun q => quad_weights E q * (gfield v (qp q) * gfield v (qp q))) = 0 -> forall p, gfield v p = 0).
Proof.
  rewrite (sumN_ext _ _ (fun q => quad_weights E q * (multi (gcoef v) (qp q) * multi (gcoef v) (qp q)))) by (intros; now rewrite gfield_multi).
  rewrite multi_square. split; [apply sos_nonneg|]. intros H p. rewrite gfield_multi. now apply sos_zero.
Qed.
End Cell.

Lemma gfield_ext v v' p : (forall a i, (a < 8)%nat -> (i < 3)%nat -> v a i = v' a i) -> gfield v p = gfield v' p.
Proof. intros H. unfold gfield. apply sumN_ext. intros a Ha. apply sumN_ext. intros i Hi. now rewrite H. Qed.
Lemma gfield_comb s v v' p : gfield (fun a i => s * v a i + v' a i) p = s * gfield v p + gfield v' p.
Proof.
  unfold gfield. rewrite <- sumN_scal, <- sumN_add. apply sumN_ext. intros a _. rewrite <- sumN_scal, <- sumN_add. apply sumN_ext. intros i _. ring.
Qed.
Lemma gfield_zero v p : (forall a i, (a < 8)%nat -> (i < 3)%nat -> v a i = 0) -> gfield v p = 0.
Proof. intros H. unfold gfield. apply sumN_zero. intros a Ha. apply sumN_zero. intros i Hi. rewrite H by assumption. ring. Qed.

Section Box.
Context {V : Type}.
Variable B : basix.
Hypothesis HB : documented_basix B.
Hypothesis Hq8 : exact_rule B hexahedron 2.
Variable F : fem V.
Local Notation E := (f_ele F).
Variables (Nx Ny Nz : nat) (Lx Ly Lz : R).
Hypothesis Hx : (0 < Nx)%nat.
Hypothesis Hy : (0 < Ny)%nat.
Hypothesis Hz : (0 < Nz)%nat.
Hypothesis Hlx : 0 < Lx.
Hypothesis Hly : 0 < Ly.
Hypothesis Hlz : 0 < Lz.
Local Notation m := (MeshModel.box_mesh Nx Ny Nz Lx Ly Lz).
Hypothesis Hmesh : has_mesh3 F (MeshModel.points m) (MeshModel.cells m).
Hypothesis Hnodes : num_total_nodes F = length (MeshModel.points m).
Hypothesis HE : element_tables B "HEX8" = Ok E.
Local Notation N := (along Nx Ny Nz).
Local Notation hh := (hh Nx Ny Nz Lx Ly Lz).
Local Notation node := (node Ny Nz).
Local Notation cellno := (cellno Ny Nz).
Lemma cn i j k a : (i < Nx)%nat -> (j < Ny)%nat -> (k < Nz)%nat -> (a < 8)%nat -> cell_node F (cellno i j k) a = node (i + off a 0) (j + off a 1) (k + off a 2).
Proof. exact (cell_node_at F Nx Ny Nz Lx Ly Lz Hx Hy Hz Hmesh Hnodes i j k a). Qed.
Lemma hp d : 0 < hh d.
Proof. eapply hh_pos; eassumption. Qed.
Lemma bdim : dim F = 3%nat /\ num_nodes E = 8%nat.
Proof. eapply box_dim; eassumption. Qed.
Lemma oa a d : (off a d <= 1)%nat.
Proof. unfold off. destruct (Nat.eqb _ 0); lia. Qed.
(** the derivative in direction d of component k in cell c *)
Definition gv (u : nodal) (c k d a i : nat) : R := if Nat.eqb i d then u (cell_node F c a) k / hh d else 0.
Lemma grad_gfield u c q k d : (c < num_cells F)%nat -> (d < 3)%nat -> sol_to_grad F u c q k d = gfield (gv u c k d) (qp B q).
Proof.
  intros Hc Hd. unfold sol_to_grad, gfield. destruct bdim as [_ ->]. apply sumN_ext. intros a Ha.
  rewrite (sumN_ext 3 _ (fun i => if Nat.eqb i d then u (cell_node F c a) k / hh d * hexgrad a i (qp B q) else 0)) by (intros i _; unfold gv; destruct (Nat.eqb i d); ring).
  rewrite (sumN_pick 3 d (fun i => u (cell_node F c a) k / hh d * hexgrad a i (qp B q)) Hd).
  rewrite <- (ref_grads B HB E HE q a d Ha Hd).
  rewrite (box_shape_grads B HB F Nx Ny Nz Lx Ly Lz Hx Hy Hz Hlx Hly Hlz Hmesh Hnodes HE c q a d Hc Hd). pose proof (hp d). field. lra.
Qed.
Lemma cell_square v c : (c < num_cells F)%nat ->
  0 <= sumN (num_quads E) (fun q => JxW F c q * (gfield v (qp B q) * gfield v (qp B q))) /\
  (sumN (num_quads E) (fun q => JxW F c q * (gfield v (qp B q) * gfield v (qp B q))) = 0 -> forall p, gfield v p = 0).
Proof.
  intros Hc. destruct (gfield_square B HB Hq8 E HE v) as [H0 H1]. pose proof (hp 0). pose proof (hp 1). pose proof (hp 2).
  assert (HJ : 0 < hh 0 * hh 1 * hh 2) by (apply Rmult_lt_0_compat; [apply Rmult_lt_0_compat|]; assumption).
  rewrite (sumN_ext _ _ (fun q => hh 0 * hh 1 * hh 2 * (quad_weights E q * (gfield v (qp B q) * gfield v (qp B q))))).
  - rewrite sumN_scal. split; [apply Rmult_le_pos; lra|]. intros HH. apply H1. apply Rmult_integral in HH as [HH|HH]; [lra|exact HH].
  - intros q _. unfold JxW. rewrite (box_det B HB F Nx Ny Nz Lx Ly Lz Hx Hy Hz Hmesh Hnodes HE c q Hc). ring.
Qed.
(** ** corners *)
Definition nodeD (d x p r : nat) : nat := along (node x p r) (node p x r) (node p r x) d.
Definition cellD (d x p r : nat) : nat := along (cellno x p r) (cellno p x r) (cellno p r x) d.
Local Notation Np := (along Ny Nx Nx).
Local Notation Nr := (along Nz Nz Ny).
Definition pointD (d : nat) (y z : R) : point := along (cube_point 0 y z) (cube_point y 0 z) (cube_point y z 0) d.
Lemma corner_diff u k d x p r y z : (d < 3)%nat -> (x < N d)%nat -> (p < Np d)%nat -> (r < Nr d)%nat -> (y <= 1)%nat -> (z <= 1)%nat ->
  gfield (gv u (cellD d x p r) k d) (pointD d (INR y) (INR z)) = (u (nodeD d (S x) (p + y) (r + z)) k - u (nodeD d x (p + y) (r + z)) k) / hh d.
Proof.
  intros Hd Hxx Hp Hr Hyy Hzz. pose proof (hp d) as Hh.
  assert (Ec : forall a, (a < 8)%nat -> cell_node F (cellD d x p r) a = along (node (x + off a 0) (p + off a 1) (r + off a 2)) (node (p + off a 0) (x + off a 1) (r + off a 2)) (node (p + off a 0) (r + off a 1) (x + off a 2)) d).
  { intros a Ha. unfold cellD. destruct d as [|[|[|d]]]; try lia; cbn [along] in *; now apply cn. }
  unfold gfield. rewrite (sumN_ext 8 _ (fun a => u (along (node (x + off a 0) (p + off a 1) (r + off a 2)) (node (p + off a 0) (x + off a 1) (r + off a 2)) (node (p + off a 0) (r + off a 1) (x + off a 2)) d) k / hh d * hexgrad a d (pointD d (INR y) (INR z)))).
  2: { intros a Ha. rewrite (sumN_ext 3 _ (fun i => if Nat.eqb i d then u (cell_node F (cellD d x p r) a) k / hh d * hexgrad a i (pointD d (INR y) (INR z)) else 0)) by (intros i _; unfold gv; destruct (Nat.eqb i d); ring).
       rewrite (sumN_pick 3 d (fun i => u (cell_node F (cellD d x p r) a) k / hh d * hexgrad a i (pointD d (INR y) (INR z))) Hd). now rewrite Ec. }
  unfold sumN. cbn [seq sumR]. unfold hexgrad, pointD, nodeD, sgn_of, off, vtk_hex.
  destruct d as [|[|[|d]]]; try lia; destruct y as [|[|y]]; try lia; destruct z as [|[|z]]; try lia; cbn [along cube_point nth Nat.eqb lin1 INR]; rewrite ?Nat.add_0_r, ?Nat.add_1_r; field; lra.
Qed.
Lemma node_cell d p r : (d < 3)%nat -> (p <= Np d)%nat -> (r <= Nr d)%nat -> exists p0 r0 y z, (p0 < Np d)%nat /\ (r0 < Nr d)%nat /\ (y <= 1)%nat /\ (z <= 1)%nat /\ p = (p0 + y)%nat /\ r = (r0 + z)%nat.
Proof.
  intros Hd Hp Hr. assert (0 < Np d)%nat by (destruct d as [|[|d]]; assumption). assert (0 < Nr d)%nat by (destruct d as [|[|d]]; assumption).
  exists (Nat.min p (Np d - 1)), (Nat.min r (Nr d - 1)), (p - Nat.min p (Np d - 1))%nat, (r - Nat.min r (Nr d - 1))%nat. lia.
Qed.
Lemma nodeD_surj d n : (d < 3)%nat -> (n < num_total_nodes F)%nat -> exists x p r, (x <= N d)%nat /\ (p <= Np d)%nat /\ (r <= Nr d)%nat /\ n = nodeD d x p r.
Proof.
  intros Hd Hn. destruct (node_surj F Nx Ny Nz Lx Ly Lz Hnodes n Hn) as (i & j & k & Hi & Hj & Hk & ->).
  destruct d as [|[|[|d]]]; try lia; [exists i, j, k|exists j, i, k|exists k, i, j]; cbn [along nodeD]; auto.
Qed.
Lemma cellD_lt d x p r : (d < 3)%nat -> (x < N d)%nat -> (p < Np d)%nat -> (r < Nr d)%nat -> (cellD d x p r < num_cells F)%nat.
Proof. intros Hd Hxx Hp Hr. unfold cellD. destruct d as [|[|[|d]]]; try lia; cbn [along] in *; apply (cellno_lt F Nx Ny Nz Lx Ly Lz); assumption. Qed.
(** ** LinearPoisson *)
Section Poisson.
Hypothesis Htm : tensor_map F = Some (fun _ => poisson_map).
Lemma poisson_form iv u v : energy_form F iv u v = sumN (num_cells F) (fun c => sumN (vec F) (fun k => sumN 3 (fun d =>
  sumN (num_quads E) (fun q => JxW F c q * (sol_to_grad F u c q k d * sol_to_grad F v c q k d))))).
Proof.
  unfold energy_form. apply sumN_ext. intros c Hc. destruct bdim as [-> _].
  rewrite (sumN_ext (num_quads E) _ (fun q => sumN (vec F) (fun k => sumN 3 (fun d => JxW F c q * (sol_to_grad F u c q k d * sol_to_grad F v c q k d))))).
  - rewrite sumN_swap. apply sumN_ext. intros k _. now rewrite sumN_swap.
  - intros q _. rewrite <- sumN_scal. apply sumN_ext. intros k _. rewrite <- sumN_scal. apply sumN_ext. intros d _. unfold stress. rewrite Htm. reflexivity.
Qed.
Lemma poisson_linear : linear_tensor F (fun _ => poisson_map).
Proof. intros vars a G H k d _ _. reflexivity. Qed.
Lemma poisson_sym iv u v : energy_form F iv u v = energy_form F iv v u.
Proof. rewrite !poisson_form. apply sumN_ext. intros c _. apply sumN_ext. intros k _. apply sumN_ext. intros d _. apply sumN_ext. intros q _. ring. Qed.
Lemma poisson_term u c k d : (c < num_cells F)%nat -> (d < 3)%nat ->
  sumN (num_quads E) (fun q => JxW F c q * (sol_to_grad F u c q k d * sol_to_grad F u c q k d))
  = sumN (num_quads E) (fun q => JxW F c q * (gfield (gv u c k d) (qp B q) * gfield (gv u c k d) (qp B q))).
Proof. intros Hc Hd. apply sumN_ext. intros q _. now rewrite !grad_gfield. Qed.
Lemma poisson_nonneg iv u : 0 <= energy_form F iv u u.
Proof.
  rewrite poisson_form. apply sumN_nonneg. intros c Hc. apply sumN_nonneg. intros k _. apply sumN_nonneg. intros d Hd. rewrite poisson_term by assumption. now apply cell_square.
Qed.
Lemma poisson_flat iv u : energy_form F iv u u = 0 -> forall c k d, (c < num_cells F)%nat -> (k < vec F)%nat -> (d < 3)%nat -> forall p, gfield (gv u c k d) p = 0.
Proof.
  rewrite poisson_form. intros H c k d Hc Hk Hd.
  assert (P3 : forall c k d, (c < num_cells F)%nat -> (d < 3)%nat -> 0 <= sumN (num_quads E) (fun q => JxW F c q * (sol_to_grad F u c q k d * sol_to_grad F u c q k d))).
  { intros c' k' d' Hc' Hd'. rewrite poisson_term by assumption. now apply cell_square. }
  assert (P2 : forall c k, (c < num_cells F)%nat -> 0 <= sumN 3 (fun d => sumN (num_quads E) (fun q => JxW F c q * (sol_to_grad F u c q k d * sol_to_grad F u c q k d)))) by (intros; apply sumN_nonneg; intros; now apply P3).
  assert (P1 : forall c, (c < num_cells F)%nat -> 0 <= sumN (vec F) (fun k => sumN 3 (fun d => sumN (num_quads E) (fun q => JxW F c q * (sol_to_grad F u c q k d * sol_to_grad F u c q k d))))) by (intros; apply sumN_nonneg; intros; now apply P2).
  pose proof (sumN_zero_each _ _ P1 H c Hc) as H1. cbv beta in H1. pose proof (sumN_zero_each _ _ (fun k _ => P2 c k Hc) H1 k Hk) as H2. cbv beta in H2.
  pose proof (sumN_zero_each _ _ (fun d Hd => P3 c k d Hc Hd) H2 d Hd) as H3. cbv beta in H3. rewrite poisson_term in H3 by assumption. exact (proj2 (cell_square _ c Hc) H3).
Qed.
Lemma poisson_edge iv u d x p r k : energy_form F iv u u = 0 -> (k < vec F)%nat -> (d < 3)%nat -> (x < N d)%nat -> (p <= Np d)%nat -> (r <= Nr d)%nat -> u (nodeD d (S x) p r) k = u (nodeD d x p r) k.
Proof.
  intros H Hk Hd Hxx Hp Hr. destruct (node_cell d p r Hd Hp Hr) as (p0 & r0 & y & z & Hp0 & Hr0 & Hyy & Hzz & -> & ->).
  pose proof (corner_diff u k d x p0 r0 y z Hd Hxx Hp0 Hr0 Hyy Hzz) as D. rewrite (poisson_flat iv u H) in D by (assumption || now apply cellD_lt).
  pose proof (hp d). symmetry in D. apply Rmult_integral in D as [D|D]; [lra|]. exfalso. apply (Rinv_neq_0_compat (hh d)); lra.
Qed.
Lemma poisson_line iv u d x p r k : energy_form F iv u u = 0 -> (k < vec F)%nat -> (d < 3)%nat -> (x <= N d)%nat -> (p <= Np d)%nat -> (r <= Nr d)%nat -> u (nodeD d x p r) k = u (nodeD d 0 p r) k.
Proof.
  intros H Hk Hd. induction x as [|x IH]; intros Hxx Hp Hr; [reflexivity|]. rewrite (poisson_edge iv u d x p r k) by (assumption || lia). apply IH; assumption || lia.
Qed.
(** a field of zero energy is constant in every component *)
Lemma poisson_constant iv u k n n' : energy_form F iv u u = 0 -> (k < vec F)%nat -> (n < num_total_nodes F)%nat -> (n' < num_total_nodes F)%nat -> u n k = u n' k.
Proof.
  intros H Hk. assert (A : forall n, (n < num_total_nodes F)%nat -> u n k = u (node 0 0 0) k); [|intros Hn Hn'; now rewrite (A n Hn), (A n' Hn')].
  intros n0 Hn0. destruct (nodeD_surj 0 n0 ltac:(lia) Hn0) as (i & j & l & Hi & Hj & Hl & ->). cbn [along] in *.
  rewrite (poisson_line iv u 0 i j l k) by (assumption || lia). change (nodeD 0 0 j l) with (nodeD 1 j 0 l).
  rewrite (poisson_line iv u 1 j 0 l k) by (assumption || (cbn [along]; lia)). change (nodeD 1 0 0 l) with (nodeD 2 l 0 0).
  rewrite (poisson_line iv u 2 l 0 0 k) by (assumption || (cbn [along]; lia)). reflexivity.
Qed.
End Poisson.
(** ** LinearElasticity *)
Section Elastic.
Hypothesis Htm : tensor_map F = Some (fun _ => linear_elastic_stress 3).
Hypothesis Hv : vec F = 3%nat.
Lemma elastic_linear : linear_tensor F (fun _ => linear_elastic_stress 3).
Proof.
  intros vars a G H k d Hk Hd. rewrite Hv in Hk. destruct bdim as [Hd3 _]. rewrite Hd3 in Hd. exact (lin_linear 3 a G H k d Hk Hd).
Qed.
Lemma elastic_form iv u v : energy_form F iv u v = sumN (num_cells F) (fun c => sumN (num_quads E) (fun q => JxW F c q * ddot 3 (linear_elastic_stress 3 (sol_to_grad F u c q)) (sol_to_grad F v c q))).
Proof. unfold energy_form. destruct bdim as [-> _]. rewrite Hv. apply sumN_ext. intros c _. apply sumN_ext. intros q _. unfold stress. rewrite Htm. reflexivity. Qed.
Lemma elastic_sym iv u v : energy_form F iv u v = energy_form F iv v u.
Proof. rewrite !elastic_form. apply sumN_ext. intros c _. apply sumN_ext. intros q _. f_equal. apply lin_work. Qed.
(** strain component (k, d) of cell c *)
Definition sv (u : nodal) (c k d a i : nat) : R := / 2 * gv u c k d a i + / 2 * gv u c d k a i.
Definition tv (u : nodal) (c a i : nat) : R := gv u c 0 0 a i + gv u c 1 1 a i + gv u c 2 2 a i.
Lemma strain_gfield u c q k d : (c < num_cells F)%nat -> (k < 3)%nat -> (d < 3)%nat -> strain (sol_to_grad F u c q) k d = gfield (sv u c k d) (qp B q).
Proof.
  intros Hc Hk Hd. unfold strain. rewrite !grad_gfield by assumption. unfold gfield, sv. rewrite Rmult_plus_distr_l, <- !sumN_scal, <- sumN_add. apply sumN_ext. intros a _.
  rewrite <- !sumN_scal, <- sumN_add. apply sumN_ext. intros i _. ring.
Qed.
Lemma trace_gfield u c q : (c < num_cells F)%nat -> trace 3 (strain (sol_to_grad F u c q)) = gfield (tv u c) (qp B q).
Proof.
  intros Hc. unfold trace, sumN at 1. cbn [seq sumR]. unfold strain. rewrite !grad_gfield by (assumption || lia). unfold gfield, tv.
  transitivity (sumN 8 (fun a => sumN 3 (fun i => gv u c 0 0 a i * hexgrad a i (qp B q))) + sumN 8 (fun a => sumN 3 (fun i => gv u c 1 1 a i * hexgrad a i (qp B q))) + sumN 8 (fun a => sumN 3 (fun i => gv u c 2 2 a i * hexgrad a i (qp B q)))); [lra|].
  rewrite <- !sumN_add. apply sumN_ext. intros a _. rewrite <- !sumN_add. apply sumN_ext. intros i _. ring.
Qed.
Lemma elastic_cell u c : (c < num_cells F)%nat ->
  sumN (num_quads E) (fun q => JxW F c q * ddot 3 (linear_elastic_stress 3 (sol_to_grad F u c q)) (sol_to_grad F u c q))
  = lmbda_of 70000 * sumN (num_quads E) (fun q => JxW F c q * (gfield (tv u c) (qp B q) * gfield (tv u c) (qp B q)))
  + 2 * mu_of 70000 * sumN 3 (fun k => sumN 3 (fun d => sumN (num_quads E) (fun q => JxW F c q * (gfield (sv u c k d) (qp B q) * gfield (sv u c k d) (qp B q))))).
Proof.
  intros Hc. rewrite (sumN_ext 3 _ (fun k => sumN (num_quads E) (fun q => sumN 3 (fun d => JxW F c q * (gfield (sv u c k d) (qp B q) * gfield (sv u c k d) (qp B q)))))) by (intros k _; now rewrite sumN_swap).
  rewrite (sumN_swap 3), <- !sumN_scal, <- sumN_add. apply sumN_ext. intros q _.
  rewrite (ddot_ext 3 _ (iso_stress 3 70000 (strain (sol_to_grad F u c q))) (sol_to_grad F u c q) (sol_to_grad F u c q)) by (intros i j _ _; first [apply lin_iso|reflexivity]).
  rewrite <- ddot_strain_r by (apply iso_sym, strain_msym). rewrite iso_work, trace_gfield by exact Hc.
  transitivity (lmbda_of 70000 * (JxW F c q * (gfield (tv u c) (qp B q) * gfield (tv u c) (qp B q))) + 2 * mu_of 70000 * (JxW F c q * ddot 3 (strain (sol_to_grad F u c q)) (strain (sol_to_grad F u c q)))); [ring|].
  f_equal. f_equal. unfold ddot. rewrite <- sumN_scal. apply sumN_ext. intros k Hk. rewrite <- sumN_scal. apply sumN_ext. intros d Hd. now rewrite !strain_gfield.
Qed.
Lemma moduli_pos : 0 < lmbda_of 70000 /\ 0 < mu_of 70000.
Proof. split; [apply lmbda_pos|apply mu_pos]; lra. Qed.
Lemma elastic_cell_nonneg u c : (c < num_cells F)%nat -> 0 <= sumN (num_quads E) (fun q => JxW F c q * ddot 3 (linear_elastic_stress 3 (sol_to_grad F u c q)) (sol_to_grad F u c q)).
Proof.
  intros Hc. rewrite elastic_cell by exact Hc. destruct moduli_pos as [H1 H2]. apply Rplus_le_le_0_compat.
  - apply Rmult_le_pos; [lra|]. now apply cell_square.
  - apply Rmult_le_pos; [lra|]. apply sumN_nonneg. intros k _. apply sumN_nonneg. intros d _. now apply cell_square.
Qed.
Lemma elastic_nonneg iv u : 0 <= energy_form F iv u u.
Proof. rewrite elastic_form. apply sumN_nonneg. intros c Hc. now apply elastic_cell_nonneg. Qed.
Lemma elastic_rigid iv u : energy_form F iv u u = 0 -> forall c k d, (c < num_cells F)%nat -> (k < 3)%nat -> (d < 3)%nat -> forall p, gfield (sv u c k d) p = 0.
Proof.
  rewrite elastic_form. intros H c k d Hc Hk Hd. pose proof (sumN_zero_each _ _ (elastic_cell_nonneg u) H c Hc) as H1. cbv beta in H1.
  rewrite elastic_cell in H1 by exact Hc. destruct moduli_pos as [Hl Hm].
  assert (P3 : forall k d, 0 <= sumN (num_quads E) (fun q => JxW F c q * (gfield (sv u c k d) (qp B q) * gfield (sv u c k d) (qp B q)))) by (intros; now apply cell_square).
  assert (P2 : forall k, 0 <= sumN 3 (fun d => sumN (num_quads E) (fun q => JxW F c q * (gfield (sv u c k d) (qp B q) * gfield (sv u c k d) (qp B q))))) by (intros; apply sumN_nonneg; auto).
  assert (P1 : 0 <= sumN 3 (fun k => sumN 3 (fun d => sumN (num_quads E) (fun q => JxW F c q * (gfield (sv u c k d) (qp B q) * gfield (sv u c k d) (qp B q)))))) by (apply sumN_nonneg; auto).
  pose proof (proj1 (cell_square (tv u c) c Hc)) as P0.
  assert (Z : sumN 3 (fun k => sumN 3 (fun d => sumN (num_quads E) (fun q => JxW F c q * (gfield (sv u c k d) (qp B q) * gfield (sv u c k d) (qp B q))))) = 0) by nra.
  pose proof (sumN_zero_each _ _ (fun k _ => P2 k) Z k Hk) as Z2. cbv beta in Z2. pose proof (sumN_zero_each _ _ (fun d _ => P3 k d) Z2 d Hd) as Z3. exact (proj2 (cell_square _ c Hc) Z3).
Qed.
Lemma sv_split u c k d p : gfield (sv u c k d) p = / 2 * gfield (gv u c k d) p + / 2 * gfield (gv u c d k) p.
Proof. unfold gfield, sv. rewrite <- !sumN_scal, <- sumN_add. apply sumN_ext. intros a _. rewrite <- !sumN_scal, <- sumN_add. apply sumN_ext. intros i _. ring. Qed.
(** no strain: what is at rest on one grid plane is at rest on its neighbours *)
Lemma cell_nodes d x p r a : (d < 3)%nat -> (x < N d)%nat -> (p < Np d)%nat -> (r < Nr d)%nat -> (a < 8)%nat ->
  exists o y z, (o <= 1)%nat /\ (y <= 1)%nat /\ (z <= 1)%nat /\ cell_node F (cellD d x p r) a = nodeD d (x + o) (p + y) (r + z).
Proof.
  intros Hd Hxx Hp Hr Ha. pose proof (oa a 0). pose proof (oa a 1). pose proof (oa a 2). unfold cellD, nodeD.
  destruct d as [|[|[|d]]]; try lia; cbn [along] in *; rewrite cn by assumption; [exists (off a 0), (off a 1), (off a 2)|exists (off a 1), (off a 0), (off a 2)|exists (off a 2), (off a 0), (off a 1)]; auto.
Qed.
Lemma no_div x d : x / hh d = 0 -> x = 0.
Proof. intros H. pose proof (hp d). apply Rmult_integral in H as [H|H]; [exact H|]. exfalso. apply (Rinv_neq_0_compat (hh d)); lra. Qed.
Definition at_rest (u : nodal) (d x : nat) : Prop := forall p r k, (p <= Np d)%nat -> (r <= Nr d)%nat -> (k < 3)%nat -> u (nodeD d x p r) k = 0.
Lemma rest_spreads iv u d x (up : bool) : energy_form F iv u u = 0 -> (d < 3)%nat -> (x < N d)%nat -> at_rest u d (if up then x else S x) -> at_rest u d (if up then S x else x).
Proof.
  intros H Hd Hxx Hrest.
  assert (Hall : forall k, (k < 3)%nat -> (forall p r, (p < Np d)%nat -> (r < Nr d)%nat -> forall q, gfield (gv u (cellD d x p r) k d) q = 0) ->
     forall p r, (p <= Np d)%nat -> (r <= Nr d)%nat -> u (nodeD d (if up then S x else x) p r) k = 0).
  { intros k Hk Hg p r Hp Hr. destruct (node_cell d p r Hd Hp Hr) as (p0 & r0 & y & z & Hp0 & Hr0 & Hyy & Hzz & -> & ->).
    pose proof (corner_diff u k d x p0 r0 y z Hd Hxx Hp0 Hr0 Hyy Hzz) as D. rewrite Hg in D by assumption. symmetry in D. apply no_div in D.
    specialize (Hrest (p0 + y)%nat (r0 + z)%nat k Hp Hr Hk). destruct up; lra. }
  assert (Hcomp : forall p r, (p <= Np d)%nat -> (r <= Nr d)%nat -> u (nodeD d (if up then S x else x) p r) d = 0).
  { apply Hall; [exact Hd|]. intros p r Hp Hr q. pose proof (elastic_rigid iv u H (cellD d x p r) d d (cellD_lt d x p r Hd Hxx Hp Hr) Hd Hd q) as Z. rewrite sv_split in Z. lra. }
  intros p r k Hp Hr Hk. destruct (Nat.eq_dec k d) as [->|Hkd]; [now apply Hcomp|]. apply Hall; try assumption.
  clear p r Hp Hr. intros p r Hp Hr q. pose proof (elastic_rigid iv u H (cellD d x p r) k d (cellD_lt d x p r Hd Hxx Hp Hr) Hk Hd q) as Z. rewrite sv_split in Z.
  rewrite (gfield_zero (gv u (cellD d x p r) d k)) in Z; [lra|]. intros a i Ha Hi. unfold gv. destruct (Nat.eqb i k); [|reflexivity].
  destruct (cell_nodes d x p r a Hd Hxx Hp Hr Ha) as (o & y & z & Ho & Hyy & Hzz & ->).
  assert (Z0 : u (nodeD d (x + o) (p + y) (r + z)) d = 0).
  { destruct o as [|[|o]]; try lia; [rewrite Nat.add_0_r|rewrite Nat.add_1_r]; destruct up; first [apply Hrest; lia|apply Hcomp; lia]. }
  rewrite Z0. field. pose proof (hp k). lra.
Qed.
Lemma clamped_rest iv u d (hi : bool) : energy_form F iv u u = 0 -> (d < 3)%nat -> at_rest u d (if hi then N d else 0) -> forall x, (x <= N d)%nat -> at_rest u d x.
Proof.
  intros H Hd Hrest. destruct hi.
  - assert (A : forall y x, (x + y = N d)%nat -> at_rest u d x); [|intros x Hxx; apply (A (N d - x)%nat); lia].
    induction y as [|y IH]; intros x Hxy; [replace x with (N d) by lia; exact Hrest|]. apply (rest_spreads iv u d x false H Hd ltac:(lia)). apply IH. lia.
  - induction x as [|x IH]; intros Hxx; [exact Hrest|]. apply (rest_spreads iv u d x true H Hd ltac:(lia)). apply IH. lia.
Qed.
Lemma elastic_clamped iv u d hi : energy_form F iv u u = 0 -> (d < 3)%nat ->
  (forall n k, (n < num_total_nodes F)%nat -> points F n d = side_coord Lx Ly Lz (d, hi) -> (k < 3)%nat -> u n k = 0) -> same_field F u (fun _ _ => 0).
Proof.
  intros H Hd Hside n k Hn Hk. rewrite Hv in Hk. destruct (nodeD_surj d n Hd Hn) as (x & p & r & Hxx & Hp & Hr & ->).
  refine (clamped_rest iv u d hi H Hd _ x Hxx p r k Hp Hr Hk). clear k Hn Hk x p r Hxx Hp Hr. intros p r k Hp Hr Hk.
  assert (Hlev : (if hi then N d else 0%nat) = level Nx Ny Nz d hi) by reflexivity.
  apply Hside; [| |exact Hk].
  - unfold nodeD. destruct d as [|[|[|d]]]; try lia; cbn [along] in *; apply (node_lt F Nx Ny Nz Lx Ly Lz); try assumption; destruct hi; lia.
  - unfold nodeD. destruct d as [|[|[|d]]]; try lia; cbn [along] in *; (rewrite (node_point F Nx Ny Nz Lx Ly Lz Hx Hy Hz Hmesh Hnodes) by (assumption || lia || (destruct hi; lia)));
      apply (on_level Nx Ny Nz Lx Ly Lz Hx Hy Hz Hlx Hly Hlz _ hi); cbn [along]; destruct hi; reflexivity.
Qed.
End Elastic.
End Box.
Close Scope R_scope.
