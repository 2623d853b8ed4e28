(** * Periodic conditions of the representative volume element and the mean deformation. *)
From Coq Require Import String Lra Lia QArith Qreals Sorted.
From Verif Require Import Prelude PreludeFacts FemModel FemFacts FemSpec FemGeoProofs BasisModel BasisSpec BasisProofs BasisFaceProofs BasisQuadProofs BasisMeshProofs MatModel MatSpec MatProofs MatHyperProofs CrysModel CrysSpec CrysDiffProofs CrysFemProofs RveModel RveSpec RveProofs.
From Verif Require MeshModel MeshSpec MeshProofs.
Open Scope R_scope.
Open Scope list_scope.

(** ** fluc_to_disp *)
Lemma disp_grad {V} (F : fem V) H u c q i d : dim F = 3%nat -> grads_sum_zero F -> (q < num_quads (f_ele F))%nat -> jacobian_det F c q <> 0 -> (d < 3)%nat ->
  sol_to_grad F (fluc_to_disp F H u) c q i d = H i d + sol_to_grad F u c q i d.
Proof.
  intros Hd Hg Hq Hj Hdd. unfold fluc_to_disp.
  transitivity (sol_to_grad F (fun n k => affine_field F (fun _ => 0) H n k + u n k) c q i d).
  - unfold sol_to_grad, affine_field. apply sumN_ext. intros a _. rewrite Hd. ring.
  - rewrite grad_add, patch_test; auto; [rewrite Hd; unfold small_dim; auto|now rewrite Hd].
Qed.

(** ** integrals of the shape function gradients of a brick: plus or minus a quarter *)
Definition sgn_of (a d : nat) : R := if Nat.eqb (nth d (nth a vtk_hex []) 0%nat) 0 then -1 else 1.
Lemma hex_integral_table a d : (a < 8)%nat -> (d < 3)%nat -> integral hexahedron (pder 3 d (pshape "HEX8" a)) = sgn_of a d / 4.
Proof.
  intros Ha Hd. do 8 (destruct a as [|a]; [do 3 (destruct d as [|d]; [match goal with |- integral hexahedron ?p = _ => let v := eval vm_compute in p in change p with v end;
    unfold integral, moment, Q2R, sgn_of, vtk_hex, prodN; cbn; lra|]); lia|]). lia.
Qed.
Lemma hex_grad_integral B E a d : documented_basix B -> exact_rule B hexahedron 2 -> element_tables B "HEX8" = Ok E -> (a < 8)%nat -> (d < 3)%nat ->
  sumN (num_quads E) (fun q => quad_weights E q * shape_grads_ref E q a d) = sgn_of a d / 4.
Proof.
  intros HB Hx HE Ha Hd. destruct (tables_given B HB "HEX8" E ltac:(cbn; tauto) HE) as (fi & _ & ->).
  cbn [num_quads quad_weights shape_grads_ref tables].
  transitivity (integral hexahedron (pder 3 d (pshape "HEX8" a))).
  - rewrite <- (exact_poly B hexahedron 2); [|exact Hx|].
    + apply sumN_ext. intros q _. f_equal. unfold quad_point. symmetry. symmetry. apply (shape_der "HEX8" a d); [exact Hd|]. apply tabulated_grad; auto. cbn. tauto.
    + apply (forallb_forall (fun m => degree_ok hexahedron 2 (snd m))). intros m Hm.
      pose proof (grad_degree "HEX8" a d ltac:(cbn; tauto) ltac:(cbn; lia) ltac:(cbn; lia)) as HD. unfold deg_le in HD. rewrite forallb_forall in HD.
      apply (degree_ok_le _ (gauss_of "HEX8" / 2)%nat); [cbn; lia|]. now apply HD.
  - now apply hex_integral_table.
Qed.

Section Cube.
Context {V : Type}.
Variable B : basix.
Hypothesis HB : documented_basix B.
Hypothesis Hrule : exact_rule B hexahedron 2.
Variable F : fem V.
Local Notation E := (f_ele F).
Variables (N : nat) (len : R).
Hypothesis HN : (0 < N)%nat.
Hypothesis Hlen : 0 < len.
Let m := MeshModel.box_mesh N N N len len len.
Hypothesis Hmesh : has_mesh3 F (MeshModel.points m) (MeshModel.cells m).
Hypothesis HE : element_tables B "HEX8" = Ok E.
Let h := len / INR N.
Lemma h_pos : 0 < h.
Proof. unfold h. apply Rdiv_lt_0_compat; [exact Hlen|]. now apply lt_0_INR. Qed.
Lemma cube_dim : dim F = 3%nat /\ num_nodes E = 8%nat.
Proof. destruct (dims B HB F "HEX8" ltac:(cbn; tauto) HE) as (-> & -> & _). split; reflexivity. Qed.
Lemma cube_cells : num_cells F = (N * (N * N))%nat.
Proof. unfold num_cells. destruct Hmesh as [-> _]. apply MeshProofs.box_cells_length; assumption. Qed.
Lemma cube_jac c q i j : (c < num_cells F)%nat -> (i < 3)%nat -> (j < 3)%nat -> jacobian_dx_deta F c q i j = if Nat.eqb i j then h else 0.
Proof.
  intros Hc Hi Hj. destruct (brick_affine F N N N len len len c HN HN HN Hmesh Hc) as (b & HA).
  rewrite (affine_jacobian B HB F "HEX8" ltac:(cbn; tauto) HE c _ b q i j HA Hi Hj). unfold diag. fold h.
  destruct i as [|[|[|i]]]; try lia; destruct j as [|[|[|j]]]; try lia; reflexivity.
Qed.
Lemma cube_det c q : (c < num_cells F)%nat -> jacobian_det F c q = h ^ 3.
Proof.
  intros Hc. unfold jacobian_det. destruct cube_dim as [-> _]. cbn [det]. rewrite !cube_jac by (assumption || lia). cbn [Nat.eqb]. ring.
Qed.
Lemma cube_invertible : invertible_cells F.
Proof. intros c q Hc _. rewrite cube_det by exact Hc. pose proof h_pos. apply pow_nonzero. lra. Qed.
Lemma cube_grads_sum : grads_sum_zero F.
Proof.
  intros q j Hq Hj. destruct (tables_given B HB "HEX8" E ltac:(cbn; tauto) HE) as (fi & _ & EE). destruct cube_dim as [Hd Hn]. unfold dim in Hd. rewrite Hn. rewrite Hd in Hj.
  rewrite EE. cbn [shape_grads_ref tables]. exact (proj1 (grads_complete B HB "HEX8" _ j ltac:(cbn; tauto) Hj)).
Qed.
Lemma cube_shape_grads c q a d : (c < num_cells F)%nat -> (d < 3)%nat -> shape_grads F c q a d = shape_grads_ref E q a d / h.
Proof.
  intros Hc Hd. pose proof h_pos as Hh. unfold shape_grads. destruct cube_dim as [-> _].
  rewrite (sumN_ext 3 _ (fun i => shape_grads_ref E q a i / h * delta i d)).
  - now rewrite sumN_delta.
  - intros i Hi. unfold Rdiv. rewrite Rmult_assoc. f_equal. unfold jacobian_deta_dx, inv. fold (jacobian_det F c q). unfold dim in *.
    destruct cube_dim as [Hdm _]. unfold dim in Hdm. rewrite Hdm.
    rewrite (cube_det c q Hc).
    unfold delta. destruct i as [|[|[|i]]]; try lia; destruct d as [|[|[|d]]]; try lia; cbn [adj Nat.eqb]; rewrite ?cube_jac by (assumption || lia); cbn [Nat.eqb]; field; lra.
Qed.
Lemma cube_grad_integral c a d : (c < num_cells F)%nat -> (a < 8)%nat -> (d < 3)%nat ->
  sumN (num_quads E) (fun q => JxW F c q * shape_grads F c q a d) = h ^ 2 / 4 * sgn_of a d.
Proof.
  intros Hc Ha Hd. pose proof h_pos as Hh.
  rewrite (sumN_ext _ _ (fun q => h ^ 2 * (quad_weights E q * shape_grads_ref E q a d))).
  - rewrite sumN_scal, (hex_grad_integral B E a d HB Hrule HE Ha Hd). field.
  - intros q _. rewrite cube_shape_grads by assumption. unfold JxW. rewrite cube_det by exact Hc. field. lra.
Qed.
Lemma cube_cell_integral u c i d : (c < num_cells F)%nat -> (d < 3)%nat ->
  sumN (num_quads E) (fun q => JxW F c q * sol_to_grad F u c q i d) = h ^ 2 / 4 * sumN 8 (fun a => sgn_of a d * u (cell_node F c a) i).
Proof.
  intros Hc Hd. unfold sol_to_grad. destruct cube_dim as [_ ->].
  rewrite (sumN_ext _ _ (fun q => sumN 8 (fun a => u (cell_node F c a) i * (JxW F c q * shape_grads F c q a d)))) by (intros q _; rewrite <- sumN_scal; apply sumN_ext; intros; ring).
  rewrite sumN_swap, <- sumN_scal. apply sumN_ext. intros a Ha. rewrite sumN_scal, cube_grad_integral by assumption. ring.
Qed.
(** ** the sum over a layer of cells telescopes *)
Definition four (u : nodal) (i d s p r : nat) : R :=
  u (side N d s p r) i + u (side N d s (S p) r) i + u (side N d s p (S r)) i + u (side N d s (S p) (S r)) i.
Lemma cube_cell_nodes i j k : (i < N)%nat -> (j < N)%nat -> (k < N)%nat ->
  nth ((N * N) * i + (N * j + k)) (cells F) [] = [box_node N i j k; box_node N (S i) j k; box_node N (S i) (S j) k; box_node N i (S j) k;
       box_node N i j (S k); box_node N (S i) j (S k); box_node N (S i) (S j) (S k); box_node N i (S j) (S k)].
Proof.
  intros Hi Hj Hk. destruct Hmesh as [-> _]. apply nth_error_nth. replace (N * N * i + (N * j + k))%nat with (i * (N * N) + j * N + k)%nat by lia.
  exact (MeshProofs.box_cell_at N N N len len len HN HN HN i j k Hi Hj Hk).
Qed.
Lemma tele n g : sumN n (fun i => g (S i) - g i) = g n - g 0%nat.
Proof. induction n as [|n IH]; [unfold sumN; cbn; ring|]. rewrite sumN_S, IH. ring. Qed.
Lemma sum_cells f : sumN (num_cells F) f = sumN N (fun i => sumN N (fun j => sumN N (fun k => f ((N * N) * i + (N * j + k))%nat))).
Proof. rewrite cube_cells, sumN_mul. apply sumN_ext. intros i _. now rewrite sumN_mul. Qed.
Lemma cell_difference u i0 i j k d : (i < N)%nat -> (j < N)%nat -> (k < N)%nat -> (d < 3)%nat ->
  sumN 8 (fun a => sgn_of a d * u (cell_node F ((N * N) * i + (N * j + k)) a) i0)
  = match d with
    | 0%nat => four u i0 0 (S i) j k - four u i0 0 i j k
    | 1%nat => four u i0 1 (S j) i k - four u i0 1 j i k
    | _ => four u i0 2 (S k) i j - four u i0 2 k i j
    end.
Proof.
  intros Hi Hj Hk Hd. unfold cell_node. rewrite cube_cell_nodes by assumption. unfold sumN, sgn_of, vtk_hex, four, side.
  destruct d as [|[|[|d]]]; try lia; cbn; ring.
Qed.
(** the divergence theorem on the mesh *)
Lemma cube_divergence u i d : (d < 3)%nat ->
  sumN (num_cells F) (fun c => sumN (num_quads E) (fun q => JxW F c q * sol_to_grad F u c q i d))
  = h ^ 2 / 4 * sumN N (fun p => sumN N (fun r => four u i d N p r - four u i d 0 p r)).
Proof.
  intros Hd. rewrite (sumN_ext _ _ (fun c => h ^ 2 / 4 * sumN 8 (fun a => sgn_of a d * u (cell_node F c a) i))) by (intros c Hc; now apply cube_cell_integral).
  rewrite sumN_scal, sum_cells. f_equal.
  rewrite (sumN_ext N _ (fun i0 => sumN N (fun j => sumN N (fun k => match d with
    | 0%nat => four u i 0 (S i0) j k - four u i 0 i0 j k
    | 1%nat => four u i 1 (S j) i0 k - four u i 1 j i0 k
    | _ => four u i 2 (S k) i0 j - four u i 2 k i0 j end)))).
  2: { intros x Hx. apply sumN_ext. intros y Hy. apply sumN_ext. intros z Hz. now apply cell_difference. }
  destruct d as [|[|[|d]]]; try lia.
  - rewrite sumN_swap. apply sumN_ext. intros p _. rewrite sumN_swap. apply sumN_ext. intros r _. apply (tele N (fun s => four u i 0 s p r)).
  - apply sumN_ext. intros p _. rewrite sumN_swap. apply sumN_ext. intros r _. apply (tele N (fun s => four u i 1 s p r)).
  - apply sumN_ext. intros p _. apply sumN_ext. intros r _. apply (tele N (fun s => four u i 2 s p r)).
Qed.
Lemma periodic_mean u i d : periodic N u -> (i < 3)%nat -> (d < 3)%nat ->
  sumN (num_cells F) (fun c => sumN (num_quads E) (fun q => JxW F c q * sol_to_grad F u c q i d)) = 0.
Proof.
  intros Hp Hi Hd. rewrite cube_divergence by exact Hd. rewrite (sumN_zero N); [ring|]. intros p Hpp. apply sumN_zero. intros r Hr. unfold four.
  rewrite !(Hp d) by lia. ring.
Qed.
Lemma mean_deformation H u i d : periodic N u -> (i < 3)%nat -> (d < 3)%nat ->
  sumN (num_cells F) (fun c => sumN (num_quads E) (fun q => JxW F c q * sol_to_grad F (fluc_to_disp F H u) c q i d)) = len ^ 3 * H i d /\
  sumN (num_cells F) (fun c => sumN (num_quads E) (fun q => JxW F c q * total F H u c q i d)) = len ^ 3 * (eye i d + H i d).
Proof.
  intros Hp Hi Hd. destruct (brick_volume B HB F N N N len len len HN HN HN Hmesh HE) as [_ Hv].
  assert (HC : forall x, sumN (num_cells F) (fun c => sumN (num_quads E) (fun q => JxW F c q * (x + sol_to_grad F u c q i d))) = len ^ 3 * x).
  { intros x. rewrite (sumN_ext _ _ (fun c => x * sumN (num_quads E) (JxW F c) + sumN (num_quads E) (fun q => JxW F c q * sol_to_grad F u c q i d))).
    - rewrite sumN_add, sumN_scal, Hv, (periodic_mean u i d Hp Hi Hd). ring.
    - intros c _. rewrite <- sumN_scal, <- sumN_add. apply sumN_ext. intros; ring. }
  split.
  - rewrite <- (HC (H i d)). apply sumN_ext. intros c Hc. apply sumN_ext. intros q Hq. f_equal. apply disp_grad; auto; [apply cube_dim|apply cube_grads_sum|now apply cube_invertible].
  - rewrite <- (HC (eye i d + H i d)). apply sumN_ext. intros c Hc. apply sumN_ext. intros q Hq. f_equal. unfold total. ring.
Qed.
End Cube.

(** ** the node pairs selected by the location functions *)
Lemma norm_ge x k : (k < 3)%nat -> Rabs (x k) <= norm_dim 3 x.
Proof.
  intros Hk. unfold norm_dim. rewrite <- (sqrt_Rsqr_abs (x k)). apply sqrt_le_1_alt. unfold Rsqr, sumN. cbn [seq sumR].
  pose proof (pow2_ge_0 (x 0%nat)). pose proof (pow2_ge_0 (x 1%nat)). pose proof (pow2_ge_0 (x 2%nat)).
  destruct k as [|[|[|k]]]; try lia; nra.
Qed.
Lemma norm_zero x : (forall k, (k < 3)%nat -> x k = 0) -> norm_dim 3 x = 0.
Proof. intros H. unfold norm_dim. rewrite sumN_zero; [apply sqrt_0|]. intros i Hi. rewrite H by exact Hi. ring. Qed.
Lemma filter_single {A} (f : A -> bool) l b : NoDup l -> In b l -> f b = true -> (forall x, In x l -> f x = true -> x = b) -> filter f l = [b].
Proof.
  intros Hn Hi Hb Hu. induction Hn as [|x l Hx Hn IH]; [destruct Hi|]. cbn [filter]. destruct (f x) eqn:Ex.
  - assert (x = b) as -> by (apply Hu; [now left|exact Ex]). f_equal. clear IH Hi.
    assert (forall y, In y l -> f y = false).
    { intros y Hy. destruct (f y) eqn:Ey; [|reflexivity]. exfalso. apply Hx. rewrite <- (Hu y (or_intror Hy) Ey). exact Hy. }
    clear -H. induction l as [|y l IH]; [reflexivity|]. cbn [filter]. rewrite H by now left. apply IH. intros z Hz. apply H. now right.
  - destruct Hi as [-> | Hi]; [congruence|]. apply IH; [exact Hi|]. intros y Hy. apply Hu. now right.
Qed.
Section Pairs.
Context {V : Type}.
Variable F : fem V.
Variables (N : nat) (len : R).
Hypothesis HN : (0 < N)%nat.
Hypothesis Hlen : 0 < len.
Let m := MeshModel.box_mesh N N N len len len.
Hypothesis Hmesh : has_mesh3 F (MeshModel.points m) (MeshModel.cells m).
Hypothesis Hnodes : num_total_nodes F = length (MeshModel.points m).
Hypothesis Hdim : dim F = 3%nat.
Hypothesis Hfine : / 100000 * (1 + len) < len / INR N.
Let h := len / INR N.
Definition sidx (d s p r k : nat) : nat :=
  match d, k with
  | 0%nat, 0%nat => s | 0%nat, 1%nat => p | 0%nat, _ => r
  | 1%nat, 0%nat => p | 1%nat, 1%nat => s | 1%nat, _ => r
  | _, 0%nat => p | _, 1%nat => r | _, _ => s
  end.
Lemma INRN : 0 < INR N. Proof. now apply lt_0_INR. Qed.
Lemma node_count : num_total_nodes F = ((N + 1) * ((N + 1) * (N + 1)))%nat.
Proof. rewrite Hnodes. apply MeshProofs.box_points_length; assumption. Qed.
Lemma box_node_points i j k e : (i <= N)%nat -> (j <= N)%nat -> (k <= N)%nat -> (e < 3)%nat ->
  points F (box_node N i j k) e = INR (match e with 0%nat => i | 1%nat => j | _ => k end) * h.
Proof.
  clear Hnodes Hdim. intros Hi Hj Hk He. pose proof (MeshProofs.box_point_at N N N len len len HN HN HN i j k Hi Hj Hk) as Hp.
  destruct Hmesh as [_ Hpts]. specialize (Hpts _ _ _ _ Hp). unfold box_node. destruct Hpts as (P0 & P1 & P2).
  destruct e as [|[|[|e]]]; try lia; rewrite ?P0, ?P1, ?P2; unfold h, Rdiv; ring.
Qed.
Lemma side_points d s p r e : (s <= N)%nat -> (p <= N)%nat -> (r <= N)%nat -> (e < 3)%nat ->
  points F (side N d s p r) e = INR (sidx d s p r e) * h.
Proof. clear Hnodes Hdim. intros Hs Hp Hr He. destruct d as [|[|d]]; cbn [side]; rewrite box_node_points by assumption; destruct e as [|[|[|e]]]; try lia; reflexivity. Qed.
Lemma side_lt d s p r : (s <= N)%nat -> (p <= N)%nat -> (r <= N)%nat -> (side N d s p r < num_total_nodes F)%nat.
Proof. intros Hs Hp Hr. rewrite node_count. destruct d as [|[|d]]; cbn [side]; unfold box_node; nia. Qed.
Lemma side_all d n : (n < num_total_nodes F)%nat -> exists s p r, (s <= N)%nat /\ (p <= N)%nat /\ (r <= N)%nat /\ n = side N d s p r.
Proof.
  rewrite node_count. intros Hn. destruct (decode3 _ _ _ _ Hn) as (Hi & Hj & Hk & En). set (i := (n / (N + 1) / (N + 1))%nat) in *. set (j := ((n / (N + 1)) mod (N + 1))%nat) in *. set (k := (n mod (N + 1))%nat) in *.
  assert (Eb : n = box_node N i j k) by (unfold box_node; lia).
  destruct d as [|[|d]]; [exists i, j, k|exists j, i, k|exists k, i, j]; cbn [side]; repeat split; try lia; exact Eb.
Qed.
Lemma side_inj d s p r s' p' r' : (s <= N)%nat -> (p <= N)%nat -> (r <= N)%nat -> (s' <= N)%nat -> (p' <= N)%nat -> (r' <= N)%nat ->
  side N d s p r = side N d s' p' r' -> s = s' /\ p = p' /\ r = r'.
Proof. intros ? ? ? ? ? ? E. destruct d as [|[|d]]; cbn [side] in E; unfold box_node in E; apply (MeshProofs.num_inj N N) in E; try lia. Qed.
Lemma step_pos : / 100000 < h /\ / 100000 + / 100000 * len < h.
Proof. unfold h. assert (0 < / 100000 * len) by (apply Rmult_lt_0_compat; lra). lra. Qed.
Lemma gap i j : i <> j -> h <= Rabs (INR i * h - INR j * h).
Proof.
  intros Hij. destruct step_pos as [Hh _]. assert (0 < h) by lra.
  rewrite <- Rmult_minus_distr_r, Rabs_mult, (Rabs_pos_eq h) by lra.
  assert (1 <= Rabs (INR i - INR j)); [|nra].
  destruct (Nat.lt_total i j) as [Hl | [He | Hl]]; [|contradiction|].
  - assert (INR (S i) <= INR j) by (apply le_INR; lia). rewrite S_INR in *. rewrite Rabs_left1 by lra. lra.
  - assert (INR (S j) <= INR i) by (apply le_INR; lia). rewrite S_INR in *. rewrite Rabs_pos_eq by lra. lra.
Qed.
Lemma len_N : INR N * h = len.
Proof. unfold h. pose proof INRN. field. lra. Qed.
Lemma close_iff i j : isclose (INR i * h) (INR j * h) = true <-> i = j \/ h <= Rabs (INR i * h - INR j * h) <= / 100000 + / 100000 * Rabs (INR j * h).
Proof.
  unfold isclose. rewrite Rleb_true. split.
  - intros H. destruct (Nat.eq_dec i j) as [|Hne]; [now left|right]. split; [now apply gap|exact H].
  - intros [-> | [_ H]]; [|exact H]. unfold Rminus. rewrite Rplus_opp_r, Rabs_R0. pose proof (Rabs_pos (INR j * h)). nra.
Qed.
Lemma close_zero i : isclose (INR i * h) 0 = true <-> i = 0%nat.
Proof.
  replace 0 with (INR 0 * h) by (cbn; ring). rewrite close_iff. destruct step_pos. split; [|tauto]. intros [E | [H1 H2]]; [exact E|exfalso].
  cbn [INR] in H2. rewrite Rmult_0_l, Rabs_R0 in H2. cbn [INR] in H1. rewrite Rmult_0_l in H1. lra.
Qed.
Lemma close_len i : isclose (INR i * h) len = true <-> i = N.
Proof.
  rewrite <- len_N at 1. rewrite close_iff. destruct step_pos as [_ H0]. split; [|tauto]. intros [E | [H1 H2]]; [exact E|exfalso].
  rewrite len_N in H1, H2. rewrite (Rabs_pos_eq len) in H2 by lra. lra.
Qed.
Lemma plane_zero d s p r : (d < 3)%nat -> (s <= N)%nat -> (p <= N)%nat -> (r <= N)%nat -> (on_plane d 0 (points F (side N d s p r)) = true <-> s = 0%nat).
Proof. intros Hd Hs Hp Hr. unfold on_plane. rewrite side_points by assumption. rewrite close_zero. destruct d as [|[|[|d]]]; try lia; reflexivity. Qed.
Lemma plane_len d s p r : (d < 3)%nat -> (s <= N)%nat -> (p <= N)%nat -> (r <= N)%nat -> (on_plane d len (points F (side N d s p r)) = true <-> s = N).
Proof. intros Hd Hs Hp Hr. unfold on_plane. rewrite side_points by assumption. rewrite close_len. destruct d as [|[|[|d]]]; try lia; reflexivity. Qed.
Lemma match_iff d p r p' r' : (d < 3)%nat -> (p <= N)%nat -> (r <= N)%nat -> (p' <= N)%nat -> (r' <= N)%nat ->
  (norm_dim 3 (fun i => mapping d len (points F (side N d 0 p r)) i - points F (side N d N p' r') i) < EPS <-> p = p' /\ r = r').
Proof.
  intros Hd Hp Hr Hp' Hr'. destruct step_pos as [Hh _]. split.
  - intros H. assert (Hk : forall k, (k < 3)%nat -> Rabs (mapping d len (points F (side N d 0 p r)) k - points F (side N d N p' r') k) < / 100000).
    { intros k Hk. eapply Rle_lt_trans; [|exact H]. apply (norm_ge (fun i => mapping d len (points F (side N d 0 p r)) i - points F (side N d N p' r') i) k Hk). }
    assert (HH : forall k, (k < 3)%nat -> k <> d -> sidx d 0 p r k = sidx d N p' r' k).
    { intros k H3 Hne. specialize (Hk k H3). unfold mapping in Hk. destruct (Nat.eqb_spec k d); [contradiction|]. rewrite !side_points in Hk by (assumption || lia).
      destruct (Nat.eq_dec (sidx d 0 p r k) (sidx d N p' r' k)) as [|Hn]; [assumption|exfalso]. pose proof (gap _ _ Hn). lra. }
    destruct d as [|[|[|d]]]; try lia.
    + split; [apply (HH 1%nat)|apply (HH 2%nat)]; lia.
    + split; [apply (HH 0%nat)|apply (HH 2%nat)]; lia.
    + split; [apply (HH 0%nat)|apply (HH 1%nat)]; lia.
  - intros [<- <-]. rewrite norm_zero; [unfold EPS; lra|]. intros k Hk. unfold mapping. rewrite !side_points by (assumption || lia).
    destruct (Nat.eqb_spec k d) as [-> | Hne].
    + replace (sidx d 0 p r d) with 0%nat by (destruct d as [|[|[|d]]]; try lia; reflexivity).
      replace (sidx d N p r d) with N by (destruct d as [|[|[|d]]]; try lia; reflexivity). rewrite len_N. cbn. ring.
    + replace (sidx d N p r k) with (sidx d 0 p r k); [ring|]. destruct d as [|[|[|d]]]; try lia; destruct k as [|[|[|k]]]; try lia; reflexivity.
Qed.
Lemma pair_found d : (d < 3)%nat -> exists la lb, periodic_pair F (on_plane d 0) (on_plane d len) (mapping d len) = Ok (la, lb) /\
  length la = length lb /\ NoDup la /\
  (forall n, In n la <-> exists p r, (p <= N)%nat /\ (r <= N)%nat /\ n = side N d 0 p r) /\
  (forall j p r, (p <= N)%nat -> (r <= N)%nat -> nth_error la j = Some (side N d 0 p r) -> nth_error lb j = Some (side N d N p r)).
Proof.
  intros Hd.
  assert (HA : forall n, In n (argwhere (on_plane d 0) (map (points F) (seq 0 (num_total_nodes F)))) <-> exists p r, (p <= N)%nat /\ (r <= N)%nat /\ n = side N d 0 p r).
  { intros n. rewrite in_pts. split.
    - intros [Hn H]. destruct (side_all d n Hn) as (s & p & r & Hs & Hp & Hr & ->). apply plane_zero in H; try assumption. subst s. eauto.
    - intros (p & r & Hp & Hr & ->). split; [apply side_lt; lia|]. apply plane_zero; try assumption; lia. }
  assert (HBn : forall n, In n (argwhere (on_plane d len) (map (points F) (seq 0 (num_total_nodes F)))) <-> exists p r, (p <= N)%nat /\ (r <= N)%nat /\ n = side N d N p r).
  { intros n. rewrite in_pts. split.
    - intros [Hn H]. destruct (side_all d n Hn) as (s & p & r & Hs & Hp & Hr & ->). apply plane_len in H; try assumption. subst s. eauto.
    - intros (p & r & Hp & Hr & ->). split; [apply side_lt; lia|]. apply plane_len; try assumption; lia. }
  assert (Hone : forall p r, (p <= N)%nat -> (r <= N)%nat ->
    filter (fun b => Rltb (norm_dim (dim F) (fun i => mapping d len (points F (side N d 0 p r)) i - points F b i)) EPS) (argwhere (on_plane d len) (map (points F) (seq 0 (num_total_nodes F)))) = [side N d N p r]).
  { intros p r Hp Hr. rewrite Hdim. apply filter_single.
    - apply argwhere_NoDup.
    - apply HBn. eauto.
    - apply Rltb_true. apply match_iff; auto.
    - intros x Hx H. apply HBn in Hx. destruct Hx as (p' & r' & Hp' & Hr' & ->). apply Rltb_true in H. apply match_iff in H; try assumption. destruct H as [<- <-]. reflexivity. }
  assert (Hmap : forall l, (forall n, In n l -> exists p r, (p <= N)%nat /\ (r <= N)%nat /\ n = side N d 0 p r) ->
    Forall (fun x : list nat => length x = 1%nat) (map (fun node_ind => filter (fun b => Rltb (norm_dim (dim F) (fun i => mapping d len (points F node_ind) i - points F b i)) EPS) (argwhere (on_plane d len) (map (points F) (seq 0 (num_total_nodes F))))) l)).
  { intros l Hl. apply Forall_forall. intros x Hx. apply in_map_iff in Hx. destruct Hx as (n & <- & Hn). destruct (Hl n Hn) as (p & r & Hp & Hr & ->). now rewrite Hone. }
  set (LA := argwhere (on_plane d 0) (map (points F) (seq 0 (num_total_nodes F)))) in *.
  pose proof (Hmap LA (fun n Hn => proj1 (HA n) Hn)) as H1. clear Hmap.
  destruct (periodic_pair F (on_plane d 0) (on_plane d len) (mapping d len)) as [[la lb]|e] eqn:Ep.
  - destruct (periodic_pair_ok F _ _ _ _ _ Ep) as (El & Hn & _ & Hin & Hnth). exists la, lb. split; [reflexivity|]. split; [exact El|]. split; [exact Hn|]. split.
    + intros n. rewrite Hin, <- in_pts. apply HA.
    + intros j p r Hp Hr Hj. destruct (Hnth j _ Hj) as (b & Hb & _ & Hpl & Hdist & _). rewrite Hb. f_equal.
      assert (Hbl : In b (argwhere (on_plane d len) (map (points F) (seq 0 (num_total_nodes F))))).
      { apply in_pts. split; [|exact Hpl]. destruct (Hnth j _ Hj) as (b' & Hb' & Hlt & _). congruence. }
      apply HBn in Hbl. destruct Hbl as (p' & r' & Hp' & Hr' & ->). unfold dist in Hdist. rewrite Hdim in Hdist. apply match_iff in Hdist; try assumption. destruct Hdist as [<- <-]. reflexivity.
  - exfalso. unfold periodic_pair in Ep. fold LA in Ep. set (ordered := map _ LA) in *.
    assert (Hall : forallb (fun l => Nat.eqb (length l) (length (hd [] ordered))) ordered = true).
    { apply forallb_forall. intros l Hl. apply Nat.eqb_eq. rewrite Forall_forall in H1. rewrite (H1 l Hl). symmetry. destruct ordered as [|o os]; [destruct Hl|]. apply H1. now left. }
    rewrite Hall in Ep. pose proof (length_concat_const _ _ H1) as Hcl. unfold ordered in Hcl at 2. rewrite map_length in Hcl.
    rewrite (proj2 (Nat.eqb_eq _ _)) in Ep by lia. discriminate.
Qed.
(** all nine conditions *)
Lemma conditions_found : exists l, periodic_boundary_conditions F (rve_periodic len) = Ok l /\ length l = 9%nat /\
  forall d v, (d < 3)%nat -> (v < 3)%nat -> exists la lb, nth_error l (3 * d + v) = Some (la, lb, map (fun _ => v) la) /\
  length la = length lb /\ NoDup la /\
  (forall n, In n la <-> exists p r, (p <= N)%nat /\ (r <= N)%nat /\ n = side N d 0 p r) /\
  (forall j p r, (p <= N)%nat -> (r <= N)%nat -> nth_error la j = Some (side N d 0 p r) -> nth_error lb j = Some (side N d N p r)).
Proof.
  destruct (pair_found 0 ltac:(lia)) as (a0 & b0 & E0 & X0). destruct (pair_found 1 ltac:(lia)) as (a1 & b1 & E1 & X1). destruct (pair_found 2 ltac:(lia)) as (a2 & b2 & E2 & X2).
  unfold periodic_boundary_conditions, rve_periodic. cbn [flat_map map app mapM]. rewrite E0, E1, E2. cbn [bind fst snd mapM].
  eexists. split; [reflexivity|]. split; [reflexivity|]. intros d v Hd Hv.
  destruct d as [|[|[|d]]]; try lia; [exists a0, b0|exists a1, b1|exists a2, b2]; (split; [destruct v as [|[|[|v]]]; try lia; reflexivity|assumption]).
Qed.
Lemma obeys_is_periodic l u : periodic_boundary_conditions F (rve_periodic len) = Ok l -> (obeys_periodic l u <-> periodic N u).
Proof.
  intros Hl. destruct conditions_found as (l' & Hl' & H9 & Hc). assert (l' = l) as -> by congruence. split.
  - intros Ho d p r i Hd Hp Hr Hi. destruct (Hc d i Hd Hi) as (la & lb & Hn & _ & _ & Hin & Hm).
    assert (Hx : In (side N d 0 p r) la) by (apply Hin; eauto). apply In_nth_error in Hx. destruct Hx as (j & Hj).
    apply (Ho la lb (map (fun _ => i) la) j); [eapply nth_error_In; exact Hn|exact Hj|now apply Hm|]. now rewrite nth_error_map, Hj.
  - intros Hp la lb lv j a b v Hin Ha Hb Hv. apply In_nth_error in Hin. destruct Hin as (x & Hx).
    assert (Hx9 : (x < 9)%nat) by (rewrite <- H9; apply nth_error_Some; congruence).
    assert (Hd3 : (x / 3 < 3)%nat) by (apply Nat.div_lt_upper_bound; lia). assert (Hv3 : (x mod 3 < 3)%nat) by (apply Nat.mod_upper_bound; lia).
    destruct (Hc (x / 3)%nat (x mod 3)%nat Hd3 Hv3) as (la' & lb' & Hn & _ & _ & Hi' & Hm).
    replace (3 * (x / 3) + x mod 3)%nat with x in Hn by (pose proof (Nat.div_mod x 3); lia). rewrite Hx in Hn. injection Hn as -> -> ->.
    rewrite nth_error_map, Ha in Hv. cbn [option_map] in Hv. injection Hv as <-.
    assert (Hai : In a la') by (eapply nth_error_In; exact Ha). apply Hi' in Hai. destruct Hai as (p & r & Hpp & Hr & ->).
    rewrite (Hm j p r Hpp Hr Ha) in Hb. injection Hb as <-. now apply Hp.
Qed.
(** the Dirichlet node *)
Lemma corner_iff n : (n < num_total_nodes F)%nat -> (corner (points F n) = true <-> n = 0%nat).
Proof.
  intros Hn. destruct (side_all 0 n Hn) as (s & p & r & Hs & Hp & Hr & ->). destruct step_pos as [Hh _]. unfold corner, isclose. rewrite Rleb_true, Rminus_0_r, Rabs_R0, Rmult_0_r, Rplus_0_r. split.
  - intros H. assert (Hz : forall k, (k < 3)%nat -> sidx 0 s p r k = 0%nat).
    { intros k Hk. destruct (Nat.eq_dec (sidx 0 s p r k) 0) as [|Hne]; [assumption|exfalso]. pose proof (norm_ge (points F (side N 0 s p r)) k Hk) as Hg.
      rewrite side_points in Hg by assumption. pose proof (gap _ _ Hne) as Hgap. cbn [INR] in Hgap. rewrite Rmult_0_l, Rminus_0_r in Hgap.
      rewrite Rabs_pos_eq in H; [lra|]. unfold norm_dim. apply sqrt_pos. }
    pose proof (Hz 0%nat ltac:(lia)). pose proof (Hz 1%nat ltac:(lia)). pose proof (Hz 2%nat ltac:(lia)). cbn [sidx] in *. subst. reflexivity.
  - intros E. change 0%nat with (side N 0 0 0 0) in E. apply side_inj in E; try lia. destruct E as (-> & -> & ->).
    rewrite norm_zero; [rewrite Rabs_R0; lra|]. intros k Hk. rewrite side_points by (assumption || lia). destruct k as [|[|[|k]]]; try lia; cbn; ring.
Qed.
Lemma dirichlet_corner : exists nl vl xl, Dirichlet_boundary_conditions F (Some rve_dirichlet) = Ok (nl, vl, xl) /\
  nl = [[0]; [0]; [0]]%nat /\ vl = [[0]; [1]; [2]]%nat /\ xl = [[0]; [0]; [0]].
Proof.
  unfold Dirichlet_boundary_conditions, rve_dirichlet. cbn [length Nat.eqb andb seq map nth].
  assert (Ea : argwhere corner (map (points F) (seq 0 (num_total_nodes F))) = [0%nat]).
  { pose proof (argwhere_NoDup corner (map (points F) (seq 0 (num_total_nodes F)))) as Hnd.
    assert (H0 : forall n, In n (argwhere corner (map (points F) (seq 0 (num_total_nodes F)))) <-> n = 0%nat).
    { intros n. rewrite in_pts. split; [intros [Hn H]; now apply corner_iff|]. intros ->. assert (0 < num_total_nodes F)%nat by (rewrite node_count; lia). split; [assumption|]. now apply corner_iff. }
    destruct (argwhere _ _) as [|x [|y l]].
    - exfalso. apply (H0 0%nat). reflexivity.
    - f_equal. apply H0. now left.
    - exfalso. assert (x = 0%nat) by (apply H0; now left). assert (y = 0%nat) by (apply H0; right; now left). subst. inversion Hnd as [|? ? Hni _]; subst. apply Hni. now left. }
  rewrite Ea. do 3 eexists. split; [reflexivity|]. repeat split; reflexivity.
Qed.
(** jump of the displacement across the cell *)
Lemma disp_jump H u d p r i : periodic N u -> (d < 3)%nat -> (p <= N)%nat -> (r <= N)%nat -> (i < 3)%nat ->
  fluc_to_disp F H u (side N d N p r) i - fluc_to_disp F H u (side N d 0 p r) i = H i d * len.
Proof.
  clear Hnodes Hdim. intros Hu Hd Hp Hr Hi. unfold fluc_to_disp. rewrite (Hu d p r i Hd Hp Hr Hi). unfold sumN. cbn [seq sumR]. rewrite !side_points by (assumption || lia).
  rewrite <- len_N at 1. destruct d as [|[|[|d]]]; try lia; cbn [sidx INR]; ring.
Qed.
End Pairs.
Close Scope R_scope.
