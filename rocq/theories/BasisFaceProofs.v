(** * Faces of the reference cells, and cells that are affine images of them. *)
From Coq Require Import String FunctionalExtensionality Lra Lia.
From Verif Require Import Prelude FemModel FemSpec FemFacts FemGeoProofs BasisModel BasisSpec BasisProofs.
Open Scope R_scope.

Lemma cell_of_not_interval t : cell_of t <> interval.
Proof. unfold cell_of. destruct (String.prefix _ _); [discriminate|]. destruct (String.prefix _ _); [discriminate|]. destruct (String.prefix _ _); discriminate. Qed.
Ltac facet_cases c f Hf := destruct c; try contradiction; cbn [basix_facets basix_faces basix_edges length] in Hf;
  destruct f as [|[|[|[|[|[|f]]]]]]; try lia.
Ltac facet_expand := unfold facet_point, facet_vertex, coord, sumN in *;
  cbn [basix_facets basix_faces basix_edges basix_vertices nth cell_dim Nat.sub seq sumR INR] in *.
Lemma facet_point_in_cell c f y : c <> interval -> (f < length (basix_facets c))%nat -> in_cell (face_cell c) y -> in_cell c (facet_point c f y).
Proof.
  intros Hc Hf (Hy & Hs). unfold in_cell.
  facet_cases c f Hf; cbn [face_cell cell_dim simplex] in *;
  pose proof (Hy 0%nat ltac:(lia)); try pose proof (Hy 1%nat ltac:(lia)); try specialize (Hs eq_refl); clear Hy;
  (split; [intros k Hk; destruct k as [|[|[|k]]]; try lia|first [intros Hx; discriminate Hx | intros _]]); facet_expand; lra.
Qed.
Lemma line_factor_off degree c s : (degree = 1 \/ degree = 2)%nat -> entries_ok degree c = true -> (s = 0 \/ s = 2)%nat -> c <> s -> line_factor degree c (INR s / 2) = 0.
Proof.
  intros Hd He Hs Hne. replace 0 with (if Nat.eqb c s then 1 else 0) by (destruct (Nat.eqb_spec c s); [contradiction|reflexivity]).
  apply line_factor_node. unfold entries_ok in He. destruct Hd as [-> | ->]; cbn [Nat.eqb] in He.
  - right. apply orb_true_iff in He. rewrite !Nat.eqb_eq in He. auto.
  - left. apply Nat.leb_le in He. destruct Hs; subst; auto with arith.
Qed.
Lemma prodN_zero n f k : (k < n)%nat -> f k = 0 -> prodN n f = 0.
Proof.
  intros Hk E. unfold prodN. assert (Hi : In k (seq 0 n)) by (apply in_seq; lia). induction (seq 0 n) as [|j l IH]; [destruct Hi|].
  cbn [fold_right]. destruct Hi as [-> | Hi]; [rewrite E; ring|]. rewrite (IH Hi). ring.
Qed.
(** the coordinate that is constant on a facet of a tensor cell *)
Lemma tensor_facet c f : c <> interval -> simplex c = false -> (f < length (basix_facets c))%nat -> exists k s, (k < cell_dim c)%nat /\ (s = 0%nat \/ s = 2%nat) /\
  (forall v, In v (nth f (basix_facets c) []) -> nth k (nth v (basix_vertices c) []) 0%nat = s) /\ forall y, facet_point c f y k = INR s / 2.
Proof.
  intros Hc Hs Hf.
  assert (Hx : exists k s, (k < cell_dim c)%nat /\ (s = 0%nat \/ s = 2%nat) /\ forallb (fun v => Nat.eqb (nth k (nth v (basix_vertices c) []) 0%nat) s) (nth f (basix_facets c) []) = true
     /\ forall y, facet_point c f y k = INR s / 2).
  { facet_cases c f Hf; try discriminate Hs;
    first [ exists 0%nat, 0%nat; split; [cbn; lia|split; [auto|split; [vm_compute; reflexivity|intros y; facet_expand; field]]]
          | exists 1%nat, 0%nat; split; [cbn; lia|split; [auto|split; [vm_compute; reflexivity|intros y; facet_expand; field]]]
          | exists 2%nat, 0%nat; split; [cbn; lia|split; [auto|split; [vm_compute; reflexivity|intros y; facet_expand; field]]]
          | exists 0%nat, 2%nat; split; [cbn; lia|split; [auto|split; [vm_compute; reflexivity|intros y; facet_expand; field]]]
          | exists 1%nat, 2%nat; split; [cbn; lia|split; [auto|split; [vm_compute; reflexivity|intros y; facet_expand; field]]]
          | exists 2%nat, 2%nat; split; [cbn; lia|split; [auto|split; [vm_compute; reflexivity|intros y; facet_expand; field]]] ]. }
  destruct Hx as (k & s & Hk & Hss & Hv & Hp). exists k, s. repeat (split; [assumption|]). split; [|exact Hp].
  intros v Hi. rewrite forallb_forall in Hv. now apply Nat.eqb_eq, Hv.
Qed.
(** the vertex opposite to a facet of a simplex *)
Lemma simplex_facet c f : simplex c = true -> (f < length (basix_facets c))%nat -> exists v, (v < length (basix_vertices c))%nat /\
  (forall w, (w < length (basix_vertices c))%nat -> ~ In w (nth f (basix_facets c) []) -> w = v) /\ 
  forall y, match v with 0%nat => sumN (cell_dim c) (facet_point c f y) = 1 | S k => (k < cell_dim c)%nat /\ facet_point c f y k = 0 end.
Proof.
  intros Hs Hf. exists f. assert (Hc : c <> interval) by (intros ->; discriminate Hs).
  facet_cases c f Hf; try discriminate Hs; (split; [vm_compute; lia|]); (split;
   [intros w Hw Hi; cbn [basix_vertices length] in Hw; cbn [basix_facets basix_faces basix_edges nth In] in Hi; lia|]);
   intros y; try (split; [cbn; lia|]); facet_expand; field.
Qed.
Lemma bary_factor_off degree c : (degree = 1 \/ degree = 2)%nat -> c <> 0%nat -> bary_factor degree c 0 = 0.
Proof. intros [-> | ->] Hc; destruct c as [|[|c]]; cbn; try contradiction; ring. Qed.
Lemma degree_cases t : (degree_of t = 1 \/ degree_of t = 2)%nat.
Proof. unfold degree_of. destruct (existsb _ _); auto. Qed.
Lemma node_entries t a k : In t lagrange_types -> simplex (cell_of t) = false -> (a < length (mesh_nodes t))%nat ->
  entries_ok (degree_of t) (nth k (nth a (mesh_nodes t) []) 0%nat) = true.
Proof.
  intros H Hs Ha.
  assert (He : forallb (fun p => forallb (entries_ok (degree_of t)) p) (mesh_nodes t) = true).
  { clear Hs Ha. repeat (destruct H as [<- | H]; [try (vm_compute; reflexivity)|]). destruct H. }
  rewrite forallb_forall in He. specialize (He _ (nth_In _ [] Ha)). rewrite forallb_forall in He.
  destruct (Nat.lt_ge_cases k (length (nth a (mesh_nodes t) []))) as [Hk | Hk]; [apply He, nth_In, Hk|].
  rewrite nth_overflow by exact Hk. unfold entries_ok. now destruct (Nat.eqb _ _).
Qed.
Lemma node_sum_le t a : In t lagrange_types -> simplex (cell_of t) = true -> (a < length (mesh_nodes t))%nat ->
  (fold_right Nat.add 0 (nth a (mesh_nodes t) []) <= 2)%nat.
Proof.
  intros H Hs Ha.
  assert (He : forallb (fun p => Nat.leb (fold_right Nat.add 0%nat p) 2) (mesh_nodes t) = true).
  { clear Ha. revert Hs. repeat (destruct H as [<- | H]; [intros Hs; try discriminate Hs; vm_compute; reflexivity|]). destruct H. }
  rewrite forallb_forall in He. specialize (He _ (nth_In _ [] Ha)). now apply Nat.leb_le.
Qed.
(** a node that is not on the facet has value zero on the facet *)
Lemma off_facet_zero t f y i : In t lagrange_types -> (f < length (basix_facets (cell_of t)))%nat -> (i < length (mesh_nodes t))%nat ->
  ~ on_facet (cell_of t) f (nth i (mesh_nodes t) []) -> node_shape t i (facet_point (cell_of t) f y) = 0.
Proof.
  intros H Hf Hi Hn. unfold node_shape, lagrange. unfold on_facet in Hn. destruct (simplex (cell_of t)) eqn:Hs.
  - destruct (simplex_facet _ f Hs Hf) as (v & Hv & Hu & Hp). specialize (Hp y).
    destruct v as [|k].
    + assert (Hne : fold_right Nat.add 0%nat (nth i (mesh_nodes t) []) <> 2%nat).
      { intros E. apply Hn. intros w Hw Hnw. rewrite (Hu w Hw Hnw). exact E. }
      pose proof (node_sum_le t i H Hs Hi). replace (1 - sumN _ _) with 0 by (rewrite Hp; ring).
      rewrite bary_factor_off; [ring|apply degree_cases|lia].
    + destruct Hp as [Hk Hp].
      assert (Hne : nth k (nth i (mesh_nodes t) []) 0%nat <> 0%nat).
      { intros E. apply Hn. intros w Hw Hnw. rewrite (Hu w Hw Hnw). exact E. }
      rewrite (prodN_zero _ _ k Hk); [ring|]. rewrite Hp. apply bary_factor_off; [apply degree_cases|exact Hne].
  - destruct (tensor_facet _ f (cell_of_not_interval t) Hs Hf) as (k & s & Hk & Hss & Hv & Hp).
    apply (prodN_zero _ _ k Hk). rewrite Hp. apply line_factor_off; [apply degree_cases|now apply node_entries|exact Hss|].
    intros E. apply Hn. exists k, s. auto.
Qed.

Section Doc.
Variable B : basix.
Hypothesis HB : documented_basix B.
Lemma size_jacobian_ok c f : c <> interval -> (f < length (basix_facets c))%nat ->
  size_jacobian B c f = facet_size c f / ref_volume (face_cell c).
Proof.
  intros Hc Hf. unfold size_jacobian. destruct (doc_dims B HB c) as (-> & _). destruct HB as (_ & _ & _ & _ & _ & Hj & _).
  assert (Hjc : forall i v, (v < cell_dim c - 1)%nat -> facet_jacobians B c f i v = facet_vertex c f (S v) i - facet_vertex c f 0 i)
    by (intros i v Hv; apply (Hj c f i v Hf Hv)). clear Hj HB.
  destruct c; try contradiction; cbn [cell_dim Nat.eqb]; rewrite !Hjc by (cbn; lia); clear Hjc;
  cbn [basix_facets basix_faces basix_edges length] in Hf;
  do 6 (destruct f as [|f]; [unfold facet_vertex, coord; cbn [basix_facets basix_faces basix_edges basix_vertices nth INR facet_size ref_volume face_cell];
    match goal with |- sqrt ?x = _ => first [replace x with 1 by field; rewrite sqrt_1; field | replace x with 2 by field; field | replace x with 3 by field; field] end|]; try lia).
Qed.
Lemma face_point_facet t f p : (f < length (basix_facets (cell_of t)))%nat ->
  face_point B t f p = facet_point (cell_of t) f (nth p (fst (make_quadrature B (face_cell (cell_of t)) (gauss_of t))) origin).
Proof.
  intros Hf. apply functional_extensionality. intros d. apply mapped_facet; [exact HB|apply cell_of_not_interval|exact Hf].
Qed.
Lemma normal_facts c f : (f < length (basix_facets c))%nat -> c <> interval ->
  sumN (cell_dim c) (fun d => facet_outward_normals B c f d * facet_outward_normals B c f d) = 1 /\
  forall v, (v < cell_dim c - 1)%nat -> sumN (cell_dim c) (fun d => facet_outward_normals B c f d * (facet_vertex c f (S v) d - facet_vertex c f 0 d)) = 0.
Proof.
  intros Hf Hc. destruct HB as (_ & _ & _ & _ & _ & _ & Hn). specialize (Hn c f Hf). cbn zeta in Hn. destruct Hn as [Hu Hn].
  split; [exact Hu|]. intros v Hv. apply (Hn (nth (S v) (nth f (basix_facets c) []) 0%nat)).
  - clear -Hf Hc Hv. facet_cases c f Hf; cbn [cell_dim] in Hv; destruct v as [|[|v]]; try lia; vm_compute; lia.
  - clear -Hf Hc Hv. facet_cases c f Hf; cbn [cell_dim] in Hv; destruct v as [|[|v]]; try lia; vm_compute; auto.
Qed.
End Doc.

(** ** area scale for a unit normal orthogonal to the facet *)
Lemma sqrt_scale s c : 0 <= s -> sqrt (c ^ 2 * s) = Rabs c * sqrt s.
Proof. intros Hs. rewrite sqrt_mult by (try apply pow2_ge_0; exact Hs). rewrite <- Rsqr_pow2, sqrt_Rsqr_abs. reflexivity. Qed.
Section Area.
Context {V : Type}.
Variable F : fem V.
Local Notation E := (f_ele F).
Lemma area3 s p t1 t2 w : dim F = 3%nat -> 0 < det 3 (face_jacobian F s p) ->
  let n := face_normals E (snd s) in
  sumN 3 (fun d => n d * n d) = 1 -> sumN 3 (fun d => n d * t1 d) = 0 -> sumN 3 (fun d => n d * t2 d) = 0 ->
  face_quad_weights E (snd s) p = w * norm3 (cross t1 t2) ->
  nanson_scale F s p = norm3 (cross (push (face_jacobian F s p) 3 t1) (push (face_jacobian F s p) 3 t2)) * w.
Proof.
  intros H3 Hd n Hu H1 H2 Hw. unfold nanson_scale. rewrite H3, Hw. fold n. set (J := face_jacobian F s p) in *. set (D := det 3 J) in *.
  unfold sumN in Hu, H1, H2. cbn [seq sumR] in Hu, H1, H2.
  set (c := cross t1 t2). set (k := n 0%nat * c 0%nat + n 1%nat * c 1%nat + n 2%nat * c 2%nat).
  assert (Hc : forall i, (i < 3)%nat -> c i = k * n i).
  { assert (Hx : forall a b, n a * n a + n b * n b + 0 = n a * n a + n b * n b) by (intros; ring).
    assert (E01 : n 0%nat * c 1%nat = n 1%nat * c 0%nat).
    { unfold c, cross. assert (t1 2%nat * (n 0%nat * t2 0%nat + (n 1%nat * t2 1%nat + (n 2%nat * t2 2%nat + 0))) = 0) by (rewrite H2; ring).
      assert (t2 2%nat * (n 0%nat * t1 0%nat + (n 1%nat * t1 1%nat + (n 2%nat * t1 2%nat + 0))) = 0) by (rewrite H1; ring). lra. }
    assert (E02 : n 0%nat * c 2%nat = n 2%nat * c 0%nat).
    { unfold c, cross. assert (t1 1%nat * (n 0%nat * t2 0%nat + (n 1%nat * t2 1%nat + (n 2%nat * t2 2%nat + 0))) = 0) by (rewrite H2; ring).
      assert (t2 1%nat * (n 0%nat * t1 0%nat + (n 1%nat * t1 1%nat + (n 2%nat * t1 2%nat + 0))) = 0) by (rewrite H1; ring). lra. }
    assert (E12 : n 1%nat * c 2%nat = n 2%nat * c 1%nat).
    { unfold c, cross. assert (t1 0%nat * (n 0%nat * t2 0%nat + (n 1%nat * t2 1%nat + (n 2%nat * t2 2%nat + 0))) = 0) by (rewrite H2; ring).
      assert (t2 0%nat * (n 0%nat * t1 0%nat + (n 1%nat * t1 1%nat + (n 2%nat * t1 2%nat + 0))) = 0) by (rewrite H1; ring). lra. }
    intros i Hi. unfold k. destruct i as [|[|[|i]]]; try lia.
    - replace (c 0%nat) with (c 0%nat * (n 0%nat * n 0%nat + (n 1%nat * n 1%nat + (n 2%nat * n 2%nat + 0)))) at 1 by (rewrite Hu; ring).
      transitivity (n 0%nat * n 0%nat * c 0%nat + n 1%nat * (n 1%nat * c 0%nat) + n 2%nat * (n 2%nat * c 0%nat)); [ring|]. rewrite <- E01, <- E02. ring.
    - replace (c 1%nat) with (c 1%nat * (n 0%nat * n 0%nat + (n 1%nat * n 1%nat + (n 2%nat * n 2%nat + 0)))) at 1 by (rewrite Hu; ring).
      transitivity (n 0%nat * (n 0%nat * c 1%nat) + n 1%nat * n 1%nat * c 1%nat + n 2%nat * (n 2%nat * c 1%nat)); [ring|]. rewrite E01, <- E12. ring.
    - replace (c 2%nat) with (c 2%nat * (n 0%nat * n 0%nat + (n 1%nat * n 1%nat + (n 2%nat * n 2%nat + 0)))) at 1 by (rewrite Hu; ring).
      transitivity (n 0%nat * (n 0%nat * c 2%nat) + n 1%nat * (n 1%nat * c 2%nat) + n 2%nat * n 2%nat * c 2%nat); [ring|]. rewrite E02, E12. ring. }
  assert (Hk : norm3 c = Rabs k).
  { unfold norm3. rewrite !Hc by lia. rewrite <- sqrt_Rsqr_abs. f_equal. unfold Rsqr.
    transitivity (k * k * (n 0%nat * n 0%nat + (n 1%nat * n 1%nat + (n 2%nat * n 2%nat + 0)))); [ring|]. rewrite Hu. ring. }
  rewrite Hk. set (S := sumN 3 _). assert (HS : 0 <= S) by (apply sumN_nonneg; intros; apply pow2_ge_0).
  transitivity (Rabs k * sqrt S * D * w); [ring|]. f_equal. rewrite <- sqrt_scale by exact HS.
  unfold norm3. rewrite <- (sqrt_div_det (_ + _) D) by (exact Hd || (apply Rplus_le_le_0_compat; [apply Rplus_le_le_0_compat|]; apply pow2_ge_0)).
  f_equal. f_equal. unfold S, sumN, inv. cbn [seq sumR]. fold D.
  transitivity (((k * n 0%nat) * (adj 3 J 0 0 / D) + ((k * n 1%nat) * (adj 3 J 1 0 / D) + (k * n 2%nat) * (adj 3 J 2 0 / D))) ^ 2
    + ((k * n 0%nat) * (adj 3 J 0 1 / D) + ((k * n 1%nat) * (adj 3 J 1 1 / D) + (k * n 2%nat) * (adj 3 J 2 1 / D))) ^ 2
    + ((k * n 0%nat) * (adj 3 J 0 2 / D) + ((k * n 1%nat) * (adj 3 J 1 2 / D) + (k * n 2%nat) * (adj 3 J 2 2 / D))) ^ 2); [field; lra|].
  rewrite <- !Hc by lia. unfold c, push, sumN. cbn [seq sumR cross adj]. field. lra.
Qed.
Lemma area2 s p t w : dim F = 2%nat -> 0 < det 2 (face_jacobian F s p) ->
  let n := face_normals E (snd s) in
  sumN 2 (fun d => n d * n d) = 1 -> sumN 2 (fun d => n d * t d) = 0 ->
  face_quad_weights E (snd s) p = w * norm2 t ->
  nanson_scale F s p = norm2 (push (face_jacobian F s p) 2 t) * w.
Proof.
  intros H2 Hd n Hu H1 Hw. unfold nanson_scale. rewrite H2, Hw. fold n. set (J := face_jacobian F s p) in *. set (D := det 2 J) in *.
  unfold sumN in Hu, H1. cbn [seq sumR] in Hu, H1. set (k := n 0%nat * t 1%nat - n 1%nat * t 0%nat).
  assert (E0 : t 1%nat = k * n 0%nat).
  { unfold k. transitivity (t 1%nat * (n 0%nat * n 0%nat + (n 1%nat * n 1%nat + 0)) - n 1%nat * (n 0%nat * t 0%nat + (n 1%nat * t 1%nat + 0))); [rewrite Hu, H1; ring|ring]. }
  assert (E1 : - t 0%nat = k * n 1%nat).
  { unfold k. transitivity (- t 0%nat * (n 0%nat * n 0%nat + (n 1%nat * n 1%nat + 0)) + n 0%nat * (n 0%nat * t 0%nat + (n 1%nat * t 1%nat + 0))); [rewrite Hu, H1; ring|ring]. }
  assert (Hk : norm2 t = Rabs k).
  { unfold norm2. rewrite <- sqrt_Rsqr_abs. f_equal. unfold Rsqr.
    transitivity ((- t 0%nat) ^ 2 + t 1%nat ^ 2); [ring|]. rewrite E0, E1.
    transitivity (k * k * (n 0%nat * n 0%nat + (n 1%nat * n 1%nat + 0))); [ring|]. rewrite Hu. ring. }
  rewrite Hk. set (S := sumN 2 _). assert (HS : 0 <= S) by (apply sumN_nonneg; intros; apply pow2_ge_0).
  transitivity (Rabs k * sqrt S * D * w); [ring|]. f_equal. rewrite <- sqrt_scale by exact HS.
  unfold norm2. rewrite <- (sqrt_div_det (_ + _) D) by (exact Hd || (apply Rplus_le_le_0_compat; apply pow2_ge_0)).
  f_equal. f_equal. unfold S, sumN, inv. cbn [seq sumR]. fold D.
  transitivity (((k * n 0%nat) * (adj 2 J 0 0 / D) + (k * n 1%nat) * (adj 2 J 1 0 / D)) ^ 2
    + ((k * n 0%nat) * (adj 2 J 0 1 / D) + (k * n 1%nat) * (adj 2 J 1 1 / D)) ^ 2); [field; lra|].
  rewrite <- E0, <- E1. unfold push, sumN. cbn [seq sumR adj]. field. lra.
Qed.
End Area.
Close Scope R_scope.
