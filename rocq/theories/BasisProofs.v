(** * Proofs about the reference-element tables. *)
From Coq Require Import String FunctionalExtensionality.
From Verif Require Import Prelude FemModel FemSpec FemFacts FemGeoProofs BasisModel BasisSpec.
From Coq Require Import Permutation.
Open Scope R_scope.

(** ** the order tables *)
Definition family_of (t : string) : family := if existsb (String.eqb t) ["HEX20"; "QUAD8"]%string then serendipity else P.
Local Notation face_cell_of t := (face_cell (cell_of t)).
Definition order_of (t : string) : list nat := match get_elements t with Ok (_, _, _, _, _, ro) => ro | Err _ => [] end.
Definition gauss_of (t : string) : nat := match get_elements t with Ok (_, _, _, g, _, _) => g | Err _ => 0%nat end.
Lemma lagrange_supported t : In t lagrange_types -> In t supported /\ family_of t = P.
Proof. intros H. repeat (destruct H as [<- | H]; [split; [cbn; tauto|reflexivity]|]). destruct H. Qed.
Ltac types H := repeat (destruct H as [<- | H]; [|]); [..|destruct H].

Lemma get_elements_ok t : In t supported ->
  get_elements t = Ok (family_of t, cell_of t, face_cell_of t, gauss_of t, degree_of t, order_of t).
Proof. intros H. repeat (destruct H as [<- | H]; [reflexivity|]). destruct H. Qed.
Lemma get_elements_unsupported t : ~ In t supported -> get_elements t = Err NotImplementedError.
Proof.
  intros H. unfold get_elements.
  repeat match goal with |- (if String.eqb t ?s then _ else _) = _ =>
    destruct (String.eqb_spec t s) as [-> | _]; [exfalso; apply H; cbn; tauto|] end.
  reflexivity.
Qed.
Definition nodup_below (n : nat) (l : list nat) : bool :=
  Nat.eqb (length l) n && forallb (fun k => existsb (Nat.eqb k) l) (seq 0 n).
Lemma order_facts t : In t supported ->
  length (order_of t) = length (mesh_nodes t) /\ length (basix_dofs (family_of t) (cell_of t) (degree_of t)) = length (mesh_nodes t) /\
  nodup_below (length (mesh_nodes t)) (order_of t) = true /\ forallb (fun k => Nat.ltb k (length (mesh_nodes t))) (order_of t) = true /\
  map (fun k => nth k (basix_dofs (family_of t) (cell_of t) (degree_of t)) []) (order_of t) = mesh_nodes t.
Proof. intros H. repeat (destruct H as [<- | H]; [vm_compute; repeat split|]). destruct H. Qed.
Lemma order_perm t : In t supported -> Permutation (order_of t) (seq 0 (length (mesh_nodes t))).
Proof.
  intros H. destruct (order_facts t H) as (Hl & _ & Hn & _). apply Permutation_sym, NoDup_Permutation_bis.
  - apply seq_NoDup.
  - rewrite seq_length. lia.
  - apply andb_true_iff in Hn. destruct Hn as [_ Hn]. rewrite forallb_forall in Hn. intros k Hk. apply Hn in Hk.
    apply existsb_exists in Hk. destruct Hk as (y & Hy & E). apply Nat.eqb_eq in E. now subst.
Qed.
Lemma order_lt t i : In t supported -> (i < length (mesh_nodes t))%nat -> (nth i (order_of t) 0 < length (mesh_nodes t))%nat.
Proof.
  intros H Hi. destruct (order_facts t H) as (Hl & _ & _ & Hb & _). rewrite forallb_forall in Hb.
  apply Nat.ltb_lt, Hb, nth_In. lia.
Qed.
Lemma order_node t i : In t supported -> (i < length (mesh_nodes t))%nat ->
  nth i (mesh_nodes t) [] = nth (nth i (order_of t) 0%nat) (basix_dofs (family_of t) (cell_of t) (degree_of t)) [].
Proof.
  intros H Hi. destruct (order_facts t H) as (Hl & _ & _ & _ & Hm). rewrite <- Hm at 1.
  rewrite (nth_indep _ [] (nth 0 (basix_dofs (family_of t) (cell_of t) (degree_of t)) [])) by (rewrite map_length; lia).
  exact (map_nth (fun k => nth k (basix_dofs (family_of t) (cell_of t) (degree_of t)) []) (order_of t) 0%nat i).
Qed.
Lemma mesh_nodes_NoDup t : In t supported -> NoDup (mesh_nodes t).
Proof.
  intros H.
  assert (Hd : forall (l : list pos), forallb (fun i => forallb (fun j => Nat.eqb i j || negb (if list_eq_dec Nat.eq_dec (nth i l []) (nth j l []) then true else false)) (seq 0 (length l))) (seq 0 (length l)) = true -> NoDup l).
  { intros l Hf. apply (NoDup_nth l []). intros i j Hi Hj E. rewrite forallb_forall in Hf.
    specialize (Hf i ltac:(apply in_seq; lia)). rewrite forallb_forall in Hf. specialize (Hf j ltac:(apply in_seq; lia)).
    destruct (Nat.eqb_spec i j); [assumption|]. destruct list_eq_dec; [discriminate|contradiction]. }
  apply Hd. repeat (destruct H as [<- | H]; [vm_compute; reflexivity|]). destruct H.
Qed.

(** positions and reorder_inds *)
Lemma positions_unique ind l k : NoDup l -> (k < length l)%nat -> nth k l 0%nat = ind -> positions ind l = [k].
Proof.
  intros Hn Hk E. unfold positions.
  assert (Hf : forall s m, (forall j, (s <= j < s + m)%nat -> (nth j l 0%nat = ind <-> j = k)) ->
    filter (fun j => Nat.eqb (nth j l 0%nat) ind) (seq s m) = if (Nat.leb s k && Nat.ltb k (s + m))%bool then [k] else []).
  { intros s m. revert s. induction m as [|m IH]; intros s Hj; cbn [seq filter].
    - destruct (Nat.leb_spec s k); destruct (Nat.ltb_spec k (s + 0)); cbn; try reflexivity; lia.
    - rewrite IH by (intros; apply Hj; lia). destruct (Nat.eqb_spec (nth s l 0%nat) ind) as [Es | Es].
      + apply Hj in Es; [|lia]. subst s. destruct (Nat.leb_spec (S k) k); [lia|]. rewrite Nat.leb_refl.
        destruct (Nat.ltb_spec k (k + S m)); [reflexivity|lia].
      + assert (s <> k) by (intros ->; contradiction). destruct (Nat.leb_spec (S s) k); destruct (Nat.ltb_spec k (S s + m));
          destruct (Nat.leb_spec s k); destruct (Nat.ltb_spec k (s + S m)); cbn; try reflexivity; lia. }
  rewrite Hf.
  - cbn [Nat.leb andb Nat.add]. destruct (Nat.ltb_spec k (length l)); [reflexivity|lia].
  - intros j Hj. split; [|now intros ->]. intros Ej. apply (NoDup_nth l 0%nat); try lia; try assumption.
Qed.
Lemma positions_none ind l : ~ In ind l -> positions ind l = [].
Proof.
  intros H. unfold positions.
  assert (Hf : forall m, (forall j, In j m -> (j < length l)%nat) -> filter (fun k => Nat.eqb (nth k l 0%nat) ind) m = []).
  { induction m as [|j m IH]; intros Hm; cbn [filter]; [reflexivity|].
    destruct (Nat.eqb_spec (nth j l 0%nat) ind) as [E | _]; [|apply IH; intros; apply Hm; now right].
    exfalso. apply H. rewrite <- E. apply nth_In, Hm. now left. }
  apply Hf. intros j Hj. apply in_seq in Hj. lia.
Qed.

(** ** shape functions *)
Ltac ground t :=
  let n := eval vm_compute in (mesh_nodes t) in change (mesh_nodes t) with n;
  let c := eval vm_compute in (cell_of t) in change (cell_of t) with c;
  let d := eval vm_compute in (degree_of t) in change (degree_of t) with d.
Ltac expand := unfold coord, sumN, prodN; cbn [length seq sumR nth lagrange simplex cell_dim prodN fold_right Nat.add Nat.sub bary_factor line_factor].
Lemma node_shape_sum t x : In t lagrange_types -> sumN (length (mesh_nodes t)) (fun i => node_shape t i x) = 1.
Proof.
  intros H. unfold node_shape.
  repeat (destruct H as [<- | H]; [match goal with |- context [mesh_nodes ?t] => ground t end; unfold lagrange; expand; ring|]). destruct H.
Qed.
Lemma node_shape_linear t x d : In t lagrange_types -> (d < cell_dim (cell_of t))%nat ->
  sumN (length (mesh_nodes t)) (fun i => node_shape t i x * node_at t i d) = x d.
Proof.
  intros H Hd. unfold node_shape, node_at.
  repeat (destruct H as [<- | H]; [revert Hd; match goal with |- context [mesh_nodes ?t] => ground t end; intros Hd; cbn [cell_dim] in Hd;
    destruct d as [|[|[|d]]]; try lia; unfold lagrange; expand; cbn [INR]; field|]). destruct H.
Qed.
Lemma line_factor_node degree c c' : (degree = 2 /\ c <= 2 /\ c' <= 2)%nat \/ (degree = 1 /\ (c = 0 \/ c = 2) /\ (c' = 0 \/ c' = 2))%nat ->
  line_factor degree c (INR c' / 2) = if Nat.eqb c c' then 1 else 0.
Proof.
  intros [(-> & H & H') | (-> & [-> | ->] & [-> | ->])]; [|cbn; field..].
  destruct c as [|[|[|c]]]; try lia; destruct c' as [|[|[|c']]]; try lia; cbn; field.
Qed.

Lemma lagrange_tensor_node c degree p p' : simplex c = false ->
  (forall k, (k < cell_dim c)%nat -> (degree = 2 /\ nth k p 0 <= 2 /\ nth k p' 0 <= 2)%nat \/
     (degree = 1 /\ (nth k p 0 = 0 \/ nth k p 0 = 2) /\ (nth k p' 0 = 0 \/ nth k p' 0 = 2))%nat) ->
  lagrange c degree p (coord p') = if forallb (fun k => Nat.eqb (nth k p 0%nat) (nth k p' 0%nat)) (seq 0 (cell_dim c)) then 1 else 0.
Proof.
  intros Hs Hk. unfold lagrange. rewrite Hs. unfold prodN.
  assert (Hall : Forall (fun k => (k < cell_dim c)%nat) (seq 0 (cell_dim c))) by (apply Forall_forall; intros k Hi; apply in_seq in Hi; lia).
  induction Hall as [|k l Hl _ IH]; cbn [fold_right forallb]; [reflexivity|]. rewrite IH. unfold coord at 1.
  rewrite line_factor_node by (apply Hk; exact Hl). destruct (Nat.eqb _ _); destruct (forallb _ l); cbn; ring.
Qed.
Definition entries_ok (degree : nat) (c : nat) : bool := if Nat.eqb degree 2 then Nat.leb c 2 else Nat.eqb c 0 || Nat.eqb c 2.
Lemma tensor_kronecker t i j : In t lagrange_types -> simplex (cell_of t) = false ->
  (i < length (mesh_nodes t))%nat -> (j < length (mesh_nodes t))%nat -> node_shape t i (node_at t j) = delta i j.
Proof.
  intros H Hs Hi Hj. unfold node_shape, node_at.
  assert (Hok : (degree_of t = 1 \/ degree_of t = 2)%nat /\ forallb (fun p => forallb (entries_ok (degree_of t)) p) (mesh_nodes t) = true /\
    forallb (fun a => forallb (fun b => Bool.eqb (forallb (fun k => Nat.eqb (nth k (nth a (mesh_nodes t) []) 0%nat) (nth k (nth b (mesh_nodes t) []) 0%nat))
      (seq 0 (cell_dim (cell_of t)))) (Nat.eqb a b)) (seq 0 (length (mesh_nodes t)))) (seq 0 (length (mesh_nodes t))) = true).
  { clear Hs Hi Hj. repeat (destruct H as [<- | H]; [vm_compute; auto|]). destruct H. }
  destruct Hok as (Hd & He & Hb).
  assert (Hent : forall a k, (a < length (mesh_nodes t))%nat -> entries_ok (degree_of t) (nth k (nth a (mesh_nodes t) []) 0%nat) = true).
  { intros a k Ha. rewrite forallb_forall in He. specialize (He _ (nth_In _ [] Ha)). rewrite forallb_forall in He.
    destruct (Nat.lt_ge_cases k (length (nth a (mesh_nodes t) []))) as [Hk | Hk]; [apply He, nth_In, Hk|].
    rewrite nth_overflow by exact Hk. unfold entries_ok. now destruct (Nat.eqb _ _). }
  rewrite lagrange_tensor_node; [|exact Hs|].
  - rewrite forallb_forall in Hb. specialize (Hb i ltac:(apply in_seq; lia)). rewrite forallb_forall in Hb.
    specialize (Hb j ltac:(apply in_seq; lia)). apply Bool.eqb_prop in Hb. rewrite Hb. reflexivity.
  - intros k _. pose proof (Hent i k Hi) as E1. pose proof (Hent j k Hj) as E2. unfold entries_ok in *.
    destruct Hd as [Ed | Ed]; rewrite Ed in *; cbn [Nat.eqb] in *.
    + right. apply orb_true_iff in E1. apply orb_true_iff in E2. rewrite !Nat.eqb_eq in *. auto.
    + left. rewrite Nat.leb_le in *. auto.
Qed.
Lemma node_kronecker t i j : In t lagrange_types ->
  (i < length (mesh_nodes t))%nat -> (j < length (mesh_nodes t))%nat -> node_shape t i (node_at t j) = delta i j.
Proof.
  intros H Hi Hj. destruct (simplex (cell_of t)) eqn:Hs; [|now apply tensor_kronecker].
  unfold node_shape, node_at. revert Hs Hi Hj.
  repeat (destruct H as [<- | H]; [intros Hs; try discriminate Hs; match goal with |- context [mesh_nodes ?t] => ground t end; intros Hi Hj; cbn [length] in Hi, Hj;
    (do 10 (destruct i as [|i]; [first [lia | do 10 (destruct j as [|j]; [first [lia | unfold lagrange; expand; unfold delta; cbn [Nat.eqb INR]; field]|]); lia]|]); lia)|]).
  destruct H.
Qed.

(** ** the tables *)
Section Doc.
Variable B : basix.
Hypothesis HB : documented_basix B.
Lemma doc_dims c : tdim B c = cell_dim c /\ facets B c = basix_facets c /\ length (geometry B c) = length (basix_vertices c) /\
     forall v d, (v < length (basix_vertices c))%nat -> nth v (geometry B c) origin d = coord (nth v (basix_vertices c) []) d.
Proof. apply HB. Qed.
Lemma doc_dofs t : In t supported -> num_dofs B (family_of t) (cell_of t) (degree_of t) = length (mesh_nodes t).
Proof.
  intros H. destruct HB as (_ & Hd & _). destruct (order_facts t H) as (_ & El & _). rewrite <- El. apply Hd.
  intros E. rewrite E in El. clear -H El. cbn [length] in El.
  repeat (destruct H as [<- | H]; [discriminate El|]). destruct H.
Qed.
Definition quad_point (t : string) (q : nat) : point := nth q (fst (make_quadrature B (cell_of t) (gauss_of t))) origin.
Definition face_point (t : string) (f p : nat) : point :=
  mapped_point B (cell_of t) (face_cell_of t) (nth f (basix_facets (cell_of t)) []) (nth p (fst (make_quadrature B (face_cell_of t) (gauss_of t))) origin).
Definition tables (t : string) (fi : list (list nat)) : ele :=
  mkEle (cell_dim (cell_of t)) (length (fst (make_quadrature B (cell_of t) (gauss_of t)))) (length (order_of t))
    (length (fst (make_quadrature B (face_cell_of t) (gauss_of t))))
    (fun q i => tabulate_vals B (family_of t) (cell_of t) (degree_of t) (quad_point t q) (nth i (order_of t) 0%nat))
    (fun q i d => tabulate_grads B (family_of t) (cell_of t) (degree_of t) (quad_point t q) (nth i (order_of t) 0%nat) d)
    (fun q => nth q (snd (make_quadrature B (cell_of t) (gauss_of t))) 0)
    (fun f p i => tabulate_vals B (family_of t) (cell_of t) (degree_of t) (face_point t f p) (nth i (order_of t) 0%nat))
    (fun f p i d => tabulate_grads B (family_of t) (cell_of t) (degree_of t) (face_point t f p) (nth i (order_of t) 0%nat) d)
    (fun f p => nth p (snd (make_quadrature B (face_cell_of t) (gauss_of t))) 0 * size_jacobian B (cell_of t) f)
    (facet_outward_normals B (cell_of t)) fi.
Lemma reorder_ok t : In t supported -> exists fi, reorder_inds (basix_facets (cell_of t)) (order_of t) = Ok fi /\
  length fi = length (basix_facets (cell_of t)) /\
  forall f v, (f < length fi)%nat -> length (nth f fi []) = length (nth f (basix_facets (cell_of t)) []) /\
    ((v < length (nth f fi []))%nat -> (nth v (nth f fi []) 0 < length (mesh_nodes t))%nat /\
      nth (nth v (nth f fi []) 0%nat) (order_of t) 0%nat = nth v (nth f (basix_facets (cell_of t)) []) 0%nat /\
      nth (nth v (nth f fi []) 0%nat) (mesh_nodes t) [] = nth (nth v (nth f (basix_facets (cell_of t)) []) 0%nat) (basix_vertices (cell_of t)) []).
Proof.
  intros H. repeat (destruct H as [<- | H]; [eexists; split; [vm_compute; reflexivity|]; split; [reflexivity|]; intros f v Hf;
    cbn [length] in Hf; do 6 (destruct f as [|f]; [split; [reflexivity|]; cbn [nth length]; intros Hv; do 4 (destruct v as [|v]; [vm_compute; repeat split; lia|]; try lia)|]; try lia); lia|]).
  destruct H.
Qed.
Lemma element_tables_ok t : In t supported -> exists fi, reorder_inds (basix_facets (cell_of t)) (order_of t) = Ok fi /\ element_tables B t = Ok (tables t fi).
Proof.
  intros H. destruct (reorder_ok t H) as (fi & Er & _). exists fi. split; [exact Er|].
  unfold element_tables, get_shape_vals_and_grads, get_face_shape_vals_and_grads. rewrite (get_elements_ok t H). cbn [bind].
  rewrite (doc_dofs t H). destruct (order_facts t H) as (_ & _ & _ & Hb & _). rewrite Hb.
  destruct (doc_dims (cell_of t)) as (Ed & Ef & _ & _). rewrite Ef, Er. cbn [bind].
  unfold tables, quad_point, face_point. destruct (make_quadrature B (cell_of t) _) as [pts w].
  destruct (make_quadrature B (face_cell_of t) _) as [fpts fw]. cbn [bind fst snd]. now rewrite Ed.
Qed.
Lemma tabulated t x i : In t lagrange_types -> (i < length (mesh_nodes t))%nat ->
  tabulate_vals B (family_of t) (cell_of t) (degree_of t) x (nth i (order_of t) 0%nat) = node_shape t i x.
Proof.
  intros H Hi. destruct (lagrange_supported t H) as [Hs Hf]. unfold node_shape. rewrite (order_node t i Hs Hi), Hf.
  destruct HB as (_ & _ & Hv & _). apply Hv.
  - clear. unfold degree_of. destruct (existsb _ _); auto.
  - pose proof (order_lt t i Hs Hi). destruct (order_facts t Hs) as (_ & El & _). rewrite Hf in El. lia.
Qed.
Lemma tabulated_grad t x i j : In t lagrange_types -> (i < length (mesh_nodes t))%nat -> (j < cell_dim (cell_of t))%nat ->
  derivable_pt_lim (fun s => node_shape t i (shift x j s)) 0 (tabulate_grads B (family_of t) (cell_of t) (degree_of t) x (nth i (order_of t) 0%nat) j).
Proof.
  intros H Hi Hj. destruct HB as (_ & _ & _ & Hg & _). eapply dl_ext; [|apply Hg, Hj]. intros s. cbn beta. now apply tabulated.
Qed.
Lemma shift_coord x j d s : shift x j s d = x d + s * delta d j.
Proof. unfold shift, delta. destruct (Nat.eqb d j); ring. Qed.
(** sums of the gradients of any table at x *)
Lemma grads_complete t x j : In t lagrange_types -> (j < cell_dim (cell_of t))%nat ->
  sumN (length (mesh_nodes t)) (fun i => tabulate_grads B (family_of t) (cell_of t) (degree_of t) x (nth i (order_of t) 0%nat) j) = 0 /\
  forall d, (d < cell_dim (cell_of t))%nat ->
  sumN (length (mesh_nodes t)) (fun i => node_at t i d * tabulate_grads B (family_of t) (cell_of t) (degree_of t) x (nth i (order_of t) 0%nat) j) = delta d j.
Proof.
  intros H Hj. split.
  - eapply dl_unique.
    + apply (dl_sumN _ (fun i s => node_shape t i (shift x j s))). intros i Hi. now apply tabulated_grad.
    + eapply dl_ext; [|apply (dl_const 1)]. intros s. cbn beta. now rewrite node_shape_sum.
  - intros d Hd. eapply dl_unique.
    + apply (dl_sumN _ (fun i s => node_at t i d * node_shape t i (shift x j s))). intros i Hi. apply dl_scal. now apply tabulated_grad.
    + eapply dl_ext; [|apply (dl_line (x d) (delta d j))]. intros s. cbn beta. rewrite <- shift_coord.
      rewrite <- (node_shape_linear t (shift x j s) d H Hd). apply sumN_ext. intros; ring.
Qed.
Lemma quad_in_cell c m q : (q < length (fst (make_quadrature B c m)))%nat -> in_cell c (nth q (fst (make_quadrature B c m)) origin).
Proof.
  intros Hq. destruct HB as (_ & _ & _ & _ & Hm & _). specialize (Hm c m). destruct (make_quadrature B c m) as [pts w].
  destruct Hm as (_ & _ & Hi). rewrite Forall_forall in Hi. apply Hi. cbn [fst] in *. now apply nth_In.
Qed.
Lemma weights_sum c m : sumN (length (fst (make_quadrature B c m))) (fun q => nth q (snd (make_quadrature B c m)) 0) = ref_volume c.
Proof.
  destruct HB as (_ & _ & _ & _ & Hm & _). specialize (Hm c m). destruct (make_quadrature B c m) as [pts w].
  destruct Hm as (El & Es & _). cbn [fst snd]. rewrite El, <- Es, (sumR_nth w 0). reflexivity.
Qed.

(** ** faces *)
Lemma mapped_facet c f y d : c <> interval -> (f < length (basix_facets c))%nat ->
  mapped_point B c (face_cell c) (nth f (basix_facets c) []) y d = facet_point c f y d.
Proof.
  intros Hc Hf. unfold mapped_point, facet_point, facet_vertex.
  destruct (doc_dims c) as (_ & _ & _ & Hg). destruct HB as (_ & _ & Hv & _).
  transitivity (sumN (length (nth f (basix_facets c) [])) (fun v =>
    coord (nth (nth v (nth f (basix_facets c) []) 0%nat) (basix_vertices c) []) d * lagrange (face_cell c) 1 (nth v (basix_dofs P (face_cell c) 1) []) y)).
  { apply sumN_ext. intros v Hlt. rewrite Hg, Hv; [reflexivity|auto|..]; clear -Hc Hf Hlt; destruct c; try contradiction;
    cbn [basix_facets basix_faces basix_edges length] in Hf;
    do 6 (destruct f as [|f]; [revert Hlt; cbn [basix_facets basix_faces basix_edges nth length]; intros Hlt; do 4 (destruct v as [|v]; [vm_compute; lia|]; try lia)|]; try lia). }
  clear Hg Hv. unfold coord. destruct c; try contradiction; cbn [basix_facets basix_faces basix_edges length] in Hf;
  do 6 (destruct f as [|f]; [cbn [basix_facets basix_faces basix_edges basix_vertices nth length face_cell cell_dim Nat.sub basix_dofs]; unfold lagrange; expand;
    (destruct d as [|[|[|d]]]; cbn [nth INR]; try field; destruct d; cbn [INR]; field)|]; try lia).
Qed.
End Doc.
