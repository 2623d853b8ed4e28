(** * Affine cells, and exactness of the quadrature for products of shape functions. *)
From Coq Require Import String FunctionalExtensionality Lra Lia QArith Qreals.
From Verif Require Import Prelude FemModel FemSpec FemFacts FemGeoProofs BasisModel BasisSpec BasisProofs BasisFaceProofs.
Open Scope R_scope.

(** ** polynomials *)
Definition eadd (d : nat) (e e' : list nat) : list nat := map (fun k => (nth k e 0 + nth k e' 0)%nat) (seq 0 d).
Definition pmul (d : nat) (p q : poly) : poly :=
  flat_map (fun m => map (fun m' => (fst m * fst m', eadd d (snd m) (snd m'))%Q) q) p.
Definition edec (d : nat) (j : nat) (e : list nat) : list nat := map (fun k => if Nat.eqb k j then (nth k e 0 - 1)%nat else nth k e 0%nat) (seq 0 d).
Definition pder (d j : nat) (p : poly) : poly :=
  flat_map (fun m => match nth j (snd m) 0%nat with 0%nat => [] | S n => [(fst m * inject_Z (Z.of_nat (S n)), edec d j (snd m))%Q] end) p.
Definition pconst (q : Q) : poly := [(q, [])].
Definition pvar (d k : nat) : poly := [(1%Q, map (fun i => if Nat.eqb i k then 1%nat else 0%nat) (seq 0 d))].
Definition pscale (c : Q) (p : poly) : poly := map (fun m => (c * fst m, snd m)%Q) p.
Definition pbary0 (d : nat) : poly := pconst 1 ++ flat_map (fun k => pscale (-1) (pvar d k)) (seq 0 d).
Definition pline (d degree c k : nat) : poly :=
  let x := pvar d k in
  let one_minus := pconst 1 ++ pscale (-1) x in
  match degree, c with
  | 1%nat, 0%nat => one_minus | 1%nat, _ => x
  | _, 0%nat => pmul d one_minus (pconst 1 ++ pscale (-2 # 1) x)
  | _, 1%nat => pmul d (pscale (4 # 1) x) one_minus
  | _, _ => pmul d x (pscale (2 # 1) x ++ pconst (-1))
  end.
Definition pbary (d degree c : nat) (l : poly) : poly :=
  match degree, c with
  | _, 0%nat => pconst 1 | 1%nat, _ => l
  | _, 1%nat => pscale (2 # 1) l | _, _ => pmul d l (pscale (2 # 1) l ++ pconst (-1))
  end.
Definition pprod (d : nat) (f : nat -> poly) : poly := fold_right (fun k acc => pmul d (f k) acc) (pconst 1) (seq 0 d).
Definition plagrange (c : cell_type) (degree : nat) (p : pos) : poly :=
  let d := cell_dim c in
  if simplex c then pmul d (pbary d degree (2 - fold_right Nat.add 0%nat p) (pbary0 d)) (pprod d (fun k => pbary d degree (nth k p 0%nat) (pvar d k)))
  else pprod d (fun k => pline d degree (nth k p 0%nat) k).

Lemma prodN_ext n f g : (forall k, (k < n)%nat -> f k = g k) -> prodN n f = prodN n g.
Proof.
  intros H. unfold prodN. assert (Hl : Forall (fun k => (k < n)%nat) (seq 0 n)) by (apply Forall_forall; intros k Hk; apply in_seq in Hk; lia).
  induction Hl as [|k l Hk _ IH]; cbn [fold_right]; [reflexivity|]. now rewrite IH, H.
Qed.
Lemma prodN_mul n f g : prodN n (fun k => f k * g k) = prodN n f * prodN n g.
Proof. unfold prodN. induction (seq 0 n) as [|k l IH]; cbn [fold_right]; [ring|]. rewrite IH. ring. Qed.
Lemma nth_map_seq {A} (f : nat -> A) d k x : (k < d)%nat -> nth k (map f (seq 0 d)) x = f k.
Proof. intros H. rewrite (nth_indep _ x (f 0%nat)) by (now rewrite map_length, seq_length). rewrite map_nth, seq_nth by exact H. reflexivity. Qed.
Lemma mono_add d e e' x : mono d (eadd d e e') x = mono d e x * mono d e' x.
Proof.
  unfold mono. rewrite <- prodN_mul. apply prodN_ext. intros k Hk. unfold eadd. rewrite nth_map_seq by exact Hk. apply pow_add.
Qed.
Lemma sumR_app' {A} (l m : list A) f : sumR (l ++ m) f = sumR l f + sumR m f.
Proof. induction l as [|x l IH]; cbn [app sumR]; [ring|]. rewrite IH. ring. Qed.
Lemma peval_app d p q x : peval d (p ++ q) x = peval d p x + peval d q x.
Proof. apply sumR_app'. Qed.
Lemma peval_scale d c p x : peval d (pscale c p) x = Q2R c * peval d p x.
Proof. unfold peval, pscale. induction p as [|m p IH]; cbn [map sumR]; [ring|]. rewrite IH. cbn [fst snd]. rewrite Q2R_mult. ring. Qed.
Lemma peval_mul d p q x : peval d (pmul d p q) x = peval d p x * peval d q x.
Proof.
  unfold pmul. induction p as [|m p IH]; cbn [flat_map]; [unfold peval; cbn [sumR]; ring|]. rewrite peval_app, IH.
  change (peval d (m :: p) x) with (Q2R (fst m) * mono d (snd m) x + peval d p x). rewrite Rmult_plus_distr_r. clear IH.
  apply (f_equal (fun z => z + peval d p x * peval d q x)).
  induction q as [|m' q IHq]; [unfold peval; cbn [map sumR]; ring|]. unfold peval in *. cbn [map sumR fst snd]. rewrite IHq.
  rewrite Q2R_mult, mono_add. ring.
Qed.
Lemma mono_nil d x : mono d [] x = 1.
Proof. unfold mono, prodN. induction (seq 0 d) as [|k l IH]; cbn [fold_right]; [reflexivity|]. rewrite IH. destruct k; cbn; ring. Qed.
Lemma Q2R_1 : Q2R 1 = 1. Proof. unfold Q2R. cbn. field. Qed.
Lemma peval_const d c x : peval d (pconst c) x = Q2R c.
Proof. unfold peval, pconst. cbn [sumR fst snd]. rewrite mono_nil. ring. Qed.
Lemma prodN_one n f : (forall k, (k < n)%nat -> f k = 1) -> prodN n f = 1.
Proof.
  intros H. rewrite (prodN_ext n f (fun _ => 1) H). unfold prodN. induction (seq 0 n) as [|k l IH]; cbn [fold_right]; [reflexivity|]. rewrite IH. ring.
Qed.
Lemma prodN_S n f : prodN (S n) f = prodN n f * f n.
Proof.
  unfold prodN. rewrite seq_S, fold_right_app. cbn [fold_right Nat.add]. rewrite Rmult_1_r.
  induction (seq 0 n) as [|k l IH]; cbn [fold_right]; [ring|]. rewrite IH. ring.
Qed.
(** a product in which only the factor k differs from g *)
Lemma prodN_replace n k f g : (k < n)%nat -> (forall i, (i < n)%nat -> i <> k -> f i = g i) ->
  prodN n f = f k * prodN n (fun i => if Nat.eqb i k then 1 else g i).
Proof.
  induction n as [|n IH]; intros Hk H; [lia|]. rewrite !prodN_S. destruct (Nat.eqb_spec n k) as [<- | Hne].
  - rewrite (prodN_ext n f (fun i => if Nat.eqb i n then 1 else g i)); [ring|]. intros i Hi. destruct (Nat.eqb_spec i n); [lia|]. apply H; lia.
  - rewrite IH by (try lia; intros; apply H; lia). rewrite (H n) by lia. ring.
Qed.
Lemma peval_var d k x : (k < d)%nat -> peval d (pvar d k) x = x k.
Proof.
  intros Hk. unfold peval, pvar. cbn [sumR fst snd]. rewrite Q2R_1. unfold mono.
  rewrite (prodN_replace d k _ (fun _ => 1) Hk).
  - rewrite nth_map_seq, Nat.eqb_refl by exact Hk. rewrite (prodN_one d (fun i => if Nat.eqb i k then 1 else 1)); [ring|].
    intros i _. now destruct (Nat.eqb i k).
  - intros i Hi Hne. rewrite nth_map_seq by exact Hi. destruct (Nat.eqb_spec i k); [contradiction|reflexivity].
Qed.
Lemma peval_prod d f x : peval d (pprod d f) x = prodN d (fun k => peval d (f k) x).
Proof.
  unfold pprod, prodN. induction (seq 0 d) as [|k l IH]; cbn [fold_right]; [rewrite peval_const; apply Q2R_1|]. now rewrite peval_mul, IH.
Qed.
Lemma peval_bary0 d x : peval d (pbary0 d) x = 1 - sumN d x.
Proof.
  unfold pbary0. rewrite peval_app, peval_const, Q2R_1. unfold sumN.
  assert (Hl : Forall (fun k => (k < d)%nat) (seq 0 d)) by (apply Forall_forall; intros k Hk; apply in_seq in Hk; lia).
  enough (peval d (flat_map (fun k => pscale (-1) (pvar d k)) (seq 0 d)) x = - sumR (seq 0 d) x) as -> by ring.
  induction Hl as [|k l Hk _ IH]; cbn [flat_map sumR]; [unfold peval; cbn; ring|]. rewrite peval_app, peval_scale, IH, peval_var by exact Hk.
  unfold Q2R. cbn. field.
Qed.
Lemma peval_line d degree c k x : (k < d)%nat -> peval d (pline d degree c k) x = line_factor degree c (x k).
Proof.
  intros Hk. unfold pline, line_factor.
  destruct degree as [|[|degree]]; destruct c as [|[|c]]; rewrite ?peval_mul, ?peval_app, ?peval_scale, ?peval_const, ?peval_var by exact Hk; unfold Q2R; cbn; field.
Qed.
Lemma peval_bary d degree c l x : peval d (pbary d degree c l) x = bary_factor degree c (peval d l x).
Proof.
  unfold pbary, bary_factor.
  destruct degree as [|[|degree]]; destruct c as [|[|c]]; rewrite ?peval_mul, ?peval_app, ?peval_scale, ?peval_const; unfold Q2R; cbn; field.
Qed.
Lemma peval_lagrange c degree p x : peval (cell_dim c) (plagrange c degree p) x = lagrange c degree p x.
Proof.
  unfold plagrange, lagrange. destruct (simplex c).
  - rewrite peval_mul, peval_bary, peval_bary0, peval_prod. f_equal. apply prodN_ext. intros k Hk. now rewrite peval_bary, peval_var.
  - rewrite peval_prod. apply prodN_ext. intros k Hk. now apply peval_line.
Qed.
(** derivative *)
Lemma dl_pow_shift a n : derivable_pt_lim (fun s => (a + s) ^ n) 0 (INR n * a ^ pred n).
Proof.
  induction n as [|n IH]; [cbn [pow INR]; eapply dl_eq; [apply (dl_const 1)|reflexivity|ring]|].
  eapply dl_eq; [apply (dl_mul (fun s => a + s) (fun s => (a + s) ^ n)); [|exact IH]|reflexivity|].
  - eapply dl_eq; [apply (dl_line a 1)|intros s; cbn beta; ring|reflexivity].
  - rewrite Rplus_0_r. cbn [Nat.pred]. rewrite S_INR. destruct n as [|n]; [cbn; ring|]. cbn [Nat.pred pow]. rewrite S_INR. ring.
Qed.
Lemma mono_der d e x j : (j < d)%nat ->
  derivable_pt_lim (fun s => mono d e (shift x j s)) 0 (INR (nth j e 0%nat) * mono d (edec d j e) x).
Proof.
  intros Hj. set (rest := prodN d (fun i => if Nat.eqb i j then 1 else x i ^ nth i e 0%nat)).
  eapply dl_eq.
  - exact (dl_mul (fun s => (x j + s) ^ nth j e 0%nat) (fun _ => rest) 0 _ _ (dl_pow_shift (x j) (nth j e 0%nat)) (dl_const rest 0)).
  - intros s. cbn beta. unfold mono. rewrite (prodN_replace d j _ (fun i => x i ^ nth i e 0%nat) Hj).
    + unfold shift. rewrite Nat.eqb_refl. reflexivity.
    + intros i _ Hne. unfold shift. destruct (Nat.eqb_spec i j); [contradiction|reflexivity].
  - unfold mono. rewrite (prodN_replace d j (fun k => x k ^ nth k (edec d j e) 0%nat) (fun i => x i ^ nth i e 0%nat) Hj).
    + unfold edec. rewrite nth_map_seq, Nat.eqb_refl by exact Hj. fold rest. replace (nth j e 0 - 1)%nat with (pred (nth j e 0%nat)) by lia. ring.
    + intros i Hi Hne. unfold edec. rewrite nth_map_seq by exact Hi. destruct (Nat.eqb_spec i j); [contradiction|reflexivity].
Qed.
Lemma Q2R_nat n : Q2R (inject_Z (Z.of_nat n)) = INR n.
Proof. unfold Q2R, inject_Z. cbn [Qnum Qden]. rewrite <- INR_IZR_INZ. field. Qed.
Lemma peval_der d p x j : (j < d)%nat -> derivable_pt_lim (fun s => peval d p (shift x j s)) 0 (peval d (pder d j p) x).
Proof.
  intros Hj. induction p as [|m p IH]; [exact (dl_const 0 0)|]. unfold pder. cbn [flat_map]. fold (pder d j p). rewrite peval_app.
  apply (dl_add (fun s => Q2R (fst m) * mono d (snd m) (shift x j s)) (fun s => peval d p (shift x j s))); [|exact IH].
  eapply dl_eq; [apply dl_scal, (mono_der d (snd m) x j Hj)|reflexivity|].
  destruct (nth j (snd m) 0%nat) as [|n]; unfold peval; cbn [sumR fst snd INR]; [ring|]. rewrite Q2R_mult, Q2R_nat. cbn [INR]. ring.
Qed.

(** ** degrees *)
Definition deg_le (c : cell_type) (n : nat) (p : poly) : bool := forallb (fun m => degree_ok c n (snd m)) p.
Lemma sum_nat_add d e e' : sum_nat d (eadd d e e') = (sum_nat d e + sum_nat d e')%nat.
Proof.
  unfold sum_nat. assert (Hl : Forall (fun k => (k < d)%nat) (seq 0 d)) by (apply Forall_forall; intros k Hk; apply in_seq in Hk; lia).
  induction Hl as [|k l Hk _ IH]; cbn [fold_right]; [reflexivity|]. rewrite IH. unfold eadd. rewrite nth_map_seq by exact Hk. lia.
Qed.
Lemma degree_ok_add c n m e e' : degree_ok c n e = true -> degree_ok c m e' = true -> degree_ok c (n + m) (eadd (cell_dim c) e e') = true.
Proof.
  unfold degree_ok. destruct (simplex c).
  - rewrite !Nat.leb_le, sum_nat_add. lia.
  - rewrite !forallb_forall. intros H H' k Hk. specialize (H k Hk). specialize (H' k Hk). apply in_seq in Hk. rewrite Nat.leb_le in *.
    unfold eadd. rewrite nth_map_seq by lia. lia.
Qed.
Lemma degree_ok_le c n m e : (n <= m)%nat -> degree_ok c n e = true -> degree_ok c m e = true.
Proof.
  unfold degree_ok. destruct (simplex c); [rewrite !Nat.leb_le; lia|]. rewrite !forallb_forall. intros Hl H k Hk. specialize (H k Hk).
  rewrite Nat.leb_le in *. lia.
Qed.
Lemma deg_mul c n m p q : deg_le c n p = true -> deg_le c m q = true -> deg_le c (n + m) (pmul (cell_dim c) p q) = true.
Proof.
  unfold deg_le, pmul. rewrite !forallb_forall. intros Hp Hq r Hr. apply in_flat_map in Hr. destruct Hr as (a & Ha & Hr).
  apply in_map_iff in Hr. destruct Hr as (b & <- & Hb). cbn [snd]. apply degree_ok_add; auto.
Qed.
Lemma exact_poly B c m p : exact_rule B c m -> deg_le c m p = true ->
  sumN (length (fst (make_quadrature B c m))) (fun q => nth q (snd (make_quadrature B c m)) 0 * peval (cell_dim c) p (nth q (fst (make_quadrature B c m)) origin)) = integral c p.
Proof.
  intros HB. unfold deg_le, integral. induction p as [|a p IH]; cbn [forallb sumR]; intros H.
  - apply sumN_zero. intros q _. unfold peval. cbn [sumR]. ring.
  - apply andb_true_iff in H. destruct H as [Ha Hp]. rewrite <- (IH Hp). specialize (HB (snd a) Ha).
    destruct (make_quadrature B c m) as [pts w]. cbn [fst snd] in *. rewrite <- HB, <- sumN_scal, <- sumN_add.
    apply sumN_ext. intros q _. unfold peval. cbn [sumR]. ring.
Qed.
Definition pshape (t : string) (a : nat) : poly := plagrange (cell_of t) (degree_of t) (nth a (mesh_nodes t) []).
Lemma peval_shape t a x : peval (cell_dim (cell_of t)) (pshape t a) x = node_shape t a x.
Proof. apply peval_lagrange. Qed.
Lemma shape_der t a i x g : (i < cell_dim (cell_of t))%nat -> derivable_pt_lim (fun s => node_shape t a (shift x i s)) 0 g ->
  g = peval (cell_dim (cell_of t)) (pder (cell_dim (cell_of t)) i (pshape t a)) x.
Proof.
  intros Hi H. eapply dl_unique; [exact H|]. eapply dl_ext; [|apply peval_der, Hi]. intros s. apply peval_shape.
Qed.
Lemma grad_degree t a i : In t lagrange_types -> (a < length (mesh_nodes t))%nat -> (i < cell_dim (cell_of t))%nat ->
  deg_le (cell_of t) (gauss_of t / 2) (pder (cell_dim (cell_of t)) i (pshape t a)) = true.
Proof.
  intros H Ha Hi.
  assert (Hall : forallb (fun a => forallb (fun i => deg_le (cell_of t) (gauss_of t / 2) (pder (cell_dim (cell_of t)) i (pshape t a)))
    (seq 0 (cell_dim (cell_of t)))) (seq 0 (length (mesh_nodes t))) = true).
  { clear Ha Hi. repeat (destruct H as [<- | H]; [vm_compute; reflexivity|]). destruct H. }
  rewrite forallb_forall in Hall. specialize (Hall a ltac:(apply in_seq; lia)). rewrite forallb_forall in Hall. apply Hall, in_seq. lia.
Qed.
Lemma shape_degree t a : In t lagrange_types -> simplex (cell_of t) = false -> (a < length (mesh_nodes t))%nat ->
  deg_le (cell_of t) (gauss_of t / 2) (pshape t a) = true.
Proof.
  intros H Hs Ha.
  assert (Hall : forallb (fun a => deg_le (cell_of t) (gauss_of t / 2) (pshape t a)) (seq 0 (length (mesh_nodes t))) = true).
  { clear Ha. revert Hs. repeat (destruct H as [<- | H]; [intros Hs; try discriminate Hs; vm_compute; reflexivity|]). destruct H. }
  rewrite forallb_forall in Hall. apply Hall, in_seq. lia.
Qed.
Lemma gauss_even t : In t lagrange_types -> (gauss_of t / 2 + gauss_of t / 2 = gauss_of t)%nat.
Proof. intros H. repeat (destruct H as [<- | H]; [reflexivity|]). destruct H. Qed.

Section Doc.
Variable B : basix.
Hypothesis HB : documented_basix B.
Lemma tables_given t E : In t supported -> element_tables B t = Ok E -> exists fi, reorder_inds (basix_facets (cell_of t)) (order_of t) = Ok fi /\ E = tables B t fi.
Proof. intros H HE. destruct (element_tables_ok B HB t H) as (fi & Er & E'). exists fi. split; [exact Er|]. congruence. Qed.
Lemma stiffness_exact t E a b i j : exact_rule B (cell_of t) (gauss_of t) -> In t lagrange_types -> element_tables B t = Ok E ->
  (a < num_nodes E)%nat -> (b < num_nodes E)%nat -> (i < e_dim E)%nat -> (j < e_dim E)%nat ->
  exists p, (forall x ga gb, derivable_pt_lim (fun s => node_shape t a (shift x i s)) 0 ga -> derivable_pt_lim (fun s => node_shape t b (shift x j s)) 0 gb ->
      peval (e_dim E) p x = ga * gb) /\
    sumN (num_quads E) (fun q => quad_weights E q * (shape_grads_ref E q a i * shape_grads_ref E q b j)) = integral (cell_of t) p.
Proof.
  intros Hx H HE Ha Hb Hi Hj. destruct (lagrange_supported t H) as [Hs _]. destruct (tables_given t E Hs HE) as (fi & _ & ->).
  cbn [num_nodes e_dim num_quads quad_weights shape_grads_ref tables] in *. destruct (order_facts t Hs) as (El & _). rewrite El in *.
  exists (pmul (cell_dim (cell_of t)) (pder (cell_dim (cell_of t)) i (pshape t a)) (pder (cell_dim (cell_of t)) j (pshape t b))). split.
  - intros x ga gb Hga Hgb. rewrite peval_mul. rewrite <- (shape_der t a i x ga Hi Hga), <- (shape_der t b j x gb Hj Hgb). reflexivity.
  - rewrite <- (exact_poly B (cell_of t) (gauss_of t)); [|exact Hx|rewrite <- (gauss_even t H) at 1; apply deg_mul; now apply grad_degree].
    apply sumN_ext. intros q _. rewrite peval_mul. f_equal. unfold quad_point. f_equal; symmetry; [symmetry|symmetry]; apply shape_der; auto; now apply tabulated_grad.
Qed.
Lemma mass_exact t E a b : exact_rule B (cell_of t) (gauss_of t) -> In t lagrange_types -> simplex (cell_of t) = false -> element_tables B t = Ok E ->
  (a < num_nodes E)%nat -> (b < num_nodes E)%nat ->
  exists p, (forall x, peval (e_dim E) p x = node_shape t a x * node_shape t b x) /\
    sumN (num_quads E) (fun q => quad_weights E q * (shape_vals E q a * shape_vals E q b)) = integral (cell_of t) p.
Proof.
  intros Hx H Hsx HE Ha Hb. destruct (lagrange_supported t H) as [Hs _]. destruct (tables_given t E Hs HE) as (fi & _ & ->).
  cbn [num_nodes e_dim num_quads quad_weights shape_vals tables] in *. destruct (order_facts t Hs) as (El & _). rewrite El in *.
  exists (pmul (cell_dim (cell_of t)) (pshape t a) (pshape t b)). split.
  - intros x. now rewrite peval_mul, !peval_shape.
  - rewrite <- (exact_poly B (cell_of t) (gauss_of t)); [|exact Hx|rewrite <- (gauss_even t H) at 1; apply deg_mul; now apply shape_degree].
    apply sumN_ext. intros q _. rewrite peval_mul, !peval_shape, !(tabulated B HB) by assumption. reflexivity.
Qed.

(** ** affine cells *)
Section Affine.
Context {V : Type}.
Variable F : fem V.
Variable t : string.
Hypothesis Ht : In t lagrange_types.
Hypothesis HE : element_tables B t = Ok (f_ele F).
Local Notation E := (f_ele F).
Local Notation d := (cell_dim (cell_of t)).
Lemma dims : dim F = d /\ num_nodes E = length (mesh_nodes t) /\ (d = 2 \/ d = 3)%nat.
Proof.
  destruct (lagrange_supported t Ht) as [Hs _]. destruct (tables_given t E Hs HE) as (fi & _ & EE). unfold dim. rewrite EE. cbn [e_dim num_nodes tables].
  destruct (order_facts t Hs) as (El & _). split; [reflexivity|]. split; [exact El|]. pose proof (cell_of_not_interval t). destruct (cell_of t); auto. contradiction.
Qed.
Lemma det_ext M N : (forall i j, (i < d)%nat -> (j < d)%nat -> M i j = N i j) -> det d M = det d N.
Proof. destruct dims as (_ & _ & [E2 | E3]); [rewrite E2|rewrite E3]; intros H; cbn; now rewrite !H by lia. Qed.
Lemma sum_affine_grads c A b x i j : affine_cell F t c A b -> (i < d)%nat -> (j < d)%nat ->
  sumN (length (mesh_nodes t)) (fun a => physical_coos F c a i * tabulate_grads B (family_of t) (cell_of t) (degree_of t) x (nth a (order_of t) 0%nat) j) = A i j.
Proof.
  intros HA Hi Hj. destruct (grads_complete B HB t x j Ht Hj) as [H0 H1].
  set (g := fun a => tabulate_grads B (family_of t) (cell_of t) (degree_of t) x (nth a (order_of t) 0%nat) j) in *.
  rewrite (sumN_ext _ _ (fun a => b i * g a + sumN d (fun k => A i k * (node_at t a k * g a)))).
  - rewrite (sumN_add _ (fun a => b i * g a)), sumN_scal. fold g in H0. rewrite H0, sumN_swap.
    rewrite (sumN_ext d _ (fun k => A i k * delta k j)); [|intros k Hk; rewrite sumN_scal; f_equal; exact (H1 k Hk)].
    rewrite sumN_delta by exact Hj. ring.
  - intros a Ha. rewrite (HA a i Ha Hi). fold (g a). rewrite Rmult_plus_distr_r, <- sumN_scal_r. f_equal. apply sumN_ext. intros; ring.
Qed.
Lemma affine_jacobian c A b q i j : affine_cell F t c A b -> (i < d)%nat -> (j < d)%nat -> jacobian_dx_deta F c q i j = A i j.
Proof.
  intros HA Hi Hj. unfold jacobian_dx_deta. destruct dims as (_ & -> & _).
  destruct (lagrange_supported t Ht) as [Hs _]. destruct (tables_given t E Hs HE) as (fi & _ & EE). rewrite EE. cbn [shape_grads_ref tables].
  now apply (sum_affine_grads c A b).
Qed.
Lemma affine_face_jacobian c A b f p i j : affine_cell F t c A b -> (i < d)%nat -> (j < d)%nat -> face_jacobian F (c, f) p i j = A i j.
Proof.
  intros HA Hi Hj. unfold face_jacobian. destruct dims as (_ & -> & _).
  destruct (lagrange_supported t Ht) as [Hs _]. destruct (tables_given t E Hs HE) as (fi & _ & EE). rewrite EE. cbn [face_shape_grads_ref tables fst snd].
  now apply (sum_affine_grads c A b).
Qed.
Lemma affine_volume c A b : affine_cell F t c A b ->
  (forall q, jacobian_det F c q = det d A) /\ sumN (num_quads E) (JxW F c) = det d A * ref_volume (cell_of t).
Proof.
  intros HA. assert (Hd : forall q, jacobian_det F c q = det d A).
  { intros q. unfold jacobian_det. destruct dims as (-> & _). apply det_ext. intros i j Hi Hj. now apply (affine_jacobian c A b). }
  split; [exact Hd|]. unfold JxW. rewrite (sumN_ext _ _ (fun q => det d A * quad_weights E q)) by (intros q _; now rewrite Hd).
  rewrite sumN_scal. f_equal. destruct (lagrange_supported t Ht) as [Hs _]. destruct (tables_given t E Hs HE) as (fi & _ & EE). rewrite EE.
  cbn [num_quads quad_weights tables]. now apply weights_sum.
Qed.
Local Notation face_edge := (face_edge F).
Lemma face_edge_push c A b f k i : affine_cell F t c A b -> (f < length (face_inds E))%nat -> (k < d - 1)%nat -> (i < d)%nat ->
  face_edge c f k i = push A d (fun j => facet_vertex (cell_of t) f (S k) j - facet_vertex (cell_of t) f 0 j) i.
Proof.
  intros HA Hf Hk Hi. destruct (lagrange_supported t Ht) as [Hs _]. destruct (tables_given t E Hs HE) as (fi & Er & EE).
  destruct (reorder_ok t Hs) as (fi' & Er' & El & Hr). assert (fi' = fi) as -> by congruence. clear Er'.
  unfold BasisSpec.face_edge. rewrite EE in *. cbn [face_inds tables] in *.
  assert (Hlen : (S k < length (nth f fi []))%nat).
  { destruct (Hr f 0%nat Hf) as [-> _]. rewrite El in Hf. clear -Hf Hk. pose proof (cell_of_not_interval t) as Hc. revert Hf Hk Hc. generalize (cell_of t) as c. intros c Hf Hk Hc.
    facet_cases c f Hf; cbn in *; lia. }
  destruct (Hr f (S k) Hf) as [_ HS]. destruct (HS Hlen) as (Hn1 & _ & Hp1).
  destruct (Hr f 0%nat Hf) as [_ H0]. destruct (H0 ltac:(lia)) as (Hn0 & _ & Hp0).
  rewrite (HA _ i Hn1 Hi), (HA _ i Hn0 Hi). unfold push, node_at. rewrite Hp1, Hp0. unfold facet_vertex.
  rewrite (sumN_ext d (fun j => A i j * (_ - _)) (fun j => A i j * coord (nth (nth (S k) (nth f (basix_facets (cell_of t)) []) 0%nat) (basix_vertices (cell_of t)) []) j
     - A i j * coord (nth (nth 0 (nth f (basix_facets (cell_of t)) []) 0%nat) (basix_vertices (cell_of t)) []) j)) by (intros; ring).
  rewrite sumN_sub. ring.
Qed.
Lemma affine_nanson c A b f p : affine_cell F t c A b -> (f < length (face_inds E))%nat -> 0 < det d A ->
  nanson_scale F (c, f) p =
  (if Nat.eqb d 3 then norm3 (cross (face_edge c f 0) (face_edge c f 1)) else norm2 (face_edge c f 0))
  * nth p (snd (make_quadrature B (face_cell (cell_of t)) (gauss_of t))) 0.
Proof.
  intros HA Hf Hdet. destruct dims as (Hdim & _ & Hd). destruct (lagrange_supported t Ht) as [Hs _]. destruct (tables_given t E Hs HE) as (fi & Er & EE).
  destruct (reorder_ok t Hs) as (fi' & Er' & El & _). assert (fi' = fi) as -> by congruence. clear Er'.
  assert (Hfl : (f < length (basix_facets (cell_of t)))%nat) by (rewrite EE in Hf; cbn [face_inds tables] in Hf; now rewrite <- El).
  pose proof (cell_of_not_interval t) as Hc. destruct (normal_facts B HB (cell_of t) f Hfl Hc) as [Hu Ho].
  set (e := fun k j => facet_vertex (cell_of t) f (S k) j - facet_vertex (cell_of t) f 0 j) in *.
  set (w := fun p => nth p (snd (make_quadrature B (face_cell (cell_of t)) (gauss_of t))) 0).
  assert (Hfw : forall p, face_quad_weights E f p = w p * size_jacobian B (cell_of t) f) by (intros ?; now rewrite EE).
  assert (Hnn : face_normals E f = facet_outward_normals B (cell_of t) f) by now rewrite EE.
  assert (Hjac : forall i v, (v < d - 1)%nat -> facet_jacobians B (cell_of t) f i v = e v i).
  { intros i v Hv. destruct HB as (_ & _ & _ & _ & _ & Hj & _). apply (Hj (cell_of t) f i v Hfl Hv). }
  assert (Hpush : forall p k i, (k < d - 1)%nat -> (i < d)%nat -> push (face_jacobian F (c, f) p) d (e k) i = face_edge c f k i).
  { intros p0 k i Hk Hi. rewrite (face_edge_push c A b f k i HA Hf Hk Hi). apply sumN_ext. intros j Hj. now rewrite (affine_face_jacobian c A b). }
  assert (Hfd : forall p, det d (face_jacobian F (c, f) p) = det d A).
  { intros p0. apply det_ext. intros i j Hi Hj. now apply (affine_face_jacobian c A b). }
  change (nth p (snd (make_quadrature B (face_cell (cell_of t)) (gauss_of t))) 0) with (w p).
  unfold size_jacobian in Hfw. destruct (doc_dims B HB (cell_of t)) as (Etd & _). rewrite Etd in Hfw.
  destruct Hd as [E2 | E3].
  - rewrite E2 in *. cbn [Nat.eqb] in *. rewrite (area2 F (c, f) p (e 0%nat) (w p)); cbn [snd].
    + unfold norm2. rewrite !Hpush by lia. ring.
    + congruence.
    + rewrite Hfd. exact Hdet.
    + rewrite Hnn. exact Hu.
    + rewrite Hnn. apply Ho. lia.
    + rewrite Hfw. unfold norm2. rewrite !Hjac by lia. reflexivity.
  - rewrite E3 in *. cbn [Nat.eqb] in *. rewrite (area3 F (c, f) p (e 0%nat) (e 1%nat) (w p)); cbn [snd].
    + unfold norm3, cross. rewrite !Hpush by lia. ring.
    + congruence.
    + rewrite Hfd. exact Hdet.
    + rewrite Hnn. exact Hu.
    + rewrite Hnn. apply Ho. lia.
    + rewrite Hnn. apply Ho. lia.
    + rewrite Hfw. unfold norm3, cross. rewrite !Hjac by lia. reflexivity.
Qed.
Lemma affine_area c A b f : affine_cell F t c A b -> (f < length (face_inds E))%nat -> 0 < det d A ->
  sumN (num_face_quads E) (nanson_scale F (c, f)) =
  (if Nat.eqb d 3 then norm3 (cross (face_edge c f 0) (face_edge c f 1)) else norm2 (face_edge c f 0)) * ref_volume (face_cell (cell_of t)).
Proof.
  intros HA Hf Hdet. destruct (lagrange_supported t Ht) as [Hs _]. destruct (tables_given t E Hs HE) as (fi & _ & EE).
  rewrite <- (weights_sum B HB (face_cell (cell_of t)) (gauss_of t)), <- sumN_scal.
  replace (num_face_quads E) with (length (fst (make_quadrature B (face_cell (cell_of t)) (gauss_of t)))) by (rewrite EE; reflexivity).
  apply sumN_ext. intros p _. now apply (affine_nanson c A b).
Qed.
End Affine.
End Doc.
Close Scope R_scope.
