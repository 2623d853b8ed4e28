(** * The sensitivity filter. *)
From Coq Require Import FunctionalExtensionality Lra Permutation.
From Verif Require Import Prelude PreludeFacts FemModel FemFacts MmaModel MmaSpec MmaProofs MmaNewtonProofs MmaOptProofs.
Open Scope R_scope.

Lemma weight_nonneg r d : 0 <= weight r d.
Proof. destruct d as [d|]; cbn; [|lra]. destruct (Rltb 0 (r - d)) eqn:E; [apply Rltb_true in E; lra|lra]. Qed.
Lemma weight_some r d : weight r (Some d) = Rmax (r - d) 0.
Proof.
  cbn. destruct (Rltb 0 (r - d)) eqn:E; [apply Rltb_true in E; rewrite Rmax_left; lra|apply Rltb_false in E; rewrite Rmax_right; lra].
Qed.
Lemma filter_len_le {A} (P : A -> bool) l : (length (filter P l) <= length l)%nat.
Proof. induction l as [|a l IH]; cbn; [lia|]. destruct (P a); cbn; lia. Qed.
Lemma filter_len_eq {A} (P : A -> bool) l : length (filter P l) = length l -> forall x, In x l -> P x = true.
Proof.
  induction l as [|a l IH]; [intros _ x []|]. cbn. destruct (P a) eqn:E; cbn; intros H x [<-|Hx].
  - exact E.
  - apply IH; [lia|exact Hx].
  - pose proof (filter_len_le P l). lia.
  - pose proof (filter_len_le P l). lia.
Qed.
Lemma filter_all {A} (P : A -> bool) l : (forall x, In x l -> P x = true) -> filter P l = l.
Proof. induction l as [|a l IH]; intros H; [reflexivity|]. cbn. rewrite (H a (or_introl eq_refl)). f_equal. apply IH. intros x Hx. apply H. right. exact Hx. Qed.
Lemma rmin_pos D : 0 < rmin D.
Proof. unfold rmin. apply Rmult_lt_0_compat; [lra|]. unfold Rpower. apply exp_pos. Qed.
Lemma rmin_uniform D h : 0 < h -> (0 < dm_dim D)%nat -> dm_cells D <> [] -> dm_volume D = INR (length (dm_cells D)) * h ^ dm_dim D -> rmin D = 1.5 * h.
Proof.
  intros Hh Hd Hc Hv. unfold rmin. f_equal.
  assert (0 < INR (length (dm_cells D))). { apply lt_0_INR. destruct (dm_cells D); [congruence|cbn; lia]. }
  assert (0 < INR (dm_dim D)) by now apply lt_0_INR.
  rewrite Hv. replace (INR (length (dm_cells D)) * h ^ dm_dim D / INR (length (dm_cells D))) with (h ^ dm_dim D) by (field; lra).
  rewrite <- Rpower_pow by exact Hh. rewrite Rpower_mult. replace (INR (dm_dim D) * (1 / INR (dm_dim D))) with 1 by (field; lra). now apply Rpower_1.
Qed.
Lemma distance_nonneg dim p q : 0 <= distance dim p q.
Proof. apply sqrt_pos. Qed.
Lemma distance_refl dim p : distance dim p p = 0.
Proof. unfold distance. rewrite (sumN_zero dim) by (intros; ring). apply sqrt_0. Qed.
Lemma distance_sym dim p q : distance dim p q = distance dim q p.
Proof. unfold distance. f_equal. apply sumN_ext. intros. ring. Qed.

Section Filter.
Variable q : query.
Variable D : design_mesh.
Hypothesis Hq : sound_query (dm_dim D) q.
Local Notation n := (length (flex_inds D)).
Local Notation pts := (flex_centroids D).
Local Notation cen i := (nth i (flex_centroids D) (fun _ => 0)).
Local Notation dist i j := (distance (dm_dim D) (nth i (flex_centroids D) (fun _ => 0)) (nth j (flex_centroids D) (fun _ => 0))).
Local Notation nb i := (q (flex_centroids D) (nth i (flex_centroids D) (fun _ => 0)) 20%nat).
Lemma pts_len : length pts = n.
Proof. unfold flex_centroids. apply map_length. Qed.
Lemma in_range_iff i : (forall t, In t (nb i) -> (snd t < n)%nat) <-> (20 <= n)%nat.
Proof.
  destruct (Hq pts (cen i) 20%nat) as (L & _ & _ & F & _). rewrite pts_len in F. split.
  - intros H. rewrite filter_all in F; [rewrite map_length, L in F; lia|]. intros x Hx. apply in_map_iff in Hx as (t & <- & Ht). apply Nat.ltb_lt. apply H. exact Ht.
  - intros H t Ht. rewrite Nat.min_l in F by exact H. apply Nat.ltb_lt. apply (filter_len_eq (fun i => Nat.ltb i n) (map snd (nb i))); [rewrite F, map_length, L; reflexivity|]. apply in_map. exact Ht.
Qed.
Lemma filter_row_ok i : (20 <= n)%nat -> filter_row q D i = Ok (map (fun t => (snd t, weight (rmin D) (fst t))) (nb i)).
Proof.
  intros H. unfold filter_row. replace (take_ok (length pts) (map snd (nb i))) with true; [reflexivity|]. symmetry. apply forallb_forall. intros x Hx. apply in_map_iff in Hx as (t & <- & Ht).
  apply Nat.ltb_lt. rewrite pts_len. apply (proj2 (in_range_iff i) H). exact Ht.
Qed.
Lemma filter_row_err i : (n < 20)%nat -> filter_row q D i = Err IndexError.
Proof.
  intros H. unfold filter_row. destruct (take_ok (length pts) (map snd (nb i))) eqn:E; [|reflexivity]. exfalso. rewrite pts_len in E. unfold take_ok in E. rewrite forallb_forall in E.
  assert ((20 <= n)%nat); [|lia]. apply (in_range_iff i). intros t Ht. apply Nat.ltb_lt. apply E. apply in_map. exact Ht.
Qed.
Lemma filter_fails : (0 < n < 20)%nat -> compute_filter_kd_tree q D = Err IndexError.
Proof.
  intros H. unfold compute_filter_kd_tree. destruct n as [|k] eqn:E; [lia|]. cbn [seq mapM]. rewrite filter_row_err; [reflexivity|lia].
Qed.
Definition rows : list (list (nat * R)) := map (fun i => map (fun t => (snd t, weight (rmin D) (fst t))) (nb i)) (seq 0 n).
Definition Hmat : mtx := fun i j => sumR (nth i rows []) (fun t => if Nat.eqb (fst t) j then snd t else 0).
Lemma mapM_ok {A B} (f : A -> res B) g l : (forall x, In x l -> f x = Ok (g x)) -> mapM f l = Ok (map g l).
Proof. induction l as [|a l IH]; intros H; [reflexivity|]. cbn. rewrite (H a (or_introl eq_refl)), IH; [reflexivity|]. intros x Hx. apply H. right. exact Hx. Qed.
Lemma filter_runs : (20 <= n)%nat -> compute_filter_kd_tree q D = Ok (Hmat, fun i => sumN n (fun j => Hmat i j)).
Proof.
  intros H. unfold compute_filter_kd_tree. rewrite (mapM_ok _ (fun i => map (fun t => (snd t, weight (rmin D) (fst t))) (nb i))); [reflexivity|]. intros i _. apply filter_row_ok. exact H.
Qed.
Hypothesis H20 : (20 <= n)%nat.
Lemma row_at i : (i < n)%nat -> nth i rows [] = map (fun t => (snd t, weight (rmin D) (fst t))) (nb i).
Proof.
  intros H. unfold rows. set (g := fun i => map (fun t => (snd t, weight (rmin D) (fst t))) (nb i)).
  rewrite (nth_indep _ [] (g 0%nat)) by (rewrite map_length, seq_length; exact H). rewrite map_nth, seq_nth by exact H. reflexivity.
Qed.
Lemma nb_nodup i : NoDup (map snd (nb i)).
Proof.
  destruct (Hq pts (cen i) 20%nat) as (_ & _ & Nd & _). rewrite pts_len in Nd. rewrite filter_all in Nd; [exact Nd|].
  intros x Hx. apply in_map_iff in Hx as (t & <- & Ht). apply Nat.ltb_lt. apply (proj2 (in_range_iff i) H20). exact Ht.
Qed.
Lemma nb_len i : length (nb i) = 20%nat.
Proof. apply (Hq pts (cen i) 20%nat). Qed.
Lemma nb_dist i t : In t (nb i) -> (snd t < n)%nat /\ fst t = Some (dist i (snd t)).
Proof.
  intros Ht. destruct (Hq pts (cen i) 20%nat) as (_ & B & _). rewrite pts_len in B. pose proof (proj2 (in_range_iff i) H20 t Ht). destruct (B t Ht) as [[_ E]|E]; [lia|exact E].
Qed.
Lemma nb_near i j k : In j (map snd (nb i)) -> (k < n)%nat -> ~ In k (map snd (nb i)) -> dist i j <= dist i k.
Proof.
  intros Hj Hk Hn. destruct (Hq pts (cen i) 20%nat) as (_ & _ & _ & _ & B). rewrite pts_len in B. apply B; auto.
  apply in_map_iff in Hj as (t & <- & Ht). apply (proj2 (in_range_iff i) H20). exact Ht.
Qed.
Lemma Hmat_in i j : (i < n)%nat -> In j (map snd (nb i)) -> Hmat i j = Rmax (rmin D - dist i j) 0.
Proof.
  intros Hi Hj. unfold Hmat. rewrite row_at by exact Hi. rewrite sumR_map. cbn [fst snd]. apply in_map_iff in Hj as (t & <- & Ht).
  pose proof (nb_nodup i) as Nd. destruct (nb_dist i t Ht) as [_ Ed]. rewrite <- weight_some, <- Ed. clear Ed.
  induction (nb i) as [|a l IH]; [destruct Ht|]. cbn [sumR map] in *. inversion Nd; subst. destruct Ht as [->|Ht].
  - rewrite Nat.eqb_refl. rewrite (sumR_zero l); [ring|]. intros y Hy. destruct (Nat.eqb (snd y) (snd t)) eqn:E; [|reflexivity]. apply Nat.eqb_eq in E. exfalso. apply H1. rewrite <- E. apply in_map. exact Hy.
  - destruct (Nat.eqb (snd a) (snd t)) eqn:E; [apply Nat.eqb_eq in E; exfalso; apply H1; rewrite E; apply in_map; exact Ht|]. rewrite IH by assumption. ring.
Qed.
Lemma Hmat_out i j : (i < n)%nat -> ~ In j (map snd (nb i)) -> Hmat i j = 0.
Proof.
  intros Hi Hj. unfold Hmat. rewrite row_at by exact Hi. rewrite sumR_map. cbn [fst snd]. apply sumR_zero. intros t Ht. destruct (Nat.eqb (snd t) j) eqn:E; [|reflexivity]. apply Nat.eqb_eq in E. exfalso. apply Hj. rewrite <- E. apply in_map. exact Ht.
Qed.
Lemma Hmat_nonneg i j : (i < n)%nat -> 0 <= Hmat i j.
Proof.
  intros Hi. destruct (in_dec Nat.eq_dec j (map snd (nb i))) as [H|H]; [rewrite Hmat_in by assumption; apply Rmax_r|rewrite Hmat_out by assumption; lra].
Qed.
Lemma Hmat_cone i j : (i < n)%nat -> Hmat i j <= Rmax (rmin D - dist i j) 0.
Proof.
  intros Hi. destruct (in_dec Nat.eq_dec j (map snd (nb i))) as [H|H]; [rewrite Hmat_in by assumption; lra|rewrite Hmat_out by assumption; apply Rmax_r].
Qed.
Lemma row_sum_pos i : (i < n)%nat -> 0 < sumN n (fun j => Hmat i j).
Proof.
  intros Hi. assert (E : exists j, (j < n)%nat /\ 0 < Hmat i j).
  { destruct (in_dec Nat.eq_dec i (map snd (nb i))) as [H|H].
    - exists i. split; [exact Hi|]. rewrite Hmat_in by assumption. rewrite distance_refl. pose proof (rmin_pos D). rewrite Rmax_left; lra.
    - pose proof (nb_len i) as L. destruct (nb i) as [|t l] eqn:E; [cbn in L; discriminate|]. assert (Ht : In t (nb i)) by (rewrite E; left; reflexivity).
      assert (Hj : In (snd t) (map snd (nb i))) by (apply in_map; exact Ht). exists (snd t). split; [apply (nb_dist i t Ht)|]. rewrite Hmat_in by assumption. rewrite <- E in H.
      pose proof (nb_near i (snd t) i Hj Hi H) as B. rewrite distance_refl in B. pose proof (rmin_pos D). rewrite Rmax_left; lra. }
  destruct E as (j & Hj & P). apply Rlt_le_trans with (1 := P). rewrite <- (sumN_pick n j (fun j => Hmat i j) Hj). apply sumN_le. intros k _. destruct (Nat.eqb k j); [lra|apply Hmat_nonneg; exact Hi].
Qed.
Lemma diag_pos i : (i < n)%nat -> (forall j, (j < n)%nat -> j <> i -> 0 < dist i j) -> Hmat i i = rmin D.
Proof.
  intros Hi Hd. destruct (in_dec Nat.eq_dec i (map snd (nb i))) as [H|H].
  - rewrite Hmat_in by assumption. rewrite distance_refl. pose proof (rmin_pos D). rewrite Rmax_left; lra.
  - exfalso. pose proof (nb_len i) as L. destruct (nb i) as [|t l] eqn:E; [cbn in L; discriminate|]. assert (Ht : In t (nb i)) by (rewrite E; left; reflexivity). rewrite <- E in H.
    assert (Hj : In (snd t) (map snd (nb i))) by (apply in_map; exact Ht). pose proof (nb_near i (snd t) i Hj Hi H) as B. rewrite distance_refl in B.
    destruct (Nat.eq_dec (snd t) i) as [Ei|Ei]; [rewrite Ei in Hj; exact (H Hj)|]. pose proof (Hd (snd t) (proj1 (nb_dist i t Ht)) Ei). lra.
Qed.
(** when at most 20 centroids lie within the radius of each, the truncation to 20 neighbours has no effect *)
Lemma exact_cone : (forall i l, (i < n)%nat -> NoDup l -> (forall j, In j l -> (j < n)%nat /\ dist i j < rmin D) -> (length l <= 20)%nat) ->
  forall i j, (i < n)%nat -> (j < n)%nat -> Hmat i j = Rmax (rmin D - dist i j) 0.
Proof.
  intros Hc i j Hi Hj. destruct (in_dec Nat.eq_dec j (map snd (nb i))) as [H|H]; [apply Hmat_in; assumption|]. rewrite Hmat_out by assumption.
  destruct (Rlt_dec (dist i j) (rmin D)) as [Hl|Hl]; [|rewrite Rmax_right; lra]. exfalso.
  assert ((length (j :: map snd (nb i)) <= 20)%nat); [|cbn in H0; rewrite map_length, nb_len in H0; lia]. apply (Hc i); [exact Hi|constructor; [exact H|apply nb_nodup]|].
  intros k [<-|Hk]; [split; assumption|]. split; [apply in_map_iff in Hk as (t & <- & Ht); apply (nb_dist i t Ht)|]. pose proof (nb_near i k j Hk Hj H). lra.
Qed.
End Filter.

Lemma filter_conserves n H (Hs rho g : vct) : symmetric n H -> (forall i, (i < n)%nat -> Hs i = sumN n (fun j => H i j) /\ Hs i <> 0) ->
  sumN n (apply_filter n H Hs rho g) = sumN n (fun j => rho j * g j / Rmax 0.001 (rho j)).
Proof.
  intros Sy HH. unfold apply_filter. rewrite sumN_swap. apply sumN_ext. intros j Hj. rewrite sumN_scal_r.
  rewrite (sumN_ext n (fun i => H i j) (fun i => H j i)) by (intros i Hi; apply Sy; assumption). destruct (HH j Hj) as [E Hn]. rewrite <- E. assert (0.001 <= Rmax 0.001 (rho j)) by apply Rmax_l. field. split; [lra|exact Hn].
Qed.
Lemma filter_conserves_floor n H (Hs rho g : vct) : symmetric n H -> (forall i, (i < n)%nat -> Hs i = sumN n (fun j => H i j) /\ Hs i <> 0) ->
  (forall j, (j < n)%nat -> 0.001 <= rho j) -> sumN n (apply_filter n H Hs rho g) = sumN n g.
Proof.
  intros Sy HH Hf. rewrite filter_conserves by assumption. apply sumN_ext. intros j Hj. specialize (Hf j Hj). rewrite Rmax_right by exact Hf. field. lra.
Qed.
Close Scope R_scope.
