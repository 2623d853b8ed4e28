(** * Concrete instances for the theorems about mma.py. *)
From Coq Require Import FunctionalExtensionality Lra ClassicalEpsilon Permutation Sorted.
From Verif Require Import Prelude PreludeFacts FemModel FemFacts MmaModel MmaSpec MmaProofs MmaNewtonProofs MmaOptProofs MmaStepProofs MmaFilterProofs.
Open Scope R_scope.

(** ** a sound linear solver exists *)
Lemma sumR_split {A} (l1 l2 : list A) p f : sumR (l1 ++ p :: l2) f = f p + sumR (l1 ++ l2) f.
Proof. rewrite !sumR_app. cbn [sumR]. ring. Qed.
Lemma underdetermined m : forall (L : list nat) (A : mtx), NoDup L -> (m < length L)%nat ->
  exists v : vct, (exists j, In j L /\ v j <> 0) /\ forall i, (i < m)%nat -> sumR L (fun j => A i j * v j) = 0.
Proof.
  induction m as [|m IH]; intros L A Nd Hl.
  - destruct L as [|j L]; [cbn in Hl; lia|]. exists (fun _ => 1). split; [exists j; split; [left; reflexivity|lra]|]. intros i Hi. lia.
  - destruct (excluded_middle_informative (exists p, In p L /\ A m p <> 0)) as [(p & Hp & Hnz)|Hz].
    + apply in_split in Hp as (l1 & l2 & ->). rewrite app_length in Hl. cbn in Hl.
      pose proof (NoDup_remove _ _ _ Nd) as [Nd' Hp]. destruct (IH (l1 ++ l2) (fun i j => A i j - A i p * A m j / A m p) Nd') as (v & (j & Hj & Hv) & Hs); [rewrite app_length; lia|].
      set (w := - sumR (l1 ++ l2) (fun j => A m j * v j) / A m p).
      exists (fun k => if Nat.eqb k p then w else v k).
      assert (Hne : forall k, In k (l1 ++ l2) -> Nat.eqb k p = false) by (intros k Hk; apply Nat.eqb_neq; intros ->; exact (Hp Hk)).
      split.
      * exists j. split; [apply in_app_iff in Hj as [Hj|Hj]; apply in_app_iff; [left; exact Hj|right; right; exact Hj]|]. rewrite (Hne j Hj). exact Hv.
      * intros i Hi. rewrite sumR_split, Nat.eqb_refl. rewrite (sumR_ext (l1 ++ l2) _ (fun k => A i k * v k)) by (intros k Hk; rewrite (Hne k Hk); reflexivity).
        destruct (Nat.eq_dec i m) as [->|Hn].
        -- unfold w. field. exact Hnz.
        -- specialize (Hs i ltac:(lia)). rewrite (sumR_ext (l1 ++ l2) _ (fun k => A i k * v k - A i p / A m p * (A m k * v k))) in Hs by (intros k _; field; exact Hnz).
           rewrite sumR_sub, sumR_scal in Hs. unfold w.
           replace (A i p * (- sumR (l1 ++ l2) (fun j0 => A m j0 * v j0) / A m p)) with (- (A i p / A m p * sumR (l1 ++ l2) (fun j0 => A m j0 * v j0))) by (field; exact Hnz). lra.
    + destruct (IH L A Nd) as (v & Hv & Hs); [lia|]. exists v. split; [exact Hv|]. intros i Hi. destruct (Nat.eq_dec i m) as [->|Hn]; [|apply Hs; lia].
      apply sumR_zero. intros j Hj. destruct (Req_dec (A m j) 0) as [->|Hne]; [ring|]. exfalso. apply Hz. exists j. split; assumption.
Qed.
Lemma solvable_or_singular k A b : (exists x, solves k A x b) \/ singular k A.
Proof.
  destruct (underdetermined k (seq 0 (S k)) (fun i j => if Nat.eqb j k then b i else A i j) (seq_NoDup _ _)) as (v & (j & Hj & Hv) & Hs); [rewrite seq_length; lia|].
  change (forall i, (i < k)%nat -> sumN (S k) (fun j => (if Nat.eqb j k then b i else A i j) * v j) = 0) in Hs.
  assert (Hs' : forall i, (i < k)%nat -> sumN k (fun j => A i j * v j) + b i * v k = 0).
  { intros i Hi. specialize (Hs i Hi). rewrite sumN_S, Nat.eqb_refl in Hs. rewrite (sumN_ext k _ (fun j => A i j * v j)) in Hs; [exact Hs|]. intros j0 H0. replace (Nat.eqb j0 k) with false by (symmetry; apply Nat.eqb_neq; lia). reflexivity. }
  destruct (Req_dec (v k) 0) as [E|E].
  - right. exists v. split.
    + exists j. apply in_seq in Hj. split; [|exact Hv]. destruct (Nat.eq_dec j k) as [->|]; [contradiction|lia].
    + intros i Hi. specialize (Hs' i Hi). rewrite E in Hs'. lra.
  - left. exists (fun j => - v j / v k). intros i Hi. specialize (Hs' i Hi). rewrite (sumN_ext k _ (fun j => (- / v k) * (A i j * v j))) by (intros; field; exact E). rewrite sumN_scal.
    assert (S : sumN k (fun j0 => A i j0 * v j0) = - (b i * v k)) by lra. rewrite S. field. exact E.
Qed.
Definition some_solver (k : nat) (A : mtx) (b : vct) : res vct :=
  match excluded_middle_informative (exists x, solves k A x b) with
  | left H => Ok (proj1_sig (constructive_indefinite_description _ H))
  | right _ => Err LinAlgError
  end.
Lemma some_solver_sound : sound_solver some_solver.
Proof.
  split; intros k A b; unfold some_solver; destruct (excluded_middle_informative (exists x, solves k A x b)) as [H|H].
  - intros x E. injection E as <-. apply (proj2_sig (constructive_indefinite_description _ H)).
  - discriminate.
  - discriminate.
  - intros e _. destruct (solvable_or_singular k A b) as [H'|H']; [contradiction|exact H'].
Qed.

(** ** a small optimisation problem: one variable, one constraint *)
Definition ex_mma : mma :=
  mkMma 1 1 1 (fun _ => 0.5) (fun _ => 0.5) (fun _ => 0) (fun _ => 1) (fun _ => 2) (fun _ => -0.25) (fun _ _ => 1) (fun _ => 1) (fun _ => 1)
        1 (fun _ => 0) (fun _ => 10000) (fun _ => 0) 0.1.
Definition ex_x : vct := fun _ => 0.5.
Lemma ex_box : box_ok ex_mma ex_x.
Proof. split; cbn; [lra|]. intros j _. unfold ex_x. lra. Qed.
Lemma ex_well_posed : well_posed (build ex_mma ex_x).
Proof. apply build_well_posed; [exact ex_box|cbn; lia|cbn; intros; lra]. Qed.
(** its bounds: the asymptotes are 0 and 1, the move limit cuts the interval to [0.4, 0.6] *)
Lemma ex_bounds : low (build ex_mma ex_x) 0%nat = 0 /\ upp (build ex_mma ex_x) 0%nat = 1 /\ alfa (build ex_mma ex_x) 0%nat = 0.4 /\ beta (build ex_mma ex_x) 0%nat = 0.6.
Proof. unfold build, ex_x. cbn. unfold bound_low, bound_upp. cbn. repeat split; try lra; mm. Qed.

(** ** a sound k-d tree exists: sort the indices by distance *)
Section Query.
Variable key : nat -> R.
Fixpoint insert (x : nat) (l : list nat) : list nat :=
  match l with [] => [x] | y :: l' => if Rltb (key y) (key x) then y :: insert x l' else x :: l end.
Fixpoint isort (l : list nat) : list nat := match l with [] => [] | x :: l => insert x (isort l) end.
Lemma insert_perm x l : Permutation (x :: l) (insert x l).
Proof. induction l as [|y l IH]; cbn; [reflexivity|]. destruct (Rltb (key y) (key x)); [|reflexivity]. rewrite perm_swap. constructor. exact IH. Qed.
Lemma isort_perm l : Permutation l (isort l).
Proof. induction l as [|x l IH]; cbn; [reflexivity|]. rewrite <- insert_perm. constructor. exact IH. Qed.
Lemma insert_sorted x l : StronglySorted (fun a b => key a <= key b) l -> StronglySorted (fun a b => key a <= key b) (insert x l).
Proof.
  induction l as [|y l IH]; cbn; intros H; [constructor; constructor|]. inversion H as [|a b H1 H2]; subst. destruct (Rltb (key y) (key x)) eqn:E.
  - apply Rltb_true in E. constructor; [apply IH; exact H1|]. apply Forall_forall. intros z Hz. apply (Permutation_in _ (Permutation_sym (insert_perm x l))) in Hz as [<-|Hz]; [lra|]. rewrite Forall_forall in H2. apply H2. exact Hz.
  - apply Rltb_false in E. constructor; [exact H|]. constructor; [exact E|]. rewrite Forall_forall in *. intros z Hz. specialize (H2 z Hz). lra.
Qed.
Lemma isort_sorted l : StronglySorted (fun a b => key a <= key b) (isort l).
Proof. induction l as [|x l IH]; cbn; [constructor|]. apply insert_sorted. exact IH. Qed.
Lemma sorted_app (P : nat -> nat -> Prop) l1 l2 : StronglySorted P (l1 ++ l2) -> forall a b, In a l1 -> In b l2 -> P a b.
Proof.
  induction l1 as [|x l1 IH]; intros H a b; [intros []|]. cbn in H. inversion H; subst. intros [<-|Ha] Hb; [|apply IH; assumption]. rewrite Forall_forall in H3. apply H3. apply in_app_iff. right. exact Hb.
Qed.
End Query.
Definition some_query (dim : nat) : query := fun pts p k =>
  let dist := fun i => distance dim p (nth i pts (fun _ => 0)) in
  map (fun i => (Some (dist i), i)) (firstn k (isort dist (seq 0 (length pts)))) ++ repeat (None, length pts) (k - length pts).
Lemma some_query_sound dim : sound_query dim (some_query dim).
Proof.
  intros pts p k. set (dist := fun i => distance dim p (nth i pts (fun _ => 0))). set (n := length pts). set (l := isort dist (seq 0 n)).
  pose proof (isort_perm dist (seq 0 n)) as HP. fold l in HP. pose proof (Permutation_length HP) as HL. rewrite seq_length in HL.
  assert (Hin : forall i, In i l <-> (i < n)%nat). { intros i. split; intros H; [apply (Permutation_in _ (Permutation_sym HP)), in_seq in H; lia|apply (Permutation_in _ HP), in_seq; lia]. }
  assert (Nd : NoDup l) by (apply (Permutation_NoDup HP), seq_NoDup).
  assert (Hf : forall i, In i (firstn k l) -> In i l) by (intros i Hi; rewrite <- (firstn_skipn k l); apply in_app_iff; left; exact Hi).
  assert (Ndf : NoDup (firstn k l)). { rewrite <- (firstn_skipn k l) in Nd. clear -Nd. induction (firstn k l) as [|a f IH]; [constructor|]. cbn in Nd. inversion Nd; subst. constructor; [|apply IH; assumption]. intros H. apply H1. apply in_app_iff. left. exact H. }
  assert (Hs : filter (fun i => Nat.ltb i n) (map snd (map (fun i => (Some (dist i), i)) (firstn k l) ++ repeat (None, n) (k - n))) = firstn k l).
  { rewrite map_app, filter_app, map_map. cbn [snd]. rewrite map_id. rewrite filter_all; [|intros i Hi; apply Nat.ltb_lt, Hin, Hf; exact Hi].
    rewrite <- (app_nil_r (firstn k l)) at 2. f_equal. induction (k - n)%nat as [|c IH]; [reflexivity|]. cbn [repeat map snd filter]. rewrite Nat.ltb_irrefl. exact IH. }
  replace (some_query dim pts p k) with (map (fun i => (Some (dist i), i)) (firstn k l) ++ repeat (None, n) (k - n)) by reflexivity.
  cbn zeta. repeat split.
  - rewrite app_length, map_length, repeat_length, firstn_length. lia.
  - intros t Ht. apply in_app_iff in Ht as [Ht|Ht].
    + apply in_map_iff in Ht as (i & <- & Hi). right. cbn. split; [apply Hin, Hf; exact Hi|reflexivity].
    + apply repeat_spec in Ht as ->. left. split; reflexivity.
  - rewrite Hs. exact Ndf.
  - rewrite Hs, firstn_length. lia.
  - intros i j Hi Hin' Hj Hnj.
    assert (Hif : In i (firstn k l)) by (rewrite <- Hs; apply filter_In; split; [exact Hi|apply Nat.ltb_lt; exact Hin']).
    assert (Hjs : In j (skipn k l)). { apply Hin in Hj. rewrite <- (firstn_skipn k l) in Hj. apply in_app_iff in Hj as [Hj|Hj]; [|exact Hj]. exfalso. apply Hnj. rewrite map_app, map_map. cbn [snd]. rewrite map_id. apply in_app_iff. left. exact Hj. }
    pose proof (isort_sorted dist (seq 0 n)) as SS. fold l in SS. rewrite <- (firstn_skipn k l) in SS. exact (sorted_app _ _ _ SS i j Hif Hjs).
Qed.

(** ** a row of cells of unit size, the first [k] of them flexible; cell c has its only node at c *)
Definition ex_row (k : nat) : design_mesh := mkDM 1 (fun a _ => INR a) (map (fun c => [c]) (seq 0 k)) (INR k) (seq 0 k).
Lemma ex_row_len k : length (flex_inds (ex_row k)) = k.
Proof. apply seq_length. Qed.
Lemma ex_row_rmin k : (0 < k)%nat -> rmin (ex_row k) = 1.5.
Proof.
  intros H. unfold rmin. cbn [ex_row dm_volume dm_cells dm_dim]. rewrite map_length, seq_length. apply lt_INR in H. cbn in H.
  replace (INR k / INR k) with 1 by (field; lra). unfold Rpower. rewrite ln_1, Rmult_0_r, exp_0. lra.
Qed.
Lemma ex_row_centroid k i : (i < k)%nat -> nth i (flex_centroids (ex_row k)) (fun _ => 0) = fun _ => INR i.
Proof.
  intros H. unfold flex_centroids. cbn [flex_inds ex_row]. set (g := fun i => centroid (ex_row k) (nth i (dm_cells (ex_row k)) [])).
  rewrite (nth_indep _ _ (g 0%nat)) by (rewrite map_length, seq_length; exact H). change (nth i (map g (seq 0 k)) (g 0%nat) = fun _ => INR i). rewrite map_nth, seq_nth by exact H. cbn [Nat.add].
  unfold g. cbn [dm_cells ex_row]. rewrite (nth_indep _ [] ((fun c => [c]) 0%nat)) by (rewrite map_length, seq_length; exact H). rewrite (map_nth (fun c => [c])), seq_nth by exact H.
  unfold centroid. cbn. extensionality x. field.
Qed.
Lemma ex_row_dist k i j : (i < k)%nat -> (j < k)%nat ->
  distance (dm_dim (ex_row k)) (nth i (flex_centroids (ex_row k)) (fun _ => 0)) (nth j (flex_centroids (ex_row k)) (fun _ => 0)) = Rabs (INR i - INR j).
Proof.
  intros Hi Hj. rewrite !ex_row_centroid by assumption. unfold distance. cbn. rewrite Rplus_0_r. exact (sqrt_Rsqr_abs (INR i - INR j)).
Qed.
Lemma ex_row_filter : exists H Hs, compute_filter_kd_tree (some_query 1) (ex_row 20) = Ok (H, Hs) /\
  (forall i j, (i < 20)%nat -> (j < 20)%nat -> H i j = Rmax (1.5 - Rabs (INR i - INR j)) 0).
Proof.
  eexists. eexists. split; [apply filter_runs; [apply some_query_sound|rewrite ex_row_len; lia]|]. intros i j Hi Hj.
  rewrite (exact_cone (some_query 1) (ex_row 20) (some_query_sound 1)); [|rewrite ex_row_len; lia| |rewrite ex_row_len; lia|rewrite ex_row_len; lia].
  - rewrite ex_row_rmin by lia. rewrite ex_row_dist by assumption. reflexivity.
  - intros i0 l _ Nd Hl. rewrite ex_row_len in Hl. replace 20%nat with (length (seq 0 20)) at 1 by reflexivity. apply NoDup_incl_length; [exact Nd|]. intros x Hx. apply in_seq. specialize (Hl x Hx). lia.
Qed.

(** ** a subproblem without constraints, symmetric about 0, and its point on the central path *)
Definition ex_sub : subproblem :=
  mkSub 0 1 (fun _ => -2) (fun _ => 2) (fun _ => -1) (fun _ => 1) (fun _ => 1) (fun _ => 1) (fun _ _ => 0) (fun _ _ => 0) 1 (fun _ => 0) (fun _ => 0) (fun _ => 0) (fun _ => 0).
Definition ex_it : iterate := mkIt (fun _ => 0) (fun _ => 0) 0.1 (fun _ => 0) (fun _ => 0.1) (fun _ => 0.1) (fun _ => 0) 1 (fun _ => 0).
Lemma ex_sub_wp : well_posed ex_sub.
Proof. repeat split; unfold ex_sub, ex_it; cbn [sp_m sp_n low upp alfa beta p0 q0 PP QQ dd x_ y_ z_ lam_ xsi_ eta_ mu_ zet_ s_]; intros; try (cbn in *; lia); lra. Qed.
Lemma ex_it_interior : interior ex_sub ex_it.
Proof. repeat split; unfold ex_sub, ex_it; cbn [sp_m sp_n low upp alfa beta p0 q0 PP QQ dd x_ y_ z_ lam_ xsi_ eta_ mu_ zet_ s_]; intros; try (cbn in *; lia); lra. Qed.
Lemma ex_it_kkt : near_kkt ex_sub 0.1 0 ex_it.
Proof.
  apply near_kkt_of_residual; [exact ex_sub_wp|exact ex_it_interior|].
  assert (E : residu ex_sub 0.1 ex_it = [0; 0; 0; 0; 0]).
  { unfold residu, rex, rez, rexsi, reeta, rezet, dpsidx, plam, qlam. cbn. repeat (f_equal; [lra|]). f_equal. lra. }
  rewrite E. unfold residumax. cbn. rewrite Rabs_R0. mm.
Qed.
Close Scope R_scope.
