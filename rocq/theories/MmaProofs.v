(** * Proofs for the MMA subproblem solver. *)
From Coq Require Import FunctionalExtensionality Lra.
From Verif Require Import Prelude PreludeFacts FemModel FemFacts MmaModel MmaSpec.
Open Scope R_scope.

Lemma fold_max_ge l x : x <= fold_left Rmax l x /\ forall r, In r l -> r <= fold_left Rmax l x.
Proof.
  revert x. induction l as [|a l IH]; intros x; cbn; [split; [lra|intros r []]|].
  destruct (IH (Rmax x a)) as [H1 H2]. pose proof (Rmax_l x a). pose proof (Rmax_r x a). split; [lra|]. intros r [<-|Hr]; [lra|exact (H2 r Hr)].
Qed.
Lemma maxl_ge l r : In r l -> r <= maxl l.
Proof. destruct l as [|x l]; [intros []|]. intros [<-|H]; cbn; [exact (proj1 (fold_max_ge l x))|exact (proj2 (fold_max_ge l x) r H)]. Qed.
Lemma in_entries n v j : (j < n)%nat -> In (v j) (entries n v).
Proof. intros H. apply in_map. apply in_seq. lia. Qed.
Lemma entries_length n v : length (entries n v) = n.
Proof. unfold entries. rewrite map_length, seq_length. reflexivity. Qed.
Lemma combine_entries n u v : combine (entries n u) (entries n v) = map (fun j => (u j, v j)) (seq 0 n).
Proof. unfold entries. induction (seq 0 n); [reflexivity|]. cbn. f_equal. assumption. Qed.
Lemma nth_entries n v j : (j < n)%nat -> nth j (entries n v) 0 = v j.
Proof. intros H. unfold entries. rewrite (nth_indep _ 0 (v 0%nat)) by (rewrite map_length, seq_length; exact H). rewrite (map_nth v), seq_nth by exact H. reflexivity. Qed.

Section Sub.
Variable sp : subproblem.
Local Notation m := (sp_m sp).
Local Notation n := (sp_n sp).
Hypothesis Hwp : well_posed sp.

Lemma wp_n : (0 < n)%nat. Proof. exact (proj1 Hwp). Qed.
Lemma wp_b j : (j < n)%nat -> low sp j < alfa sp j /\ alfa sp j < beta sp j /\ beta sp j < upp sp j /\ 0 < p0 sp j /\ 0 < q0 sp j.
Proof. exact (proj1 (proj2 Hwp) j). Qed.

(** ** starting point *)
Lemma start_interior : interior sp (start sp).
Proof.
  split; [|split; [|cbn; lra]].
  - intros j Hj. destruct (wp_b j Hj) as (H1 & H2 & H3 & H4 & H5). cbn.
    pose proof (Rmax_r (1 / (0.5 * (alfa sp j + beta sp j) - alfa sp j)) 1). pose proof (Rmax_r (1 / (beta sp j - 0.5 * (alfa sp j + beta sp j))) 1). lra.
  - intros i Hi. cbn. pose proof (Rmax_l 1 (0.5 * cc sp i)). lra.
Qed.

(** ** step lengths *)
Lemma positives_pairs it d : combine (positives sp it) (positives sp d) =
  map (fun j => (y_ it j, y_ d j)) (seq 0 m) ++ [(z_ it, z_ d)] ++ map (fun j => (lam_ it j, lam_ d j)) (seq 0 m) ++ map (fun j => (xsi_ it j, xsi_ d j)) (seq 0 n) ++
  map (fun j => (eta_ it j, eta_ d j)) (seq 0 n) ++ map (fun j => (mu_ it j, mu_ d j)) (seq 0 m) ++ [(zet_ it, zet_ d)] ++ map (fun j => (s_ it j, s_ d j)) (seq 0 m).
Proof.
  unfold positives. rewrite combine_app by (rewrite !entries_length; reflexivity). rewrite combine_entries. f_equal.
  rewrite combine_app by reflexivity. f_equal.
  rewrite combine_app by (rewrite !entries_length; reflexivity). rewrite combine_entries. f_equal.
  rewrite combine_app by (rewrite !entries_length; reflexivity). rewrite combine_entries. f_equal.
  rewrite combine_app by (rewrite !entries_length; reflexivity). rewrite combine_entries. f_equal.
  rewrite combine_app by (rewrite !entries_length; reflexivity). rewrite combine_entries. f_equal.
  rewrite combine_app by reflexivity. f_equal. apply combine_entries.
Qed.
Lemma positive_step v dv M t : 0 < v -> -1.01 * dv / v <= M -> 1 <= M -> 0 < t <= 1 / M -> 0 < v + t * dv.
Proof.
  intros Hv H1 HM [Ht Ht2].
  assert (E : -1.01 * dv <= M * v). { apply (Rmult_le_compat_r v) in H1; [|lra]. unfold Rdiv in H1. rewrite Rmult_assoc, Rinv_l, Rmult_1_r in H1 by lra. exact H1. }
  assert (HtM : t * M <= 1). { apply (Rmult_le_compat_r M) in Ht2; [|lra]. unfold Rdiv in Ht2. rewrite Rmult_assoc, Rinv_l in Ht2 by lra. lra. }
  assert (H2 : t * (-1.01 * dv) <= t * (M * v)) by (apply Rmult_le_compat_l; lra).
  assert (H3 : t * M * v <= 1 * v) by (apply Rmult_le_compat_r; lra). nra.
Qed.
Lemma first_step_bound it d : 0 < first_step sp it d <= 1 /\ exists M, 1 <= M /\ first_step sp it d = 1 / M /\
  (forall p, In p (combine (positives sp it) (positives sp d)) -> -1.01 * snd p / fst p <= M) /\
  (forall j, (j < n)%nat -> -1.01 * x_ d j / (x_ it j - alfa sp j) <= M /\ 1.01 * x_ d j / (beta sp j - x_ it j) <= M).
Proof.
  unfold first_step.
  set (A := maxl (entries n (fun j => -1.01 * x_ d j / (x_ it j - alfa sp j)))).
  set (B := maxl (entries n (fun j => 1.01 * x_ d j / (beta sp j - x_ it j)))).
  set (C := maxl (map (fun t => -1.01 * snd t / fst t) (combine (positives sp it) (positives sp d)))).
  set (M := Rmax (Rmax (Rmax A B) C) 1).
  pose proof (Rmax_r (Rmax (Rmax A B) C) 1). pose proof (Rmax_l (Rmax (Rmax A B) C) 1). pose proof (Rmax_l (Rmax A B) C). pose proof (Rmax_r (Rmax A B) C). pose proof (Rmax_l A B). pose proof (Rmax_r A B).
  fold M in H, H0. split.
  - split; [apply Rdiv_lt_0_compat; lra|]. apply (Rmult_le_reg_r M); [lra|]. unfold Rdiv. rewrite Rmult_assoc, Rinv_l by lra. lra.
  - exists M. split; [exact H|]. split; [reflexivity|]. split.
    + intros p Hp. assert (Hc : -1.01 * snd p / fst p <= C) by (apply maxl_ge, in_map_iff; exists p; auto). lra.
    + intros j Hj. assert (Ha : -1.01 * x_ d j / (x_ it j - alfa sp j) <= A) by (apply maxl_ge; apply (in_entries n (fun j => -1.01 * x_ d j / (x_ it j - alfa sp j)) j Hj)).
      assert (Hb : 1.01 * x_ d j / (beta sp j - x_ it j) <= B) by (apply maxl_ge; apply (in_entries n (fun j => 1.01 * x_ d j / (beta sp j - x_ it j)) j Hj)). lra.
Qed.
Lemma moved_interior it d t : interior sp it -> 0 < t <= first_step sp it d -> interior sp (moved it t d).
Proof.
  intros (Hx & Hy & Hz & Hzt) Ht. destruct (first_step_bound it d) as (_ & M & HM & E & Hp & Hab). rewrite E in Ht. rewrite positives_pairs in Hp.
  assert (G : forall v dv, 0 < v -> In (v, dv) (map (fun j => (y_ it j, y_ d j)) (seq 0 m) ++ [(z_ it, z_ d)] ++ map (fun j => (lam_ it j, lam_ d j)) (seq 0 m) ++ map (fun j => (xsi_ it j, xsi_ d j)) (seq 0 n) ++
  map (fun j => (eta_ it j, eta_ d j)) (seq 0 n) ++ map (fun j => (mu_ it j, mu_ d j)) (seq 0 m) ++ [(zet_ it, zet_ d)] ++ map (fun j => (s_ it j, s_ d j)) (seq 0 m)) -> 0 < v + t * dv).
  { intros v dv Hv Hin. exact (positive_step v dv M t Hv (Hp (v, dv) Hin) HM Ht). }
  assert (S : forall k (u w : vct) j, (j < k)%nat -> In (u j, w j) (map (fun j => (u j, w j)) (seq 0 k))).
  { intros k u w j Hj. apply in_map_iff. exists j. split; [reflexivity|apply in_seq; lia]. }
  split; [|split; [|split]].
  - intros j Hj. destruct (Hx j Hj) as ([H1 H2] & H3 & H4). destruct (Hab j Hj) as [H5 H6]. cbn. split; [|split].
    + pose proof (positive_step (x_ it j - alfa sp j) (x_ d j) M t ltac:(lra) H5 HM Ht).
      assert (H6' : -1.01 * (- x_ d j) / (beta sp j - x_ it j) <= M) by (replace (-1.01 * (- x_ d j)) with (1.01 * x_ d j) by lra; exact H6).
      pose proof (positive_step (beta sp j - x_ it j) (- x_ d j) M t ltac:(lra) H6' HM Ht). lra.
    + apply G; [exact H3|]. rewrite !in_app_iff. right; right; right; left. apply (S n (xsi_ it) (xsi_ d) j Hj).
    + apply G; [exact H4|]. rewrite !in_app_iff. right; right; right; right; left. apply (S n (eta_ it) (eta_ d) j Hj).
  - intros i Hi. destruct (Hy i Hi) as (H1 & H2 & H3 & H4). cbn. split; [|split; [|split]]; (apply G; [assumption|]); rewrite !in_app_iff.
    + left. apply (S m (y_ it) (y_ d) i Hi).
    + right; right; left. apply (S m (lam_ it) (lam_ d) i Hi).
    + right; right; right; right; right; left. apply (S m (mu_ it) (mu_ d) i Hi).
    + right; right; right; right; right; right; right. apply (S m (s_ it) (s_ d) i Hi).
  - apply (G (z_ it) (z_ d) Hz). rewrite !in_app_iff. right; left; left. reflexivity.
  - apply (G (zet_ it) (zet_ d) Hzt). rewrite !in_app_iff. right; right; right; right; right; right; left; left. reflexivity.
Qed.

(** ** line search *)
Lemma norm2_nonneg l : 0 <= norm2 l. Proof. apply sqrt_pos. Qed.
(** the search returns the iterate it was given, or one reached by a step of the allowed length,
    together with its own residual and norm *)
Lemma line_search_spec k epsi old d nrm new steg it rs : 0 < steg <= first_step sp old d ->
  rs = residu sp epsi it /\ new = norm2 rs \/ nrm < new /\ (0 < k)%nat ->
  forall it' rs' nrm', line_search sp k epsi old d nrm new steg it rs = (it', rs', nrm') ->
  rs' = residu sp epsi it' /\ nrm' = norm2 rs' /\ (it' = it \/ exists t, 0 < t <= first_step sp old d /\ it' = moved old t d).
Proof.
  revert new steg it rs. induction k as [|k IH]; intros new steg it rs Hs Hinv it' rs' nrm' H.
  - cbn in H. assert (Hc : rs = residu sp epsi it /\ new = norm2 rs) by (destruct Hinv as [?|[_ ?]]; [assumption|lia]). destruct (Rltb nrm new); injection H as <- <- <-; tauto.
  - cbn in H. destruct (Rltb nrm new) eqn:E.
    + assert (Hs2 : 0 < steg / 2 <= first_step sp old d) by lra.
      destruct (IH (norm2 (residu sp epsi (moved old steg d))) (steg / 2) (moved old steg d) (residu sp epsi (moved old steg d)) Hs2 (or_introl (conj eq_refl eq_refl)) it' rs' nrm' H) as (H1 & H2 & H3).
      split; [exact H1|]. split; [exact H2|]. right. destruct H3 as [->|(t & Ht & ->)]; [exists steg; split; [exact Hs|reflexivity]|exists t; split; [exact Ht|reflexivity]].
    + apply Rltb_false in E. injection H as <- <- <-. destruct Hinv as [[-> ->]|[Hlt _]]; [auto|lra].
Qed.
(** a search that is entered moves, and ends with a smaller norm unless it used all its halvings *)
Lemma line_search_moves k epsi old d nrm new steg it rs : nrm < new -> (0 < k)%nat -> 0 < steg <= first_step sp old d ->
  exists t, 0 < t <= first_step sp old d /\ let '(it', rs', nrm') := line_search sp k epsi old d nrm new steg it rs in
  it' = moved old t d /\ (nrm' <= nrm \/ exists t0, t * 2 ^ (k - 1) = t0 /\ t0 = steg).
Proof.
  revert new steg it rs. induction k as [|k IH]; intros new steg it rs Hn Hk Hs; [lia|].
  cbn. apply Rltb_true in Hn. rewrite Hn.
  destruct (Rltb nrm (norm2 (residu sp epsi (moved old steg d)))) eqn:E.
  - destruct k as [|k].
    + exists steg. split; [exact Hs|]. cbn. rewrite E. split; [reflexivity|]. right. exists steg. split; [ring|reflexivity].
    + apply Rltb_true in E. destruct (IH _ (steg / 2) (moved old steg d) (residu sp epsi (moved old steg d)) E ltac:(lia) ltac:(lra)) as (t & Ht & H). exists t. split; [exact Ht|].
      destruct (line_search sp (S k) epsi old d nrm _ (steg / 2) _ _) as [[it' rs'] nrm']. destruct H as [H1 H2]. split; [exact H1|]. destruct H2 as [H2|(t0 & H2 & H3)]; [left; exact H2|right].
      exists steg. split; [|reflexivity]. replace (S k - 1)%nat with k in H2 by lia. rewrite Nat.sub_0_r. cbn. lra.
  - exists steg. split; [exact Hs|]. destruct k; cbn; rewrite E; (split; [reflexivity|left; apply Rltb_false; exact E]).
Qed.

(** ** the loops *)
Section Loops.
Variable solve : nat -> mtx -> vct -> res vct.
Lemma newton_step_interior epsi it rs nrm : interior sp it -> rs = residu sp epsi it -> nrm = norm2 rs ->
  forall it' rs' nrm', newton_step solve sp epsi it rs nrm = Ok (it', rs', nrm') ->
  interior sp it' /\ rs' = residu sp epsi it' /\ nrm' = norm2 rs'.
Proof.
  intros Hi Hrs Hn it' rs' nrm' H. unfold newton_step in H. destruct (direction solve sp epsi it) as [d|e]; [|discriminate].
  cbn [bind] in H. remember 50%nat as fifty eqn:E50. injection H as H. destruct (first_step_bound it d) as ((F1 & F2) & _).
  assert (Hinv : rs = residu sp epsi it /\ 2 * nrm = norm2 rs \/ nrm < 2 * nrm /\ (0 < fifty)%nat).
  { pose proof (norm2_nonneg rs). destruct (Rlt_dec 0 nrm); [right; split; [lra|lia]|left; split; [exact Hrs|lra]]. }
  destruct (line_search_spec fifty epsi it d nrm (2 * nrm) (first_step sp it d) it rs ltac:(lra) Hinv it' rs' nrm' H) as (H1 & H2 & H3).
  split; [|split; assumption]. destruct H3 as [->|(t & Ht & ->)]; [exact Hi|]. exact (moved_interior it d t Hi Ht).
Qed.
Lemma newton_loop_interior k epsi it rs nrm : interior sp it -> rs = residu sp epsi it -> nrm = norm2 rs ->
  forall it', newton_loop solve sp k epsi it rs nrm = Ok it' -> interior sp it'.
Proof.
  revert it rs nrm. induction k as [|k IH]; intros it rs nrm Hi Hrs Hn it' H; cbn [newton_loop] in H; destruct (Rltb (0.9 * epsi) (residumax rs)).
  - injection H as <-. exact Hi.
  - injection H as <-. exact Hi.
  - destruct (newton_step solve sp epsi it rs nrm) as [[[it1 rs1] nrm1]|e] eqn:E; [|discriminate]. cbn [bind] in H.
    destruct (newton_step_interior epsi it rs nrm Hi Hrs Hn it1 rs1 nrm1 E) as (H1 & H2 & H3). exact (IH it1 rs1 nrm1 H1 H2 H3 it' H).
  - injection H as <-. exact Hi.
Qed.
Lemma outer_loop_interior fuel emin epsi it it' : interior sp it -> outer_loop solve sp fuel emin epsi it = Some (Ok it') -> interior sp it'.
Proof.
  revert epsi it. induction fuel as [|fuel IH]; intros epsi it Hi H; cbn [outer_loop] in H; destruct (Rltb emin epsi); try discriminate; try (injection H as <-; exact Hi).
  destruct (newton_loop solve sp 200 epsi it (residu sp epsi it) (norm2 (residu sp epsi it))) as [it1|e] eqn:E; [|discriminate].
  apply (IH (0.1 * epsi) it1); [|exact H]. exact (newton_loop_interior 200 epsi it _ _ Hi eq_refl eq_refl it1 E).
Qed.
Lemma subsolv_interior fuel emin it : subsolv solve sp fuel emin = Some (Ok it) -> interior sp it.
Proof. intros H. exact (outer_loop_interior fuel emin 1 (start sp) it start_interior H). Qed.

(** the barrier parameter is divided by ten until it is at most 1e-7: seven passes *)
Lemma outer_loop_stops k emin epsi it : epsi * 0.1 ^ k <= emin -> outer_loop solve sp k emin epsi it <> None.
Proof.
  revert epsi it. induction k as [|k IH]; intros epsi it H; cbn [outer_loop].
  - replace (Rltb emin epsi) with false by (symmetry; apply Rltb_false; cbn in H; lra). discriminate.
  - destruct (Rltb emin epsi); [|discriminate]. destruct (newton_loop solve sp 200 epsi it _ _) as [it1|e]; [|discriminate].
    apply IH. cbn in H. replace (0.1 * epsi * 0.1 ^ k) with (epsi * (0.1 * 0.1 ^ k)) by ring. exact H.
Qed.
Lemma outer_loop_more k k' emin epsi it r : outer_loop solve sp k emin epsi it = Some r -> (k <= k')%nat -> outer_loop solve sp k' emin epsi it = Some r.
Proof.
  revert k' epsi it. induction k as [|k IH]; intros k' epsi it H Hk; destruct k' as [|k']; cbn [outer_loop] in *; try lia; try exact H.
  - destruct (Rltb emin epsi); [discriminate|exact H].
  - destruct (Rltb emin epsi); [|exact H]. destruct (newton_loop solve sp 200 epsi it _ _) as [it1|e]; [|exact H]. apply IH; [exact H|lia].
Qed.
Lemma subsolv_stops fuel : (7 <= fuel)%nat -> exists r, forall fuel', (7 <= fuel')%nat -> subsolv solve sp fuel' epsimin = Some r.
Proof.
  intros _. destruct (outer_loop solve sp 7 epsimin 1 (start sp)) as [r|] eqn:E.
  - exists r. intros fuel' Hf. exact (outer_loop_more 7 fuel' epsimin 1 (start sp) r E Hf).
  - exfalso. refine (outer_loop_stops 7 epsimin 1 (start sp) _ E). unfold epsimin. lra.
Qed.
End Loops.
End Sub.
Close Scope R_scope.
