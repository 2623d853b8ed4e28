(** * Active sub-mesh and its exterior faces. *)
From Coq Require Import Lia Permutation Sorted.
From Verif Require Import Prelude PreludeFacts FemModel ActModel ActSpec.

(** ** sorting *)
Lemma insert_perm x l : Permutation (insert_nat x l) (x :: l).
Proof.
  induction l as [|y r IH]; cbn; [reflexivity|]. destruct (Nat.leb x y); [reflexivity|]. rewrite IH. apply perm_swap.
Qed.
Lemma sort_perm l : Permutation (sort_nat l) l.
Proof. induction l as [|x r IH]; cbn; [reflexivity|]. rewrite insert_perm. now constructor. Qed.
Lemma insert_comm x y l : insert_nat x (insert_nat y l) = insert_nat y (insert_nat x l).
Proof.
  induction l as [|z r IH]; cbn.
  - destruct (Nat.leb_spec x y), (Nat.leb_spec y x); try reflexivity; try lia. now replace x with y by lia.
  - destruct (Nat.leb_spec y z), (Nat.leb_spec x z); cbn;
      repeat match goal with |- context[Nat.leb ?a ?b] => destruct (Nat.leb_spec a b) end; try reflexivity; try lia; try (now replace x with y by lia). now rewrite IH.
Qed.
Lemma sort_perm_eq l l' : Permutation l l' -> sort_nat l = sort_nat l'.
Proof.
  induction 1; cbn; [reflexivity|now rewrite IHPermutation|apply insert_comm|congruence].
Qed.
Lemma sort_eq_iff l l' : sort_nat l = sort_nat l' <-> Permutation l l'.
Proof. split; [|apply sort_perm_eq]. intros H. rewrite <- (sort_perm l), H. apply sort_perm. Qed.
Lemma sort_sorted l : StronglySorted lt l -> sort_nat l = l.
Proof.
  induction 1 as [|x r Hs IH Hx]; cbn; [reflexivity|]. rewrite IH. destruct r as [|y r']; [reflexivity|]. cbn. inversion Hx; subst.
  destruct (Nat.leb_spec x y); [reflexivity|lia].
Qed.

(** ** take, put *)
Lemma mapM_Ok_iff {A B} (f : A -> res B) l l' : mapM f l = Ok l' <-> Forall2 (fun x y => f x = Ok y) l l'.
Proof.
  revert l'. induction l as [|x r IH]; intros l'; cbn.
  - split; [injection 1 as <-; constructor|inversion 1; reflexivity].
  - destruct (f x) as [y|e] eqn:E; cbn.
    + destruct (mapM f r) as [ys|e] eqn:Er; cbn.
      * split; [injection 1 as <-; constructor; [exact E|now apply IH]|]. inversion 1 as [|? y' ? r' E' Hr]; subst. apply IH in Hr. congruence.
      * split; [discriminate|]. inversion 1 as [|? y' ? r' E' Hr]; subst. apply IH in Hr. congruence.
    + split; [discriminate|]. inversion 1; congruence.
Qed.
Lemma Forall2_len {A B} (R : A -> B -> Prop) l l' : Forall2 R l l' -> length l = length l'.
Proof. induction 1; cbn; congruence. Qed.
Lemma take_Ok_iff {X} (l : list X) idx l' : take l idx = Ok l' <-> Forall2 (fun i x => nth_error l i = Some x) idx l'.
Proof.
  unfold take. rewrite mapM_Ok_iff. split; intros H; induction H as [|i x r r' Hi Hr IH]; constructor; try exact IH; destruct (nth_error l i); congruence.
Qed.
Lemma take_ok {X} (d : X) (l : list X) idx : Forall (fun i => (i < length l)%nat) idx -> take l idx = Ok (map (fun i => nth i l d) idx).
Proof.
  intros H. apply take_Ok_iff. induction H as [|i r Hi Hr IH]; cbn; constructor; [now apply nth_error_nth'|exact IH].
Qed.
Lemma take_length {X} (l : list X) idx l' : take l idx = Ok l' -> length l' = length idx.
Proof. rewrite take_Ok_iff. intros H. symmetry. eapply Forall2_len. exact H. Qed.
Lemma take_nth {X} (l : list X) idx l' j i : take l idx = Ok l' -> nth_error idx j = Some i -> nth_error l' j = nth_error l i.
Proof.
  rewrite take_Ok_iff. intros H. revert j. induction H as [|a x r r' Ha Hr IH]; intros [|j]; cbn; try discriminate.
  - injection 1 as ->. now rewrite Ha.
  - apply IH.
Qed.
Lemma take_range {X} (l : list X) idx l' i : take l idx = Ok l' -> In i idx -> (i < length l)%nat.
Proof.
  rewrite take_Ok_iff. intros H. induction H as [|a x r r' Ha Hr IH]; cbn; [tauto|]. intros [->|Hi]; [|now apply IH]. apply nth_error_Some. congruence.
Qed.
Lemma set_at_length {X} (l : list X) i x : (i < length l)%nat -> length (set_at l i x) = length l.
Proof. intros H. unfold set_at. rewrite app_length, firstn_length. cbn [length]. rewrite skipn_length. lia. Qed.
Lemma set_at_same {X} (l : list X) i x : (i < length l)%nat -> nth_error (set_at l i x) i = Some x.
Proof. intros H. unfold set_at. rewrite nth_error_app2; rewrite firstn_length, Nat.min_l by lia; [|lia]. now rewrite Nat.sub_diag. Qed.
Lemma set_at_other {X} (l : list X) i x j : (i < length l)%nat -> j <> i -> nth_error (set_at l i x) j = nth_error l j.
Proof.
  intros H Hj. unfold set_at. destruct (Nat.lt_ge_cases j i).
  - rewrite nth_error_app1 by (rewrite firstn_length; lia). rewrite <- (firstn_skipn i l) at 2. rewrite nth_error_app1 by (rewrite firstn_length; lia). reflexivity.
  - rewrite nth_error_app2 by (rewrite firstn_length; lia). rewrite firstn_length, Nat.min_l by lia.
    rewrite <- (firstn_skipn (S i) l) at 2. rewrite nth_error_app2 by (rewrite firstn_length; lia). rewrite firstn_length, Nat.min_l by lia.
    replace (j - i)%nat with (S (j - S i)) by lia. reflexivity.
Qed.
Lemma put_Ok_inv {X} (l : list X) idx vals l' : put l idx vals = Ok l' -> Forall (fun i => (i < length l)%nat) idx /\
  l' = fold_left (fun a u => set_at a (fst u) (snd u)) (combine idx vals) l.
Proof.
  unfold put. destruct (forallb _ idx) eqn:E; [|discriminate]. injection 1 as <-. split; [|reflexivity].
  apply Forall_forall. intros i Hi. rewrite forallb_forall in E. now apply Nat.ltb_lt, E.
Qed.
Lemma put_ok {X} (l : list X) idx vals : Forall (fun i => (i < length l)%nat) idx -> exists l', put l idx vals = Ok l'.
Proof.
  intros H. unfold put. replace (forallb _ idx) with true; [eexists; reflexivity|]. symmetry. apply forallb_forall. intros i Hi. rewrite Forall_forall in H. now apply Nat.ltb_lt, H.
Qed.
Lemma fold_set_length {X} (u : list (nat * X)) l : Forall (fun p => (fst p < length l)%nat) u ->
  length (fold_left (fun a u => set_at a (fst u) (snd u)) u l) = length l.
Proof.
  revert l. induction u as [|p r IH]; intros l H; cbn; [reflexivity|]. inversion H; subst. rewrite IH; rewrite set_at_length by assumption; auto.
Qed.
Lemma combine_range {X} n (idx : list nat) (vals : list X) : Forall (fun i => (i < n)%nat) idx -> Forall (fun p => (fst p < n)%nat) (combine idx vals).
Proof. intros H. apply Forall_forall. intros (i, x) Hi. apply in_combine_l in Hi. rewrite Forall_forall in H. now apply H. Qed.
Lemma put_length {X} (l : list X) idx vals l' : put l idx vals = Ok l' -> length l' = length l.
Proof. intros H. apply put_Ok_inv in H. destruct H as (Hi & ->). apply fold_set_length. now apply combine_range. Qed.
Lemma fold_set_other {X} (u : list (nat * X)) l j : Forall (fun p => (fst p < length l)%nat) u -> ~ In j (map fst u) ->
  nth_error (fold_left (fun a u => set_at a (fst u) (snd u)) u l) j = nth_error l j.
Proof.
  revert l. induction u as [|p r IH]; intros l H Hj; cbn; [reflexivity|]. inversion H; subst. cbn in Hj.
  rewrite IH; [apply set_at_other; [assumption|intuition]|rewrite set_at_length by assumption; assumption|tauto].
Qed.
Lemma combine_fst_in {X Y} (a : list X) (b : list Y) x : In x (map fst (combine a b)) -> In x a.
Proof. intros H. apply in_map_iff in H. destruct H as ((u, v) & <- & H). now apply in_combine_l in H. Qed.
Lemma put_other {X} (l : list X) idx vals l' j : put l idx vals = Ok l' -> ~ In j idx -> nth_error l' j = nth_error l j.
Proof.
  intros H Hj. apply put_Ok_inv in H. destruct H as (Hi & ->). apply fold_set_other; [now apply combine_range|]. intros Hc. now apply combine_fst_in in Hc.
Qed.
Lemma put_at {X} (l : list X) idx vals l' k j : put l idx vals = Ok l' -> NoDup idx -> length idx = length vals -> nth_error idx k = Some j -> nth_error l' j = nth_error vals k.
Proof.
  intros H Hn Hl Hk. apply put_Ok_inv in H. destruct H as (Hi & ->). revert l vals k Hi Hl Hk. induction idx as [|i r IH]; intros l vals k Hi Hl Hk; [destruct k; discriminate|].
  destruct vals as [|v vs]; [discriminate|]. cbn [combine fold_left fst snd]. inversion Hi; subst. inversion Hn; subst. destruct k as [|k]; cbn [nth_error] in Hk |- *.
  - injection Hk as ->. rewrite fold_set_other; [now apply set_at_same|apply combine_range; rewrite set_at_length by assumption; assumption|]. intros Hc. now apply combine_fst_in in Hc.
  - apply IH; try assumption; [rewrite set_at_length by assumption; assumption|now injection Hl].
Qed.
(** constant values: repeated indices do no harm *)
Lemma put_const {X} (l : list X) idx x l' j : put l idx (repeat x (length idx)) = Ok l' -> In j idx -> nth_error l' j = Some x.
Proof.
  intros H Hj. apply put_Ok_inv in H. destruct H as (Hi & ->). revert l Hi. induction idx as [|i r IH]; intros l Hi; [destruct Hj|]. cbn [combine fold_left fst snd length repeat]. inversion Hi; subst.
  destruct (in_dec Nat.eq_dec j r) as [Hr|Hr].
  - apply IH; [exact Hr|rewrite set_at_length by assumption; assumption].
  - destruct Hj as [->|Hj]; [|contradiction]. rewrite fold_set_other; [now apply set_at_same|apply combine_range; rewrite set_at_length by assumption; assumption|]. intros Hc. now apply combine_fst_in in Hc.
Qed.

(** ** the active cells *)
Lemma in_active tab c : In c (argwhere (fun b => b) tab) <-> active tab c.
Proof.
  rewrite in_argwhere. unfold active. split; [intros (x & H & ->); exact H|]. intros H. exists true. now split.
Qed.
Lemma argwhere_sort tab : sort_nat (argwhere (fun b : bool => b) tab) = argwhere (fun b => b) tab.
Proof. apply sort_sorted. apply argwhere_sorted. Qed.
Lemma argwhere_from_rank tab i c : active tab c -> nth_error (argwhere_from (fun b => b) tab i) (rank tab c) = Some (i + c)%nat.
Proof.
  revert i c. induction tab as [|b r IH]; intros i c H; [destruct c; discriminate|]. destruct c as [|c]; cbn in *.
  - injection H as ->. now rewrite Nat.add_0_r.
  - unfold rank. cbn. destruct b; cbn; (rewrite (IH (S i) c H) || (fold (rank r c); rewrite (IH (S i) c H))); f_equal; lia.
Qed.
Lemma active_rank tab c : active tab c -> nth_error (argwhere (fun b => b) tab) (rank tab c) = Some c.
Proof. intros H. unfold argwhere. now rewrite argwhere_from_rank. Qed.
Lemma rank_of tab k c : nth_error (argwhere (fun b => b) tab) k = Some c -> active tab c /\ rank tab c = k.
Proof.
  intros H. assert (Ha : active tab c) by (apply in_active; eapply nth_error_In; exact H). split; [exact Ha|].
  apply active_rank in Ha. pose proof (argwhere_NoDup (fun b : bool => b) tab) as Hn. rewrite NoDup_nth_error in Hn. apply Hn; [apply nth_error_Some; congruence|congruence].
Qed.
Lemma rank_inj tab c c' : active tab c -> active tab c' -> rank tab c = rank tab c' -> c = c'.
Proof. intros H H' E. apply active_rank in H, H'. congruence. Qed.
Lemma active_length tab c : active tab c -> (c < length tab)%nat.
Proof. intros H. apply nth_error_Some. unfold active in H. congruence. Qed.

Lemma argwhere_count tab : length (argwhere (fun b : bool => b) tab) = length (filter (fun b : bool => b) tab).
Proof.
  unfold argwhere. generalize 0%nat. induction tab as [|b r IH]; intros i; cbn; [reflexivity|]. destruct b; cbn; [f_equal|]; apply IH.
Qed.
Section ActiveMesh.
Context {P : Type}.
Variables (m : mesh P) (tab : list bool).
Hypothesis Hc : forall c, active tab c -> (c < length (m_cells m))%nat.
Hypothesis Hn : Forall (Forall (fun n => (n < length (m_points m))%nat)) (m_cells m).
Let inds := argwhere (fun b : bool => b) tab.
Lemma active_mesh_ok : exists am pm cm, get_active_mesh m tab = Ok (am, pm, cm).
Proof.
  unfold get_active_mesh. rewrite argwhere_sort. fold inds.
  assert (Hr : Forall (fun i => (i < length (m_cells m))%nat) inds) by (apply Forall_forall; intros i Hi; apply Hc; now apply in_active).
  rewrite (take_ok [] _ _ Hr). cbn [bind]. destruct (put_ok (repeat 0%nat (length (m_cells m))) inds (seq 0 (length inds))) as (cm & Ecm); [now rewrite repeat_length|]. rewrite Ecm. cbn [bind].
  set (ac := map (fun i => nth i (m_cells m) []) inds).
  assert (Hac : Forall (Forall (fun n => (n < length (m_points m))%nat)) ac).
  { apply Forall_forall. intros cell Hi. apply in_map_iff in Hi. destruct Hi as (i & <- & Hi). rewrite Forall_forall in Hn, Hr. apply Hn, nth_In. now apply Hr. }
  assert (Hfl : Forall (fun n => (n < length (m_points m))%nat) (concat ac)).
  { apply Forall_forall. intros n Hi. apply in_concat in Hi. destruct Hi as (l & Hl & Hnl). rewrite Forall_forall in Hac. specialize (Hac l Hl). rewrite Forall_forall in Hac. now apply Hac. }
  destruct (put_ok (repeat false (length (m_points m))) (concat ac) (repeat true (length (concat ac)))) as (truth & Et); [now rewrite repeat_length|]. rewrite Et. cbn [bind].
  set (pm := argwhere (fun b : bool => b) truth).
  assert (Hpm : Forall (fun n => (n < length (m_points m))%nat) pm).
  { apply Forall_forall. intros n Hi. apply in_active, active_length in Hi. rewrite (put_length _ _ _ _ Et), repeat_length in Hi. exact Hi. }
  destruct (put_ok (repeat 0%nat (length (m_points m))) pm (seq 0 (length pm))) as (pf & Ep); [now rewrite repeat_length|]. rewrite Ep. cbn [bind].
  assert (E : mapM (take pf) ac = Ok (map (fun cell => map (fun i => nth i pf 0%nat) cell) ac)).
  { apply mapM_Ok_iff. clear Et Hfl. induction Hac as [|cell r Hcell Hr' IH]; cbn; constructor; [|exact IH].
    apply take_ok. rewrite (put_length _ _ _ _ Ep), repeat_length. exact Hcell. }
  rewrite E. cbn [bind]. eauto.
Qed.
Lemma mask_nth (truth : list bool) (pts : list P) j n : length truth = length pts -> nth_error (argwhere (fun b : bool => b) truth) j = Some n ->
  nth_error (map snd (filter (fun bp : bool * P => fst bp) (combine truth pts))) j = nth_error pts n.
Proof.
  unfold argwhere. assert (G : forall i, length truth = length pts -> nth_error (argwhere_from (fun b : bool => b) truth i) j = Some n -> (i <= n)%nat /\
    nth_error (map snd (filter (fun bp : bool * P => fst bp) (combine truth pts))) j = nth_error pts (n - i)).
  { clear Hc Hn inds. revert pts j. induction truth as [|b r IH]; intros [|p pts] j i Hl H; cbn in *; try discriminate; [destruct j; discriminate|]. injection Hl as Hl. destruct b; cbn.
    - destruct j as [|j]; cbn in H |- *.
      + injection H as ->. rewrite Nat.sub_diag. split; [lia|reflexivity].
      + destruct (IH pts j (S i) Hl H) as (A & B). split; [lia|]. rewrite B. replace (n - i)%nat with (S (n - S i)) by lia. reflexivity.
    - destruct (IH pts j (S i) Hl H) as (A & B). split; [lia|]. rewrite B. replace (n - i)%nat with (S (n - S i)) by lia. reflexivity. }
  intros Hl H. destruct (G 0%nat Hl H) as (_ & B). rewrite B, Nat.sub_0_r. reflexivity.
Qed.
Lemma mask_length (truth : list bool) (pts : list P) : length truth = length pts ->
  length (map snd (filter (fun bp : bool * P => fst bp) (combine truth pts))) = length (argwhere (fun b : bool => b) truth).
Proof.
  unfold argwhere. generalize 0%nat. revert pts. induction truth as [|b r IH]; intros [|p pts] i Hl; cbn in *; try discriminate; [reflexivity|]. injection Hl as Hl.
  destruct b; cbn; [f_equal|]; now apply IH.
Qed.
End ActiveMesh.

Section Result.
Context {P : Type}.
Variables (m : mesh P) (tab : list bool) (am : mesh P) (pm cm : list nat).
Hypothesis E : get_active_mesh m tab = Ok (am, pm, cm).
Let inds := argwhere (fun b : bool => b) tab.
Lemma active_facts : exists ac truth pf,
  take (m_cells m) inds = Ok ac /\ put (repeat 0%nat (length (m_cells m))) inds (seq 0 (length inds)) = Ok cm
  /\ put (repeat false (length (m_points m))) (concat ac) (repeat true (length (concat ac))) = Ok truth
  /\ pm = argwhere (fun b : bool => b) truth /\ put (repeat 0%nat (length (m_points m))) pm (seq 0 (length pm)) = Ok pf
  /\ mapM (take pf) ac = Ok (m_cells am) /\ m_points am = map snd (filter (fun bp => fst bp) (combine truth (m_points m))).
Proof.
  unfold get_active_mesh in E. rewrite argwhere_sort in E. fold inds in E.
  destruct (take (m_cells m) inds) as [ac|] eqn:E1; [|discriminate]. cbn [bind] in E.
  destruct (put (repeat 0%nat (length (m_cells m))) inds _) as [cmf|] eqn:E2; [|discriminate]. cbn [bind] in E.
  destruct (put (repeat false _) _ _) as [truth|] eqn:E3; [|discriminate]. cbn [bind] in E.
  destruct (put (repeat 0%nat (length (m_points m))) _ _) as [pf|] eqn:E4; [|discriminate]. cbn [bind] in E.
  destruct (mapM (take pf) ac) as [ac'|] eqn:E5; [|discriminate]. cbn [bind] in E. injection E as <- <- <-.
  exists ac, truth, pf. repeat split; assumption.
Qed.
Lemma cells_map c : active tab c -> nth_error cm c = Some (rank tab c).
Proof.
  intros Ha. destruct active_facts as (ac & truth & pf & E1 & E2 & _).
  rewrite (put_at _ _ _ _ _ _ E2 (argwhere_NoDup _ _) (eq_sym (seq_length _ _)) (active_rank tab c Ha)).
  rewrite (nth_error_nth' (seq 0 (length inds)) 0%nat); [rewrite seq_nth; [reflexivity|]|rewrite seq_length]; apply nth_error_Some; unfold inds; rewrite active_rank by assumption; discriminate.
Qed.
Lemma active_in_range c : active tab c -> (c < length (m_cells m))%nat.
Proof. intros Ha. destruct active_facts as (ac & truth & pf & E1 & _). eapply take_range; [exact E1|]. now apply in_active. Qed.
Lemma cells_count : length (m_cells am) = length (filter (fun b : bool => b) tab).
Proof.
  destruct active_facts as (ac & truth & pf & E1 & E2 & E3 & Ep & E4 & E5 & E6). apply mapM_Ok_iff, Forall2_len in E5. rewrite <- E5, (take_length _ _ _ E1).
  apply argwhere_count.
Qed.
Lemma used_points n : In n pm <-> exists c, active tab c /\ In n (nth c (m_cells m) []).
Proof.
  destruct active_facts as (ac & truth & pf & E1 & E2 & E3 & Ep & E4 & E5 & E6). rewrite Ep, in_active.
  assert (Hac : In n (concat ac) <-> exists c, active tab c /\ In n (nth c (m_cells m) [])).
  { rewrite in_concat. apply take_Ok_iff in E1. split.
    - intros (cell & Hcell & Hn). destruct (In_nth_error _ _ Hcell) as (k & Hk).
      assert (exists c, nth_error inds k = Some c /\ nth_error (m_cells m) c = Some cell) as (c & Hc1 & Hc2).
      { clear -E1 Hk. revert k Hk. induction E1 as [|i x r r' Hi Hr IH]; intros [|k] Hk; cbn in *; try discriminate; [injection Hk as <-; eauto|now apply IH]. }
      exists c. split; [apply (rank_of tab k c Hc1)|]. now rewrite (nth_error_nth _ _ _ Hc2).
    - intros (c & Ha & Hn). pose proof (active_rank tab c Ha) as Hr. fold inds in Hr.
      assert (exists cell, nth_error ac (rank tab c) = Some cell /\ nth_error (m_cells m) c = Some cell) as (cell & Hc1 & Hc2).
      { clear -E1 Hr. revert Hr. generalize (rank tab c). induction E1 as [|i x r r' Hi Hr IH]; intros [|k] Hk; cbn in *; try discriminate; [injection Hk as <-; eauto|now apply IH]. }
      exists cell. split; [eapply nth_error_In; exact Hc1|]. now rewrite <- (nth_error_nth _ _ [] Hc2). }
  rewrite <- Hac. split.
  - intros Ht. destruct (in_dec Nat.eq_dec n (concat ac)) as [H|H]; [exact H|]. exfalso. unfold active in Ht. rewrite (put_other _ _ _ _ _ E3 H) in Ht.
    apply nth_error_In, repeat_spec in Ht. discriminate.
  - intros H. exact (put_const _ _ _ _ _ E3 H).
Qed.
Lemma points_nodup : NoDup pm.
Proof. destruct active_facts as (ac & truth & pf & E1 & E2 & E3 & -> & _). apply argwhere_NoDup. Qed.
Lemma points_sorted : StronglySorted lt pm.
Proof. destruct active_facts as (ac & truth & pf & E1 & E2 & E3 & -> & _). apply argwhere_sorted. Qed.
Lemma points_at j n : nth_error pm j = Some n -> nth_error (m_points am) j = nth_error (m_points m) n.
Proof.
  destruct active_facts as (ac & truth & pf & E1 & E2 & E3 & Ep & E4 & E5 & E6). rewrite Ep, E6. apply mask_nth. now rewrite (put_length _ _ _ _ E3), repeat_length.
Qed.
Lemma points_count : length (m_points am) = length pm.
Proof.
  destruct active_facts as (ac & truth & pf & E1 & E2 & E3 & Ep & E4 & E5 & E6). rewrite Ep, E6. apply mask_length. now rewrite (put_length _ _ _ _ E3), repeat_length.
Qed.
Lemma cell_corners c : active tab c -> exists cell cell', nth_error (m_cells m) c = Some cell /\ nth_error (m_cells am) (rank tab c) = Some cell'
  /\ Forall2 (fun n j => nth_error pm j = Some n) cell cell'.
Proof.
  intros Ha. destruct active_facts as (ac & truth & pf & E1 & E2 & E3 & Ep & E4 & E5 & E6).
  pose proof (active_rank tab c Ha) as Hr. fold inds in Hr. pose proof (take_nth _ _ _ _ _ E1 Hr) as Hac.
  destruct (nth_error (m_cells m) c) as [cell|] eqn:Ec; [|exfalso; apply nth_error_None in Ec; pose proof (active_in_range c Ha); lia].
  apply mapM_Ok_iff in E5. assert (exists cell', nth_error (m_cells am) (rank tab c) = Some cell' /\ take pf cell = Ok cell') as (cell' & H1 & H2).
  { clear -E5 Hac. revert Hac. generalize (rank tab c). induction E5 as [|i x r r' Hi Hr IH]; intros [|k] Hk; cbn in *; try discriminate; [injection Hk as ->; eauto|now apply IH]. }
  exists cell, cell'. split; [reflexivity|]. split; [exact H1|]. apply take_Ok_iff in H2.
  assert (Hin : forall n, In n cell -> In n pm) by (intros n Hn; apply used_points; exists c; split; [exact Ha|now rewrite (nth_error_nth _ _ _ Ec)]).
  clear -H2 Hin E4 Ep. assert (Hnd : NoDup pm) by (rewrite Ep; apply argwhere_NoDup). induction H2 as [|n j r r' Hj Hr IH]; constructor; [|apply IH; intros; apply Hin; now right].
  destruct (In_nth_error _ _ (Hin n (or_introl eq_refl))) as (k & Hk).
  rewrite (put_at _ _ _ _ _ _ E4 Hnd (eq_sym (seq_length _ _)) Hk) in Hj. rewrite (nth_error_nth' (seq 0 (length pm)) 0%nat) in Hj by (rewrite seq_length; apply nth_error_Some; congruence).
  rewrite seq_nth in Hj by (apply nth_error_Some; congruence). injection Hj as <-. exact Hk.
Qed.
End Result.

(** ** the face table *)
Lemma face_eqb_eq s t : face_eqb s t = true <-> s = t.
Proof.
  unfold face_eqb. rewrite Bool.andb_true_iff, !Nat.eqb_eq. destruct s, t; cbn. split; [intros (-> & ->); reflexivity|injection 1 as -> ->; split; reflexivity].
Qed.
Lemma in_face_diff s l m : In s (face_diff l m) <-> In s l /\ ~ In s m.
Proof.
  unfold face_diff. rewrite filter_In, nodup_In, Bool.negb_true_iff. split; intros (H & H'); split; try exact H.
  - intros Hm. rewrite <- Bool.not_true_iff_false in H'. apply H'. apply existsb_exists. exists s. split; [exact Hm|now apply face_eqb_eq].
  - rewrite <- Bool.not_true_iff_false. intros Hm. apply existsb_exists in Hm. destruct Hm as (t & Ht & Et). apply face_eqb_eq in Et. now subst.
Qed.
Lemma face_diff_NoDup l m : NoDup (face_diff l m).
Proof. apply NoDup_filter, NoDup_nodup. Qed.
Lemma NoDup_app_disj {A} (l l' : list A) : NoDup l -> NoDup l' -> (forall x, In x l -> ~ In x l') -> NoDup (l ++ l').
Proof.
  induction 1 as [|x r Hx Hr IH]; intros Hl Hd; cbn; [exact Hl|]. constructor; [rewrite in_app_iff; intros [H|H]; [now apply Hx|apply (Hd x); [now left|exact H]]|].
  apply IH; [exact Hl|]. intros y Hy. apply Hd. now right.
Qed.
Lemma lookup_app k l l' : lookup k (l ++ l') = match lookup k l with Some s => Some s | None => lookup k l' end.
Proof. induction l as [|(k', s) r IH]; cbn; [reflexivity|]. destruct (list_eq_dec Nat.eq_dec k k'); [reflexivity|exact IH]. Qed.
Lemma lookup_In k l s : lookup k l = Some s -> In (k, s) l.
Proof. induction l as [|(k', s') r IH]; cbn; [discriminate|]. destruct (list_eq_dec Nat.eq_dec k k') as [->|]; [injection 1 as ->; now left|]. right. now apply IH. Qed.
Lemma lookup_None k l s : lookup k l = None -> ~ In (k, s) l.
Proof.
  induction l as [|(k', s') r IH]; cbn; [tauto|]. destruct (list_eq_dec Nat.eq_dec k k') as [->|Hk]; [discriminate|]. intros H [E|E]; [injection E as -> ->; congruence|now apply IH].
Qed.
Definition tables_of (L : list (list nat * face)) (t : tables) : Prop :=
  all_faces t = map snd L /\ (forall k, lookup k (hash_map t) = lookup k L)
  /\ forall s, In s (inner_faces t) <-> exists k s', In (k, s) L /\ In (k, s') L /\ s' <> s.
Lemma tables_nil : tables_of [] (mkTables [] [] []).
Proof. split; [reflexivity|]. split; [reflexivity|]. intros s. cbn. split; [tauto|intros (k & s' & [] & _)]. Qed.
Lemma tables_add L t k s : tables_of L t -> ~ In s (map snd L) -> tables_of (L ++ [(k, s)]) (add_face t (k, s)).
Proof.
  intros (Ha & Hh & Hi) Hs. unfold add_face. cbn [fst snd]. rewrite Hh. destruct (lookup k L) as [s0|] eqn:E.
  - assert (E0 := lookup_In _ _ _ E). assert (Hne : s0 <> s) by (intros ->; apply Hs; apply in_map_iff; exists (k, s); split; [reflexivity|exact E0]).
    split; [cbn; rewrite Ha, map_app; reflexivity|]. split; cbn [hash_map inner_faces].
    + intros k'. rewrite Hh, lookup_app. destruct (lookup k' L) eqn:E'; [reflexivity|]. cbn. destruct (list_eq_dec Nat.eq_dec k' k) as [->|]; [congruence|reflexivity].
    + intros x. rewrite in_app_iff, Hi. split.
      * intros [(k' & x' & H1 & H2 & H3)|[ <- |[ <- |[]]]].
        -- exists k', x'. rewrite !in_app_iff. auto.
        -- exists k, s. rewrite !in_app_iff. split; [now left|]. split; [right; now left|congruence].
        -- exists k, s0. rewrite !in_app_iff. split; [right; now left|]. split; [now left|congruence].
      * intros (k' & x' & H1 & H2 & H3). rewrite in_app_iff in H1, H2. destruct H1 as [H1|[H1|[]]].
        -- destruct H2 as [H2|[H2|[]]]; [left; eauto|]. injection H2 as <- <-. destruct (face_dec s0 x) as [->|Hn]; [right; now left|]. left. exists k, s0. auto.
        -- injection H1 as <- <-. right. right. now left.
  - split; [cbn; rewrite Ha, map_app; reflexivity|]. split; cbn [hash_map inner_faces].
    + intros k'. rewrite !lookup_app, Hh. reflexivity.
    + intros x. rewrite Hi. split.
      * intros (k' & x' & H1 & H2 & H3). exists k', x'. rewrite !in_app_iff. auto.
      * intros (k' & x' & H1 & H2 & H3). rewrite in_app_iff in H1, H2. destruct H1 as [H1|[H1|[]]], H2 as [H2|[H2|[]]]; [eauto| | |].
        -- injection H2 as <- <-. exfalso. exact (lookup_None _ _ _ E H1).
        -- injection H1 as <- <-. exfalso. exact (lookup_None _ _ _ E H2).
        -- congruence.
Qed.
Lemma tables_adds M L t : tables_of L t -> NoDup (map snd (L ++ M)) -> tables_of (L ++ M) (fold_left add_face M t).
Proof.
  revert L t. induction M as [|(k, s) r IH]; intros L t H Hn; cbn; [now rewrite app_nil_r|].
  replace (L ++ (k, s) :: r) with ((L ++ [(k, s)]) ++ r) in * by (now rewrite <- app_assoc). apply IH; [|exact Hn]. apply tables_add; [exact H|].
  rewrite map_app, map_app in Hn. cbn in Hn. rewrite <- app_assoc in Hn. cbn in Hn. intros Hi. apply NoDup_remove_2 in Hn. apply Hn. rewrite in_app_iff. now left.
Qed.

(** the entries contributed by the active cells of a list *)
Definition entries (tab : list bool) (cf : list (list (list nat))) (inds : list nat) : list (list nat * face) :=
  flat_map (fun c => if nth c tab false then keyed c (nth c cf []) else []) inds.
Lemma add_cells_eq tab cf t inds : Forall (fun c => (c < length tab)%nat /\ (c < length cf)%nat) inds ->
  add_cells tab cf t inds = Ok (fold_left add_face (entries tab cf inds) t).
Proof.
  intros H. revert t. induction H as [|c r (Hc & Hf) Hr IH]; intros t; cbn; [reflexivity|].
  rewrite (nth_error_nth' tab false Hc), (nth_error_nth' cf [] Hf). destruct (nth c tab false); [|apply IH]. rewrite fold_left_app. apply IH.
Qed.
Lemma in_keyed k s c keys : In (k, s) (keyed c keys) <-> fst s = c /\ nth_error keys (snd s) = Some k.
Proof.
  unfold keyed. assert (G : forall i, In (k, s) (combine keys (map (fun f => (c, f)) (seq i (length keys)))) <-> fst s = c /\ (i <= snd s)%nat /\ nth_error keys (snd s - i) = Some k).
  { induction keys as [|k0 r IH]; intros i; cbn.
    - split; [tauto|]. intros (_ & _ & H). destruct (snd s - i)%nat; discriminate.
    - rewrite IH. split.
      + intros [H|(H1 & H2 & H3)].
        * injection H as -> <-. cbn. rewrite Nat.sub_diag. auto.
        * split; [exact H1|]. split; [lia|]. replace (snd s - i)%nat with (S (snd s - S i)) by lia. exact H3.
      + intros (H1 & H2 & H3). destruct (Nat.eq_dec i (snd s)) as [E|E].
        * left. rewrite <- E, Nat.sub_diag in H3. cbn in H3. injection H3 as ->. destruct s as (c1, f1). cbn in *. now rewrite E, H1.
        * right. split; [exact H1|]. split; [lia|]. replace (snd s - i)%nat with (S (snd s - S i)) in H3 by lia. exact H3. }
  rewrite G, Nat.sub_0_r. intuition lia.
Qed.
Lemma keyed_faces c keys : map snd (keyed c keys) = map (fun f => (c, f)) (seq 0 (length keys)).
Proof.
  unfold keyed. generalize 0%nat. induction keys as [|k r IH]; intros i; cbn; [reflexivity|]. f_equal. apply IH.
Qed.
Definition key_of (cf : list (list (list nat))) (s : face) : option (list nat) := nth_error (nth (fst s) cf []) (snd s).
Lemma in_entries k s tab cf inds : In (k, s) (entries tab cf inds) <-> In (fst s) inds /\ active tab (fst s) /\ key_of cf s = Some k.
Proof.
  unfold entries, key_of, active. rewrite in_flat_map. split.
  - intros (c & Hc & H). destruct (nth c tab false) eqn:E; [|destruct H]. apply in_keyed in H. destruct H as (<- & H). split; [exact Hc|]. split; [|exact H].
    rewrite (nth_error_nth' tab false); [now rewrite E|]. destruct (Nat.lt_ge_cases (fst s) (length tab)); [assumption|]. rewrite nth_overflow in E by assumption. discriminate.
  - intros (Hc & Ha & H). exists (fst s). split; [exact Hc|]. rewrite (nth_error_nth _ _ _ Ha). apply in_keyed. auto.
Qed.
Lemma entries_NoDup tab cf inds : NoDup inds -> NoDup (map snd (entries tab cf inds)).
Proof.
  unfold entries. induction 1 as [|c r Hc Hr IH]; cbn; [constructor|]. rewrite map_app. apply NoDup_app_disj.
  - destruct (nth c tab false); [|constructor]. rewrite keyed_faces. apply FinFun.Injective_map_NoDup; [intros x y; congruence|apply seq_NoDup].
  - exact IH.
  - intros s H1 H2. destruct (nth c tab false); [|destruct H1]. rewrite keyed_faces in H1. apply in_map_iff in H1. destruct H1 as (f & <- & _).
    apply in_map_iff in H2. destruct H2 as ((k, s) & Es & H2). cbn in Es. subst s. apply in_entries in H2. destruct H2 as (H2 & _). contradiction.
Qed.
(** the table follows the active cells *)
Definition tracks (tab : list bool) (cf : list (list (list nat))) (t : tables) : Prop :=
  exists L, tables_of L t /\ NoDup (map snd L) /\ forall k s, In (k, s) L <-> active tab (fst s) /\ key_of cf s = Some k.
Lemma tracks_init tab cf : tracks tab cf (fold_left add_face (entries tab cf (seq 0 (length cf))) (mkTables [] [] [])).
Proof.
  set (L := entries tab cf (seq 0 (length cf))). assert (Hn : NoDup (map snd L)) by apply entries_NoDup, seq_NoDup. exists L. split; [|split].
  - apply (tables_adds L [] _ tables_nil). exact Hn.
  - exact Hn.
  - intros k s. unfold L. rewrite in_entries, in_seq. split; [intros (_ & H); exact H|]. intros (Ha & Hk). split; [|now split].
    unfold key_of in Hk. destruct (Nat.lt_ge_cases (fst s) (length cf)) as [H|H]; [lia|]. rewrite nth_overflow in Hk by assumption. destruct (snd s); discriminate.
Qed.
Lemma in_new_born old new c : length old = length new -> In c (new_born old new) <-> (c < length new)%nat /\ nth c old false <> nth c new false.
Proof.
  intros Hl. unfold new_born. rewrite in_argwhere. split.
  - intros ((a, b) & H & Hab). apply Bool.negb_true_iff, Bool.eqb_false_iff in Hab. cbn in Hab.
    assert (Hc : (c < length new)%nat) by (rewrite <- (Nat.min_id (length new)), <- Hl at 1; rewrite <- combine_length; apply nth_error_Some; congruence). split; [exact Hc|].
    apply (nth_error_nth _ _ (false, false)) in H. rewrite combine_nth in H by exact Hl. injection H as -> ->. exact Hab.
  - intros (Hc & Hn). exists (nth c old false, nth c new false). split.
    + rewrite <- combine_nth by exact Hl. apply nth_error_nth'. rewrite combine_length. lia.
    + apply Bool.negb_true_iff, Bool.eqb_false_iff. exact Hn.
Qed.
Lemma active_nth tab c : active tab c <-> nth c tab false = true.
Proof.
  unfold active. split; [apply nth_error_nth|]. intros H. destruct (Nat.lt_ge_cases c (length tab)) as [Hc|Hc]; [rewrite (nth_error_nth' tab false Hc); congruence|].
  rewrite nth_overflow in H by assumption. discriminate.
Qed.
Lemma tracks_update old new cf t : growing old new -> tracks old cf t -> tracks new cf (fold_left add_face (entries new cf (new_born old new)) t).
Proof.
  intros (Hl & Hg) (L & Ht & Hn & HL). set (M := entries new cf (new_born old new)).
  assert (HM : NoDup (map snd (L ++ M))).
  { rewrite map_app. apply NoDup_app_disj; [exact Hn|apply entries_NoDup; apply argwhere_NoDup|]. intros s H1 H2. apply in_map_iff in H1, H2. destruct H1 as ((k & s1) & E1 & H1), H2 as ((k2 & s2) & E2 & H2).
    cbn in E1, E2. subst s1 s2. apply HL in H1. apply in_entries in H2. destruct H1 as (H1 & _), H2 as (H2 & H3 & _). apply (in_new_born _ _ _ Hl) in H2. apply active_nth in H1, H3. destruct H2 as (_ & H2). congruence. }
  exists (L ++ M). split; [now apply tables_adds|]. split; [exact HM|]. intros k s. rewrite in_app_iff, HL. unfold M. rewrite in_entries, (in_new_born _ _ _ Hl). split.
  - intros [(H1 & H2)|(_ & H1 & H2)]; split; auto.
  - intros (H1 & H2). destruct (nth (fst s) old false) eqn:E; [left; split; [now apply active_nth|exact H2]|]. right. split; [|auto]. split; [now apply active_length|].
    apply active_nth in H1. congruence.
Qed.
(** what the table reports *)
Lemma tracks_external tab cf t s : tracks tab cf t ->
  (In s (face_diff (all_faces t) (inner_faces t)) <-> active tab (fst s) /\ exists k, key_of cf s = Some k /\ forall s', active tab (fst s') -> key_of cf s' = Some k -> s' = s).
Proof.
  intros (L & (Ha & Hh & Hi) & Hn & HL). rewrite in_face_diff, Ha, Hi, in_map_iff. split.
  - intros (((k, s0) & Es & H) & Hni). cbn in Es. subst s0. pose proof H as H0. apply HL in H. destruct H as (H1 & H2). split; [exact H1|]. exists k. split; [exact H2|]. intros s' H1' H2'.
    destruct (face_dec s' s) as [E|E]; [exact E|]. exfalso. apply Hni. exists k, s'. split; [exact H0|]. split; [apply HL; auto|exact E].
  - intros (H1 & k & H2 & H3). split; [exists (k, s); split; [reflexivity|apply HL; auto]|]. intros (k' & s' & Hk & Hk' & Hne). apply HL in Hk, Hk'. destruct Hk as (_ & Hk). rewrite H2 in Hk. injection Hk as <-.
    apply Hne, H3; apply Hk'.
Qed.

(** ** from keys to faces *)
Section Keys.
Variables (np nn : nat) (face_inds cells : list (list nat)).
Hypothesis Hwf : wf_cells np nn face_inds cells.
Let faces_of c := map (fun f => sort_nat (nodes_of_face cells face_inds (c, f))) (seq 0 (length face_inds)).
Lemma cells_face_ok : get_cells_face face_inds cells = Ok (map (fun cell => map (fun f => sort_nat (map (fun a => nth a cell 0%nat) f)) face_inds) cells).
Proof.
  destruct Hwf as (Hc & Hf). clear Hwf faces_of. unfold get_cells_face. apply mapM_Ok_iff. induction Hc as [|cell r (Hl & Hn) Hr IH]; cbn; [constructor|]. constructor; [|exact IH]. apply mapM_Ok_iff.
  clear IH. induction Hf as [|f fr Hff Hfr IH']; cbn; [constructor|]. constructor; [|exact IH']. rewrite (take_ok 0%nat) by (rewrite Hl; exact Hff). reflexivity.
Qed.
Variable cf : list (list (list nat)).
Hypothesis Hcf : get_cells_face face_inds cells = Ok cf.
Lemma key_spec s k : key_of cf s = Some k <-> (fst s < length cells)%nat /\ (snd s < length face_inds)%nat /\ k = sort_nat (nodes_of_face cells face_inds s).
Proof.
  rewrite cells_face_ok in Hcf. assert (Ec : cf = map (fun cell => map (fun f => sort_nat (map (fun a => nth a cell 0%nat) f)) face_inds) cells) by congruence.
  unfold key_of, nodes_of_face. rewrite Ec. destruct (Nat.lt_ge_cases (fst s) (length cells)) as [Hc|Hc].
  - rewrite (nth_indep _ [] (map (fun f => sort_nat (map (fun a => nth a ([] : list nat) 0%nat) f)) face_inds)) by (now rewrite map_length).
    rewrite (map_nth (fun cell => map (fun f => sort_nat (map (fun a => nth a cell 0%nat) f)) face_inds) cells []). rewrite nth_error_map.
    destruct (nth_error face_inds (snd s)) as [f|] eqn:E; cbn.
    + rewrite (nth_error_nth _ _ _ E). assert ((snd s < length face_inds)%nat) by (apply nth_error_Some; congruence). split; [injection 1 as <-; auto|]. intros (_ & _ & ->). reflexivity.
    + split; [discriminate|]. intros (_ & H & _). apply nth_error_Some in H. contradiction.
  - rewrite (nth_overflow (map _ cells)) by (now rewrite map_length). split; [destruct (snd s); discriminate|]. intros (H & _). lia.
Qed.
Lemma cf_length : length cf = length cells.
Proof. apply mapM_Ok_iff, Forall2_len in Hcf. now symmetry. Qed.
Variables (tab : list bool) (t : tables).
Hypothesis Hr : forall c, active tab c -> (c < length cells)%nat.
Lemma tracks_exterior s : tracks tab cf t -> (In s (face_diff (all_faces t) (inner_faces t)) <-> exterior cells face_inds tab s).
Proof.
  intros Ht. rewrite (tracks_external _ _ _ _ Ht). unfold exterior. split.
  - intros (Ha & k & Hk & Hu). split; [exact Ha|]. apply key_spec in Hk. destruct Hk as (H1 & H2 & ->). split; [exact H2|]. intros s' Ha' Hs' Hp. apply Hu; [exact Ha'|].
    apply key_spec. split; [now apply Hr|]. split; [exact Hs'|]. now apply sort_perm_eq.
  - intros (Ha & Hs & Hu). split; [exact Ha|]. exists (sort_nat (nodes_of_face cells face_inds s)). split; [apply key_spec; auto|].
    intros s' Ha' Hk. apply key_spec in Hk. destruct Hk as (_ & Hs' & Hp). apply Hu; [exact Ha'|exact Hs'|]. now apply sort_eq_iff.
Qed.
End Keys.
Lemma renumber_spec tab cm l : (forall c, active tab c -> nth_error cm c = Some (rank tab c)) -> (forall s, In s l -> active tab (fst s)) -> l <> [] ->
  renumber cm l = Ok (map (fun s => (rank tab (fst s), snd s)) l).
Proof.
  intros Hcm Hl Hn. unfold renumber. destruct l as [|s0 r0]; [congruence|]. remember (s0 :: r0) as l. clear Hn Heql s0 r0.
  assert (E : take cm (map fst l) = Ok (map (fun s => rank tab (fst s)) l)).
  { apply take_Ok_iff. induction l as [|s r IH]; cbn; [constructor|]. constructor; [apply Hcm, Hl; now left|]. apply IH. intros; apply Hl. now right. }
  rewrite E. cbn [bind]. f_equal. clear. induction l as [|s r IH]; cbn; congruence.
Qed.
Lemma report_of cells face_inds tab l : NoDup l -> (forall s, In s l <-> exterior cells face_inds tab s) -> reports cells face_inds tab (map (fun s => (rank tab (fst s), snd s)) l).
Proof.
  intros Hn Hl. split.
  - assert (Ha : forall s, In s l -> active tab (fst s)) by (intros s Hs; apply Hl in Hs; apply Hs). clear Hl. induction Hn as [|s r Hs Hr IH]; cbn; constructor.
    + intros Hi. apply in_map_iff in Hi. destruct Hi as (s' & E & Hi). injection E as E1 E2. apply Hs.
      apply rank_inj in E1; [|apply Ha; now right|apply Ha; now left]. destruct s, s'; cbn in *; subst. exact Hi.
    + apply IH. intros; apply Ha; now right.
  - intros k f. rewrite in_map_iff. split.
    + intros ((c, f') & E & Hi). cbn in E. injection E as <- <-. exists c. split; [now apply Hl|reflexivity].
    + intros (c & He & ->). exists (c, f). split; [reflexivity|now apply Hl].
Qed.
Lemma reports_perm cells face_inds tab l l' : reports cells face_inds tab l -> reports cells face_inds tab l' -> Permutation l l'.
Proof. intros (N & H) (N' & H'). apply NoDup_Permutation; auto. intros (k, f). now rewrite H, H'. Qed.

Section Histories.
Context {P : Type}.
Variables (order : list face -> list face) (np nn : nat) (face_inds : list (list nat)) (m : mesh P).
Let cells := m_cells m.
Hypothesis Ho : set_order order.
Hypothesis Hwf : wf_cells np nn face_inds cells.
Lemma order_facts l : (forall s, In s (order l) <-> In s l) /\ (NoDup l -> NoDup (order l)) /\ (order l = [] <-> l = []).
Proof.
  pose proof (Ho l) as H. split; [|split].
  - intros s. split; apply Permutation_in; [exact H|now apply Permutation_sym].
  - apply Permutation_NoDup. now apply Permutation_sym.
  - split; intros E; [rewrite E in H; now apply Permutation_nil|]. rewrite E in H |- *. apply Permutation_nil, Permutation_sym. exact H.
Qed.
(** one call of hash_map_for_faces, then renumbering *)
Lemma after_call tab am pm cm cf t : get_active_mesh m tab = Ok (am, pm, cm) -> get_cells_face face_inds cells = Ok cf -> tracks tab cf t ->
  let l := order (face_diff (all_faces t) (inner_faces t)) in
  (forall s, In s l <-> exterior cells face_inds tab s) /\
  ((exists s, exterior cells face_inds tab s) -> exists ext, renumber cm l = Ok ext /\ reports cells face_inds tab ext)
  /\ ((forall s, ~ exterior cells face_inds tab s) -> renumber cm l = Err IndexError).
Proof.
  intros Em Ecf Ht l. destruct (order_facts (face_diff (all_faces t) (inner_faces t))) as (O1 & O2 & O3).
  assert (Hl : forall s, In s l <-> exterior cells face_inds tab s).
  { intros s. unfold l. rewrite O1. apply (tracks_exterior np nn face_inds cells Hwf cf Ecf tab t); [|exact Ht]. intros c Hc. exact (active_in_range m tab am pm cm Em c Hc). }
  split; [exact Hl|]. split.
  - intros (s & Hs). assert (Hne : l <> []) by (intros E; apply Hl in Hs; rewrite E in Hs; destruct Hs). eexists. split; [apply (renumber_spec tab)|].
    + intros c Hc. exact (cells_map m tab am pm cm Em c Hc).
    + intros s' Hs'. apply Hl in Hs'. apply Hs'.
    + exact Hne.
    + apply report_of; [apply O2, face_diff_NoDup|exact Hl].
  - intros Hn. assert (l = []) as ->; [|reflexivity]. destruct l as [|s r] eqn:E; [reflexivity|]. exfalso. apply (Hn s). apply Hl. now left.
Qed.
Lemma init_spec tab am pm cm : length tab = length cells -> get_active_mesh m tab = Ok (am, pm, cm) ->
  ((exists s, exterior cells face_inds tab s) -> exists ext cf t, initialize_hash_map order face_inds cells tab cm = Ok (ext, cf, t)
     /\ get_cells_face face_inds cells = Ok cf /\ tracks tab cf t /\ reports cells face_inds tab ext)
  /\ ((forall s, ~ exterior cells face_inds tab s) -> initialize_hash_map order face_inds cells tab cm = Err IndexError).
Proof.
  intros Hl Em. pose proof (cells_face_ok np nn face_inds cells Hwf) as Ecf. set (cf := map _ cells) in Ecf. pose proof (cf_length face_inds cells cf Ecf) as Lcf.
  set (t := fold_left add_face (entries tab cf (seq 0 (length cf))) (mkTables [] [] [])).
  assert (Ea : add_cells tab cf (mkTables [] [] []) (seq 0 (length cf)) = Ok t).
  { apply add_cells_eq. apply Forall_forall. intros c Hc. apply in_seq in Hc. rewrite Hl. unfold cells in *. lia. }
  destruct (after_call tab am pm cm cf t Em Ecf (tracks_init tab cf)) as (H1 & H2 & H3).
  unfold initialize_hash_map, hash_map_for_faces. rewrite Ecf. cbn [bind]. rewrite Ea. cbn [bind fst snd]. split.
  - intros Hx. destruct (H2 Hx) as (ext & E & Hrep). exists ext, cf, t. rewrite E. cbn [bind]. split; [reflexivity|]. split; [reflexivity|]. split; [apply tracks_init|exact Hrep].
  - intros Hx. rewrite (H3 Hx). reflexivity.
Qed.
Lemma update_spec tab tab' am pm cm cf t : length tab' = length cells -> growing tab tab' -> get_active_mesh m tab' = Ok (am, pm, cm) -> get_cells_face face_inds cells = Ok cf -> tracks tab cf t ->
  ((exists s, exterior cells face_inds tab' s) -> exists ext t', update_hash_map order tab tab' cm cf t = Ok (ext, t') /\ tracks tab' cf t' /\ reports cells face_inds tab' ext)
  /\ ((forall s, ~ exterior cells face_inds tab' s) -> update_hash_map order tab tab' cm cf t = Err IndexError).
Proof.
  intros Hl Hg Em Ecf Ht. pose proof (cf_length face_inds cells cf Ecf) as Lcf. set (t' := fold_left add_face (entries tab' cf (new_born tab tab')) t).
  assert (Ea : add_cells tab' cf t (new_born tab tab') = Ok t').
  { apply add_cells_eq. apply Forall_forall. intros c Hc. apply in_new_born in Hc; [|apply Hg]. rewrite Lcf. unfold cells in *. lia. }
  pose proof (tracks_update tab tab' cf t Hg Ht) as Ht'. destruct (after_call tab' am pm cm cf t' Em Ecf Ht') as (H1 & H2 & H3).
  unfold update_hash_map, hash_map_for_faces. rewrite Ea. cbn [bind fst snd]. split.
  - intros Hx. destruct (H2 Hx) as (ext & E & Hrep). exists ext, t'. rewrite E. cbn [bind]. auto.
  - intros Hx. rewrite (H3 Hx). reflexivity.
Qed.
End Histories.

Lemma exterior_dec_cases {X} (tab : list bool) (face_inds cells : list (list nat)) (t : tables) (cf : X) l : (forall s, In s l <-> exterior cells face_inds tab s) ->
  (exists s, exterior cells face_inds tab s) \/ (forall s, ~ exterior cells face_inds tab s).
Proof.
  intros H. destruct l as [|s r]; [right; intros s Hs; now apply H in Hs|left; exists s; apply H; now left].
Qed.
Lemma history_inv order np nn face_inds cells tab cf t ext : set_order order -> wf_cells np nn face_inds cells -> face_history order face_inds cells tab cf t ext ->
  length tab = length cells /\ get_cells_face face_inds cells = Ok cf /\ tracks tab cf t /\ reports cells face_inds tab ext.
Proof.
  intros Ho Hwf H. induction H as [tab P m am pm cm ext cf t Hl Hm Em Ei|tab cf t ext tab' P m am pm cm ext' t' H IH Hg Hm Em Eu].
  - subst cells. split; [exact Hl|]. destruct (init_spec order np nn face_inds m Ho Hwf tab am pm cm Hl Em) as (H1 & H2).
    pose proof (cells_face_ok np nn face_inds (m_cells m) Hwf) as Ecf. set (cf0 := map _ (m_cells m)) in Ecf.
    destruct (after_call order np nn face_inds m Ho Hwf tab am pm cm cf0 _ Em Ecf (tracks_init tab cf0)) as (A & _).
    destruct (exterior_dec_cases tab face_inds (m_cells m) t cf _ A) as [Hx|Hx]; [|rewrite (H2 Hx) in Ei; discriminate].
    destruct (H1 Hx) as (ext0 & cf1 & t1 & E & E' & Ht & Hrep). rewrite E in Ei. injection Ei as <- <- <-. auto.
  - destruct IH as (Hl & Ecf & Ht & Hrep). subst cells. assert (Hl' : length tab' = length (m_cells m)) by (rewrite <- Hl; symmetry; apply Hg).
    destruct (update_spec order np nn face_inds m Ho Hwf tab tab' am pm cm cf t Hl' Hg Em Ecf Ht) as (H1 & H2).
    destruct (after_call order np nn face_inds m Ho Hwf tab' am pm cm cf _ Em Ecf (tracks_update tab tab' cf t Hg Ht)) as (A & _).
    destruct (exterior_dec_cases tab' face_inds (m_cells m) t cf _ A) as [Hx|Hx]; [|rewrite (H2 Hx) in Eu; discriminate].
    destruct (H1 Hx) as (ext0 & t1 & E & Ht' & Hrep'). rewrite E in Eu. injection Eu as <- <-. auto.
Qed.
Lemma rank_lt tab c c' : active tab c -> (c < c')%nat -> (rank tab c < rank tab c')%nat.
Proof.
  unfold rank. revert c c'. induction tab as [|b r IH]; intros [|c] [|c'] Ha Hc; try lia; try discriminate.
  - unfold active in Ha. cbn in Ha. injection Ha as ->. cbn. lia.
  - cbn. assert (H := IH c c' Ha ltac:(lia)). destruct b; cbn; lia.
Qed.
