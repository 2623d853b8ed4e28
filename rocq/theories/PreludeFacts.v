(** * Lemmas about the shared vocabulary *)
From Verif Require Import Prelude.
From Coq Require Import Permutation Lra Sorted.

(** ** C-order enumeration *)
Lemma flat_map_const_length {A B} (f : A -> list B) (c : nat) (l : list A) :
  (forall x, In x l -> length (f x) = c) -> length (flat_map f l) = length l * c.
Proof.
  induction l as [|x l IH]; intros H; cbn; [reflexivity|].
  rewrite app_length, IH, (H x); [lia | now left | intros; apply H; now right].
Qed.

Lemma nth_error_flat_map_const {A B} (f : A -> list B) (c : nat) (l : list A) i j x :
  (forall y, In y l -> length (f y) = c) -> j < c ->
  nth_error l i = Some x ->
  nth_error (flat_map f l) (i * c + j) = nth_error (f x) j.
Proof.
  revert i; induction l as [|y l IH]; intros i H Hj Hi; [destruct i; discriminate|].
  cbn. destruct i as [|i]; cbn in Hi.
  - injection Hi as ->. cbn. rewrite nth_error_app1; [reflexivity|].
    rewrite (H x); [assumption | now left].
  - rewrite nth_error_app2; rewrite (H y); try (now left); [|cbn; lia].
    replace (S i * c + j - c) with (i * c + j) by (cbn; lia).
    apply IH; [intros; apply H; now right | assumption | assumption].
Qed.

Lemma nth_error_seq0 n i : i < n -> nth_error (seq 0 n) i = Some i.
Proof.
  intros H. rewrite (nth_error_nth' _ 0); [|now rewrite seq_length].
  now rewrite seq_nth.
Qed.

Lemma flat2_length {A} n1 n2 (f : nat -> nat -> A) : length (flat2 n1 n2 f) = n1 * n2.
Proof.
  unfold flat2. rewrite (flat_map_const_length _ n2).
  - now rewrite seq_length.
  - intros. now rewrite map_length, seq_length.
Qed.

Lemma flat3_length {A} n1 n2 n3 (f : nat -> nat -> nat -> A) :
  length (flat3 n1 n2 n3 f) = n1 * (n2 * n3).
Proof.
  unfold flat3. rewrite (flat_map_const_length _ (n2 * n3)).
  - now rewrite seq_length.
  - intros. apply flat2_length.
Qed.

Lemma nth_error_flat2 {A} n1 n2 (f : nat -> nat -> A) i j :
  i < n1 -> j < n2 -> nth_error (flat2 n1 n2 f) (i * n2 + j) = Some (f i j).
Proof.
  intros Hi Hj. unfold flat2.
  rewrite (nth_error_flat_map_const _ n2 _ i j i); [| |assumption|now apply nth_error_seq0].
  - rewrite nth_error_map, nth_error_seq0; auto.
  - intros. now rewrite map_length, seq_length.
Qed.

Lemma nth_error_flat3 {A} n1 n2 n3 (f : nat -> nat -> nat -> A) i j k :
  i < n1 -> j < n2 -> k < n3 ->
  nth_error (flat3 n1 n2 n3 f) (i * (n2 * n3) + j * n3 + k) = Some (f i j k).
Proof.
  intros Hi Hj Hk. unfold flat3. rewrite <- Nat.add_assoc.
  rewrite (nth_error_flat_map_const _ (n2 * n3) _ i (j * n3 + k) i).
  - now apply nth_error_flat2.
  - intros. apply flat2_length.
  - nia.
  - now apply nth_error_seq0.
Qed.

Lemma in_flat2 {A} n1 n2 (f : nat -> nat -> A) x :
  In x (flat2 n1 n2 f) <-> exists i j, i < n1 /\ j < n2 /\ x = f i j.
Proof.
  unfold flat2. rewrite in_flat_map. split.
  - intros (i & Hi & Hx). rewrite in_map_iff in Hx. destruct Hx as (j & <- & Hj).
    rewrite in_seq in Hi, Hj. exists i, j. repeat split; lia.
  - intros (i & j & Hi & Hj & ->). exists i. split; [apply in_seq; lia|].
    apply in_map_iff. exists j. split; [reflexivity | apply in_seq; lia].
Qed.

Lemma in_flat3 {A} n1 n2 n3 (f : nat -> nat -> nat -> A) x :
  In x (flat3 n1 n2 n3 f) <-> exists i j k, i < n1 /\ j < n2 /\ k < n3 /\ x = f i j k.
Proof.
  unfold flat3. rewrite in_flat_map. split.
  - intros (i & Hi & Hx). rewrite in_flat2 in Hx. destruct Hx as (j & k & Hj & Hk & ->).
    rewrite in_seq in Hi. exists i, j, k. repeat split; lia.
  - intros (i & j & k & Hi & Hj & Hk & ->). exists i. split; [apply in_seq; lia|].
    apply in_flat2. eauto.
Qed.

Lemma map_flat2 {A B} (g : A -> B) n1 n2 f :
  map g (flat2 n1 n2 f) = flat2 n1 n2 (fun i j => g (f i j)).
Proof.
  unfold flat2. rewrite flat_map_concat_map, concat_map, map_map, <- flat_map_concat_map.
  apply flat_map_ext. intros. now rewrite map_map.
Qed.

Lemma map_flat3 {A B} (g : A -> B) n1 n2 n3 f :
  map g (flat3 n1 n2 n3 f) = flat3 n1 n2 n3 (fun i j k => g (f i j k)).
Proof.
  unfold flat3. rewrite flat_map_concat_map, concat_map, map_map, <- flat_map_concat_map.
  apply flat_map_ext. intros. apply map_flat2.
Qed.

(** Decoding a flat C-order index. *)
Lemma decode2 n1 n2 m : m < n1 * n2 ->
  m / n2 < n1 /\ m mod n2 < n2 /\ (m / n2) * n2 + m mod n2 = m.
Proof.
  intros H. assert (n2 <> 0) by nia.
  pose proof (Nat.div_mod m n2 ltac:(assumption)) as E.
  pose proof (Nat.mod_upper_bound m n2 ltac:(assumption)).
  repeat split; [|assumption|lia]. apply Nat.div_lt_upper_bound; lia.
Qed.

Lemma decode3 n1 n2 n3 m : m < n1 * (n2 * n3) ->
  m / n3 / n2 < n1 /\ (m / n3) mod n2 < n2 /\ m mod n3 < n3 /\
  (m / n3 / n2) * (n2 * n3) + ((m / n3) mod n2) * n3 + m mod n3 = m.
Proof.
  intros H. assert (n2 <> 0) by nia. assert (n3 <> 0) by nia.
  pose proof (Nat.div_mod m n3 ltac:(assumption)).
  pose proof (Nat.mod_upper_bound m n3 ltac:(assumption)).
  pose proof (Nat.div_mod (m / n3) n2 ltac:(assumption)).
  pose proof (Nat.mod_upper_bound (m / n3) n2 ltac:(assumption)).
  repeat split; try assumption.
  - apply Nat.div_lt_upper_bound; [assumption|].
    apply Nat.div_lt_upper_bound; [assumption|]. nia.
  - nia.
Qed.

Lemma encode2_inj n2 i j i' j' : j < n2 -> j' < n2 ->
  i * n2 + j = i' * n2 + j' -> i = i' /\ j = j'.
Proof. intros. assert (i = i') by nia. subst. split; lia. Qed.

Lemma encode3_inj n2 n3 i j k i' j' k' : j < n2 -> j' < n2 -> k < n3 -> k' < n3 ->
  i * (n2 * n3) + j * n3 + k = i' * (n2 * n3) + j' * n3 + k' -> i = i' /\ j = j' /\ k = k'.
Proof.
  intros Hj Hj' Hk Hk' E.
  assert (E' : (i * n2 + j) * n3 + k = (i' * n2 + j') * n3 + k') by nia.
  apply encode2_inj in E'; [|assumption|assumption]. destruct E' as [E1 ->].
  apply encode2_inj in E1; [|assumption|assumption]. destruct E1 as [-> ->]. auto.
Qed.

Lemma encode3_lt n1 n2 n3 i j k : i < n1 -> j < n2 -> k < n3 ->
  i * (n2 * n3) + j * n3 + k < n1 * (n2 * n3).
Proof. intros. assert (j * n3 + k < n2 * n3) by nia. nia. Qed.

Lemma encode2_lt n1 n2 i j : i < n1 -> j < n2 -> i * n2 + j < n1 * n2.
Proof. intros. nia. Qed.

(** ** Sums *)
Open Scope R_scope.

Lemma sumR_app {A} (l l' : list A) f : sumR (l ++ l') f = sumR l f + sumR l' f.
Proof. induction l; cbn; [lra|]. rewrite IHl. lra. Qed.

Lemma sumR_ext {A} (l : list A) f g : (forall x, In x l -> f x = g x) -> sumR l f = sumR l g.
Proof.
  induction l as [|a l IH]; cbn; intros H; [reflexivity|].
  rewrite (H a), IH; auto.
Qed.

Lemma sumR_add {A} (l : list A) f g : sumR l (fun x => f x + g x) = sumR l f + sumR l g.
Proof. induction l; cbn; [lra|]. rewrite IHl. lra. Qed.

Lemma sumR_sub {A} (l : list A) f g : sumR l (fun x => f x - g x) = sumR l f - sumR l g.
Proof. induction l; cbn; [lra|]. rewrite IHl. lra. Qed.

Lemma sumR_opp {A} (l : list A) f : sumR l (fun x => - f x) = - sumR l f.
Proof. induction l; cbn; [lra|]. rewrite IHl. lra. Qed.

Lemma sumR_scal {A} (l : list A) c f : sumR l (fun x => c * f x) = c * sumR l f.
Proof. induction l; cbn; [lra|]. rewrite IHl. lra. Qed.

Lemma sumR_scal_r {A} (l : list A) c f : sumR l (fun x => f x * c) = sumR l f * c.
Proof. induction l; cbn; [lra|]. rewrite IHl. lra. Qed.

Lemma sumR_zero {A} (l : list A) f : (forall x, In x l -> f x = 0) -> sumR l f = 0.
Proof.
  induction l as [|a l IH]; cbn; intros H; [reflexivity|].
  rewrite (H a), IH; auto; lra.
Qed.

Lemma sumR_const {A} (l : list A) c : sumR l (fun _ => c) = INR (length l) * c.
Proof. induction l; cbn [sumR length]; [cbn; lra|]. rewrite IHl, S_INR. lra. Qed.

Lemma sumR_map {A B} (g : A -> B) l f : sumR (map g l) f = sumR l (fun x => f (g x)).
Proof. induction l; cbn; [reflexivity|]. now rewrite IHl. Qed.

Lemma sumR_flat_map {A B} (g : A -> list B) l f :
  sumR (flat_map g l) f = sumR l (fun x => sumR (g x) f).
Proof. induction l; cbn; [reflexivity|]. now rewrite sumR_app, IHl. Qed.

Lemma sumR_swap {A B} (l : list A) (m : list B) f :
  sumR l (fun x => sumR m (f x)) = sumR m (fun y => sumR l (fun x => f x y)).
Proof.
  induction l as [|a l IH]; cbn.
  - symmetry. apply sumR_zero. auto.
  - rewrite IH. now rewrite sumR_add.
Qed.

Lemma sumR_perm {A} (l l' : list A) f : Permutation l l' -> sumR l f = sumR l' f.
Proof. induction 1; cbn; try lra. Qed.

Lemma sumR_nonneg {A} (l : list A) f : (forall x, In x l -> 0 <= f x) -> 0 <= sumR l f.
Proof.
  induction l as [|a l IH]; cbn; intros H; [lra|].
  pose proof (H a (or_introl eq_refl)). assert (0 <= sumR l f) by (apply IH; auto). lra.
Qed.

Lemma sumR_le {A} (l : list A) f g : (forall x, In x l -> f x <= g x) -> sumR l f <= sumR l g.
Proof.
  induction l as [|a l IH]; cbn; intros H; [lra|].
  pose proof (H a (or_introl eq_refl)). assert (sumR l f <= sumR l g) by (apply IH; auto). lra.
Qed.

(** Re-indexing a finite sum along an injective self-map of the index list. *)
Lemma sumR_reindex {A} (l : list A) (g : A -> A) f :
  NoDup l -> (forall x, In x l -> In (g x) l) ->
  (forall x y, In x l -> In y l -> g x = g y -> x = y) ->
  sumR l (fun x => f (g x)) = sumR l f.
Proof.
  intros ND Hin Hinj. rewrite <- (sumR_map g l f). apply sumR_perm.
  assert (NDm : NoDup (map g l)).
  { clear Hin. induction l as [|a l IH]; cbn; constructor.
    - inversion ND; subst. intros C. apply in_map_iff in C. destruct C as (b & E & Hb).
      apply Hinj in E; [subst; contradiction | now right | now left].
    - inversion ND; subst. apply IH; [assumption|]. intros x y Hx Hy. apply Hinj; now right. }
  apply NoDup_Permutation_bis; [assumption | now rewrite map_length |].
  intros y Hy. apply in_map_iff in Hy. destruct Hy as (x & <- & Hx). now apply Hin.
Qed.

(** A sum that vanishes off a single index. *)
Lemma sumR_single {A} (l : list A) x0 f :
  NoDup l -> In x0 l -> (forall x, In x l -> x <> x0 -> f x = 0) -> sumR l f = f x0.
Proof.
  induction l as [|a l IH]; intros ND Hin Hz; [destruct Hin|]. inversion ND; subst. cbn.
  destruct Hin as [->|Hin].
  - rewrite (sumR_zero l f); [lra|]. intros x Hx. apply Hz; [now right|]. intros ->; contradiction.
  - rewrite IH; auto.
    + rewrite (Hz a); [lra | now left | intros ->; contradiction].
    + intros x Hx. apply Hz. now right.
Qed.

Lemma sumR_flat2 {A} n1 n2 (g : nat -> nat -> A) f :
  sumR (flat2 n1 n2 g) f = sumR (seq 0 n1) (fun i => sumR (seq 0 n2) (fun j => f (g i j))).
Proof. unfold flat2. rewrite sumR_flat_map. apply sumR_ext. intros. apply sumR_map. Qed.

Lemma sumR_flat3 {A} n1 n2 n3 (g : nat -> nat -> nat -> A) f :
  sumR (flat3 n1 n2 n3 g) f =
  sumR (seq 0 n1) (fun i => sumR (seq 0 n2) (fun j => sumR (seq 0 n3) (fun k => f (g i j k)))).
Proof. unfold flat3. rewrite sumR_flat_map. apply sumR_ext. intros. apply sumR_flat2. Qed.

Lemma sumR_seq_shift n s f : sumR (seq s n) f = sumR (seq 0 n) (fun i => f (s + i)%nat).
Proof.
  revert s f; induction n as [|n IH]; intros s f; cbn; [reflexivity|].
  rewrite IH, (IH 1%nat). rewrite Nat.add_0_r. f_equal.
  apply sumR_ext. intros. f_equal. lia.
Qed.

Lemma sumR_seq_S n f : sumR (seq 0 (S n)) f = sumR (seq 0 n) f + f n.
Proof. rewrite seq_S, sumR_app. cbn. lra. Qed.

Lemma sumR_telescope n (f : nat -> R) :
  sumR (seq 0 n) (fun i => f (S i) - f i) = f n - f 0%nat.
Proof.
  induction n as [|n IH]; [cbn; lra|]. rewrite sumR_seq_S, IH. lra.
Qed.

(** ** Comparisons *)
Lemma Rltb_true x y : Rltb x y = true <-> x < y.
Proof. unfold Rltb. destruct (Rlt_dec x y); split; auto; discriminate. Qed.
Lemma Rltb_false x y : Rltb x y = false <-> y <= x.
Proof. unfold Rltb. destruct (Rlt_dec x y); split; try discriminate; auto; lra. Qed.
Lemma Rleb_true x y : Rleb x y = true <-> x <= y.
Proof. unfold Rleb. destruct (Rle_dec x y); split; auto; discriminate. Qed.
Lemma Rleb_false x y : Rleb x y = false <-> y < x.
Proof. unfold Rleb. destruct (Rle_dec x y); split; try discriminate; auto; lra. Qed.
Lemma Reqb_true x y : Reqb x y = true <-> x = y.
Proof. unfold Reqb. destruct (Req_EM_T x y); split; auto; discriminate. Qed.
Lemma Reqb_false x y : Reqb x y = false <-> x <> y.
Proof. unfold Reqb. destruct (Req_EM_T x y); split; try discriminate; auto; contradiction. Qed.

Close Scope R_scope.

(** ** Index normalisation *)
Lemma jax_index_in n i : (0 <= i < n)%Z -> jax_index n i = i.
Proof. unfold jax_index, clipZ. destruct (Z.ltb_spec i 0); lia. Qed.
Lemma jax_index_range n i : (0 < n)%Z -> (0 <= jax_index n i < n)%Z.
Proof. unfold jax_index, clipZ. destruct (Z.ltb_spec i 0); lia. Qed.

(** ** List update *)
Lemma upd_length {A} (l : list A) i v : length (upd l i v) = length l.
Proof. revert i; induction l; destruct i; cbn; auto. Qed.

Lemma nth_error_upd {A} (l : list A) i v j :
  nth_error (upd l i v) j =
  if Nat.eqb i j then (if Nat.ltb j (length l) then Some v else None) else nth_error l j.
Proof.
  revert i j; induction l as [|a l IH]; intros i j.
  - destruct i; destruct j; cbn; try reflexivity. now destruct (Nat.eqb i j).
  - destruct i; destruct j; cbn; try reflexivity. rewrite IH. reflexivity.
Qed.

Lemma nth_upd {A} (l : list A) i v j d :
  nth j (upd l i v) d =
  if Nat.eqb i j then (if Nat.ltb j (length l) then v else d) else nth j l d.
Proof.
  revert i j; induction l as [|a l IH]; intros i j.
  - destruct i; destruct j; cbn; try reflexivity. now destruct (Nat.eqb i j).
  - destruct i; destruct j; cbn; try reflexivity. now rewrite IH.
Qed.

(** ** argwhere *)
Lemma in_argwhere_from {A} (p : A -> bool) l i n :
  In n (argwhere_from p l i) <->
  i <= n /\ exists x, nth_error l (n - i) = Some x /\ p x = true.
Proof.
  revert i; induction l as [|a l IH]; intros i; cbn.
  - split; [intros []|]. intros (_ & x & E & _). destruct (n - i); discriminate.
  - assert (Hs : (In n (argwhere_from p l (S i)) \/ (n = i /\ p a = true)) <->
             i <= n /\ exists x, nth_error (a :: l) (n - i) = Some x /\ p x = true).
    { rewrite IH. split.
      - intros [[H1 (x & E & Hp)] | [-> Hp]].
        + split; [lia|]. exists x. replace (n - i) with (S (n - S i)) by lia. auto.
        + split; [lia|]. exists a. now rewrite Nat.sub_diag.
      - intros [H1 (x & E & Hp)]. destruct (Nat.eq_dec n i) as [->|Hne].
        + right. rewrite Nat.sub_diag in E. cbn in E. injection E as ->. auto.
        + left. split; [lia|]. exists x. replace (n - i) with (S (n - S i)) in E by lia. auto. }
    destruct (p a) eqn:Hp; cbn; rewrite <- Hs; intuition congruence.
Qed.

Lemma in_argwhere {A} (p : A -> bool) l n :
  In n (argwhere p l) <-> exists x, nth_error l n = Some x /\ p x = true.
Proof.
  unfold argwhere. rewrite in_argwhere_from, Nat.sub_0_r. intuition lia.
Qed.

Lemma argwhere_from_ge {A} (p : A -> bool) l i n : In n (argwhere_from p l i) -> i <= n.
Proof. intros H. apply in_argwhere_from in H. tauto. Qed.

Lemma argwhere_sorted {A} (p : A -> bool) l i :
  Sorted.StronglySorted lt (argwhere_from p l i).
Proof.
  revert i; induction l as [|a l IH]; intros i; cbn; [constructor|].
  destruct (p a); [|apply IH]. constructor; [apply IH|].
  apply Forall_forall. intros n Hn. apply argwhere_from_ge in Hn. lia.
Qed.

Lemma StronglySorted_lt_NoDup l : Sorted.StronglySorted lt l -> NoDup l.
Proof.
  induction 1 as [|a l H IH Hf]; constructor; [|assumption].
  intros C. rewrite Forall_forall in Hf. specialize (Hf _ C). lia.
Qed.

Lemma argwhere_NoDup {A} (p : A -> bool) l : NoDup (argwhere p l).
Proof. apply StronglySorted_lt_NoDup, argwhere_sorted. Qed.

Lemma mapM_ok_length {A B} (f : A -> res B) l ys : mapM f l = Ok ys -> length ys = length l.
Proof.
  revert ys; induction l as [|a l IH]; cbn; intros ys H.
  - now injection H as <-.
  - destruct (f a); cbn in H; [|discriminate].
    destruct (mapM f l) eqn:E; cbn in H; [|discriminate]. injection H as <-. cbn. f_equal; auto.
Qed.
