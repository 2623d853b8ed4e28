(** * Facts about structured grids shared by several modules. *)
From Verif Require Import Prelude PreludeFacts.
From Coq Require Import Lra Psatz ZifyBool ZifyNat.
Open Scope R_scope.

Lemma list_ext {A} (l : list A) : forall l', (forall m, nth_error l m = nth_error l' m) -> l = l'.
Proof.
  induction l as [|x l IH]; intros [|y l'] H; auto.
  - specialize (H 0%nat). discriminate.
  - specialize (H 0%nat). discriminate.
  - pose proof (H 0%nat) as H0. cbn in H0. inversion H0; subst. f_equal. apply IH. intros m. apply (H (S m)).
Qed.

Lemma seq_flat3 n1 n2 n3 :
  seq 0 (n1 * (n2 * n3)) = flat3 n1 n2 n3 (fun k j i => (k * (n2 * n3) + j * n3 + i)%nat).
Proof.
  apply list_ext. intros m.
  destruct (Nat.lt_ge_cases m (n1 * (n2 * n3))) as [H|H].
  - rewrite nth_error_seq0 by exact H.
    destruct (decode3 n1 n2 n3 m H) as (A & B & C & D).
    rewrite <- D at 2. rewrite nth_error_flat3 by assumption. now rewrite D.
  - transitivity (@None nat); [|symmetry]; apply nth_error_None;
      [rewrite seq_length|rewrite flat3_length]; lia.
Qed.

Lemma decode_encode n2 n3 k j i : (j < n2)%nat -> (i < n3)%nat ->
  let n := (k * (n2 * n3) + j * n3 + i)%nat in
  (n / n3 / n2)%nat = k /\ ((n / n3) mod n2)%nat = j /\ (n mod n3)%nat = i.
Proof.
  intros Hj Hi n.
  assert (E : (n / n3)%nat = (k * n2 + j)%nat).
  { unfold n. replace (k * (n2 * n3) + j * n3 + i)%nat with (i + (k * n2 + j) * n3)%nat by nia.
    rewrite Nat.div_add by lia. rewrite Nat.div_small by lia. lia. }
  rewrite E. repeat split.
  - rewrite (Nat.add_comm _ j), Nat.div_add, Nat.div_small by lia. lia.
  - rewrite (Nat.add_comm _ j), Nat.mod_add, Nat.mod_small by lia. lia.
  - unfold n. replace (k * (n2 * n3) + j * n3 + i)%nat with (i + (k * n2 + j) * n3)%nat by nia.
    rewrite Nat.mod_add, Nat.mod_small by lia. lia.
Qed.

Lemma shift_sum n (g : nat -> R) : g 0%nat = 0 ->
  sumR (seq 0 n) g = sumR (seq 0 (n - 1)) (fun i => g (i + 1)%nat).
Proof.
  intros H0. destruct n as [|n]; [reflexivity|].
  replace (S n - 1)%nat with n by lia. cbn [seq sumR]. rewrite H0, sumR_seq_shift.
  rewrite (sumR_ext _ _ (fun i => g (i + 1)%nat)); [lra|]. intros i _. f_equal. lia.
Qed.

(** Summation by parts for an antisymmetric face flux on a line of n cells whose end neighbours
    are the end cells themselves. *)
Lemma flux_parts n (u v : nat -> R) (g : R -> R -> R) : (forall p q, g p q = - g q p) ->
  sumR (seq 0 n) (fun i => v i * (g (u i) (u (i - 1)%nat) + g (u i) (u (Nat.min (i + 1) (n - 1)))))
  = - sumR (seq 0 (n - 1)) (fun i => (v (i + 1)%nat - v i) * g (u i) (u (i + 1)%nat)).
Proof.
  intros A.
  assert (Z : forall x, g x x = 0) by (intros x; specialize (A x x); lra).
  set (h := fun j => if Nat.eqb j 0 then 0 else if Nat.ltb j n then g (u (j - 1)%nat) (u j) else 0).
  set (f := fun i => v (i - 1)%nat * h i).
  assert (T : sumR (seq 0 n) (fun i => f (S i) - f i) = f n - f 0%nat) by apply sumR_telescope.
  assert (F : f n - f 0%nat = 0).
  { unfold f, h. destruct (Nat.ltb_spec n n); [lia|]. cbn. destruct (Nat.eqb n 0); lra. }
  rewrite F in T.
  rewrite (sumR_ext _ _ (fun i => (f (S i) - f i) + - ((v i - v (i - 1)%nat) * h i))).
  - rewrite sumR_add, T, sumR_opp, (shift_sum n).
    + rewrite Rplus_0_l. f_equal. apply sumR_ext. intros i Hi. apply in_seq in Hi. unfold h.
      destruct (Nat.eqb_spec (i + 1) 0); [lia|]. destruct (Nat.ltb_spec (i + 1) n); [|lia].
      now replace (i + 1 - 1)%nat with i by lia.
    + cbn. lra.
  - intros i Hi. apply in_seq in Hi. unfold f, h. cbn [Nat.eqb]. replace (S i - 1)%nat with i by lia.
    assert (E1 : g (u i) (u (i - 1)%nat) = - (if (i =? 0)%nat then 0 else if (i <? n)%nat then g (u (i - 1)%nat) (u i) else 0)).
    { destruct (Nat.eqb_spec i 0) as [-> |Hn]; [cbn; rewrite Z; lra|]. destruct (Nat.ltb_spec i n); [apply A|lia]. }
    assert (E2 : g (u i) (u (Nat.min (i + 1) (n - 1))) = if (S i <? n)%nat then g (u i) (u (S i)) else 0).
    { destruct (Nat.ltb_spec (S i) n).
      - now replace (Nat.min (i + 1) (n - 1)) with (S i) by lia.
      - replace (Nat.min (i + 1) (n - 1)) with i by lia. apply Z. }
    rewrite E1, E2. ring.
Qed.

Lemma flux_sum n (u : nat -> R) (g : R -> R -> R) : (forall p q, g p q = - g q p) ->
  sumR (seq 0 n) (fun i => g (u i) (u (i - 1)%nat) + g (u i) (u (Nat.min (i + 1) (n - 1)))) = 0.
Proof.
  intros A. pose proof (flux_parts n u (fun _ => 1) g A) as H.
  rewrite (sumR_ext _ _ (fun i => g (u i) (u (i - 1)%nat) + g (u i) (u (Nat.min (i + 1) (n - 1))))) in H
    by (intros; lra).
  rewrite H, sumR_zero; [lra|]. intros; lra.
Qed.

(** Re-ordering of a triple sum. *)
Lemma sum3_rot n1 n2 n3 (f : nat -> nat -> nat -> R) :
  sumR (seq 0 n1) (fun i => sumR (seq 0 n2) (fun j => sumR (seq 0 n3) (fun k => f i j k))) =
  sumR (seq 0 n2) (fun j => sumR (seq 0 n3) (fun k => sumR (seq 0 n1) (fun i => f i j k))).
Proof.
  rewrite sumR_swap. apply sumR_ext. intros j _. rewrite sumR_swap. reflexivity.
Qed.
Lemma sum3_mid n1 n2 n3 (f : nat -> nat -> nat -> R) :
  sumR (seq 0 n1) (fun i => sumR (seq 0 n2) (fun j => sumR (seq 0 n3) (fun k => f i j k))) =
  sumR (seq 0 n1) (fun i => sumR (seq 0 n3) (fun k => sumR (seq 0 n2) (fun j => f i j k))).
Proof. apply sumR_ext. intros i _. apply sumR_swap. Qed.

(** A finite maximum is attained. *)
Lemma argmax_ex (n : nat) (f : nat -> R) : (0 < n)%nat ->
  exists m, (m < n)%nat /\ forall i, (i < n)%nat -> f i <= f m.
Proof.
  induction n as [|n IH]; [lia|]. intros _. destruct n as [|n].
  - exists 0%nat. split; [lia|]. intros i Hi. replace i with 0%nat by lia. lra.
  - destruct (IH ltac:(lia)) as (m & Hm & H).
    destruct (Rle_dec (f (S n)) (f m)) as [L|L].
    + exists m. split; [lia|]. intros i Hi. destruct (Nat.eq_dec i (S n)) as [-> |]; [exact L|apply H; lia].
    + exists (S n). split; [lia|]. intros i Hi. destruct (Nat.eq_dec i (S n)) as [-> |]; [lra|].
      specialize (H i ltac:(lia)). lra.
Qed.
