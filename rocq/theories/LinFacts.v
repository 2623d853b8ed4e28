(** * Injective square linear maps have an inverse matrix. *)
From Coq Require Import Lra Lia Classical FunctionalExtensionality.
From Verif Require Import Prelude PreludeFacts FemModel FemFacts SolverModel SolverSpec SolverProofs SolverAdProofs.
Open Scope R_scope.

Definition swap2 (p n j : nat) : nat := if Nat.eqb j p then n else if Nat.eqb j n then p else j.
Lemma swap2_invol p n j : swap2 p n (swap2 p n j) = j.
Proof.
  unfold swap2. destruct (Nat.eqb_spec j p) as [->|H1].
  - destruct (Nat.eqb_spec n p); [congruence|]. now rewrite Nat.eqb_refl.
  - destruct (Nat.eqb_spec j n) as [->|H2]; [now rewrite Nat.eqb_refl|]. destruct (Nat.eqb_spec j p); [contradiction|]. destruct (Nat.eqb_spec j n); [contradiction|reflexivity].
Qed.
Lemma swap2_le p n j : (p <= n)%nat -> (j <= n)%nat -> (swap2 p n j <= n)%nat.
Proof. unfold swap2. intros. destruct (Nat.eqb_spec j p); [lia|]. destruct (Nat.eqb_spec j n); lia. Qed.
Lemma sumN_swap2 n p f : (p <= n)%nat -> sumN (S n) (fun j => f (swap2 p n j)) = sumN (S n) f.
Proof.
  intros Hp. rewrite !sumN_S. destruct (Nat.eq_dec p n) as [->|Hne].
  - f_equal; [apply sumN_ext; intros j Hj; unfold swap2; destruct (Nat.eqb_spec j n); [lia|reflexivity]|unfold swap2; now rewrite Nat.eqb_refl].
  - assert (Hlt : (p < n)%nat) by lia.
    assert (E : forall g, sumN n g = sumN n (fun j => if Nat.eqb j p then 0 else g j) + g p).
    { intros g. rewrite <- (sumN_pick n p g Hlt). rewrite <- sumN_add. apply sumN_ext. intros j _. destruct (Nat.eqb_spec j p); subst; ring. }
    rewrite (E (fun j => f (swap2 p n j))), (E f).
    assert (E1 : f (swap2 p n p) = f n) by (unfold swap2; now rewrite Nat.eqb_refl). assert (E2 : f (swap2 p n n) = f p).
    { unfold swap2. destruct (Nat.eqb_spec n p); [lia|]. now rewrite Nat.eqb_refl. }
    rewrite E1, E2. rewrite (sumN_ext n (fun j => if Nat.eqb j p then 0 else f (swap2 p n j)) (fun j => if Nat.eqb j p then 0 else f j)); [lra|].
    intros j Hj. destruct (Nat.eqb_spec j p); [reflexivity|]. unfold swap2. destruct (Nat.eqb_spec j p); [lia|]. destruct (Nat.eqb_spec j n); [lia|]. reflexivity.
Qed.
(** n equations in n + 1 unknowns have a non-trivial solution *)
Lemma underdetermined n : forall M : mat, exists x : vector, (exists j, (j <= n)%nat /\ x j <> 0) /\ forall i, (i < n)%nat -> sumN (S n) (fun j => M i j * x j) = 0.
Proof.
  induction n as [|n IH]; intros M.
  - exists (fun _ => 1). split; [exists 0%nat; split; [lia|lra]|]. intros i Hi. lia.
  - destruct (classic (exists p, (p <= S n)%nat /\ M n p <> 0)) as [(p & Hp & Hpv)|Hno].
    + set (M1 := fun i j => M i (swap2 p (S n) j)).
      assert (Hpiv : M1 n (S n) <> 0).
      { unfold M1, swap2. destruct (Nat.eqb_spec (S n) p) as [E|]; [now subst|]. now rewrite Nat.eqb_refl. }
      set (M2 := fun i j => M1 i j - M1 i (S n) * (M1 n j / M1 n (S n))).
      destruct (IH M2) as (x & (j0 & Hj0 & Hx0) & Hx).
      set (s := - sumN (S n) (fun j => M1 n j / M1 n (S n) * x j)).
      set (y := fun j => if Nat.eqb j (S n) then s else x j).
      assert (Hy : forall i, (i <= n)%nat -> sumN (S (S n)) (fun j => M1 i j * y j) = 0).
      { intros i Hi. rewrite sumN_S. unfold y at 2. rewrite Nat.eqb_refl.
        rewrite (sumN_ext (S n) (fun j => M1 i j * y j) (fun j => M1 i j * x j)) by (intros j Hj; unfold y; destruct (Nat.eqb_spec j (S n)); [lia|reflexivity]).
        assert (E : sumN (S n) (fun j => M1 i j * x j) + M1 i (S n) * s = sumN (S n) (fun j => M2 i j * x j)).
        { unfold s. rewrite (sumN_ext (S n) (fun j => M2 i j * x j) (fun j => M1 i j * x j - M1 i (S n) * (M1 n j / M1 n (S n) * x j))) by (intros j _; unfold M2; ring).
          rewrite sumN_sub, sumN_scal. ring. }
        rewrite E. destruct (Nat.eq_dec i n) as [->|]; [|apply Hx; lia]. apply sumN_zero. intros j _. unfold M2. field. exact Hpiv. }
      exists (fun j => y (swap2 p (S n) j)). split.
      * exists (swap2 p (S n) j0). split; [apply swap2_le; lia|]. rewrite swap2_invol. unfold y. destruct (Nat.eqb_spec j0 (S n)); [lia|exact Hx0].
      * intros i Hi. rewrite <- (Hy i ltac:(lia)). rewrite <- (sumN_swap2 (S n) p (fun j => M1 i j * y j) Hp). apply sumN_ext. intros j _. unfold M1. now rewrite swap2_invol.
    + destruct (IH M) as (x & (j0 & Hj0 & Hx0) & Hx). exists (fun j => if Nat.eqb j (S n) then 0 else x j). split.
      * exists j0. split; [lia|]. destruct (Nat.eqb_spec j0 (S n)); [lia|exact Hx0].
      * intros i Hi. destruct (Nat.eq_dec i n) as [->|].
        -- apply sumN_zero. intros j Hj. destruct (Req_dec (M n j) 0) as [->|H]; [ring|]. exfalso. apply Hno. exists j. split; [lia|exact H].
        -- rewrite sumN_S, Nat.eqb_refl, Rmult_0_r, Rplus_0_r. rewrite <- (Hx i ltac:(lia)). apply sumN_ext. intros j Hj. destruct (Nat.eqb_spec j (S n)); [lia|reflexivity].
Qed.
Lemma finite_choice {X : Type} (Q : nat -> X -> Prop) (d : X) n : (forall j, (j < n)%nat -> exists x, Q j x) -> exists f, forall j, (j < n)%nat -> Q j (f j).
Proof.
  induction n as [|n IH]; intros H; [exists (fun _ => d); intros; lia|].
  destruct IH as (f & Hf); [intros j Hj; apply H; lia|]. destruct (H n ltac:(lia)) as (x & Hx).
  exists (fun j => if Nat.eqb j n then x else f j). intros j Hj. destruct (Nat.eqb_spec j n); [now subst|apply Hf; lia].
Qed.
Section Inverse.
Variable n : nat.
Variable A : vector -> vector.
Hypothesis HA : linear_map n n A.
Hypothesis Hinj : forall x, same n (A x) vzero -> same n x vzero.
Lemma injective_surjective b : exists x, same n (A x) b.
Proof.
  set (M := fun i j => if Nat.eqb j n then - b i else A (unit_vec j) i).
  destruct (underdetermined n M) as (x & (j0 & Hj0 & Hx0) & Hx).
  assert (Hrow : forall i, (i < n)%nat -> A x i = x n * b i).
  { intros i Hi. specialize (Hx i Hi). rewrite sumN_S in Hx. unfold M at 2 in Hx. rewrite Nat.eqb_refl in Hx.
    rewrite (linear_map_matrix n n A HA x i Hi). rewrite (sumN_ext n (fun j => M i j * x j) (fun j => x j * A (unit_vec j) i)) in Hx; [lra|].
    intros j Hj. unfold M. destruct (Nat.eqb_spec j n); [lia|ring]. }
  destruct (Req_dec (x n) 0) as [E|Hn].
  - exfalso. assert (Hz : same n (A x) vzero) by (intros i Hi; rewrite (Hrow i Hi), E; unfold vzero; ring).
    apply Hinj in Hz. destruct (Nat.eq_dec j0 n) as [->|]; [congruence|]. apply Hx0. exact (Hz j0 ltac:(lia)).
  - exists (fun j => / x n * x j). intros i Hi. destruct HA as (_ & Hs & _). rewrite (Hs i (/ x n) x Hi), (Hrow i Hi). field. exact Hn.
Qed.
Lemma linear_sub x y i : (i < n)%nat -> A (fun j => x j - y j) i = A x i - A y i.
Proof.
  intros Hi. destruct HA as (Ha & Hs & He).
  rewrite (He (fun j => x j - y j) (fun j => x j + (fun l => -1 * y l) j)) by (intros; auto; cbv beta; ring || (intros ? _; ring)).
  rewrite (Ha i x (fun l => -1 * y l) Hi), (Hs i (-1) y Hi). ring.
Qed.
Lemma injective_invertible : invertible n A.
Proof.
  destruct (finite_choice (fun j x => same n (A x) (unit_vec j)) vzero n (fun j _ => injective_surjective (unit_vec j))) as (X & HX).
  set (M := fun i j => X j i). exists M.
  assert (H1 : forall x, same n (A (mat_vec n M x)) x).
  { intros x i Hi. rewrite (linear_map_matrix n n A HA _ i Hi). unfold mat_vec.
    rewrite (sumN_ext n _ (fun k => sumN n (fun j => x j * (X j k * A (unit_vec k) i)))) by (intros k _; rewrite <- sumN_scal_r; apply sumN_ext; intros j _; unfold M; ring).
    rewrite sumN_swap. rewrite (sumN_ext n _ (fun j => if Nat.eqb j i then x j else 0)).
    - exact (sumN_pick n i x Hi).
    - intros j Hj. rewrite sumN_scal. rewrite <- (linear_map_matrix n n A HA (X j) i Hi). rewrite (HX j Hj i Hi). unfold unit_vec. rewrite Nat.eqb_sym. destruct (Nat.eqb_spec j i); ring. }
  split; [exact H1|]. intros x i Hi. assert (Hd : same n (fun j => mat_vec n M (A x) j - x j) vzero).
  { apply Hinj. intros k Hk. rewrite linear_sub by exact Hk. rewrite (H1 (A x) k Hk). unfold vzero. ring. }
  specialize (Hd i Hi). unfold vzero in Hd. cbv beta in Hd. lra.
Qed.
End Inverse.
Close Scope R_scope.
