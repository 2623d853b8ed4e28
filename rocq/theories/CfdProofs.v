(** * Proofs about the CFD operators (C28-C30, C37, C38). *)
From Verif Require Import Prelude PreludeFacts GridFacts CfdMeshModel CfdMeshSpec CfdMeshProofs CfdModel CfdSpec.
From Coq Require Import Lra Psatz ZifyBool ZifyNat.
Open Scope R_scope.

Lemma sum_cells3 m (F : nat -> R) :
  sumR (seq 0 (cell_num m)) F =
  sumR (seq 0 (mNx m)) (fun i => sumR (seq 0 (mNy m)) (fun j => sumR (seq 0 (mNz m)) (fun k => F (cell_idx m i j k)))).
Proof. unfold cell_num. now rewrite seq_flat3, sumR_flat3. Qed.

Section Lap.
Variable e : eqn.
Notation m := (e_mesh e).
Hypothesis W : good_mesh m.

Lemma widths : 0 < dXx m /\ 0 < dXy m /\ 0 < dXz m.
Proof.
  destruct W as (? & ? & ? & ? & ? & ?). unfold dXx, dXy, dXz.
  repeat split; apply Rdiv_lt_0_compat; try assumption; now apply lt_0_INR.
Qed.
Lemma dV_pos : 0 < dV m.
Proof. destruct widths as (? & ? & ?). unfold dV. apply Rmult_lt_0_compat; [apply Rmult_lt_0_compat|]; assumption. Qed.

Definition wt (l : nat) : R :=
  match l with 0%nat | 1%nat => dXy m * dXz m / dXx m | 2%nat | 3%nat => dXz m * dXx m / dXy m | _ => dXx m * dXy m / dXz m end.
Lemma wt_pos l : 0 < wt l.
Proof.
  destruct widths as (? & ? & ?).
  do 6 (destruct l as [|l]; [apply Rdiv_lt_0_compat; [apply Rmult_lt_0_compat|]; assumption|]).
  apply Rdiv_lt_0_compat; [apply Rmult_lt_0_compat|]; assumption.
Qed.
Lemma wt_eq l : (l < 6)%nat -> nth l (dS3 m) 0 / nth l (D3 m) 0 = wt l.
Proof.
  intros Hl. destruct widths as (? & ? & ?).
  do 6 (destruct l as [|l]; [cbn [nth dS3 D3 wt]; field; lra|]). lia.
Qed.

(** Flux into a cell with value p from a neighbour with value q, per weight. *)
Definition G (p q : R) : R := (q - p) * face_mu e p q.
Lemma face_mu_sym p q : face_mu e p q = face_mu e q p.
Proof. unfold face_mu, harmonic. destruct (e_mufn e) as [k|]; [|reflexivity]. rewrite (Rplus_comm (k q)). unfold Rdiv. ring. Qed.
Lemma G_anti p q : G p q = - G q p.
Proof. unfold G. rewrite (face_mu_sym q p). ring. Qed.
Lemma G_refl p : G p p = 0.
Proof. unfold G. ring. Qed.

Lemma kernel_eq up un : laplace_kernel e up un = sumR (seq 0 6) (fun l => wt l * G up (un l)).
Proof.
  unfold laplace_kernel. apply sumR_ext. intros l Hl. apply in_seq in Hl.
  rewrite <- (wt_eq l) by lia. unfold G, Rdiv. ring.
Qed.

Lemma nb_eq i j k l : (i < mNx m)%nat -> (j < mNy m)%nat -> (k < mNz m)%nat ->
  nb m (cell_idx m i j k) l =
  nth l [cell_idx m i j k; cell_idx m (i - 1) j k; cell_idx m (Nat.min (i + 1) (mNx m - 1)) j k;
         cell_idx m i (j - 1) k; cell_idx m i (Nat.min (j + 1) (mNy m - 1)) k;
         cell_idx m i j (k - 1); cell_idx m i j (Nat.min (k + 1) (mNz m - 1))] 0%nat.
Proof. intros. unfold nb. now rewrite (nth_error_nth _ _ [] (conn_row m i j k ltac:(assumption) ltac:(assumption) ltac:(assumption))). Qed.

Lemma lap_cell U i j k : (i < mNx m)%nat -> (j < mNy m)%nat -> (k < mNz m)%nat ->
  laplace e U (cell_idx m i j k) =
  wt 0 * (G (U (cell_idx m i j k)) (U (cell_idx m (i - 1) j k)) + G (U (cell_idx m i j k)) (U (cell_idx m (Nat.min (i + 1) (mNx m - 1)) j k)))
  + wt 2 * (G (U (cell_idx m i j k)) (U (cell_idx m i (j - 1) k)) + G (U (cell_idx m i j k)) (U (cell_idx m i (Nat.min (j + 1) (mNy m - 1)) k)))
  + wt 4 * (G (U (cell_idx m i j k)) (U (cell_idx m i j (k - 1))) + G (U (cell_idx m i j k)) (U (cell_idx m i j (Nat.min (k + 1) (mNz m - 1))))).
Proof.
  intros Hi Hj Hk. unfold laplace. rewrite kernel_eq. cbn [seq sumR]. rewrite !nb_eq by assumption.
  cbn [nth wt]. ring.
Qed.

(** Weighted sum = minus the sum over interior faces. *)
Lemma lap_weak U V :
  sumR (seq 0 (cell_num m)) (fun n => V n * laplace e U n) =
  - (wt 0 * sumR (seq 0 (mNy m)) (fun j => sumR (seq 0 (mNz m)) (fun k => sumR (seq 0 (mNx m - 1)) (fun i =>
        (V (cell_idx m (i + 1) j k) - V (cell_idx m i j k)) * G (U (cell_idx m i j k)) (U (cell_idx m (i + 1) j k)))))
     + wt 2 * sumR (seq 0 (mNx m)) (fun i => sumR (seq 0 (mNz m)) (fun k => sumR (seq 0 (mNy m - 1)) (fun j =>
        (V (cell_idx m i (j + 1) k) - V (cell_idx m i j k)) * G (U (cell_idx m i j k)) (U (cell_idx m i (j + 1) k)))))
     + wt 4 * sumR (seq 0 (mNx m)) (fun i => sumR (seq 0 (mNy m)) (fun j => sumR (seq 0 (mNz m - 1)) (fun k =>
        (V (cell_idx m i j (k + 1)) - V (cell_idx m i j k)) * G (U (cell_idx m i j k)) (U (cell_idx m i j (k + 1))))))).
Proof.
  rewrite sum_cells3.
  set (u := fun i j k => U (cell_idx m i j k)). set (v := fun i j k => V (cell_idx m i j k)).
  set (X := fun i j k => v i j k * (G (u i j k) (u (i - 1)%nat j k) + G (u i j k) (u (Nat.min (i + 1) (mNx m - 1)) j k))).
  set (Y := fun i j k => v i j k * (G (u i j k) (u i (j - 1)%nat k) + G (u i j k) (u i (Nat.min (j + 1) (mNy m - 1)) k))).
  set (Z := fun i j k => v i j k * (G (u i j k) (u i j (k - 1)%nat) + G (u i j k) (u i j (Nat.min (k + 1) (mNz m - 1))))).
  transitivity (wt 0 * sumR (seq 0 (mNx m)) (fun i => sumR (seq 0 (mNy m)) (fun j => sumR (seq 0 (mNz m)) (fun k => X i j k)))
    + wt 2 * sumR (seq 0 (mNx m)) (fun i => sumR (seq 0 (mNy m)) (fun j => sumR (seq 0 (mNz m)) (fun k => Y i j k)))
    + wt 4 * sumR (seq 0 (mNx m)) (fun i => sumR (seq 0 (mNy m)) (fun j => sumR (seq 0 (mNz m)) (fun k => Z i j k)))).
  - rewrite <- !sumR_scal, <- !sumR_add. apply sumR_ext. intros i Hi. apply in_seq in Hi.
    rewrite <- !sumR_scal, <- !sumR_add. apply sumR_ext. intros j Hj. apply in_seq in Hj.
    rewrite <- !sumR_scal, <- !sumR_add. apply sumR_ext. intros k Hk. apply in_seq in Hk.
    rewrite lap_cell by lia. unfold X, Y, Z, u, v. ring.
  - assert (EX : sumR (seq 0 (mNx m)) (fun i => sumR (seq 0 (mNy m)) (fun j => sumR (seq 0 (mNz m)) (fun k => X i j k))) =
      - sumR (seq 0 (mNy m)) (fun j => sumR (seq 0 (mNz m)) (fun k => sumR (seq 0 (mNx m - 1)) (fun i =>
        (v (i + 1)%nat j k - v i j k) * G (u i j k) (u (i + 1)%nat j k))))).
    { rewrite sum3_rot, <- sumR_opp. apply sumR_ext. intros j _. rewrite <- sumR_opp. apply sumR_ext. intros k _.
      exact (flux_parts (mNx m) (fun i => u i j k) (fun i => v i j k) G G_anti). }
    assert (EY : sumR (seq 0 (mNx m)) (fun i => sumR (seq 0 (mNy m)) (fun j => sumR (seq 0 (mNz m)) (fun k => Y i j k))) =
      - sumR (seq 0 (mNx m)) (fun i => sumR (seq 0 (mNz m)) (fun k => sumR (seq 0 (mNy m - 1)) (fun j =>
        (v i (j + 1)%nat k - v i j k) * G (u i j k) (u i (j + 1)%nat k))))).
    { rewrite sum3_mid, <- sumR_opp. apply sumR_ext. intros i _. rewrite <- sumR_opp. apply sumR_ext. intros k _.
      exact (flux_parts (mNy m) (fun j => u i j k) (fun j => v i j k) G G_anti). }
    assert (EZ : sumR (seq 0 (mNx m)) (fun i => sumR (seq 0 (mNy m)) (fun j => sumR (seq 0 (mNz m)) (fun k => Z i j k))) =
      - sumR (seq 0 (mNx m)) (fun i => sumR (seq 0 (mNy m)) (fun j => sumR (seq 0 (mNz m - 1)) (fun k =>
        (v i j (k + 1)%nat - v i j k) * G (u i j k) (u i j (k + 1)%nat))))).
    { rewrite <- sumR_opp. apply sumR_ext. intros i _. rewrite <- sumR_opp. apply sumR_ext. intros j _.
      exact (flux_parts (mNz m) (fun k => u i j k) (fun k => v i j k) G G_anti). }
    rewrite EX, EY, EZ. unfold u, v. ring.
Qed.

Lemma lap_sum_zero U : sumR (seq 0 (cell_num m)) (laplace e U) = 0.
Proof.
  rewrite (sumR_ext _ _ (fun n => (fun _ => 1) n * laplace e U n)) by (intros; ring).
  rewrite lap_weak. 
  rewrite !(sumR_zero (seq 0 (mNx m))), (sumR_zero (seq 0 (mNy m))); [ring| | |];
    intros; apply sumR_zero; intros; apply sumR_zero; intros; ring.
Qed.

Lemma lap_const_zero U c : (forall n, (n < cell_num m)%nat -> U n = c) ->
  forall n, (n < cell_num m)%nat -> laplace e U n = 0.
Proof.
  intros HU n Hn. destruct (idx_ex m n Hn) as (i & j & k & Hi & Hj & Hk & ->).
  rewrite lap_cell by assumption. rewrite !HU by (apply idx_lt; lia). rewrite G_refl. ring.
Qed.

Lemma lap_dissipative U : (forall p q, 0 <= face_mu e p q) ->
  sumR (seq 0 (cell_num m)) (fun n => U n * laplace e U n) <= 0.
Proof.
  intros P. rewrite lap_weak.
  assert (S : forall p q, 0 <= (q - p) * G p q).
  { intros p q. unfold G. replace ((q - p) * ((q - p) * face_mu e p q)) with ((q - p) ^ 2 * face_mu e p q) by ring.
    apply Rmult_le_pos; [apply pow2_ge_0|apply P]. }
  match goal with |- - (?a * ?x + ?b * ?y + ?c * ?z) <= 0 =>
    assert (0 <= x); [|assert (0 <= y); [|assert (0 <= z)]] end;
  [do 3 (apply sumR_nonneg; intros ? _); apply S
  |do 3 (apply sumR_nonneg; intros ? _); apply S
  |do 3 (apply sumR_nonneg; intros ? _); apply S|].
  pose proof (wt_pos 0). pose proof (wt_pos 2). pose proof (wt_pos 4). nra.
Qed.

Lemma lap_symmetric U V : e_mufn e = None ->
  sumR (seq 0 (cell_num m)) (fun n => V n * laplace e U n) = sumR (seq 0 (cell_num m)) (fun n => U n * laplace e V n).
Proof.
  intros L. rewrite !lap_weak. do 2 f_equal; [f_equal|]; f_equal; repeat (apply sumR_ext; intros ? _);
    unfold G, face_mu; rewrite L; ring.
Qed.

(** At a maximum the operator is not positive. *)
Lemma lap_at_max U n : (n < cell_num m)%nat -> (forall p q, 0 <= face_mu e p q) ->
  (forall n', (n' < cell_num m)%nat -> U n' <= U n) -> laplace e U n <= 0.
Proof.
  intros Hn P HM. destruct (idx_ex m n Hn) as (i & j & k & Hi & Hj & Hk & ->). rewrite lap_cell by assumption.
  assert (S : forall n', (n' < cell_num m)%nat -> G (U (cell_idx m i j k)) (U n') <= 0).
  { intros n' Hn'. unfold G. specialize (HM n' Hn'). specialize (P (U (cell_idx m i j k)) (U n')). nra. }
  pose proof (wt_pos 0). pose proof (wt_pos 2). pose proof (wt_pos 4).
  repeat match goal with |- context [G ?a (U ?c)] =>
    lazymatch goal with [ H : G a (U c) <= 0 |- _ ] => fail
    | _ => assert (G a (U c) <= 0) by (apply S, idx_lt; lia) end end.
  nra.
Qed.
Lemma lap_at_min U n : (n < cell_num m)%nat -> (forall p q, 0 <= face_mu e p q) ->
  (forall n', (n' < cell_num m)%nat -> U n <= U n') -> 0 <= laplace e U n.
Proof.
  intros Hn P HM. destruct (idx_ex m n Hn) as (i & j & k & Hi & Hj & Hk & ->). rewrite lap_cell by assumption.
  assert (S : forall n', (n' < cell_num m)%nat -> 0 <= G (U (cell_idx m i j k)) (U n')).
  { intros n' Hn'. unfold G. specialize (HM n' Hn'). specialize (P (U (cell_idx m i j k)) (U n')). nra. }
  pose proof (wt_pos 0). pose proof (wt_pos 2). pose proof (wt_pos 4).
  repeat match goal with |- context [G ?a (U ?c)] =>
    lazymatch goal with [ H : 0 <= G a (U c) |- _ ] => fail
    | _ => assert (0 <= G a (U c)) by (apply S, idx_lt; lia) end end.
  nra.
Qed.

(** The module level function computes the same operator. *)
Lemma module_laplace_eq miu f i j k : e_mufn e = None -> e_mu e = Some miu ->
  (i < mNx m)%nat -> (j < mNy m)%nat -> (k < mNz m)%nat ->
  laplace_const (grid_of m) miu f i j k = laplace e (flat m f) (cell_idx m i j k).
Proof.
  intros L M Hi Hj Hk. rewrite lap_cell by assumption.
  assert (FL : forall i j k, (i < mNx m)%nat -> (j < mNy m)%nat -> (k < mNz m)%nat -> flat m f (cell_idx m i j k) = f i j k).
  { intros i' j' k' Hi' Hj' Hk'. unfold flat, cell_idx. destruct (decode_encode (mNy m) (mNz m) i' j' k' Hj' Hk') as (-> & -> & ->). reflexivity. }
  rewrite !FL by lia. unfold laplace_const, G, face_mu. rewrite L, M. cbn [get_GC grid_of gNx gNy gNz gdx gdy gdz ghost_cell default_BCs bkind bval].
  unfold diff_app, diff_pre, wt. destruct widths as (? & ? & ?).
  destruct (Nat.ltb_spec (i + 1) (mNx m)), (Nat.eqb_spec i 0), (Nat.ltb_spec (j + 1) (mNy m)), (Nat.eqb_spec j 0),
    (Nat.ltb_spec (k + 1) (mNz m)), (Nat.eqb_spec k 0);
  repeat match goal with
   | |- context [Nat.min ?a ?b] => first [replace (Nat.min a b) with a by lia | replace (Nat.min a b) with (a - 1)%nat by lia] end;
  repeat match goal with H : ?x = 0%nat |- _ => subst x end;
  repeat match goal with |- context [(?a - 1)%nat] => lazymatch a with 0%nat => change (0 - 1)%nat with 0%nat
     | S _ => fail | (?x + 1)%nat => replace (x + 1 - 1)%nat with x by lia
     | mNx m => first [replace (mNx m - 1)%nat with i by lia | replace (mNx m - 1)%nat with 0%nat by lia]
     | mNy m => first [replace (mNy m - 1)%nat with j by lia | replace (mNy m - 1)%nat with 0%nat by lia]
     | mNz m => first [replace (mNz m - 1)%nat with k by lia | replace (mNz m - 1)%nat with 0%nat by lia]
     end end; field; lra.
Qed.
End Lap.
