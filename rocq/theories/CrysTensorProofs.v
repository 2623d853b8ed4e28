(** * Crystal plasticity: rotations, elastic constants. *)
From Coq Require Import Lra Lia.
From Verif Require Import Prelude PreludeFacts FemModel FemFacts FemSpec MatModel MatSpec MatProofs MatHyperProofs CrysModel CrysSpec.
Open Scope R_scope.
Ltac idx3 i := destruct i as [|[|[|i]]]; [| | |exfalso; lia].
Ltac by3 := intros; repeat match goal with H : (?i < 3)%nat |- _ => is_var i; idx3 i; clear H end.
Ltac sums := unfold sumN; cbn [seq sumR].

Lemma rot_orth q : meq 3 (matmul 3 (get_rot_mat q) (transpose (get_rot_mat q))) (mscal (qnorm2 q ^ 2) identity)
  /\ meq 3 (matmul 3 (transpose (get_rot_mat q)) (get_rot_mat q)) (mscal (qnorm2 q ^ 2) identity).
Proof. split; intros i j Hi Hj; by3; unfold matmul, transpose, mscal, identity, get_rot_mat, qnorm2; sums; cbn [Nat.eqb]; ring. Qed.
Lemma rot_det q : det 3 (get_rot_mat q) = qnorm2 q ^ 3.
Proof. unfold det, get_rot_mat, qnorm2. ring. Qed.
Lemma rot_rotation q : qnorm2 q = 1 -> rotation 3 (get_rot_mat q).
Proof.
  intros H. destruct (rot_orth q) as (H1 & H2). repeat split.
  - intros i j Hi Hj. rewrite (H1 i j Hi Hj). unfold mscal. rewrite H. ring.
  - intros i j Hi Hj. rewrite (H2 i j Hi Hj). unfold mscal. rewrite H. ring.
  - rewrite rot_det, H. ring.
Qed.
Lemma rot_neg q : meq 3 (get_rot_mat (fun i => - q i)) (get_rot_mat q).
Proof. intros i j Hi Hj. by3; unfold get_rot_mat; ring. Qed.
Lemma rot_mul p q : meq 3 (get_rot_mat (qmul p q)) (matmul 3 (get_rot_mat p) (get_rot_mat q)).
Proof. intros i j Hi Hj. by3; unfold get_rot_mat, matmul, qmul; sums; ring. Qed.

(** ** rotated tensors *)
Lemma rotate2_conj Q T i j : rotate2 Q T i j = conj Q T i j.
Proof. unfold rotate2, conj, matmul, transpose. sums. ring. Qed.
Lemma rotate2_ext Q A B : meq 3 A B -> forall i j, rotate2 Q A i j = rotate2 Q B i j.
Proof. intros H i j. unfold rotate2. apply sumN_ext. intros a Ha. apply sumN_ext. intros b Hb. now rewrite (H a b Ha Hb). Qed.
Lemma rotate2_sym Q A : msym 3 A -> forall i j, rotate2 Q A i j = rotate2 Q A j i.
Proof.
  intros H i j. unfold rotate2. rewrite sumN_swap. apply sumN_ext. intros a Ha. apply sumN_ext. intros b Hb. rewrite (H b a Hb Ha). ring.
Qed.
Lemma ddot_rotate2 Q A B : ddot 3 (rotate2 Q A) B = ddot 3 A (rotate2 (transpose Q) B).
Proof. unfold ddot, rotate2, transpose. sums. ring. Qed.
Lemma rotate2_outer Q u v i j : rotate2 Q (fun a b => u a * v b) i j = apply3 Q u i * apply3 Q v j.
Proof. unfold rotate2, apply3. sums. ring. Qed.
Lemma dot_apply Q u v : orthogonal 3 Q -> dot3 (apply3 Q u) (apply3 Q v) = dot3 u v.
Proof.
  intros (_ & H). transitivity (sumN 3 (fun a => sumN 3 (fun b => matmul 3 (transpose Q) Q a b * (u a * v b)))).
  - unfold dot3, apply3, matmul, transpose. sums. ring.
  - transitivity (sumN 3 (fun a => sumN 3 (fun b => identity a b * (u a * v b)))).
    + apply sumN_ext. intros a Ha. apply sumN_ext. intros b Hb. now rewrite (H a b Ha Hb).
    + unfold dot3, identity. sums. cbn [Nat.eqb]. ring.
Qed.
Lemma orth_transpose Q : orthogonal 3 Q -> orthogonal 3 (transpose Q).
Proof. intros (H1 & H2). split; [exact H2|exact H1]. Qed.
Lemma ddot_rotate_rotate Q A B : orthogonal 3 Q -> ddot 3 (rotate2 Q A) (rotate2 Q B) = ddot 3 A B.
Proof.
  intros (_ & H). set (M := matmul 3 (transpose Q) Q).
  transitivity (sumN 3 (fun a => sumN 3 (fun b => sumN 3 (fun c => sumN 3 (fun d => M a c * M b d * (A a b * B c d)))))).
  - transitivity (sumN 3 (fun a => sumN 3 (fun b => sumN 3 (fun c => sumN 3 (fun d => sumN 3 (fun i => Q i a * Q i c) * sumN 3 (fun j => Q j b * Q j d) * (A a b * B c d)))))).
    + unfold ddot, rotate2.
      transitivity (sumN 3 (fun i => sumN 3 (fun j => sumN 3 (fun a => sumN 3 (fun b => sumN 3 (fun c => sumN 3 (fun d => Q i a * Q j b * A a b * (Q i c * Q j d * B c d)))))))).
      { apply sumN_ext. intros i _. apply sumN_ext. intros j _. rewrite <- sumN_scal_r. apply sumN_ext. intros a _. rewrite <- sumN_scal_r. apply sumN_ext. intros b _. rewrite <- sumN_scal. apply sumN_ext. intros c _. now rewrite <- sumN_scal. }
      transitivity (sumN 3 (fun a => sumN 3 (fun b => sumN 3 (fun c => sumN 3 (fun d => sumN 3 (fun i => sumN 3 (fun j => Q i a * Q j b * A a b * (Q i c * Q j d * B c d)))))))).
      { transitivity (sumN 3 (fun i => sumN 3 (fun a => sumN 3 (fun b => sumN 3 (fun c => sumN 3 (fun d => sumN 3 (fun j => Q i a * Q j b * A a b * (Q i c * Q j d * B c d)))))))).
        - apply sumN_ext. intros i _. rewrite sumN_swap. apply sumN_ext. intros a _. rewrite sumN_swap. apply sumN_ext. intros b _. rewrite sumN_swap. apply sumN_ext. intros c _. apply sumN_swap.
        - rewrite sumN_swap. apply sumN_ext. intros a _. rewrite sumN_swap. apply sumN_ext. intros b _. rewrite sumN_swap. apply sumN_ext. intros c _. apply sumN_swap. }
      apply sumN_ext. intros a _. apply sumN_ext. intros b _. apply sumN_ext. intros c _. apply sumN_ext. intros d _. sums. ring.
    + reflexivity.
  - transitivity (sumN 3 (fun a => sumN 3 (fun b => sumN 3 (fun c => sumN 3 (fun d => identity a c * identity b d * (A a b * B c d)))))).
    + apply sumN_ext. intros a Ha. apply sumN_ext. intros b Hb. apply sumN_ext. intros c Hc. apply sumN_ext. intros d Hd. unfold M. now rewrite (H a c Ha Hc), (H b d Hb Hd).
    + unfold ddot, identity. sums. cbn [Nat.eqb]. ring.
Qed.
(** contraction with a rotated tensor *)
Lemma rotate4_contract Q T E i j : contract4 (rotate4 Q T) E i j = rotate2 Q (contract4 T (rotate2 (transpose Q) E)) i j.
Proof.
  unfold contract4, rotate4.
  transitivity (sumN 3 (fun k => sumN 3 (fun l => sumN 3 (fun a => sumN 3 (fun b => sumN 3 (fun c => sumN 3 (fun d => Q i a * Q j b * (Q k c * Q l d * T a b c d * E k l)))))))).
  { apply sumN_ext. intros k _. apply sumN_ext. intros l _. do 4 (rewrite <- sumN_scal_r; apply sumN_ext; intros ? _). ring. }
  transitivity (sumN 3 (fun a => sumN 3 (fun b => sumN 3 (fun k => sumN 3 (fun l => sumN 3 (fun c => sumN 3 (fun d => Q i a * Q j b * (Q k c * Q l d * T a b c d * E k l)))))))).
  { transitivity (sumN 3 (fun k => sumN 3 (fun a => sumN 3 (fun b => sumN 3 (fun l => sumN 3 (fun c => sumN 3 (fun d => Q i a * Q j b * (Q k c * Q l d * T a b c d * E k l)))))))).
    - apply sumN_ext. intros k _. rewrite sumN_swap. apply sumN_ext. intros a _. apply sumN_swap.
    - rewrite sumN_swap. apply sumN_ext. intros a _. apply sumN_swap. }
  unfold rotate2 at 1. apply sumN_ext. intros a _. apply sumN_ext. intros b _. pose proof (ddot_rotate2 Q (T a b) E) as H. unfold ddot in H. rewrite <- H. unfold rotate2. rewrite <- sumN_scal. apply sumN_ext. intros k _. rewrite <- sumN_scal. apply sumN_ext. intros l _.
  rewrite <- sumN_scal_r, <- sumN_scal. apply sumN_ext. intros c _. rewrite <- sumN_scal_r, <- sumN_scal. apply sumN_ext. intros d _. ring.
Qed.

(** ** the cubic crystal *)
Definition cubic (E : mat) : mat := fun i j => if Nat.eqb i j then (C11 - C12) * E i i + C12 * trace 3 E else C44 * (E i j + E j i).
Lemma contract_C E : meq 3 (contract4 elastic_C E) (cubic E).
Proof. intros i j Hi Hj. by3; unfold contract4, cubic, trace; sums; cbn [Nat.eqb elastic_C]; ring. Qed.
Lemma C_symmetric : symmetric4 elastic_C.
Proof. intros i j k l Hi Hj Hk Hl. by3; cbn; repeat split; reflexivity. Qed.
Lemma cubic_sym E : msym 3 (cubic E).
Proof. intros i j Hi Hj. by3; unfold cubic; cbn [Nat.eqb]; ring. Qed.
Lemma cubic_major E D : ddot 3 (cubic E) D = ddot 3 (cubic D) E.
Proof. unfold ddot, cubic, trace. sums. cbn [Nat.eqb]. ring. Qed.
Lemma cubic_ext A B : meq 3 A B -> meq 3 (cubic A) (cubic B).
Proof.
  intros H i j Hi Hj. unfold cubic, trace. sums. rewrite (H i j Hi Hj), (H j i Hj Hi), (H i i Hi Hi), !H by lia. reflexivity.
Qed.
Lemma cubic_coercive E : msym 3 E -> 47000 * ddot 3 E E <= ddot 3 (cubic E) E.
Proof.
  intros Hs. pose proof (Hs 0%nat 1%nat ltac:(lia) ltac:(lia)) as S1. pose proof (Hs 0%nat 2%nat ltac:(lia) ltac:(lia)) as S2. pose proof (Hs 1%nat 2%nat ltac:(lia) ltac:(lia)) as S3.
  unfold ddot, cubic, trace, C11, C12, C44. sums. cbn [Nat.eqb]. rewrite <- S1, <- S2, <- S3.
  generalize (E 0%nat 0%nat) (E 1%nat 1%nat) (E 2%nat 2%nat) (E 0%nat 1%nat) (E 0%nat 2%nat) (E 1%nat 2%nat). intros a b c d e f.
  pose proof (Rle_0_sqr (a + b + c)) as P1. pose proof (Rle_0_sqr d) as P2. pose proof (Rle_0_sqr e) as P3. pose proof (Rle_0_sqr f) as P4. unfold Rsqr in *. lra.
Qed.
(** the stress of the elastic law *)
Lemma S_of_form s Fe i j : S_of s Fe i j = rotate2 (rot_mat s) (cubic (rotate2 (transpose (rot_mat s)) (green Fe))) i j.
Proof.
  transitivity (contract4 (rotate4 (rot_mat s) elastic_C) (green Fe) i j).
  - unfold S_of, contract4, green. apply sumN_ext. intros k _. apply sumN_ext. intros l _. rewrite eye_identity. field.
  - rewrite rotate4_contract. apply rotate2_ext. apply contract_C.
Qed.
Lemma S_of_sym s Fe i j : S_of s Fe i j = S_of s Fe j i.
Proof. rewrite !S_of_form. apply rotate2_sym, cubic_sym. Qed.
Lemma green_sym F : msym 3 (green F).
Proof. intros i j _ _. unfold green, identity, matmul, transpose. rewrite (Nat.eqb_sym i j). do 2 f_equal. apply sumN_ext. intros; ring. Qed.
Lemma S_of_energy s Fe : orthogonal 3 (rot_mat s) -> 47000 * ddot 3 (green Fe) (green Fe) <= ddot 3 (S_of s Fe) (green Fe).
Proof.
  intros HQ. rewrite (ddot_ext 3 (S_of s Fe) (rotate2 (rot_mat s) (cubic (rotate2 (transpose (rot_mat s)) (green Fe)))) (green Fe) (green Fe)); [|intros i j _ _; apply S_of_form|intros i j _ _; reflexivity].
  rewrite ddot_rotate2. rewrite <- (ddot_rotate_rotate (transpose (rot_mat s)) (green Fe) (green Fe)) by now apply orth_transpose. apply cubic_coercive. intros i j _ _. apply rotate2_sym, green_sym.
Qed.
Lemma green_frame Q F : orthogonal 3 Q -> meq 3 (green (matmul 3 Q F)) (green F).
Proof.
  intros (_ & H) i j Hi Hj. unfold green. do 2 f_equal. transitivity (sumN 3 (fun a => sumN 3 (fun b => matmul 3 (transpose Q) Q a b * (F a i * F b j)))).
  - unfold matmul, transpose. sums. ring.
  - transitivity (sumN 3 (fun a => sumN 3 (fun b => identity a b * (F a i * F b j)))).
    + apply sumN_ext. intros a Ha. apply sumN_ext. intros b Hb. now rewrite (H a b Ha Hb).
    + unfold matmul, transpose, identity. sums. cbn [Nat.eqb]. ring.
Qed.
Lemma rotate4_symmetric Q : symmetric4 (rotate4 Q elastic_C).
Proof.
  intros i j k l _ _ _ _. unfold rotate4. split; [|split].
  - rewrite sumN_swap. apply sumN_ext. intros b Hb. apply sumN_ext. intros a Ha. apply sumN_ext. intros c Hc. apply sumN_ext. intros d Hd. rewrite (proj1 (C_symmetric a b c d Ha Hb Hc Hd)). ring.
  - apply sumN_ext. intros a Ha. apply sumN_ext. intros b Hb. rewrite sumN_swap. apply sumN_ext. intros d Hd. apply sumN_ext. intros c Hc. rewrite (proj1 (proj2 (C_symmetric a b c d Ha Hb Hc Hd))). ring.
  - transitivity (sumN 3 (fun a => sumN 3 (fun c => sumN 3 (fun b => sumN 3 (fun d => Q i a * Q j b * Q k c * Q l d * elastic_C a b c d))))).
    { apply sumN_ext. intros a _. apply sumN_swap. }
    rewrite sumN_swap. apply sumN_ext. intros c Hc. transitivity (sumN 3 (fun a => sumN 3 (fun d => sumN 3 (fun b => Q i a * Q j b * Q k c * Q l d * elastic_C a b c d)))).
    { apply sumN_ext. intros a _. apply sumN_swap. }
    rewrite sumN_swap. apply sumN_ext. intros d Hd. apply sumN_ext. intros a Ha. apply sumN_ext. intros b Hb. rewrite (proj2 (proj2 (C_symmetric a b c d Ha Hb Hc Hd))). ring.
Qed.
Lemma rotated_coercive Q E : orthogonal 3 Q -> msym 3 E -> 47000 * ddot 3 E E <= ddot 3 (contract4 (rotate4 Q elastic_C) E) E.
Proof.
  intros HQ HE. rewrite (ddot_ext 3 (contract4 (rotate4 Q elastic_C) E) (rotate2 Q (cubic (rotate2 (transpose Q) E))) E E); [|intros i j Hi Hj; rewrite rotate4_contract; apply rotate2_ext, contract_C|intros i j _ _; reflexivity].
  rewrite ddot_rotate2. rewrite <- (ddot_rotate_rotate (transpose Q) E E) by now apply orth_transpose. apply cubic_coercive. intros i j _ _. apply rotate2_sym, HE.
Qed.
Lemma ddot_zero A : ddot 3 A A <= 0 -> meq 3 A mzero.
Proof.
  intros H i j Hi Hj. unfold mzero. unfold ddot in H. apply Rsqr_eq_0. unfold Rsqr. revert H. generalize A. clear A. intros A H. apply Rle_antisym; [|apply Rle_0_sqr]. apply Rle_trans with (2 := H).
  apply Rle_trans with (sumN 3 (fun j => A i j * A i j)).
  - rewrite <- (sumN_pick 3 j (fun j => A i j * A i j) Hj) at 1. apply sumN_le. intros k _. destruct (Nat.eqb k j); [lra|apply Rle_0_sqr].
  - rewrite <- (sumN_pick 3 i (fun i => sumN 3 (fun j => A i j * A i j)) Hi) at 1. apply sumN_le. intros k _. destruct (Nat.eqb k i); [lra|]. apply sumN_nonneg. intros l _. apply Rle_0_sqr.
Qed.
Lemma green_zero F : meq 3 (green F) mzero -> meq 3 (matmul 3 (transpose F) F) identity.
Proof. intros H i j Hi Hj. specialize (H i j Hi Hj). unfold green, mzero in H. lra. Qed.
Close Scope R_scope.
