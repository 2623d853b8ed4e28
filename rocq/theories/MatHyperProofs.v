(** * Proofs about the hyperelastic energy. *)
From Coq Require Import Lra Lia.
From Verif Require Import Prelude PreludeFacts FemModel FemFacts FemSpec MatModel MatSpec MatProofs.
Open Scope R_scope.

Ltac mat3 := unfold matmul, transpose, trace, ddot, sumN, det, adj, identity, eye; cbn [seq sumR fold_right map Nat.eqb].
Ltac each3 i j := destruct i as [|[|[|i]]], j as [|[|[|j]]]; try lia.

Lemma det_matmul d A B : small_dim d -> det d (matmul d A B) = det d A * det d B.
Proof. intros [-> | [-> | ->]]; unfold matmul, sumN, det; cbn; ring. Qed.
Lemma trace_FtF d F : trace d (matmul d (transpose F) F) = ddot d F F.
Proof. unfold trace, matmul, transpose, ddot. now rewrite sumN_swap. Qed.
Lemma matmul_transpose d A B i j : transpose (matmul d A B) i j = matmul d (transpose B) (transpose A) i j.
Proof. unfold transpose, matmul. apply sumN_ext. intros; ring. Qed.
Lemma ddot_rotated d Q F : orthogonal d Q -> ddot d (matmul d Q F) (matmul d Q F) = ddot d F F.
Proof.
  intros (_ & HQ). rewrite <- !trace_FtF. apply trace_ext. intros i j Hi Hj.
  rewrite (matmul_ext d _ (matmul d (transpose F) (transpose Q)) _ (matmul d Q F)); try assumption; [|intros k l _ _; apply matmul_transpose|intros k l _ _; reflexivity].
  rewrite matmul_assoc. apply matmul_ext; try assumption; [intros k l _ _; reflexivity|]. intros k l Hk Hl. rewrite <- matmul_assoc.
  rewrite (matmul_ext d _ identity F F HQ) by (assumption || (intros a b _ _; reflexivity)). now apply matmul_identity_l.
Qed.
Lemma psi_form d mu kappa F : psi_mod d mu kappa F = mu / 2 * (Rpower (det d F) (- 2 / 3) * ddot d F F - 3) + kappa / 2 * (det d F - 1) ^ 2.
Proof. unfold psi_mod. now rewrite trace_FtF. Qed.
Lemma psi_frame d mu kappa Q F : small_dim d -> rotation d Q -> psi_mod d mu kappa (matmul d Q F) = psi_mod d mu kappa F.
Proof. intros Hd (HQ & H1). rewrite !psi_form, det_matmul, H1, Rmult_1_l, ddot_rotated by assumption. reflexivity. Qed.
Lemma Rpower_1_l y : Rpower 1 y = 1.
Proof. unfold Rpower. rewrite ln_1, Rmult_0_r. apply exp_0. Qed.
Lemma det_identity d : small_dim d -> det d identity = 1.
Proof. intros [-> | [-> | ->]]; unfold det, identity; cbn [Nat.eqb]; ring. Qed.
Lemma ddot_identity d : ddot d identity identity = INR d.
Proof. rewrite ddot_eye. apply trace_identity. Qed.
Lemma psi_rest mu kappa : psi_mod 3 mu kappa identity = 0.
Proof. rewrite psi_form, det_identity, Rpower_1_l, ddot_identity by (unfold small_dim; auto). cbn [INR]. field. Qed.

(** ** the gradient *)
Definition PK (d : nat) (mu kappa : R) (F : mat) : mat := fun i j =>
  mu * Rpower (det d F) (- 2 / 3) * (F i j - ddot d F F / (3 * det d F) * adj d F j i) + kappa * (det d F - 1) * adj d F j i.
Lemma det_bump d F i j t : small_dim d -> (i < d)%nat -> (j < d)%nat -> det d (bump F i j t) = det d F + t * adj d F j i.
Proof.
  intros [-> | [-> | ->]] Hi Hj.
  - destruct i, j; try lia. unfold det, bump, adj. cbn [Nat.eqb andb]. ring.
  - destruct i as [|[|i]], j as [|[|j]]; try lia; unfold det, bump, adj; cbn [Nat.eqb andb]; ring.
  - each3 i j; unfold det, bump, adj; cbn [Nat.eqb andb]; ring.
Qed.
Lemma ddot_pick d i j A : (i < d)%nat -> (j < d)%nat -> ddot d (fun k l => if Nat.eqb k i && Nat.eqb l j then 1 else 0) A = A i j.
Proof.
  intros Hi Hj. unfold ddot. rewrite (sumN_ext d _ (fun k => if Nat.eqb k i then A k j else 0)).
  - now rewrite (sumN_pick d i (fun k => A k j)).
  - intros k _. destruct (Nat.eqb k i); cbn [andb].
    + rewrite <- (sumN_pick d j (fun l => A k l) Hj). apply sumN_ext. intros l _. destruct (Nat.eqb l j); ring.
    + apply sumN_zero. intros. ring.
Qed.
Lemma ddot_bump d F i j t : (i < d)%nat -> (j < d)%nat -> ddot d (bump F i j t) (bump F i j t) = ddot d F F + 2 * t * F i j + t ^ 2.
Proof.
  intros Hi Hj. set (X := fun k l => if Nat.eqb k i && Nat.eqb l j then 1 else 0).
  rewrite (ddot_ext d _ (fun k l => F k l + t * X k l) _ (fun k l => F k l + t * X k l))
    by (intros k l _ _; unfold bump, X; destruct (Nat.eqb k i && Nat.eqb l j); ring).
  rewrite (ddot_add_l d F (fun k l => t * X k l)), ddot_scal_l. unfold X at 2. rewrite ddot_pick by assumption.
  rewrite (ddot_comm d F), (ddot_add_l d F (fun k l => t * X k l)), ddot_scal_l. unfold X at 1. rewrite ddot_pick by assumption.
  unfold X. rewrite !Nat.eqb_refl. cbn [andb]. ring.
Qed.
Lemma dl_Rpower f x p a : 0 < f x -> derivable_pt_lim f x a -> derivable_pt_lim (fun t => Rpower (f t) p) x (p * Rpower (f x) p / f x * a).
Proof.
  intros Hf H. assert (Hp := derivable_pt_lim_power (f x) p Hf).
  assert (E : p * Rpower (f x) (p - 1) = p * Rpower (f x) p / f x).
  { unfold Rminus. rewrite Rpower_plus, Rpower_Ropp, Rpower_1 by exact Hf. field. lra. }
  rewrite E in Hp. exact (derivable_pt_lim_comp f (fun y => Rpower y p) x a _ H Hp).
Qed.
Lemma PK_is_grad d mu kappa : small_dim d -> is_grad d (psi_mod d mu kappa) (fun F => 0 < det d F) (PK d mu kappa).
Proof.
  intros Hd F i j HJ Hi Hj.
  assert (HD : derivable_pt_lim (fun t => det d F + t * adj d F j i) 0 (adj d F j i)) by apply dl_line.
  assert (HI : derivable_pt_lim (fun t => ddot d F F + 2 * t * F i j + t ^ 2) 0 (2 * F i j)).
  { eapply dl_eq; [apply (dl_add (fun t => ddot d F F + t * (2 * F i j)) (fun t => t * t)); [apply dl_line|apply (dl_mul (fun t => t) (fun t => t)); apply dl_id]| |].
    - intros t. cbn. ring.
    - cbn. ring. }
  assert (HP : derivable_pt_lim (fun t => Rpower (det d F + t * adj d F j i) (- 2 / 3)) 0
                 ((- 2 / 3) * Rpower (det d F + 0 * adj d F j i) (- 2 / 3) / (det d F + 0 * adj d F j i) * adj d F j i)).
  { apply (dl_Rpower (fun t => det d F + t * adj d F j i)); [lra|exact HD]. }
  eapply dl_eq.
  - apply dl_add.
    + apply (dl_scal (mu / 2)). apply dl_sub; [apply dl_mul; [exact HP|exact HI]|apply (dl_const 3)].
    + apply (dl_scal (kappa / 2)). apply (dl_mul (fun t => det d F + t * adj d F j i - 1) (fun t => det d F + t * adj d F j i - 1));
        (apply dl_sub; [exact HD|apply (dl_const 1)]).
  - intros t. rewrite psi_form, det_bump, ddot_bump by assumption. ring.
  - unfold PK. replace (det d F + 0 * adj d F j i) with (det d F) by ring. field. lra.
Qed.
Lemma grad_unique d f dom g g' F : is_grad d f dom g -> is_grad d f dom g' -> dom F -> meq d (g F) (g' F).
Proof. intros H H' HF i j Hi Hj. exact (dl_unique _ _ _ _ (H F i j HF Hi Hj) (H' F i j HF Hi Hj)). Qed.
Lemma grad_ext d f f' dom g : (forall F, f F = f' F) -> is_grad d f dom g -> is_grad d f' dom g.
Proof. intros H Hg F i j HF Hi Hj. exact (dl_ext _ _ _ _ (fun t => H _) (Hg F i j HF Hi Hj)). Qed.
Lemma P_formula d mu kappa P_fn F : small_dim d -> is_grad d (psi_mod d mu kappa) (fun F => 0 < det d F) P_fn -> 0 < det d F ->
  meq d (P_fn F) (PK d mu kappa F).
Proof. intros Hd H HF. exact (grad_unique d _ _ _ _ F H (PK_is_grad d mu kappa Hd) HF). Qed.
Lemma adj_identity d i j : small_dim d -> (i < d)%nat -> (j < d)%nat -> adj d identity i j = identity i j.
Proof.
  intros [-> | [-> | ->]] Hi Hj.
  - destruct i, j; try lia. reflexivity.
  - destruct i as [|[|i]], j as [|[|j]]; try lia; unfold adj, identity; cbn [Nat.eqb]; ring.
  - each3 i j; unfold adj, identity; cbn [Nat.eqb]; ring.
Qed.
Lemma PK_rest d mu kappa i j : small_dim d -> (i < d)%nat -> (j < d)%nat -> PK d mu kappa identity i j = mu * (1 - INR d / 3) * identity i j.
Proof.
  intros Hd Hi Hj. unfold PK. rewrite det_identity, Rpower_1_l, ddot_identity, adj_identity by assumption.
  replace (identity j i) with (identity i j) by (unfold identity; now rewrite Nat.eqb_sym). field.
Qed.
(** Kirchhoff stress P F^T symmetric *)
Lemma PK_moment d mu kappa F : small_dim d -> det d F <> 0 -> msym d (matmul d (PK d mu kappa F) (transpose F)).
Proof.
  intros Hd HF.
  assert (E : forall i j, (i < d)%nat -> (j < d)%nat -> matmul d (PK d mu kappa F) (transpose F) i j
     = mu * Rpower (det d F) (- 2 / 3) * (matmul d F (transpose F) i j - ddot d F F / 3 * identity i j) + kappa * (det d F - 1) * (det d F * identity i j)).
  { intros i j Hi Hj. unfold matmul, transpose, PK. pose proof (mat_mul_adj d F j i Hd Hj Hi) as HA. unfold delta in HA.
    rewrite (sumN_ext d _ (fun k => mu * Rpower (det d F) (- 2 / 3) * (F i k * F j k) + (kappa * (det d F - 1) - mu * Rpower (det d F) (- 2 / 3) * (ddot d F F / (3 * det d F))) * (F j k * adj d F k i)))
      by (intros; ring).
    rewrite sumN_add, !sumN_scal, HA. unfold identity. rewrite (Nat.eqb_sym j i). destruct (Nat.eqb i j); field; exact HF. }
  intros i j Hi Hj. rewrite !E by assumption. unfold matmul, transpose, identity. rewrite (Nat.eqb_sym j i).
  rewrite (sumN_ext d (fun k => F i k * F j k) (fun k => F j k * F i k)) by (intros; ring). reflexivity.
Qed.
Lemma adj_matmul3 Q F i j : (i < 3)%nat -> (j < 3)%nat -> adj 3 (matmul 3 Q F) i j = sumN 3 (fun k => adj 3 F i k * adj 3 Q k j).
Proof. intros Hi Hj. each3 i j; unfold matmul, sumN, adj; cbn; ring. Qed.
Lemma adj_rotation d Q i j : small_dim d -> rotation d Q -> (i < d)%nat -> (j < d)%nat -> adj d Q i j = Q j i.
Proof.
  intros Hd ((HQ & _) & H1) Hi Hj.
  transitivity (matmul d (adj d Q) (matmul d Q (transpose Q)) i j).
  - rewrite (matmul_ext d _ (adj d Q) _ identity) by (assumption || exact HQ || (intros k l _ _; reflexivity)). symmetry. now apply matmul_identity_r.
  - rewrite <- matmul_assoc. rewrite (matmul_ext d _ identity _ (transpose Q)); try assumption; [now rewrite matmul_identity_l| |intros k l _ _; reflexivity].
    intros k l Hk Hl. pose proof (adj_mul_mat d Q k l Hd Hk Hl) as HA. rewrite H1 in HA. unfold matmul. rewrite HA. unfold delta, identity. ring.
Qed.
Lemma PK_objective mu kappa Q F : rotation 3 Q -> meq 3 (PK 3 mu kappa (matmul 3 Q F)) (matmul 3 Q (PK 3 mu kappa F)).
Proof.
  intros HR i j Hi Hj. assert (Hd : small_dim 3) by (unfold small_dim; auto). unfold PK at 1.
  rewrite det_matmul, (proj2 HR), Rmult_1_l, ddot_rotated, adj_matmul3 by (assumption || exact (proj1 HR)).
  rewrite (sumN_ext 3 (fun k => adj 3 F j k * adj 3 Q k i) (fun k => Q i k * adj 3 F j k)) by (intros k Hk; rewrite (adj_rotation 3 Q k i Hd HR) by assumption; ring).
  unfold matmul, PK.
  rewrite (sumN_ext 3 (fun k => Q i k * (_ + _)) (fun k => mu * Rpower (det 3 F) (- 2 / 3) * (Q i k * F k j)
     + (kappa * (det 3 F - 1) - mu * Rpower (det 3 F) (- 2 / 3) * (ddot 3 F F / (3 * det 3 F))) * (Q i k * adj 3 F j k))) by (intros; ring).
  rewrite sumN_add, !sumN_scal. ring.
Qed.

(** ** non-negative energy (Hadamard and the mean inequality) *)
Lemma am_gm3 x y z : 0 <= x -> 0 <= y -> 0 <= z -> 27 * (x * y * z) <= (x + y + z) ^ 3
  /\ (27 * (x * y * z) = (x + y + z) ^ 3 -> 0 < x + y + z -> x = y /\ y = z).
Proof.
  intros Hx Hy Hz.
  assert (E : (x + y + z) ^ 3 - 27 * (x * y * z) = / 2 * (x + y + z) * ((x - y) * (x - y) + (y - z) * (y - z) + (z - x) * (z - x))
                + 3 * (x * ((y - z) * (y - z)) + y * ((z - x) * (z - x)) + z * ((x - y) * (x - y)))) by field.
  pose proof (Rle_0_sqr (x - y)) as A. pose proof (Rle_0_sqr (y - z)) as B. pose proof (Rle_0_sqr (z - x)) as C. unfold Rsqr in *.
  set (a := (x - y) * (x - y)) in *. set (b := (y - z) * (y - z)) in *. set (c := (z - x) * (z - x)) in *.
  assert (0 <= x * b) by nra. assert (0 <= y * c) by nra. assert (0 <= z * a) by nra. assert (0 <= (x + y + z) * (a + b + c)) by nra. split; [nra|].
  intros HE Hs. assert ((x + y + z) * (a + b + c) = 0) by nra. assert (a + b + c = 0) by nra. assert (a = 0) by lra. assert (b = 0) by lra.
  unfold a, b in *. split; nra.
Qed.
Lemma col_split F : ddot 3 F F = (F 0%nat 0%nat ^ 2 + F 1%nat 0%nat ^ 2 + F 2%nat 0%nat ^ 2)
  + (F 0%nat 1%nat ^ 2 + F 1%nat 1%nat ^ 2 + F 2%nat 1%nat ^ 2) + (F 0%nat 2%nat ^ 2 + F 1%nat 2%nat ^ 2 + F 2%nat 2%nat ^ 2).
Proof. unfold ddot, sumN. cbn. ring. Qed.
Lemma hadamard a1 a2 a3 b1 b2 b3 c1 c2 c3 :
  (a1 * (b2 * c3 - b3 * c2) + a2 * (b3 * c1 - b1 * c3) + a3 * (b1 * c2 - b2 * c1)) ^ 2
  <= (a1 ^ 2 + a2 ^ 2 + a3 ^ 2) * ((b1 ^ 2 + b2 ^ 2 + b3 ^ 2) * (c1 ^ 2 + c2 ^ 2 + c3 ^ 2)).
Proof.
  set (m1 := b2 * c3 - b3 * c2). set (m2 := b3 * c1 - b1 * c3). set (m3 := b1 * c2 - b2 * c1).
  assert (H1 : (a1 * m1 + a2 * m2 + a3 * m3) ^ 2 <= (a1 ^ 2 + a2 ^ 2 + a3 ^ 2) * (m1 ^ 2 + m2 ^ 2 + m3 ^ 2)).
  { assert ((a1 ^ 2 + a2 ^ 2 + a3 ^ 2) * (m1 ^ 2 + m2 ^ 2 + m3 ^ 2) - (a1 * m1 + a2 * m2 + a3 * m3) ^ 2 = (a1 * m2 - a2 * m1) ^ 2 + (a2 * m3 - a3 * m2) ^ 2 + (a3 * m1 - a1 * m3) ^ 2) as E by ring.
    pose proof (pow2_ge_0 (a1 * m2 - a2 * m1)). pose proof (pow2_ge_0 (a2 * m3 - a3 * m2)). pose proof (pow2_ge_0 (a3 * m1 - a1 * m3)). lra. }
  assert (H2 : m1 ^ 2 + m2 ^ 2 + m3 ^ 2 <= (b1 ^ 2 + b2 ^ 2 + b3 ^ 2) * (c1 ^ 2 + c2 ^ 2 + c3 ^ 2)).
  { assert ((b1 ^ 2 + b2 ^ 2 + b3 ^ 2) * (c1 ^ 2 + c2 ^ 2 + c3 ^ 2) - (m1 ^ 2 + m2 ^ 2 + m3 ^ 2) = (b1 * c1 + b2 * c2 + b3 * c3) ^ 2) as E by (unfold m1, m2, m3; ring).
    pose proof (pow2_ge_0 (b1 * c1 + b2 * c2 + b3 * c3)). lra. }
  apply Rle_trans with (1 := H1). apply Rmult_le_compat_l; [|exact H2].
  pose proof (pow2_ge_0 a1). pose proof (pow2_ge_0 a2). pose proof (pow2_ge_0 a3). lra.
Qed.
Lemma det_le_norm F : 27 * det 3 F ^ 2 <= ddot 3 F F ^ 3.
Proof.
  rewrite col_split. set (x := F 0%nat 0%nat ^ 2 + _ + _). set (y := F 0%nat 1%nat ^ 2 + _ + _). set (z := F 0%nat 2%nat ^ 2 + _ + _).
  assert (Hx : 0 <= x) by (unfold x; pose proof (pow2_ge_0 (F 0%nat 0%nat)); pose proof (pow2_ge_0 (F 1%nat 0%nat)); pose proof (pow2_ge_0 (F 2%nat 0%nat)); lra).
  assert (Hy : 0 <= y) by (unfold y; pose proof (pow2_ge_0 (F 0%nat 1%nat)); pose proof (pow2_ge_0 (F 1%nat 1%nat)); pose proof (pow2_ge_0 (F 2%nat 1%nat)); lra).
  assert (Hz : 0 <= z) by (unfold z; pose proof (pow2_ge_0 (F 0%nat 2%nat)); pose proof (pow2_ge_0 (F 1%nat 2%nat)); pose proof (pow2_ge_0 (F 2%nat 2%nat)); lra).
  destruct (am_gm3 x y z Hx Hy Hz) as (H & _).
  pose proof (hadamard (F 0%nat 0%nat) (F 1%nat 0%nat) (F 2%nat 0%nat) (F 0%nat 1%nat) (F 1%nat 1%nat) (F 2%nat 1%nat) (F 0%nat 2%nat) (F 1%nat 2%nat) (F 2%nat 2%nat)) as HH.
  fold x y z in HH. replace (det 3 F ^ 2) with ((F 0%nat 0%nat * (F 1%nat 1%nat * F 2%nat 2%nat - F 2%nat 1%nat * F 1%nat 2%nat)
     + F 1%nat 0%nat * (F 2%nat 1%nat * F 0%nat 2%nat - F 0%nat 1%nat * F 2%nat 2%nat) + F 2%nat 0%nat * (F 0%nat 1%nat * F 1%nat 2%nat - F 1%nat 1%nat * F 0%nat 2%nat)) ^ 2)
    by (unfold det; ring). lra.
Qed.
Lemma pow3_le x y : 0 <= y -> x ^ 3 <= y ^ 3 -> x <= y.
Proof.
  intros Hy H. destruct (Rle_dec x y) as [|Hn]; [assumption|exfalso]. assert (Hxy : y < x) by lra.
  assert (0 < (x - y) * (x ^ 2 + x * y + y ^ 2)); [|nra]. apply Rmult_lt_0_compat; [lra|]. assert (0 < x ^ 2) by (cbn; nra). nra.
Qed.
Lemma isochoric_ge F : 0 < det 3 F -> 3 <= Rpower (det 3 F) (- 2 / 3) * ddot 3 F F.
Proof.
  intros HJ. set (J := det 3 F) in *. set (p := Rpower J (- 2 / 3)).
  assert (Hp : 0 < p) by apply exp_pos. assert (Hp3 : p ^ 3 * J ^ 2 = 1).
  { unfold p. rewrite <- Rpower_pow with (n := 3%nat) by apply exp_pos. rewrite <- Rpower_pow by exact HJ. rewrite Rpower_mult, <- Rpower_plus.
    replace (- 2 / 3 * INR 3 + INR 2) with 0 by (cbn; field). now apply Rpower_O. }
  pose proof (det_le_norm F) as H. fold J in H. apply pow3_le; [pose proof (ddot_nonneg 3 F); nra|].
  replace ((p * ddot 3 F F) ^ 3) with (p ^ 3 * ddot 3 F F ^ 3) by ring.
  assert (0 < p ^ 3) by (apply pow_lt; exact Hp). assert (p ^ 3 * (27 * J ^ 2) <= p ^ 3 * ddot 3 F F ^ 3) by (apply Rmult_le_compat_l; lra). nra.
Qed.
Lemma psi_nonneg mu kappa F : 0 <= mu -> 0 <= kappa -> 0 < det 3 F -> 0 <= psi_mod 3 mu kappa F.
Proof.
  intros Hm Hk HJ. rewrite psi_form. pose proof (isochoric_ge F HJ). pose proof (pow2_ge_0 (det 3 F - 1)). nra.
Qed.

Lemma unit_cols a1 a2 a3 b1 b2 b3 c1 c2 c3 : a1 ^ 2 + a2 ^ 2 + a3 ^ 2 = 1 -> b1 ^ 2 + b2 ^ 2 + b3 ^ 2 = 1 -> c1 ^ 2 + c2 ^ 2 + c3 ^ 2 = 1 ->
  a1 * (b2 * c3 - b3 * c2) + a2 * (b3 * c1 - b1 * c3) + a3 * (b1 * c2 - b2 * c1) = 1 -> b1 * c1 + b2 * c2 + b3 * c3 = 0.
Proof.
  intros Ha Hb Hc HD. set (m1 := b2 * c3 - b3 * c2) in *. set (m2 := b3 * c1 - b1 * c3) in *. set (m3 := b1 * c2 - b2 * c1) in *.
  assert (H1 : (a1 ^ 2 + a2 ^ 2 + a3 ^ 2) * (m1 ^ 2 + m2 ^ 2 + m3 ^ 2) - (a1 * m1 + a2 * m2 + a3 * m3) ^ 2 = (a1 * m2 - a2 * m1) ^ 2 + (a2 * m3 - a3 * m2) ^ 2 + (a3 * m1 - a1 * m3) ^ 2) by ring.
  assert (H2 : (b1 ^ 2 + b2 ^ 2 + b3 ^ 2) * (c1 ^ 2 + c2 ^ 2 + c3 ^ 2) - (m1 ^ 2 + m2 ^ 2 + m3 ^ 2) = (b1 * c1 + b2 * c2 + b3 * c3) ^ 2) by (unfold m1, m2, m3; ring).
  rewrite Ha, HD in H1. rewrite Hb, Hc in H2.
  pose proof (pow2_ge_0 (a1 * m2 - a2 * m1)). pose proof (pow2_ge_0 (a2 * m3 - a3 * m2)). pose proof (pow2_ge_0 (a3 * m1 - a1 * m3)).
  pose proof (pow2_ge_0 (b1 * c1 + b2 * c2 + b3 * c3)). assert (E : (b1 * c1 + b2 * c2 + b3 * c3) ^ 2 = 0) by lra. nra.
Qed.
Lemma cols_orthonormal F : det 3 F = 1 -> ddot 3 F F = 3 -> meq 3 (matmul 3 (transpose F) F) identity.
Proof.
  intros HD HI. pose proof (hadamard (F 0%nat 0%nat) (F 1%nat 0%nat) (F 2%nat 0%nat) (F 0%nat 1%nat) (F 1%nat 1%nat) (F 2%nat 1%nat) (F 0%nat 2%nat) (F 1%nat 2%nat) (F 2%nat 2%nat)) as HH.
  rewrite col_split in HI. unfold det in HD.
  intros i j Hi Hj.
  assert (G : forall a1 a2 a3 b1 b2 b3 c1 c2 c3, a1 ^ 2 + a2 ^ 2 + a3 ^ 2 + (b1 ^ 2 + b2 ^ 2 + b3 ^ 2) + (c1 ^ 2 + c2 ^ 2 + c3 ^ 2) = 3 ->
    a1 * (b2 * c3 - b3 * c2) + a2 * (b3 * c1 - b1 * c3) + a3 * (b1 * c2 - b2 * c1) = 1 ->
    (a1 ^ 2 + a2 ^ 2 + a3 ^ 2 = 1 /\ b1 ^ 2 + b2 ^ 2 + b3 ^ 2 = 1 /\ c1 ^ 2 + c2 ^ 2 + c3 ^ 2 = 1)
    /\ b1 * c1 + b2 * c2 + b3 * c3 = 0 /\ c1 * a1 + c2 * a2 + c3 * a3 = 0 /\ a1 * b1 + a2 * b2 + a3 * b3 = 0).
  { clear. intros a1 a2 a3 b1 b2 b3 c1 c2 c3 HS HD. pose proof (hadamard a1 a2 a3 b1 b2 b3 c1 c2 c3) as HH. rewrite HD in HH.
    assert (Hx : 0 <= a1 ^ 2 + a2 ^ 2 + a3 ^ 2) by (pose proof (pow2_ge_0 a1); pose proof (pow2_ge_0 a2); pose proof (pow2_ge_0 a3); lra).
    assert (Hy : 0 <= b1 ^ 2 + b2 ^ 2 + b3 ^ 2) by (pose proof (pow2_ge_0 b1); pose proof (pow2_ge_0 b2); pose proof (pow2_ge_0 b3); lra).
    assert (Hz : 0 <= c1 ^ 2 + c2 ^ 2 + c3 ^ 2) by (pose proof (pow2_ge_0 c1); pose proof (pow2_ge_0 c2); pose proof (pow2_ge_0 c3); lra).
    assert (N : a1 ^ 2 + a2 ^ 2 + a3 ^ 2 = 1 /\ b1 ^ 2 + b2 ^ 2 + b3 ^ 2 = 1 /\ c1 ^ 2 + c2 ^ 2 + c3 ^ 2 = 1).
    { revert Hx Hy Hz HS HH. generalize (a1 ^ 2 + a2 ^ 2 + a3 ^ 2) as x, (b1 ^ 2 + b2 ^ 2 + b3 ^ 2) as y, (c1 ^ 2 + c2 ^ 2 + c3 ^ 2) as z. intros x y z Hx Hy Hz HS HH.
      destruct (am_gm3 x y z Hx Hy Hz) as (Hle & Heq). rewrite HS in *. destruct Heq; [nra|lra|]. subst. lra. }
    split; [exact N|]. destruct N as (Na & Nb & Nc). split; [|split].
    - exact (unit_cols a1 a2 a3 b1 b2 b3 c1 c2 c3 Na Nb Nc HD).
    - apply (unit_cols b1 b2 b3 c1 c2 c3 a1 a2 a3 Nb Nc Na). rewrite <- HD. ring.
    - apply (unit_cols c1 c2 c3 a1 a2 a3 b1 b2 b3 Nc Na Nb). rewrite <- HD. ring. }
  destruct (G (F 0%nat 0%nat) (F 1%nat 0%nat) (F 2%nat 0%nat) (F 0%nat 1%nat) (F 1%nat 1%nat) (F 2%nat 1%nat) (F 0%nat 2%nat) (F 1%nat 2%nat) (F 2%nat 2%nat)) as ((Na & Nb & Nc) & Hbc & Hca & Hab); [exact HI|rewrite <- HD; ring|].
  each3 i j; unfold matmul, transpose, sumN, identity; cbn [seq sumR fold_right map Nat.eqb]; lra.
Qed.
Lemma psi_zero_iff mu kappa F : 0 < mu -> 0 < kappa -> 0 < det 3 F -> (psi_mod 3 mu kappa F = 0 <-> rotation 3 F).
Proof.
  intros Hm Hk HJ. split.
  - intros H0. rewrite psi_form in H0. pose proof (isochoric_ge F HJ) as HI. pose proof (pow2_ge_0 (det 3 F - 1)) as HS.
    assert (A : Rpower (det 3 F) (- 2 / 3) * ddot 3 F F - 3 = 0) by nra. assert (B : (det 3 F - 1) ^ 2 = 0) by nra.
    assert (HJ1 : det 3 F = 1) by nra. rewrite HJ1, Rpower_1_l in A. assert (HI1 : ddot 3 F F = 3) by lra.
    split; [|exact HJ1]. split; [|now apply cols_orthonormal].
    intros i j Hi Hj. pose proof (cols_orthonormal (transpose F)) as C. unfold transpose in *. apply C; try assumption.
    + rewrite <- HJ1. unfold det. ring.
    + rewrite <- HI1. unfold ddot. apply sumN_swap.
  - intros (HO & HD). rewrite psi_form, HD, Rpower_1_l.
    assert (E : ddot 3 F F = 3); [|rewrite E; field].
    rewrite <- trace_FtF, (trace_ext 3 _ identity (proj2 HO)), trace_identity. cbn. ring.
Qed.

(** ** linearisation at rest *)
Lemma dl_local f g x l : (exists e, 0 < e /\ forall t, Rabs (t - x) < e -> f t = g t) -> derivable_pt_lim f x l -> derivable_pt_lim g x l.
Proof.
  intros (e & He & Hfg) H eps Heps. destruct (H eps Heps) as (dl & Hd).
  exists (mkposreal (Rmin dl e) (Rmin_pos _ _ (cond_pos dl) He)). intros h Hh Hlt. cbn in Hlt.
  rewrite <- (Hfg (x + h)), <- (Hfg x).
  - apply Hd; [exact Hh|]. apply Rlt_le_trans with (1 := Hlt). apply Rmin_l.
  - replace (x - x) with 0 by ring. now rewrite Rabs_R0.
  - replace (x + h - x) with h by ring. apply Rlt_le_trans with (1 := Hlt). apply Rmin_r.
Qed.
Lemma pos_near f x l : derivable_pt_lim f x l -> 0 < f x -> exists e, 0 < e /\ forall t, Rabs (t - x) < e -> 0 < f t.
Proof.
  intros H Hf. assert (C : continuity_pt f x) by (apply derivable_continuous_pt; exists l; exact H).
  destruct (C (f x) Hf) as (e & He & HC). exists e. split; [exact He|]. intros t Ht.
  destruct (Req_dec t x) as [->|Hn]; [exact Hf|].
  specialize (HC t). cbn in HC. unfold R_dist, D_x, no_cond in HC.
  assert (Hlt : Rabs (f t - f x) < f x) by (apply HC; repeat split; auto). apply Rabs_def2 in Hlt. lra.
Qed.
Definition near_rest (H : mat) (t : R) : mat := fun i j => t * H i j + identity i j.
Lemma det_near_rest H t : det 3 (near_rest H t) = 1 + t * trace 3 H
  + t ^ 2 * (H 0%nat 0%nat * H 1%nat 1%nat - H 0%nat 1%nat * H 1%nat 0%nat + H 0%nat 0%nat * H 2%nat 2%nat - H 0%nat 2%nat * H 2%nat 0%nat + H 1%nat 1%nat * H 2%nat 2%nat - H 1%nat 2%nat * H 2%nat 1%nat)
  + t ^ 3 * det 3 H.
Proof. unfold det, near_rest, identity, trace, sumN. cbn. ring. Qed.
Lemma ddot_near_rest H t : ddot 3 (near_rest H t) (near_rest H t) = 3 + t * (2 * trace 3 H) + t ^ 2 * ddot 3 H H.
Proof. unfold ddot, near_rest, identity, trace, sumN. cbn. ring. Qed.
Lemma adj_near_rest H t i j : (i < 3)%nat -> (j < 3)%nat ->
  adj 3 (near_rest H t) i j = identity i j + t * (trace 3 H * identity i j - H i j) + t ^ 2 * adj 3 H i j.
Proof. intros Hi Hj. each3 i j; unfold adj, near_rest, identity, trace, sumN; cbn; ring. Qed.
Lemma dl_poly a b c e : derivable_pt_lim (fun t => a + t * b + t ^ 2 * c + t ^ 3 * e) 0 b.
Proof.
  eapply dl_eq; [apply (dl_add (fun t => a + t * b) (fun t => t * t * (c + t * e))); [apply dl_line|
    apply (dl_mul (fun t => t * t) (fun t => c + t * e)); [apply (dl_mul (fun t => t) (fun t => t)); apply dl_id|apply dl_line]]| |].
  - intros t. cbn. ring.
  - cbn. ring.
Qed.
Lemma dl_poly2 a b c : derivable_pt_lim (fun t => a + t * b + t ^ 2 * c) 0 b.
Proof. eapply dl_eq; [apply (dl_poly a b c 0)| |reflexivity]. intros t. cbn. ring. Qed.
Lemma dl_inv f x a : f x <> 0 -> derivable_pt_lim f x a -> derivable_pt_lim (fun t => / f t) x (- a / (f x) ^ 2).
Proof.
  intros Hf H. eapply dl_eq; [apply (derivable_pt_lim_div (fun _ => 1) f x 0 a); [apply dl_const|exact H|exact Hf]| |].
  - intros t. unfold div_fct, Rdiv. ring.
  - unfold Rsqr. field. exact Hf.
Qed.
Lemma PK_linearised mu kappa H i j : (i < 3)%nat -> (j < 3)%nat ->
  derivable_pt_lim (fun t => PK 3 mu kappa (near_rest H t) i j) 0 (mu * (H i j + H j i) + (kappa - 2 / 3 * mu) * trace 3 H * identity i j).
Proof.
  intros Hi Hj.
  set (c2 := H 0%nat 0%nat * H 1%nat 1%nat - H 0%nat 1%nat * H 1%nat 0%nat + H 0%nat 0%nat * H 2%nat 2%nat - H 0%nat 2%nat * H 2%nat 0%nat + H 1%nat 1%nat * H 2%nat 2%nat - H 1%nat 2%nat * H 2%nat 1%nat).
  set (Jt := fun t => 1 + t * trace 3 H + t ^ 2 * c2 + t ^ 3 * det 3 H).
  assert (HJ : derivable_pt_lim Jt 0 (trace 3 H)) by apply dl_poly. assert (J0 : Jt 0 = 1) by (unfold Jt; ring).
  assert (HP : derivable_pt_lim (fun t => Rpower (Jt t) (- 2 / 3)) 0 (- 2 / 3 * trace 3 H)).
  { eapply dl_eq; [apply (dl_Rpower Jt 0 (- 2 / 3) (trace 3 H)); [lra|exact HJ]|reflexivity|]. rewrite J0, Rpower_1_l. field. }
  assert (HV : derivable_pt_lim (fun t => / Jt t) 0 (- trace 3 H)).
  { eapply dl_eq; [apply (dl_inv Jt 0 (trace 3 H)); [lra|exact HJ]|reflexivity|]. rewrite J0. field. }
  assert (HA : derivable_pt_lim (fun t => identity j i + t * (trace 3 H * identity j i - H j i) + t ^ 2 * adj 3 H j i) 0 (trace 3 H * identity j i - H j i)) by apply dl_poly2.
  assert (HI : derivable_pt_lim (fun t => 3 + t * (2 * trace 3 H) + t ^ 2 * ddot 3 H H) 0 (2 * trace 3 H)) by apply dl_poly2.
  assert (HF : derivable_pt_lim (fun t => identity i j + t * H i j) 0 (H i j)) by apply dl_line.
  eapply dl_eq.
  - apply dl_add.
    + apply dl_mul; [apply (dl_scal mu); exact HP|]. apply dl_sub; [exact HF|].
      apply dl_mul; [|exact HA]. apply dl_mul; [apply (dl_scal (/ 3)); exact HI|exact HV].
    + apply dl_mul; [|exact HA]. apply (dl_scal kappa). apply dl_sub; [exact HJ|apply (dl_const 1)].
  - intros t. unfold PK. rewrite det_near_rest, ddot_near_rest, adj_near_rest by assumption. fold c2. fold (Jt t).
    unfold near_rest at 1. unfold Rdiv. rewrite Rinv_mult. ring.
  - cbv beta. rewrite J0, Rpower_1_l, Rinv_1. replace (identity j i) with (identity i j) by (unfold identity; now rewrite Nat.eqb_sym). field.
Qed.

(** ** the two dimensional energy of the buckling example *)
Lemma embed_det F : det 3 (embed F) = det 2 F.
Proof. unfold det, embed. cbn. ring. Qed.
Lemma embed_matmul Q F i j : (i < 3)%nat -> (j < 3)%nat -> embed (matmul 2 Q F) i j = matmul 3 (embed Q) (embed F) i j.
Proof. intros Hi Hj. each3 i j; unfold embed, matmul, sumN; cbn; ring. Qed.
Lemma embed_identity i j : (i < 3)%nat -> (j < 3)%nat -> embed identity i j = identity i j.
Proof. intros Hi Hj. each3 i j; reflexivity. Qed.
Lemma embed_transpose Q i j : embed (transpose Q) i j = transpose (embed Q) i j.
Proof. unfold embed, transpose. destruct i as [|[|[|i]]], j as [|[|[|j]]]; reflexivity. Qed.
Lemma embed_ext A B : meq 2 A B -> forall i j, embed A i j = embed B i j.
Proof. intros H i j. unfold embed. destruct i as [|[|[|i]]], j as [|[|[|j]]]; try reflexivity; apply H; lia. Qed.
Lemma embed_rotation Q : rotation 2 Q -> rotation 3 (embed Q).
Proof.
  intros ((H1 & H2) & HD). split; [split|now rewrite embed_det].
  - intros i j Hi Hj. rewrite <- embed_identity by assumption. rewrite <- (embed_ext _ _ H1), embed_matmul by assumption.
    apply matmul_ext; try assumption; intros k l _ _; [reflexivity|symmetry; apply embed_transpose].
  - intros i j Hi Hj. rewrite <- embed_identity by assumption. rewrite <- (embed_ext _ _ H2), embed_matmul by assumption.
    apply matmul_ext; try assumption; intros k l _ _; [symmetry; apply embed_transpose|reflexivity].
Qed.
Lemma det_ext3 A B : meq 3 A B -> det 3 A = det 3 B.
Proof. intros H. unfold det. rewrite !H by lia. reflexivity. Qed.
Lemma psi_ext3 mu kappa A B : meq 3 A B -> psi_mod 3 mu kappa A = psi_mod 3 mu kappa B.
Proof. intros H. rewrite !psi_form, (det_ext3 A B H), (ddot_ext 3 A B A B H H). reflexivity. Qed.
Lemma embed_bump F i j t : (i < 2)%nat -> (j < 2)%nat -> meq 3 (embed (bump F i j t)) (bump (embed F) i j t).
Proof. intros Hi Hj k l Hk Hl. each3 k l; destruct i as [|[|i]], j as [|[|j]]; try lia; reflexivity. Qed.
Close Scope R_scope.
