(** * Sums, lists, derivatives and small matrices used by the finite-element proofs. *)
From Coq Require Import Lra FunctionalExtensionality.
From Verif Require Import Prelude PreludeFacts FemModel.
Open Scope R_scope.

(** ** sumN *)
Lemma sumN_ext n f g : (forall i, (i < n)%nat -> f i = g i) -> sumN n f = sumN n g.
Proof. intros H. apply sumR_ext. intros i Hi. apply in_seq in Hi. apply H. lia. Qed.
Lemma sumN_add n f g : sumN n (fun i => f i + g i) = sumN n f + sumN n g.
Proof. apply sumR_add. Qed.
Lemma sumN_sub n f g : sumN n (fun i => f i - g i) = sumN n f - sumN n g.
Proof. apply sumR_sub. Qed.
Lemma sumN_opp n f : sumN n (fun i => - f i) = - sumN n f.
Proof. apply sumR_opp. Qed.
Lemma sumN_scal n c f : sumN n (fun i => c * f i) = c * sumN n f.
Proof. apply sumR_scal. Qed.
Lemma sumN_scal_r n c f : sumN n (fun i => f i * c) = sumN n f * c.
Proof. apply sumR_scal_r. Qed.
Lemma sumN_zero n f : (forall i, (i < n)%nat -> f i = 0) -> sumN n f = 0.
Proof. intros H. apply sumR_zero. intros i Hi. apply in_seq in Hi. apply H. lia. Qed.
Lemma sumN_swap n m f : sumN n (fun i => sumN m (fun j => f i j)) = sumN m (fun j => sumN n (fun i => f i j)).
Proof. apply sumR_swap. Qed.
Lemma sumN_sumR_swap {A} n (l : list A) f : sumN n (fun i => sumR l (fun x => f i x)) = sumR l (fun x => sumN n (fun i => f i x)).
Proof. apply sumR_swap. Qed.
Lemma sumN_S n f : sumN (S n) f = sumN n f + f n.
Proof. apply sumR_seq_S. Qed.
Lemma sumN_const n c : sumN n (fun _ => c) = INR n * c.
Proof. unfold sumN. now rewrite sumR_const, seq_length. Qed.
Lemma sumN_nonneg n f : (forall i, (i < n)%nat -> 0 <= f i) -> 0 <= sumN n f.
Proof. intros H. apply sumR_nonneg. intros i Hi. apply in_seq in Hi. apply H. lia. Qed.
Lemma sumN_pick n k f : (k < n)%nat -> sumN n (fun i => if Nat.eqb i k then f i else 0) = f k.
Proof.
  intros H. unfold sumN. rewrite (sumR_single (seq 0 n) k).
  - now rewrite Nat.eqb_refl.
  - apply seq_NoDup.
  - apply in_seq. lia.
  - intros y _ Hy. apply Nat.eqb_neq in Hy. now rewrite Hy.
Qed.
Lemma sumN_pick' n k f : (k < n)%nat -> sumN n (fun i => if Nat.eqb k i then f i else 0) = f k.
Proof.
  intros H. rewrite <- (sumN_pick n k f H). apply sumN_ext. intros i _.
  now rewrite Nat.eqb_sym.
Qed.
Lemma sumN_le n f g : (forall i, (i < n)%nat -> f i <= g i) -> sumN n f <= sumN n g.
Proof. intros H. apply sumR_le. intros i Hi. apply in_seq in Hi. apply H. lia. Qed.
Lemma sumN_app n m f : sumN (n + m) f = sumN n f + sumN m (fun i => f (n + i)%nat).
Proof. unfold sumN. rewrite seq_app, sumR_app. f_equal. cbn. apply sumR_seq_shift. Qed.
(** a sum over n*m terms in C order *)
Lemma sumN_mul n m f : sumN (n * m) f = sumN n (fun i => sumN m (fun j => f (m * i + j)%nat)).
Proof.
  induction n as [|n IH]; [reflexivity|].
  rewrite sumN_S. replace (S n * m)%nat with (n * m + m)%nat by lia.
  rewrite sumN_app, IH. f_equal. apply sumN_ext. intros j _. f_equal. lia.
Qed.
Lemma sumR_nth {A} (l : list A) d f : sumR l f = sumN (length l) (fun i => f (nth i l d)).
Proof.
  unfold sumN. revert f. induction l as [|x l IH]; intros f; [reflexivity|].
  cbn [length seq sumR nth]. f_equal. rewrite IH.
  rewrite (sumR_seq_shift (length l) 1). reflexivity.
Qed.

(** ** lists *)
Lemma combine_app {A B} (l1 l2 : list A) (m1 m2 : list B) : length l1 = length m1 ->
  combine (l1 ++ l2) (m1 ++ m2) = combine l1 m1 ++ combine l2 m2.
Proof. revert m1. induction l1 as [|x l1 IH]; intros [|y m1] H; cbn in *; try discriminate; [reflexivity|]. f_equal. apply IH. lia. Qed.
Lemma combine_map_r {A B C} (f : B -> C) (l : list A) m : combine l (map f m) = map (fun p => (fst p, f (snd p))) (combine l m).
Proof. revert m. induction l as [|x l IH]; intros [|y m]; cbn; try reflexivity. f_equal. apply IH. Qed.
Lemma combine_map_l {A B C} (f : A -> C) (l : list A) (m : list B) : combine (map f l) m = map (fun p => (f (fst p), snd p)) (combine l m).
Proof. revert m. induction l as [|x l IH]; intros [|y m]; cbn; try reflexivity. f_equal. apply IH. Qed.
Lemma combine_same {A} (l : list A) : combine l l = map (fun x => (x, x)) l.
Proof. induction l; cbn; [reflexivity|]. now f_equal. Qed.
Lemma map_nth_seq {A} (l : list A) d : map (fun i => nth i l d) (seq 0 (length l)) = l.
Proof.
  induction l as [|x l IH]; [reflexivity|]. cbn [length seq map nth]. f_equal.
  rewrite <- IH at 2. rewrite <- seq_shift, map_map. reflexivity.
Qed.
Lemma length_concat_const {A} (l : list (list A)) c : Forall (fun x => length x = c) l -> length (concat l) = (length l * c)%nat.
Proof. induction 1; cbn; [reflexivity|]. rewrite app_length. lia. Qed.

(** ** mapM *)
Lemma mapM_app {A B} (f : A -> res B) l1 l2 :
  mapM f (l1 ++ l2) = bind (mapM f l1) (fun a => bind (mapM f l2) (fun b => Ok (a ++ b))).
Proof.
  induction l1 as [|x l1 IH]; cbn.
  - destruct (mapM f l2); reflexivity.
  - destruct (f x); cbn; [|reflexivity]. rewrite IH. destruct (mapM f l1); cbn; [|reflexivity].
    destruct (mapM f l2); reflexivity.
Qed.
Lemma mapM_ext_in {A B} (f g : A -> res B) l : (forall x, In x l -> f x = g x) -> mapM f l = mapM g l.
Proof.
  induction l as [|x l IH]; intros H; cbn; [reflexivity|]. rewrite H by now left.
  rewrite IH; [reflexivity|]. intros y Hy. apply H. now right.
Qed.
Lemma mapM_of_map {A B C} (f : B -> res C) (g : A -> B) l : mapM f (map g l) = mapM (fun x => f (g x)) l.
Proof. induction l as [|x l IH]; cbn; [reflexivity|]. now rewrite IH. Qed.
Lemma mapM_pure {A B} (f : A -> res B) g l : (forall x, In x l -> f x = Ok (g x)) -> mapM f l = Ok (map g l).
Proof.
  induction l as [|x l IH]; intros H; cbn; [reflexivity|]. rewrite H by now left. cbn.
  rewrite IH; [reflexivity|]. intros y Hy. apply H. now right.
Qed.
(** evaluating chunk by chunk and concatenating *)
Lemma mapM_concat {A B C} (f : A -> res (list B)) (h : C -> res B) (chunk : A -> list C) l :
  (forall x, In x l -> f x = mapM h (chunk x)) ->
  bind (mapM f l) (fun v => Ok (concat v)) = mapM h (concat (map chunk l)).
Proof.
  induction l as [|x l IH]; intros H; cbn; [reflexivity|].
  rewrite mapM_app, <- IH by (intros y Hy; apply H; now right). rewrite H by now left.
  destruct (mapM h (chunk x)); cbn; [|reflexivity]. destruct (mapM f l); reflexivity.
Qed.
Lemma mapM_ok_nth {A B} (f : A -> res B) l ys i x : mapM f l = Ok ys -> nth_error l i = Some x ->
  exists y, f x = Ok y /\ nth_error ys i = Some y.
Proof.
  revert ys i. induction l as [|a l IH]; intros ys i H E; [destruct i; discriminate|].
  cbn in H. destruct (f a) eqn:Ea; cbn in H; [|discriminate].
  destruct (mapM f l) eqn:El; cbn in H; [|discriminate]. injection H as <-.
  destruct i as [|i]; cbn in E |- *.
  - injection E as <-. eauto.
  - now apply IH.
Qed.
Lemma mapM_err {A B} (f : A -> res B) l e : mapM f l = Err e -> exists x, In x l /\ f x = Err e.
Proof.
  induction l as [|a l IH]; cbn; [discriminate|]. destruct (f a) eqn:Ea; cbn.
  - destruct (mapM f l) eqn:El; cbn; [discriminate|]. intros H. injection H as ->.
    destruct (IH eq_refl) as (x & Hx & Hf). exists x. auto.
  - intros H. injection H as ->. exists a. auto.
Qed.

(** ** derivatives *)
Lemma dl_ext f g x d : (forall t, f t = g t) -> derivable_pt_lim f x d -> derivable_pt_lim g x d.
Proof. intros H. replace g with f; [auto|]. now apply functional_extensionality. Qed.
Lemma dl_eq f g x a b : derivable_pt_lim f x a -> (forall s, f s = g s) -> a = b -> derivable_pt_lim g x b.
Proof. intros H E <-. now apply (dl_ext f). Qed.
Lemma dl_const c x : derivable_pt_lim (fun _ => c) x 0.
Proof. apply derivable_pt_lim_const. Qed.
Lemma dl_add f g x a b : derivable_pt_lim f x a -> derivable_pt_lim g x b -> derivable_pt_lim (fun s => f s + g s) x (a + b).
Proof. apply derivable_pt_lim_plus. Qed.
Lemma dl_sub f g x a b : derivable_pt_lim f x a -> derivable_pt_lim g x b -> derivable_pt_lim (fun s => f s - g s) x (a - b).
Proof. apply derivable_pt_lim_minus. Qed.
Lemma dl_opp f x a : derivable_pt_lim f x a -> derivable_pt_lim (fun s => - f s) x (- a).
Proof. apply derivable_pt_lim_opp. Qed.
Lemma dl_mul f g x a b : derivable_pt_lim f x a -> derivable_pt_lim g x b ->
  derivable_pt_lim (fun s => f s * g s) x (a * g x + f x * b).
Proof. apply derivable_pt_lim_mult. Qed.
Lemma dl_scal c f x a : derivable_pt_lim f x a -> derivable_pt_lim (fun s => c * f s) x (c * a).
Proof. intros H. eapply dl_eq; [apply (dl_mul (fun _ => c)); [apply dl_const|exact H]|reflexivity|cbn; ring]. Qed.
Lemma dl_id x : derivable_pt_lim (fun s => s) x 1.
Proof. apply derivable_pt_lim_id. Qed.
Lemma dl_line u v x : derivable_pt_lim (fun s => u + s * v) x v.
Proof. eapply dl_eq; [apply dl_add; [apply dl_const|apply dl_mul; [apply dl_id|apply dl_const]]|reflexivity|cbn; ring]. Qed.
Lemma dl_sumR {A} (l : list A) (f : A -> R -> R) (d : A -> R) x :
  (forall a, In a l -> derivable_pt_lim (f a) x (d a)) -> derivable_pt_lim (fun s => sumR l (fun a => f a s)) x (sumR l d).
Proof.
  induction l as [|a l IH]; intros H; cbn; [apply dl_const|].
  apply dl_add; [apply H; now left|apply IH; intros; apply H; now right].
Qed.
Lemma dl_sumN n (f : nat -> R -> R) (d : nat -> R) x :
  (forall i, (i < n)%nat -> derivable_pt_lim (f i) x (d i)) -> derivable_pt_lim (fun s => sumN n (fun i => f i s)) x (sumN n d).
Proof. intros H. apply dl_sumR. intros a Ha. apply in_seq in Ha. apply H. lia. Qed.
Lemma dl_unique f x a b : derivable_pt_lim f x a -> derivable_pt_lim f x b -> a = b.
Proof. apply uniqueness_limite. Qed.
Lemma dl_if (b : bool) f g x a c : derivable_pt_lim f x a -> derivable_pt_lim g x c ->
  derivable_pt_lim (fun s => if b then f s else g s) x (if b then a else c).
Proof. now destruct b. Qed.

(** ** determinant and inverse *)
Definition small_dim (d : nat) : Prop := (d = 1 \/ d = 2 \/ d = 3)%nat.
Definition delta (i j : nat) : R := if Nat.eqb i j then 1 else 0.
Lemma mat_mul_adj d M i j : small_dim d -> (i < d)%nat -> (j < d)%nat ->
  sumN d (fun k => M i k * adj d M k j) = delta i j * det d M.
Proof.
  intros [-> | [-> | ->]] Hi Hj; unfold sumN, delta.
  - assert (i = 0%nat) as -> by lia. assert (j = 0%nat) as -> by lia. cbn. ring.
  - destruct i as [|[|?]]; destruct j as [|[|?]]; try lia; cbn; ring.
  - destruct i as [|[|[|?]]]; destruct j as [|[|[|?]]]; try lia; cbn; ring.
Qed.
Lemma adj_mul_mat d M i j : small_dim d -> (i < d)%nat -> (j < d)%nat ->
  sumN d (fun k => adj d M i k * M k j) = delta i j * det d M.
Proof.
  intros [-> | [-> | ->]] Hi Hj; unfold sumN, delta.
  - assert (i = 0%nat) as -> by lia. assert (j = 0%nat) as -> by lia. cbn. ring.
  - destruct i as [|[|?]]; destruct j as [|[|?]]; try lia; cbn; ring.
  - destruct i as [|[|[|?]]]; destruct j as [|[|[|?]]]; try lia; cbn; ring.
Qed.
Lemma mat_mul_inv d M i j : small_dim d -> (i < d)%nat -> (j < d)%nat -> det d M <> 0 ->
  sumN d (fun k => M i k * inv d M k j) = delta i j.
Proof.
  intros Hd Hi Hj H. rewrite (sumN_ext d _ (fun k => M i k * adj d M k j * / det d M)).
  - rewrite sumN_scal_r, mat_mul_adj by assumption. field. exact H.
  - intros k _. unfold inv, Rdiv. ring.
Qed.
Lemma inv_mul_mat d M i j : small_dim d -> (i < d)%nat -> (j < d)%nat -> det d M <> 0 ->
  sumN d (fun k => inv d M i k * M k j) = delta i j.
Proof.
  intros Hd Hi Hj H. rewrite (sumN_ext d _ (fun k => adj d M i k * M k j * / det d M)).
  - rewrite sumN_scal_r, adj_mul_mat by assumption. field. exact H.
  - intros k _. unfold inv, Rdiv. ring.
Qed.
Lemma sumN_delta n f j : (j < n)%nat -> sumN n (fun i => f i * delta i j) = f j.
Proof.
  intros H. rewrite <- (sumN_pick n j f H). apply sumN_ext. intros i _. unfold delta. destruct (Nat.eqb i j); ring.
Qed.
Lemma sumN_delta_l n f j : (j < n)%nat -> sumN n (fun i => f i * delta j i) = f j.
Proof. intros H. rewrite <- (sumN_delta n f j H). apply sumN_ext. intros i _. unfold delta. now rewrite Nat.eqb_sym. Qed.
Close Scope R_scope.
