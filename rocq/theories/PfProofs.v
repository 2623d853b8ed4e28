(** * Proofs about the Allen-Cahn phase field (C22, C23, C72, C73). *)
From Verif Require Import Prelude PreludeFacts PfModel PfSpec.
From Coq Require Import Lra Psatz ZifyBool ZifyNat.
Open Scope R_scope.

(** ** One-dimensional differences with replicated ends *)
Definition d1 (n : nat) (v : nat -> R) (i : nat) : R :=
  (cat (n - 1) (fun i => v (i + 1)%nat) (fun i => v (n - 1 + i)%nat) i - v i) + (cat 1 v v i - v i).
Definition gap (n : nat) (v : nat -> R) (j : nat) : R :=
  if Nat.ltb j n then v j - v (j - 1)%nat else 0.

Lemma d1_gap n v i : (i < n)%nat -> d1 n v i = gap n v (i + 1) - gap n v i.
Proof.
  intros H. unfold d1, gap, cat.
  destruct (Nat.ltb_spec i (n - 1)), (Nat.ltb_spec (i + 1) n), (Nat.ltb_spec i n), (Nat.ltb_spec i 1);
    try lia; replace (i + 1 - 1)%nat with i by lia.
  - replace (i - 1)%nat with i by lia. lra.
  - lra.
  - replace (i - 1)%nat with i by lia. replace (n - 1 + (i - (n - 1)))%nat with i by lia. lra.
  - replace (n - 1 + (i - (n - 1)))%nat with i by lia. lra.
Qed.

Lemma sum_by_parts n u v :
  sumR (seq 0 n) (fun i => u i * d1 n v i) =
  - sumR (seq 0 n) (fun i => (u i - u (i - 1)%nat) * (v i - v (i - 1)%nat)).
Proof.
  set (f := fun i => u (i - 1)%nat * gap n v i).
  assert (T : sumR (seq 0 n) (fun i => f (S i) - f i) = f n - f 0%nat) by apply sumR_telescope.
  assert (F : f n - f 0%nat = 0).
  { unfold f, gap. destruct (Nat.ltb_spec n n); [lia|]. destruct (Nat.ltb_spec 0 n); cbn; lra. }
  rewrite F in T. rewrite <- sumR_opp.
  rewrite (sumR_ext _ (fun i => u i * d1 n v i)
            (fun i => (f (S i) - f i) + - ((u i - u (i - 1)%nat) * (v i - v (i - 1)%nat)))).
  - rewrite sumR_add, T. lra.
  - intros i Hi. apply in_seq in Hi. rewrite d1_gap by lia. unfold f.
    replace (S i - 1)%nat with i by lia. replace (S i) with (i + 1)%nat by lia.
    replace (gap n v i) with (v i - v (i - 1)%nat).
    2:{ unfold gap. destruct (Nat.ltb_spec i n); [reflexivity|lia]. }
    lra.
Qed.

Lemma shift_sum n (g : nat -> R) : g 0%nat = 0 ->
  sumR (seq 0 n) g = sumR (seq 0 (n - 1)) (fun i => g (i + 1)%nat).
Proof.
  intros H0. destruct n as [|n]; [reflexivity|].
  replace (S n - 1)%nat with n by lia. cbn [seq sumR]. rewrite H0, sumR_seq_shift.
  rewrite (sumR_ext _ _ (fun i => g (i + 1)%nat)); [lra|]. intros i _. f_equal. lia.
Qed.

Lemma sum_by_parts' n u v :
  sumR (seq 0 n) (fun i => u i * d1 n v i) =
  - sumR (seq 0 (n - 1)) (fun i => (u (i + 1)%nat - u i) * (v (i + 1)%nat - v i)).
Proof.
  rewrite sum_by_parts, (shift_sum n).
  - f_equal. apply sumR_ext. intros i _. now replace (i + 1 - 1)%nat with i by lia.
  - cbn. lra.
Qed.

(** ** Cells and coordinates *)
Lemma list_ext {A} (l : list A) : forall l', (forall m, nth_error l m = nth_error l' m) -> l = l'.
Proof.
  induction l as [|x l IH]; intros [|y l'] H; auto.
  - specialize (H 0%nat). discriminate.
  - specialize (H 0%nat). discriminate.
  - pose proof (H 0%nat) as H0. cbn in H0. inversion H0; subst. f_equal. apply IH. intros m. apply (H (S m)).
Qed.

Lemma seq_flat3 n1 n2 n3 :
  seq 0 (n1 * (n2 * n3)) = flat3 n1 n2 n3 (fun k j i => (k * (n2 * n3) + j * n3 + i)%nat).
Proof.
  apply list_ext. intros m.
  destruct (Nat.lt_ge_cases m (n1 * (n2 * n3))) as [H|H].
  - rewrite nth_error_seq0 by exact H.
    destruct (decode3 n1 n2 n3 m H) as (A & B & C & D).
    rewrite <- D at 2. rewrite nth_error_flat3 by assumption. now rewrite D.
  - transitivity (@None nat); [|symmetry]; apply nth_error_None;
      [rewrite seq_length|rewrite flat3_length]; lia.
Qed.

Lemma decode_encode n2 n3 k j i : (j < n2)%nat -> (i < n3)%nat ->
  let n := (k * (n2 * n3) + j * n3 + i)%nat in
  (n / n3 / n2)%nat = k /\ ((n / n3) mod n2)%nat = j /\ (n mod n3)%nat = i.
Proof.
  intros Hj Hi n.
  assert (E : (n / n3)%nat = (k * n2 + j)%nat).
  { unfold n. replace (k * (n2 * n3) + j * n3 + i)%nat with (i + (k * n2 + j) * n3)%nat by nia.
    rewrite Nat.div_add by lia. rewrite Nat.div_small by lia. lia. }
  rewrite E. repeat split.
  - replace (k * n2 + j)%nat with (j + k * n2)%nat by lia. rewrite Nat.div_add by lia.
    rewrite Nat.div_small by lia. lia.
  - replace (k * n2 + j)%nat with (j + k * n2)%nat by lia. rewrite Nat.mod_add by lia. now apply Nat.mod_small.
  - unfold n. replace (k * (n2 * n3) + j * n3 + i)%nat with (i + (k * n2 + j) * n3)%nat by nia.
    rewrite Nat.mod_add by lia. now apply Nat.mod_small.
Qed.

Section Pf.
Variable a : pfargs.
Notation cell k j i := (k * (Ny a * Nx a) + j * Nx a + i)%nat.
Notation cells := (seq 0 (num_cells a)).
Notation oris := (seq 0 (num_oris a)).

Lemma sum_cells (g : nat -> R) :
  sumR cells g = sumR (seq 0 (Nz a)) (fun k => sumR (seq 0 (Ny a)) (fun j => sumR (seq 0 (Nx a)) (fun i => g (cell k j i)))).
Proof. unfold num_cells. now rewrite seq_flat3, sumR_flat3. Qed.

Lemma cell_ex n : (n < num_cells a)%nat -> exists k j i, (k < Nz a)%nat /\ (j < Ny a)%nat /\ (i < Nx a)%nat /\ n = cell k j i.
Proof.
  intros H. destruct (decode3 _ _ _ _ H) as (A & B & C & D). eexists _, _, _. repeat split; eauto.
Qed.
Lemma cell_lt k j i : (k < Nz a)%nat -> (j < Ny a)%nat -> (i < Nx a)%nat -> (cell k j i < num_cells a)%nat.
Proof. apply encode3_lt. Qed.

Lemma laplace_at eta k j i o : (j < Ny a)%nat -> (i < Nx a)%nat ->
  laplace a eta (cell k j i) o = laplace_xyz a eta k j i o.
Proof.
  intros Hj Hi. unfold laplace. destruct (decode_encode (Ny a) (Nx a) k j i Hj Hi) as (E1 & E2 & E3).
  now rewrite E1, E2, E3.
Qed.

(** The three second differences of a scalar cell field. *)
Definition dx (v : nat -> R) k j i := d1 (Nx a) (fun i => v (cell k j i)) i.
Definition dy (v : nat -> R) k j i := d1 (Ny a) (fun j => v (cell k j i)) j.
Definition dz (v : nat -> R) k j i := d1 (Nz a) (fun k => v (cell k j i)) k.

Lemma laplace_d eta k j i o :
  laplace_xyz a eta k j i o =
  - (kappa_g a * ad_hoc a) * aniso_at a eta k j i o *
    (dx (fun n => eta n o) k j i / h_x a ^ 2 + dy (fun n => eta n o) k j i / h_y a ^ 2 + dz (fun n => eta n o) k j i / h_z a ^ 2).
Proof.
  unfold laplace_xyz, dx, dy, dz, d1, pos_x, neg_x, pos_y, neg_y, pos_z, neg_z, eta_xyz.
  generalize (aniso_at a eta k j i o); intros f. unfold Rdiv. ring.
Qed.

Lemma parts_x u v :
  sumR cells (fun n => u n * dx v (n / Nx a / Ny a) ((n / Nx a) mod Ny a) (n mod Nx a)) =
  - sumR (seq 0 (Nz a)) (fun k => sumR (seq 0 (Ny a)) (fun j => sumR (seq 0 (Nx a - 1)) (fun i =>
      (u (cell k j (i + 1)) - u (cell k j i)) * (v (cell k j (i + 1)) - v (cell k j i))))).
Proof.
  rewrite sum_cells, <- sumR_opp. apply sumR_ext. intros k _. rewrite <- sumR_opp.
  apply sumR_ext. intros j Hj. apply in_seq in Hj.
  etransitivity; [|exact (sum_by_parts' (Nx a) (fun i => u (cell k j i)) (fun i => v (cell k j i)))].
  apply sumR_ext. intros i Hi. apply in_seq in Hi.
  destruct (decode_encode (Ny a) (Nx a) k j i ltac:(lia) ltac:(lia)) as (E1 & E2 & E3).
  now rewrite E1, E2, E3.
Qed.
Lemma parts_y u v :
  sumR cells (fun n => u n * dy v (n / Nx a / Ny a) ((n / Nx a) mod Ny a) (n mod Nx a)) =
  - sumR (seq 0 (Nz a)) (fun k => sumR (seq 0 (Nx a)) (fun i => sumR (seq 0 (Ny a - 1)) (fun j =>
      (u (cell k (j + 1) i) - u (cell k j i)) * (v (cell k (j + 1) i) - v (cell k j i))))).
Proof.
  rewrite sum_cells, <- sumR_opp. apply sumR_ext. intros k _.
  rewrite sumR_swap, <- sumR_opp.
  apply sumR_ext. intros i Hi. apply in_seq in Hi.
  etransitivity; [|exact (sum_by_parts' (Ny a) (fun j => u (cell k j i)) (fun j => v (cell k j i)))].
  apply sumR_ext. intros j Hj. apply in_seq in Hj.
  destruct (decode_encode (Ny a) (Nx a) k j i ltac:(lia) ltac:(lia)) as (E1 & E2 & E3).
  now rewrite E1, E2, E3.
Qed.
Lemma parts_z u v :
  sumR cells (fun n => u n * dz v (n / Nx a / Ny a) ((n / Nx a) mod Ny a) (n mod Nx a)) =
  - sumR (seq 0 (Ny a)) (fun j => sumR (seq 0 (Nx a)) (fun i => sumR (seq 0 (Nz a - 1)) (fun k =>
      (u (cell (k + 1) j i) - u (cell k j i)) * (v (cell (k + 1) j i) - v (cell k j i))))).
Proof.
  rewrite sum_cells. rewrite sumR_swap, <- sumR_opp. apply sumR_ext. intros j Hj. apply in_seq in Hj.
  rewrite sumR_swap, <- sumR_opp.
  apply sumR_ext. intros i Hi. apply in_seq in Hi.
  etransitivity; [|exact (sum_by_parts' (Nz a) (fun k => u (cell k j i)) (fun k => v (cell k j i)))].
  apply sumR_ext. intros k Hk. apply in_seq in Hk.
  destruct (decode_encode (Ny a) (Nx a) k j i ltac:(lia) ltac:(lia)) as (E1 & E2 & E3).
  now rewrite E1, E2, E3.
Qed.

(** The (positive) Dirichlet form. *)
Definition dform (u v : nat -> R) : R :=
  sumR (seq 0 (Nz a)) (fun k => sumR (seq 0 (Ny a)) (fun j => sumR (seq 0 (Nx a - 1)) (fun i =>
      (u (cell k j (i + 1)) - u (cell k j i)) * (v (cell k j (i + 1)) - v (cell k j i))))) / h_x a ^ 2
  + sumR (seq 0 (Nz a)) (fun k => sumR (seq 0 (Nx a)) (fun i => sumR (seq 0 (Ny a - 1)) (fun j =>
      (u (cell k (j + 1) i) - u (cell k j i)) * (v (cell k (j + 1) i) - v (cell k j i))))) / h_y a ^ 2
  + sumR (seq 0 (Ny a)) (fun j => sumR (seq 0 (Nx a)) (fun i => sumR (seq 0 (Nz a - 1)) (fun k =>
      (u (cell (k + 1) j i) - u (cell k j i)) * (v (cell (k + 1) j i) - v (cell k j i))))) / h_z a ^ 2.

Lemma laplace_form eta u o : anisotropy a <= 0 ->
  sumR cells (fun n => u n * laplace a eta n o) = kappa_g a * ad_hoc a * dform u (fun n => eta n o).
Proof.
  intros Ha. unfold dform.
  pose proof (parts_x u (fun n => eta n o)) as X.
  pose proof (parts_y u (fun n => eta n o)) as Y.
  pose proof (parts_z u (fun n => eta n o)) as Z.
  match type of X with _ = - ?s => set (sx := s) in * end.
  match type of Y with _ = - ?s => set (sy := s) in * end.
  match type of Z with _ = - ?s => set (sz := s) in * end.
  transitivity (- (kappa_g a * ad_hoc a) * ((- sx) / h_x a ^ 2 + (- sy) / h_y a ^ 2 + (- sz) / h_z a ^ 2)).
  2:{ unfold Rdiv. ring. }
  rewrite <- X, <- Y, <- Z. clear X Y Z. unfold Rdiv.
  rewrite <- !sumR_scal_r, <- !sumR_add, <- sumR_scal.
  apply sumR_ext. intros n _. unfold laplace. rewrite laplace_d. unfold aniso_at.
  destruct (Rltb 0 (anisotropy a)) eqn:E; [apply Rltb_true in E; lra|].
  unfold Rdiv. ring.
Qed.

Lemma dform_const_l c v : dform (fun _ => c) v = 0.
Proof.
  unfold dform. rewrite !sumR_zero; [unfold Rdiv; ring| | |];
    repeat (intros ? _; try apply sumR_zero); ring.
Qed.
Lemma dform_sym u v : dform u v = dform v u.
Proof.
  unfold dform. f_equal; [f_equal|]; f_equal;
    repeat (apply sumR_ext; intros ? _); ring.
Qed.
Lemma dform_nonneg u : 0 <= dform u u.
Proof.
  unfold dform.
  assert (S : forall x h, 0 <= x -> 0 <= x / h ^ 2).
  { intros x h Hx. unfold Rdiv. apply Rmult_le_pos; [exact Hx|].
    destruct (Req_dec (h ^ 2) 0) as [->|Hn]; [rewrite Rinv_0; lra|].
    left. apply Rinv_0_lt_compat. pose proof (pow2_ge_0 h). lra. }
  apply Rplus_le_le_0_compat; [apply Rplus_le_le_0_compat|]; apply S;
    repeat (apply sumR_nonneg; intros ? _); apply Rle_0_sqr.
Qed.

Theorem laplacian_sums_to_zero eta o : anisotropy a <= 0 -> sumR cells (fun n => laplace a eta n o) = 0.
Proof.
  intros Ha. transitivity (sumR cells (fun n => 1 * laplace a eta n o)).
  - apply sumR_ext. intros; ring.
  - rewrite (laplace_form eta (fun _ => 1) o Ha), dform_const_l. ring.
Qed.

Lemma laplace_local eta o c : (forall n, (n < num_cells a)%nat -> eta n o = c) ->
  forall n, (n < num_cells a)%nat -> laplace a eta n o = 0.
Proof.
  intros Hc n Hn. destruct (cell_ex n Hn) as (k & j & i & Hk & Hj & Hi & ->).
  rewrite laplace_at by lia. rewrite laplace_d.
  assert (D : forall m (v : nat -> R) q, (q < m)%nat -> (forall x, (x < m)%nat -> v x = c) -> d1 m v q = 0).
  { intros m v q Hq Hv. unfold d1, cat.
    destruct (Nat.ltb_spec q (m - 1)), (Nat.ltb_spec q 1); rewrite !Hv by lia; lra. }
  unfold dx, dy, dz. rewrite !D; [unfold Rdiv; ring| | | | | |]; auto.
  all: intros x Hx; apply Hc, cell_lt; lia.
Qed.

(** ** Energy gradient *)
Lemma dlim_ext f g x d : (forall t, f t = g t) -> derivable_pt_lim f x d -> derivable_pt_lim g x d.
Proof.
  intros H D eps He. destruct (D eps He) as (del & Hd). exists del. intros h Hh Hl.
  rewrite <- !H. now apply Hd.
Qed.
Lemma dlim_val f x d d' : d = d' -> derivable_pt_lim f x d -> derivable_pt_lim f x d'.
Proof. now intros ->. Qed.
Lemma dlim_sum {X} (l : list X) (F : X -> R -> R) D t0 :
  (forall x, In x l -> derivable_pt_lim (F x) t0 (D x)) ->
  derivable_pt_lim (fun t => sumR l (fun x => F x t)) t0 (sumR l D).
Proof.
  induction l as [|x l IH]; intros H.
  - apply (derivable_pt_lim_const 0).
  - cbn [sumR]. apply (derivable_pt_lim_plus (F x) (fun t => sumR l (fun x => F x t))).
    + apply H. now left.
    + apply IH. intros y Hy. apply H. now right.
Qed.
Lemma dlim_poly c1 c2 c4 x :
  derivable_pt_lim (fun t => c4 * t ^ 4 + c2 * t ^ 2 + c1 * t) x (4 * c4 * x ^ 3 + 2 * c2 * x + c1).
Proof.
  eapply dlim_val; [|apply (derivable_pt_lim_plus (fun t => c4 * t ^ 4 + c2 * t ^ 2) (fun t => c1 * t))].
  2: apply (derivable_pt_lim_plus (fun t => c4 * t ^ 4) (fun t => c2 * t ^ 2)).
  2: apply (derivable_pt_lim_scal (fun t => t ^ 4)), (derivable_pt_lim_pow x 4).
  2: apply (derivable_pt_lim_scal (fun t => t ^ 2)), (derivable_pt_lim_pow x 2).
  2: apply (derivable_pt_lim_scal (fun t => t)), derivable_pt_lim_id.
  cbn. ring.
Qed.

Lemma square_sum (l : list nat) (v : nat -> R) :
  sumR l (fun p => sumR l (fun q => (v p * v q) ^ 2)) = sumR l (fun p => v p ^ 2) ^ 2.
Proof.
  transitivity (sumR l (fun p => v p ^ 2 * sumR l (fun q => v q ^ 2))).
  - apply sumR_ext. intros p _. rewrite <- sumR_scal. apply sumR_ext. intros q _. ring.
  - rewrite sumR_scal_r. ring.
Qed.

(** Energy of one cell, as a function of the entry that varies. *)
Lemma sum_entry_other n o (v : field) t m (g : R -> R) : m <> n ->
  sumR oris (fun p => g (set_entry v n o t m p)) = sumR oris (fun p => g (v m p)).
Proof.
  intros H. apply sumR_ext. intros p _. unfold set_entry.
  destruct (Nat.eqb_spec m n); [contradiction|reflexivity].
Qed.

Lemma d_sum_pow n o (v : field) c2 c4 : (o < num_oris a)%nat ->
  derivable_pt_lim (fun t => sumR oris (fun p => c4 * set_entry v n o t n p ^ 4 + c2 * set_entry v n o t n p ^ 2)) (v n o)
    (4 * c4 * v n o ^ 3 + 2 * c2 * v n o).
Proof.
  intros Ho.
  eapply dlim_val.
  2:{ apply (dlim_sum oris (fun p t => c4 * set_entry v n o t n p ^ 4 + c2 * set_entry v n o t n p ^ 2)
               (fun p => if Nat.eqb p o then 4 * c4 * v n o ^ 3 + 2 * c2 * v n o else 0)).
      intros p _. unfold set_entry. rewrite Nat.eqb_refl. cbn [andb].
      destruct (Nat.eqb_spec p o) as [->|Hp].
      - eapply dlim_ext; [|eapply dlim_val; [|apply (dlim_poly 0 c2 c4)]]; [intros; cbn beta; ring|ring].
      - apply derivable_pt_lim_const. }
  rewrite (sumR_single oris o).
  - now rewrite Nat.eqb_refl.
  - apply seq_NoDup.
  - apply in_seq; lia.
  - intros p _ Hp. destruct (Nat.eqb_spec p o); [contradiction|reflexivity].
Qed.

Definition cell_energy (v : nat -> R) (z : R) : R :=
  sumR oris (fun p => / 4 * v p ^ 4 + - / 2 * v p ^ 2)
  + sumR oris (fun p => v p ^ 2) ^ 2 - sumR oris (fun p => v p ^ 4)
  + (1 - z) ^ 2 * sumR oris (fun p => v p ^ 2).

Lemma local_energy_cells v z : local_energy a v z = m_g a * sumR cells (fun n => cell_energy (v n) (z n)).
Proof.
  unfold local_energy, cell_energy. f_equal.
  rewrite !sumR_add, sumR_sub. rewrite sumR_add.
  rewrite (sumR_ext cells (fun n => sumR oris (fun p => sumR oris (fun q => (v n p * v n q) ^ 2)))
             (fun n => sumR oris (fun p => v n p ^ 2) ^ 2)) by (intros; apply square_sum).
  rewrite (sumR_ext cells (fun n => sumR oris (fun o => v n o ^ 4 / 4 - v n o ^ 2 / 2))
             (fun n => sumR oris (fun p => / 4 * v n p ^ 4 + - / 2 * v n p ^ 2))).
  - ring.
  - intros n _. apply sumR_ext. intros p _. field.
Qed.

Theorem local_energy_gradient v z n o : (n < num_cells a)%nat -> (o < num_oris a)%nat ->
  partial_derivative (fun w => local_energy a w z) v n o (local_energy_grad a v z n o).
Proof.
  intros Hn Ho. unfold partial_derivative.
  eapply dlim_ext; [intros t; symmetry; apply local_energy_cells|].
  unfold local_energy_grad.
  apply (derivable_pt_lim_scal (fun t => sumR cells (fun m => cell_energy (set_entry v n o t m) (z m)))).
  eapply dlim_val.
  2:{ apply (dlim_sum cells (fun m t => cell_energy (set_entry v n o t m) (z m))
               (fun m => if Nat.eqb m n then (v n o ^ 3 - v n o)
                  + (4 * v n o * sumR oris (fun p => v n p ^ 2) - 4 * v n o ^ 3) + 2 * (1 - z n) ^ 2 * v n o else 0)).
      intros m _. destruct (Nat.eqb_spec m n) as [->|Hm].
      - pose proof (d_sum_pow n o v (- / 2) (/ 4) Ho) as D1.
        pose proof (d_sum_pow n o v 1 0 Ho) as D2.
        pose proof (d_sum_pow n o v 0 1 Ho) as D4.
        assert (E2 : derivable_pt_lim (fun t => sumR oris (fun p => set_entry v n o t n p ^ 2)) (v n o) (2 * v n o)).
        { eapply dlim_ext; [|eapply dlim_val; [|exact D2]]; [|ring].
          intros t. apply sumR_ext. intros; cbn beta; ring. }
        assert (E4 : derivable_pt_lim (fun t => sumR oris (fun p => set_entry v n o t n p ^ 4)) (v n o) (4 * v n o ^ 3)).
        { eapply dlim_ext; [|eapply dlim_val; [|exact D4]]; [|ring].
          intros t. apply sumR_ext. intros; cbn beta; ring. }
        pose proof (derivable_pt_lim_mult _ _ _ _ _ E2 E2) as E22.
        pose proof (derivable_pt_lim_scal _ ((1 - z n) ^ 2) _ _ E2) as E3.
        pose proof (derivable_pt_lim_plus _ _ _ _ _
          (derivable_pt_lim_minus _ _ _ _ _ (derivable_pt_lim_plus _ _ _ _ _ D1 E22) E4) E3) as DD.
        eapply dlim_ext; [|eapply dlim_val; [|exact DD]].
        + intros t. unfold cell_energy, plus_fct, minus_fct, mult_fct, mult_real_fct. ring.
        + assert (Ev : forall p, set_entry v n o (v n o) n p = v n p).
          { intros p. unfold set_entry. rewrite Nat.eqb_refl. cbn [andb].
            destruct (Nat.eqb_spec p o) as [->|]; reflexivity. }
          cbn beta. rewrite (sumR_ext oris (fun p => set_entry v n o (v n o) n p ^ 2) (fun p => v n p ^ 2))
            by (intros; now rewrite Ev).
          field.
      - eapply dlim_ext; [|apply (derivable_pt_lim_const (cell_energy (v m) (z m)))].
        intros t. unfold fct_cte, cell_energy.
        rewrite (sum_entry_other n o v t m (fun x => / 4 * x ^ 4 + - / 2 * x ^ 2)) by exact Hm.
        rewrite (sum_entry_other n o v t m (fun x => x ^ 2)) by exact Hm.
        rewrite (sum_entry_other n o v t m (fun x => x ^ 4)) by exact Hm. reflexivity. }
  rewrite (sumR_single cells n).
  - now rewrite Nat.eqb_refl.
  - apply seq_NoDup.
  - apply in_seq; lia.
  - intros m _ Hm. destruct (Nat.eqb_spec m n); [contradiction|reflexivity].
Qed.

Lemma local_is_chemical v z : local_energy a v z = chemical_energy (num_cells a) (num_oris a) (m_g a) v z.
Proof.
  rewrite local_energy_cells. unfold chemical_energy. rewrite <- sumR_scal.
  apply sumR_ext. intros n _. f_equal. unfold cell_energy.
  rewrite <- (square_sum oris (v n)).
  assert (E : sumR oris (fun p => sumR oris (fun q => (v n p * v n q) ^ 2)) - sumR oris (fun p => v n p ^ 4)
            = sumR oris (fun p => sumR oris (fun q => if Nat.eqb p q then 0 else (v n p * v n q) ^ 2))).
  { rewrite <- sumR_sub. apply sumR_ext. intros p Hp.
    transitivity (sumR oris (fun q => (v n p * v n q) ^ 2) - sumR oris (fun q => if Nat.eqb p q then (v n p * v n q) ^ 2 else 0)).
    - f_equal. symmetry. rewrite (sumR_single oris p).
      + rewrite Nat.eqb_refl. ring.
      + apply seq_NoDup.
      + exact Hp.
      + intros q _ Hq. destruct (Nat.eqb_spec p q); [congruence|reflexivity].
    - rewrite <- sumR_sub. apply sumR_ext. intros q _. destruct (Nat.eqb p q); ring. }
  rewrite <- E.
  rewrite (sumR_ext oris (fun p => / 4 * v n p ^ 4 + - / 2 * v n p ^ 2) (fun p => v n p ^ 4 / 4 - v n p ^ 2 / 2))
    by (intros; field).
  ring.
Qed.

(** ** Interface energy *)
Lemma interface_dform v : h_x a <> 0 -> h_y a <> 0 -> h_z a <> 0 -> forall kap,
  interface_energy (Nx a) (Ny a) (Nz a) (num_oris a) (h_x a) (h_y a) (h_z a) kap v =
  kap / 2 * sumR oris (fun o => dform (fun n => v n o) (fun n => v n o)).
Proof.
  intros Hx Hy Hz kap. unfold interface_energy, dform. f_equal. apply sumR_ext. intros o _.
  assert (S : forall (A B C : list nat) h (g g' : nat -> nat -> nat -> R), (forall k j i, g k j i = g' k j i / h ^ 2) ->
     sumR A (fun k => sumR B (fun j => sumR C (fun i => g k j i))) =
     sumR A (fun k => sumR B (fun j => sumR C (fun i => g' k j i))) / h ^ 2).
  { intros A B C h g g' H. unfold Rdiv. rewrite <- sumR_scal_r. apply sumR_ext. intros k _.
    rewrite <- sumR_scal_r. apply sumR_ext. intros j _. rewrite <- sumR_scal_r. apply sumR_ext. intros i _. apply H. }
  assert (C : forall i j k, at_cell (Nx a) (Ny a) i j k = cell k j i) by (intros; unfold at_cell; lia).
  f_equal; [f_equal|]; apply S; intros; rewrite !C; field; assumption.
Qed.

Lemma dform_line u v s : dform (fun n => u n + s * v n) (fun n => u n + s * v n)
  = dform u u + 2 * s * dform v u + s ^ 2 * dform v v.
Proof.
  unfold dform, Rdiv.
  match goal with |- ?X1 * ?h1 + ?X2 * ?h2 + ?X3 * ?h3 = ?U1 * _ + ?U2 * _ + ?U3 * _ + 2 * s * (?V1 * _ + ?V2 * _ + ?V3 * _)
       + s ^ 2 * (?W1 * _ + ?W2 * _ + ?W3 * _) =>
    assert (H1 : X1 = U1 + 2 * s * V1 + s ^ 2 * W1);
    [|assert (H2 : X2 = U2 + 2 * s * V2 + s ^ 2 * W2);
    [|assert (H3 : X3 = U3 + 2 * s * V3 + s ^ 2 * W3); [|rewrite H1, H2, H3; ring]]] end.
  all: repeat (first [rewrite <- !sumR_scal | idtac]; rewrite <- !sumR_add; apply sumR_ext; intros ? _); ring.
Qed.

Lemma laplace_basis v n o : anisotropy a <= 0 -> (n < num_cells a)%nat ->
  kappa_g a * ad_hoc a * dform (fun m => if Nat.eqb m n then 1 else 0) (fun m => v m o) = laplace a v n o.
Proof.
  intros Ha Hn. rewrite <- (laplace_form v (fun m => if Nat.eqb m n then 1 else 0) o Ha).
  rewrite (sumR_single cells n).
  - rewrite Nat.eqb_refl. ring.
  - apply seq_NoDup.
  - apply in_seq; lia.
  - intros m _ Hm. destruct (Nat.eqb_spec m n); [contradiction|ring].
Qed.

Lemma dform_ext u u' v v' : (forall n, u n = u' n) -> (forall n, v n = v' n) -> dform u v = dform u' v'.
Proof.
  intros H1 H2. unfold dform. f_equal; [f_equal|]; f_equal; repeat (apply sumR_ext; intros ? _); now rewrite !H1, !H2.
Qed.

Theorem interface_gradient v n o : anisotropy a <= 0 -> h_x a <> 0 -> h_y a <> 0 -> h_z a <> 0 ->
  (n < num_cells a)%nat -> (o < num_oris a)%nat ->
  partial_derivative (interface_energy (Nx a) (Ny a) (Nz a) (num_oris a) (h_x a) (h_y a) (h_z a) (kappa_g a * ad_hoc a))
    v n o (laplace a v n o).
Proof.
  intros Ha Hx Hy Hz Hn Ho. unfold partial_derivative.
  set (e := fun m => if Nat.eqb m n then 1 else 0).
  set (K := kappa_g a * ad_hoc a).
  set (u := fun m => v m o).
  assert (Q : forall t, K / 2 * (sumR oris (fun p => dform (fun m => v m p) (fun m => v m p))
                                 + (2 * (t - v n o) * dform e u + (t - v n o) ^ 2 * dform e e))
     = interface_energy (Nx a) (Ny a) (Nz a) (num_oris a) (h_x a) (h_y a) (h_z a) K (set_entry v n o t)).
  { intros t. rewrite interface_dform by assumption. f_equal.
    transitivity (sumR oris (fun p => dform (fun m => v m p) (fun m => v m p)
        + (if Nat.eqb p o then 2 * (t - v n o) * dform e u + (t - v n o) ^ 2 * dform e e else 0))).
    - rewrite sumR_add. f_equal. rewrite (sumR_single oris o).
      + now rewrite Nat.eqb_refl.
      + apply seq_NoDup.
      + apply in_seq; lia.
      + intros p _ Hp. destruct (Nat.eqb_spec p o); [contradiction|reflexivity].
    - apply sumR_ext. intros p _. destruct (Nat.eqb_spec p o) as [->|Hp].
      + rewrite (dform_ext (fun m => set_entry v n o t m o) (fun m => u m + (t - v n o) * e m)
                           (fun m => set_entry v n o t m o) (fun m => u m + (t - v n o) * e m)).
        * rewrite dform_line. unfold u. ring.
        * intros m. unfold set_entry, u, e. rewrite Nat.eqb_refl. destruct (Nat.eqb_spec m n) as [->|]; cbn [andb]; ring.
        * intros m. unfold set_entry, u, e. rewrite Nat.eqb_refl. destruct (Nat.eqb_spec m n) as [->|]; cbn [andb]; ring.
      + rewrite Rplus_0_r. apply dform_ext; intros m; unfold set_entry;
          destruct (Nat.eqb_spec p o); [contradiction| |contradiction|]; now rewrite Bool.andb_false_r. }
  eapply dlim_ext; [exact Q|]. clear Q.
  rewrite <- (laplace_basis v n o Ha Hn). fold e K. fold u.
  set (A := sumR oris (fun p => dform (fun m => v m p) (fun m => v m p))).
  set (x := v n o). set (B := dform e u). set (C := dform e e).
  intros eps He.
  assert (HM : 0 < Rabs (K * C) + 1) by (pose proof (Rabs_pos (K * C)); lra).
  assert (Hd : 0 < eps / (Rabs (K * C) + 1)).
  { apply Rdiv_lt_0_compat; lra. }
  exists (mkposreal _ Hd). cbn [pos]. intros h Hh Hl.
  match goal with |- Rabs ?X < _ => replace X with (K * C * h / 2) by (field; exact Hh) end.
  unfold Rdiv. rewrite !Rabs_mult. rewrite (Rabs_right (/ 2)) by lra.
  assert (Rabs h * (Rabs (K * C) + 1) < eps).
  { apply (Rmult_lt_compat_r (Rabs (K * C) + 1)) in Hl; [|exact HM].
    unfold Rdiv in Hl. rewrite Rmult_assoc, Rinv_l, Rmult_1_r in Hl by lra. exact Hl. }
  rewrite Rabs_mult in *. pose proof (Rabs_pos h). pose proof (Rabs_pos K). pose proof (Rabs_pos C).
  assert (0 <= Rabs K * Rabs C * Rabs h) by (apply Rmult_le_pos; [apply Rmult_le_pos|]; assumption).
  nra.
Qed.

(** ** No nucleation *)
Lemma rhs_zero T eta t o : (forall n, (n < num_cells a)%nat -> eta n o = 0) ->
  forall n, (n < num_cells a)%nat -> state_rhs a T eta t n o = 0.
Proof.
  intros H n Hn. unfold state_rhs. rewrite (laplace_local eta o 0 H n Hn).
  unfold local_energy_grad. rewrite (H n Hn). unfold Rdiv. ring.
Qed.

Lemma euler_zero T s t o : (forall n, (n < num_cells a)%nat -> fst s n o = 0) ->
  forall n, (n < num_cells a)%nat -> fst (explicit_euler (state_rhs a T) s t) n o = 0.
Proof.
  destruct s as [y t0]. cbn [fst]. intros H n Hn. unfold explicit_euler. cbn [fst]. unfold f_add, f_scal.
  rewrite (H n Hn), (rhs_zero T y t0 o H n Hn). ring.
Qed.
Lemma rk4_zero T s t o : (forall n, (n < num_cells a)%nat -> fst s n o = 0) ->
  forall n, (n < num_cells a)%nat -> fst (rk4 (state_rhs a T) s t) n o = 0.
Proof.
  destruct s as [y t0]. cbn [fst]. intros H n Hn. unfold rk4. cbn [fst]. unfold f_add, f_scal.
  assert (K1 : forall m, (m < num_cells a)%nat -> state_rhs a T y t0 m o = 0) by (apply rhs_zero; exact H).
  match goal with |- context [state_rhs a T ?y2 ?t2] =>
    assert (K2 : forall y', (forall m, (m < num_cells a)%nat -> y' m o = 0) -> forall t' m, (m < num_cells a)%nat ->
      state_rhs a T y' t' m o = 0) by (intros; now apply rhs_zero) end.
  rewrite (H n Hn), (K1 n Hn).
  rewrite !K2; try assumption; [ring| | |].
  all: intros m Hm; rewrite (H m Hm); repeat rewrite K2; try assumption; try ring;
    intros m' Hm'; rewrite (H m' Hm'); repeat rewrite K2; try assumption; try ring;
    intros m'' Hm''; rewrite (H m'' Hm''); repeat rewrite K2; try assumption; ring.
Qed.

Lemma run_zero integ o : (forall T s t, (forall n, (n < num_cells a)%nat -> fst s n o = 0) ->
    forall n, (n < num_cells a)%nat -> fst (integ (state_rhs a T) s t) n o = 0) ->
  forall steps s, (forall n, (n < num_cells a)%nat -> fst s n o = 0) ->
  forall n, (n < num_cells a)%nat -> fst (pf_run integ a steps s) n o = 0.
Proof.
  intros HI. induction steps as [|[T t] r IH]; intros s H; cbn [pf_run]; auto.
Qed.

(** ** Bounds *)
Lemma zeta_unit t : 0 < zeta_of a t < 1.
Proof.
  unfold zeta_of. set (x := 10 ^ 10 * _). clearbody x.
  assert (-1 < tanh x < 1).
  { unfold tanh, sinh, cosh. pose proof (exp_pos x). pose proof (exp_pos (- x)).
    replace ((exp x - exp (- x)) / 2 / ((exp x + exp (- x)) / 2)) with (1 - 2 * exp (- x) / (exp x + exp (- x))) by (field; lra).
    assert (0 < 2 * exp (- x) / (exp x + exp (- x))) by (apply Rdiv_lt_0_compat; lra).
    assert (2 * exp (- x) / (exp x + exp (- x)) < 2).
    { apply (Rmult_lt_reg_r (exp x + exp (- x))); [lra|]. unfold Rdiv. rewrite Rmult_assoc, Rinv_l by lra. lra. }
    lra. }
  lra.
Qed.

Lemma aniso_bounds o e : 0 <= anisotropy a -> 1 + anisotropy a / 2 <= aniso_factor a o e <= 1 + anisotropy a.
Proof.
  intros Ha. unfold aniso_factor. set (th := Rmin _ _). clearbody th.
  pose proof (sin2_cos2 th) as H. unfold Rsqr in H.
  set (c := cos th) in *. set (s := sin th) in *. clearbody c s.
  assert (1 / 2 <= c ^ 4 + s ^ 4 <= 1).
  { assert (E : s * s = 1 - c * c) by lra.
    replace (c ^ 4 + s ^ 4) with ((c * c) * (c * c) + (s * s) * (s * s)) by ring. rewrite E.
    assert (0 <= c * c) by apply Rle_0_sqr. assert (0 <= s * s) by apply Rle_0_sqr.
    rewrite E in H1. set (q := c * c) in *. clearbody q. pose proof (pow2_ge_0 (2 * q - 1)). split; nra. }
  nra.
Qed.

Lemma aniso_at_bounds eta k j i o : 0 <= anisotropy a -> 1 <= aniso_at a eta k j i o <= 1 + anisotropy a.
Proof.
  intros Ha. unfold aniso_at. destruct (Rltb 0 (anisotropy a)); [|lra].
  match goal with |- context [aniso_factor a o ?e] => pose proof (aniso_bounds o e Ha) end. lra.
Qed.

Lemma mobility_bounds t : 0 < L0 a -> 0 <= Qg a -> 0 < gas_const a -> 0 < t -> 0 < mobility a t <= L0 a.
Proof.
  intros HL HQ HG Ht. unfold mobility.
  assert (0 < exp (- Qg a / (t * gas_const a)) <= 1).
  { split; [apply exp_pos|]. rewrite <- exp_0.
    assert (- Qg a / (t * gas_const a) <= 0).
    { unfold Rdiv. assert (0 < / (t * gas_const a)) by (apply Rinv_0_lt_compat; nra). nra. }
    destruct H as [H|H]; [left; now apply exp_increasing|right; now rewrite H]. }
  split; [apply Rmult_lt_0_compat; lra|]. rewrite <- (Rmult_1_r (L0 a)) at 2. apply Rmult_le_compat_l; lra.
Qed.



Lemma d1_bounds n v i : (i < n)%nat -> (forall x, (x < n)%nat -> 0 <= v x <= 1) ->
  - 2 * v i <= d1 n v i <= 2 * (1 - v i).
Proof.
  intros Hi Hv. unfold d1, cat.
  destruct (Nat.ltb_spec i (n - 1)), (Nat.ltb_spec i 1);
    repeat match goal with |- context [v ?x] =>
      lazymatch goal with [ H : 0 <= v x <= 1 |- _ ] => fail | _ => pose proof (Hv x ltac:(lia)) end end; lra.
Qed.

Lemma one_step_algebra eta0 f w dl m g S z h Lg :
  0 <= eta0 <= 1 -> 0 <= w -> - w * eta0 <= dl <= w * (1 - eta0) ->
  1 <= f -> 0 <= h -> 0 <= Lg -> 0 <= m -> 0 <= z <= 1 -> eta0 ^ 2 <= S <= eta0 ^ 2 + (g - 1) -> 1 <= g ->
  h * Lg * (f * w + m * (2 + 4 * (g - 1))) <= 1 ->
  0 <= eta0 + h * (- Lg * (m * ((eta0 ^ 3 - eta0) + (4 * eta0 * S - 4 * eta0 ^ 3) + 2 * (1 - z) ^ 2 * eta0) - f * dl)) <= 1.
Proof.
  intros He Hw Hd Hf Hh HL Hm Hz HS Hg Hst.
  set (c := h * Lg) in *. assert (Hc : 0 <= c) by (apply Rmult_le_pos; assumption).
  set (q := 4 * (S - eta0 ^ 2) + 2 * (1 - z) ^ 2).
  assert (Hq : 0 <= q <= 4 * (g - 1) + 2).
  { unfold q. assert (0 <= (1 - z) ^ 2 <= 1) by nra. lra. }
  replace (eta0 + h * (- Lg * (m * ((eta0 ^ 3 - eta0) + (4 * eta0 * S - 4 * eta0 ^ 3) + 2 * (1 - z) ^ 2 * eta0) - f * dl)))
    with (eta0 + c * f * dl - c * m * (eta0 * (q - (1 - eta0 ^ 2)))) by (unfold q, c; ring).
  assert (Hcf : 0 <= c * f) by (apply Rmult_le_pos; lra).
  assert (Hcm : 0 <= c * m) by (apply Rmult_le_pos; lra).
  assert (HW : 0 <= c * f * w) by (apply Rmult_le_pos; lra).
  assert (Hst' : c * f * w + c * m * (2 + 4 * (g - 1)) <= 1) by (replace (c * f * w + c * m * (2 + 4 * (g - 1))) with (c * (f * w + m * (2 + 4 * (g - 1)))) by ring; exact Hst).
  assert (Hlo : - (c * f * w) * eta0 <= c * f * dl) by nra.
  assert (Hhi : c * f * dl <= c * f * w * (1 - eta0)) by nra.
  set (W := c * f * w) in *. set (M := c * m) in *. clearbody W M.
  assert (Hsq : 0 <= 1 - eta0 ^ 2 <= 1) by nra.
  split.
  - assert (M * (eta0 * (q - (1 - eta0 ^ 2))) <= M * (eta0 * (2 + 4 * (g - 1)))).
    { apply Rmult_le_compat_l; [exact Hcm|]. apply Rmult_le_compat_l; lra. }
    assert (0 <= eta0 * (1 - (W + M * (2 + 4 * (g - 1))))) by (apply Rmult_le_pos; lra). lra.
  - assert (- M * (eta0 * (1 - eta0 ^ 2)) <= M * (eta0 * (q - (1 - eta0 ^ 2)))).
    { assert (0 <= M * (eta0 * q)) by (apply Rmult_le_pos; [exact Hcm|apply Rmult_le_pos; lra]). lra. }
    assert (M * (eta0 * (1 - eta0 ^ 2)) <= 2 * M * (1 - eta0)).
    { replace (2 * M * (1 - eta0)) with (M * (2 * (1 - eta0))) by ring. apply Rmult_le_compat_l; [exact Hcm|]. nra. }
    assert (0 <= M * (4 * (g - 1))) by (apply Rmult_le_pos; lra).
    assert (0 <= (1 - eta0) * (1 - W - 2 * M)) by (apply Rmult_le_pos; lra). lra.
Qed.

Lemma euler_in_unit T s t : physical a -> in_unit (num_cells a) (num_oris a) (fst s) ->
  (forall n, (n < num_cells a)%nat -> 0 < T n) -> 0 <= t - snd s -> (t - snd s) * L0 a * rate a <= 1 ->
  in_unit (num_cells a) (num_oris a) (fst (explicit_euler (state_rhs a T) s t)).
Proof.
  intros [] HU HT Hh Hst n o Hn Ho. destruct s as [y t0]. cbn [fst snd] in *.
  unfold explicit_euler, f_add, f_scal. cbn [fst]. unfold state_rhs, local_energy_grad.
  assert (HTc : 0 < cap_T (T n)) by (unfold cap_T; destruct (Rltb 2000 (T n)); [lra|auto]).
  pose proof (mobility_bounds (cap_T (T n)) ph_L0 ph_Qg ph_R HTc) as [HL1 HL2].
  set (Lg := mobility a (cap_T (T n))) in *.
  pose proof (zeta_unit (cap_T (T n))) as Hz. set (z := zeta_of a (cap_T (T n))) in *.
  destruct (cell_ex n Hn) as (k & j & i & Hk & Hj & Hi & En).
  assert (El : laplace a y n o = laplace_xyz a y k j i o) by (rewrite En; now apply laplace_at).
  rewrite El, laplace_d.
  pose proof (aniso_at_bounds y k j i o ph_an) as [Hf1 Hf2]. set (f := aniso_at a y k j i o) in *.
  assert (B : forall x, (x < num_cells a)%nat -> 0 <= y x o <= 1) by (intros; now apply HU).
  assert (Hy : 0 <= y n o <= 1) by (now apply HU).
  pose proof (d1_bounds (Nx a) (fun i => y (cell k j i) o) i Hi ltac:(intros; apply B, cell_lt; lia)) as Bx.
  pose proof (d1_bounds (Ny a) (fun j => y (cell k j i) o) j Hj ltac:(intros; apply B, cell_lt; lia)) as By.
  pose proof (d1_bounds (Nz a) (fun k => y (cell k j i) o) k Hk ltac:(intros; apply B, cell_lt; lia)) as Bz.
  fold (dx (fun n => y n o) k j i) in Bx. fold (dy (fun n => y n o) k j i) in By. fold (dz (fun n => y n o) k j i) in Bz.
  cbn beta in Bx, By, Bz. rewrite <- En in Bx, By, Bz.
  set (X := dx _ k j i) in *. set (Y := dy _ k j i) in *. set (Z := dz _ k j i) in *.
  set (S := sumR oris (fun p => y n p ^ 2)).
  assert (HS : y n o ^ 2 <= S <= y n o ^ 2 + (INR (num_oris a) - 1)).
  { assert (E : S = y n o ^ 2 + sumR oris (fun p => if Nat.eqb p o then 0 else y n p ^ 2)).
    { unfold S. transitivity (sumR oris (fun p => (if Nat.eqb p o then y n o ^ 2 else 0) + (if Nat.eqb p o then 0 else y n p ^ 2))).
      - apply sumR_ext. intros p _. destruct (Nat.eqb_spec p o) as [->|]; ring.
      - rewrite sumR_add. f_equal. rewrite (sumR_single oris o).
        + now rewrite Nat.eqb_refl.
        + apply seq_NoDup.
        + apply in_seq; lia.
        + intros p _ Hp. destruct (Nat.eqb_spec p o); [contradiction|reflexivity]. }
    rewrite E. split.
    - assert (0 <= sumR oris (fun p => if Nat.eqb p o then 0 else y n p ^ 2)); [|lra].
      apply sumR_nonneg. intros p _. destruct (Nat.eqb p o); [lra|apply pow2_ge_0].
    - assert (sumR oris (fun p => if Nat.eqb p o then 0 else y n p ^ 2) <= INR (num_oris a) - 1); [|lra].
      apply Rle_trans with (sumR oris (fun p => 1 - (if Nat.eqb p o then 1 else 0))).
      + apply sumR_le. intros p Hp. apply in_seq in Hp. destruct (Nat.eqb p o); [lra|].
        pose proof (HU n p Hn ltac:(lia)). nra.
      + rewrite sumR_sub, sumR_const, seq_length, (sumR_single oris o).
        * rewrite Nat.eqb_refl. lra.
        * apply seq_NoDup.
        * apply in_seq; lia.
        * intros p _ Hp. destruct (Nat.eqb_spec p o); [contradiction|reflexivity]. }
  set (K := kappa_g a * ad_hoc a) in *. assert (HK : 0 <= K) by (apply Rmult_le_pos; lra).
  assert (Hx2 : 0 < / h_x a ^ 2) by (apply Rinv_0_lt_compat, pow_lt; assumption).
  assert (Hy2 : 0 < / h_y a ^ 2) by (apply Rinv_0_lt_compat, pow_lt; assumption).
  assert (Hz2 : 0 < / h_z a ^ 2) by (apply Rinv_0_lt_compat, pow_lt; assumption).
  set (W := K * (2 / h_x a ^ 2 + 2 / h_y a ^ 2 + 2 / h_z a ^ 2)).
  set (DL := K * (X / h_x a ^ 2 + Y / h_y a ^ 2 + Z / h_z a ^ 2)).
  assert (HN : 1 <= INR (num_oris a)) by (replace 1 with (INR 1) by reflexivity; apply le_INR; lia).
  assert (Hmad : 0 <= m_g a / ad_hoc a).
  { unfold Rdiv. apply Rmult_le_pos; [assumption|]. left; now apply Rinv_0_lt_compat. }
  assert (HW : 0 <= W).
  { unfold W, Rdiv. apply Rmult_le_pos; [exact HK|]. lra. }
  assert (HDL : - W * y n o <= DL <= W * (1 - y n o)).
  { unfold W, DL, Rdiv. split.
    - replace (- (K * (2 * / h_x a ^ 2 + 2 * / h_y a ^ 2 + 2 * / h_z a ^ 2)) * y n o)
        with (K * (/ h_x a ^ 2 * (-2 * y n o) + / h_y a ^ 2 * (-2 * y n o) + / h_z a ^ 2 * (-2 * y n o))) by ring.
      apply Rmult_le_compat_l; [exact HK|]. nra.
    - replace (K * (2 * / h_x a ^ 2 + 2 * / h_y a ^ 2 + 2 * / h_z a ^ 2) * (1 - y n o))
        with (K * (/ h_x a ^ 2 * (2 * (1 - y n o)) + / h_y a ^ 2 * (2 * (1 - y n o)) + / h_z a ^ 2 * (2 * (1 - y n o)))) by ring.
      apply Rmult_le_compat_l; [exact HK|]. nra. }
  assert (Hst2 : (t - t0) * Lg * (f * W + m_g a / ad_hoc a * (2 + 4 * (INR (num_oris a) - 1))) <= 1).
  { eapply Rle_trans; [|exact Hst].
    assert (f * W + m_g a / ad_hoc a * (2 + 4 * (INR (num_oris a) - 1)) <= rate a).
    { unfold rate. fold K. replace (K * (1 + anisotropy a) * (2 / h_x a ^ 2 + 2 / h_y a ^ 2 + 2 / h_z a ^ 2)) with ((1 + anisotropy a) * W) by (unfold W; ring).
      apply Rplus_le_compat_r. apply Rmult_le_compat_r; assumption. }
    assert (0 <= f * W + m_g a / ad_hoc a * (2 + 4 * (INR (num_oris a) - 1))).
    { apply Rplus_le_le_0_compat; apply Rmult_le_pos; lra. }
    apply Rmult_le_compat; try assumption.
    - apply Rmult_le_pos; lra.
    - apply Rmult_le_compat_l; lra. }
  pose proof (one_step_algebra (y n o) f W DL (m_g a / ad_hoc a) (INR (num_oris a)) S z (t - t0) Lg) as A.
  match goal with |- 0 <= ?e <= 1 => match type of A with context [0 <= ?e' <= 1] =>
    let E := fresh in assert (E : e = y n o + (t - t0) * (- Lg * (m_g a / ad_hoc a * ((y n o ^ 3 - y n o) + (4 * y n o * S - 4 * y n o ^ 3) + 2 * (1 - z) ^ 2 * y n o) - f * DL))) by (unfold DL; field; repeat split; lra) ; rewrite E end end.
  apply A; try assumption; try lra.
Qed.


Theorem run_in_unit hmax steps : physical a -> hmax * L0 a * rate a <= 1 -> forall s,
  in_unit (num_cells a) (num_oris a) (fst s) -> steps_ok a hmax (snd s) steps ->
  in_unit (num_cells a) (num_oris a) (fst (pf_run explicit_euler a steps s)).
Proof.
  intros P Hst. induction steps as [|[T t] r IH]; intros s HU HS; [exact HU|].
  cbn [pf_run]. destruct HS as (HT & Hh & HS). apply IH.
  - destruct (Nat.eq_dec (num_oris a) 0) as [E|E]; [intros n o _ Ho; lia|].
    apply euler_in_unit; try assumption; try lra. eapply Rle_trans; [|exact Hst].
    destruct P.
    assert (0 <= rate a).
    { unfold rate, Rdiv. assert (1 <= INR (num_oris a)) by (replace 1 with (INR 1) by reflexivity; apply le_INR; lia).
      assert (0 < / ad_hoc a) by now apply Rinv_0_lt_compat.
      assert (0 < / h_x a ^ 2) by (apply Rinv_0_lt_compat, pow_lt; assumption).
      assert (0 < / h_y a ^ 2) by (apply Rinv_0_lt_compat, pow_lt; assumption).
      assert (0 < / h_z a ^ 2) by (apply Rinv_0_lt_compat, pow_lt; assumption).
      apply Rplus_le_le_0_compat.
      - apply Rmult_le_pos; [apply Rmult_le_pos; [apply Rmult_le_pos; lra|lra]|lra].
      - apply Rmult_le_pos; [apply Rmult_le_pos; lra|lra]. }
    apply Rmult_le_compat_r; [assumption|]. apply Rmult_le_compat_r; lra.
  - destruct s as [y t0]. cbn [explicit_euler snd]. exact HS.
Qed.
End Pf.
Close Scope R_scope.
