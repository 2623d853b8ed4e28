(** * Regularity of the augmented system of the multiplier solver. *)
From Coq Require Import FunctionalExtensionality Classical Lra Lia.
From Verif Require Import Prelude PreludeFacts FemModel FemFacts FemSpec SolverModel SolverSpec SolverProofs SolverLmProofs SolverAdProofs SolverFemProofs MmaNewtonProofs RveSpec RveSolveProofs SaddleSpec.
Open Scope R_scope.
Open Scope list_scope.

(** ** a linear system has a solution or a combination of its rows shows that it has none *)
Lemma fredholm n m : forall (A : nat -> nat -> R) (b : nat -> R),
  (exists x, forall i, (i < n)%nat -> sumN m (fun j => A i j * x j) = b i) \/
  (exists y, (forall j, (j < m)%nat -> sumN n (fun i => y i * A i j) = 0) /\ sumN n (fun i => y i * b i) <> 0).
Proof.
  induction m as [|m IH]; intros A b.
  - destruct (classic (exists i, (i < n)%nat /\ b i <> 0)) as [(i & Hi & Hb)|Hno].
    + right. exists (fun l => if Nat.eqb l i then 1 else 0). split; [intros; lia|]. rewrite (sumN_ext n _ (fun l => if Nat.eqb l i then b l else 0)) by (intros l _; destruct (Nat.eqb l i); ring).
      now rewrite (sumN_pick n i b Hi).
    + left. exists (fun _ => 0). intros i Hi. cbn. destruct (Req_dec (b i) 0) as [->|Hn]; [reflexivity|]. exfalso. eauto.
  - destruct (classic (exists p, (p < n)%nat /\ A p m <> 0)) as [(p & Hp & Hpz)|Hno].
    + set (A' := fun i j => A i j - A i m / A p m * A p j). set (b' := fun i => b i - A i m / A p m * b p).
      destruct (IH A' b') as [(x & Hx)|(y & Hy & Hb)].
      * left. set (t := (b p - sumN m (fun j => A p j * x j)) / A p m). exists (fun j => if Nat.eqb j m then t else x j). intros i Hi. rewrite sumN_S, Nat.eqb_refl.
        rewrite (sumN_ext m _ (fun j => A i j * x j)) by (intros j Hj; destruct (Nat.eqb_spec j m); [lia|reflexivity]).
        specialize (Hx i Hi). unfold A', b' in Hx. rewrite (sumN_ext m _ (fun j => A i j * x j - A i m / A p m * (A p j * x j))) in Hx by (intros; ring). rewrite sumN_sub, sumN_scal in Hx.
        unfold t. replace (A i m * ((b p - sumN m (fun j => A p j * x j)) / A p m)) with (A i m / A p m * b p - A i m / A p m * sumN m (fun j => A p j * x j)) by (field; exact Hpz). lra.
      * right. set (s := sumN n (fun i => y i * A i m) / A p m). exists (fun i => y i - s * (if Nat.eqb i p then 1 else 0)).
        assert (Hs : forall f, sumN n (fun i => (y i - s * (if Nat.eqb i p then 1 else 0)) * f i) = sumN n (fun i => y i * f i) - s * f p).
        { intros f. rewrite (sumN_ext n _ (fun i => y i * f i - s * (if Nat.eqb i p then f i else 0))) by (intros i _; destruct (Nat.eqb i p); ring). rewrite sumN_sub, sumN_scal, (sumN_pick n p f Hp). reflexivity. }
        assert (Hc : forall f, sumN n (fun i => y i * (f i - A i m / A p m * f p)) = sumN n (fun i => y i * f i) - s * f p).
        { intros f. rewrite (sumN_ext n _ (fun i => y i * f i - (f p / A p m) * (y i * A i m))) by (intros; field; exact Hpz). rewrite sumN_sub, sumN_scal. unfold s. field. exact Hpz. }
        split.
        -- intros j Hj. rewrite (Hs (fun i => A i j)). destruct (Nat.eq_dec j m) as [->|Hne]; [unfold s; field; exact Hpz|]. rewrite <- (Hc (fun i => A i j)). apply Hy. lia.
        -- rewrite (Hs b), <- (Hc b). exact Hb.
    + assert (Hz : forall i, (i < n)%nat -> A i m = 0) by (intros i Hi; destruct (Req_dec (A i m) 0); [assumption|exfalso; eauto]).
      destruct (IH A b) as [(x & Hx)|(y & Hy & Hb)].
      * left. exists x. intros i Hi. rewrite sumN_S, (Hx i Hi), (Hz i Hi). ring.
      * right. exists y. split; [|exact Hb]. intros j Hj. destruct (Nat.eq_dec j m) as [->|Hne]; [|apply Hy; lia]. apply sumN_zero. intros i Hi. rewrite (Hz i Hi). ring.
Qed.
Lemma sumN_dofs v : forall n f, sumN (n * v) f = sumN n (fun i => sumN v (fun k => f (v * i + k)%nat)).
Proof. induction n as [|n IH]; intros f; [reflexivity|]. rewrite sumN_S, <- IH. replace (S n * v)%nat with (n * v + v)%nat by lia. rewrite sumN_app. f_equal. apply sumN_ext. intros k _. f_equal. lia. Qed.

Section Saddle.
Variable P : problem.
Hypothesis Hok : bc_ok P.
Hypothesis Hper : periodic_ok P.
Local Notation N := (num_total_dofs P).
Local Notation M := (aug_size P).
Lemma M_eq : M = (length (conditions P) + length (pairs P))%nat.
Proof. rewrite (aug_size_eq P Hok Hper). apply srows_len; assumption. Qed.
(** change of the constraints in the direction d *)
Definition cdelta (d : nodal) : list R :=
  map (fun c => d (fst (fst c)) (snd (fst c))) (conditions P) ++ map (fun t => d (fst (fst t)) (snd t) - d (snd (fst t)) (snd t)) (pairs P).
Definition cd (j : nat) (d : nodal) : R := nth j (cdelta d) 0.
Definition dsum (f : nodal) : R := sumN (num_nodes_p P) (fun n => sumN (pvec P) (fun k => f n k)).
Lemma dsum_ext f g : (forall n k, unknown P n k -> f n k = g n k) -> dsum f = dsum g.
Proof. intros H. apply sumN_ext. intros n Hn. apply sumN_ext. intros k Hk. apply H. now split. Qed.
Lemma dsum_zero f : (forall n k, unknown P n k -> f n k = 0) -> dsum f = 0.
Proof. intros H. apply sumN_zero. intros n Hn. apply sumN_zero. intros k Hk. apply H. now split. Qed.
Lemma dsum_add f g : dsum (fun n k => f n k + g n k) = dsum f + dsum g.
Proof. unfold dsum. rewrite <- sumN_add. apply sumN_ext. intros n _. apply sumN_add. Qed.
Lemma dsum_scal a f : dsum (fun n k => a * f n k) = a * dsum f.
Proof. unfold dsum. rewrite <- sumN_scal. apply sumN_ext. intros n _. apply sumN_scal. Qed.
Lemma dsum_flat (f : vector) : sumN N f = dsum (fun n k => f (dof P n k)).
Proof. unfold num_total_dofs. apply sumN_dofs. Qed.
Lemma dsum_pick (v : nodal) n k : unknown P n k -> dsum (fun m l => v m l * ind (Nat.eqb m n && Nat.eqb l k)) = v n k.
Proof. apply pick_unknown. Qed.
Lemma dsum_square v : dsum (fun n k => v n k * v n k) = 0 -> forall n k, unknown P n k -> v n k = 0.
Proof.
  intros H n k [Hn Hk]. pose proof (sumN_pos_zero (num_nodes_p P) (fun n => sumN (pvec P) (fun k => v n k * v n k)) (fun n _ => sumN_nonneg _ _ (fun k _ => Rle_0_sqr (v n k))) H n Hn) as H1. cbv beta in H1.
  pose proof (sumN_pos_zero _ _ (fun k _ => Rle_0_sqr (v n k)) H1 k Hk) as H2. cbv beta in H2. now apply Rsqr_0_uniq.
Qed.
Lemma cdelta_sub u w j : nth j (constraint_values P u) 0 - nth j (constraint_values P w) 0 = cd j (fun n k => u n k - w n k).
Proof.
  unfold cd, cdelta, constraint_values. destruct (Nat.lt_ge_cases j (length (conditions P))) as [H|H].
  - rewrite !app_nth1 by (rewrite map_length; exact H). rewrite !(nth_map_in _ _ j ((0, 0)%nat, 0)) by exact H. ring.
  - rewrite !app_nth2 by (rewrite map_length; exact H). rewrite !map_length. destruct (Nat.lt_ge_cases (j - length (conditions P)) (length (pairs P))) as [H2|H2].
    + rewrite !(nth_map_in _ _ _ (0, 0, 0)%nat) by exact H2. ring.
    + rewrite !nth_overflow by (rewrite map_length; exact H2). ring.
Qed.
Lemma cd_row j d : dsum (fun n k => d n k * nth j (constraint_row P n k) 0) = cd j d.
Proof.
  unfold cd, cdelta, constraint_row. destruct (Nat.lt_ge_cases j (length (conditions P))) as [H|H].
  - rewrite app_nth1 by (rewrite map_length; exact H). rewrite (nth_map_in _ _ j ((0, 0)%nat, 0)) by exact H.
    pose proof (nth_In (conditions P) ((0, 0)%nat, 0) H) as Hin. destruct (nth j (conditions P) ((0, 0)%nat, 0)) as [[n0 k0] x] eqn:E. cbn [fst snd].
    rewrite <- (dsum_pick d n0 k0 (condition_unknown P Hok _ _ _ Hin)). apply dsum_ext. intros n k _. rewrite app_nth1 by (rewrite map_length; exact H). rewrite (nth_map_in _ _ j ((0, 0)%nat, 0)) by exact H. rewrite E. reflexivity.
  - rewrite app_nth2 by (rewrite map_length; exact H). rewrite map_length. destruct (Nat.lt_ge_cases (j - length (conditions P)) (length (pairs P))) as [H2|H2].
    + rewrite (nth_map_in _ _ _ (0, 0, 0)%nat) by exact H2. pose proof (nth_In (pairs P) (0, 0, 0)%nat H2) as Hin. destruct (nth (j - length (conditions P)) (pairs P) (0, 0, 0)%nat) as [[a b] k0] eqn:E. cbn [fst snd].
      destruct (pair_unknown P Hper a b k0 Hin) as [Ha Hb]. rewrite <- (dsum_pick d a k0 Ha), <- (dsum_pick d b k0 Hb). unfold Rminus. rewrite <- (Rmult_1_l (dsum (fun m l => d m l * ind (Nat.eqb m b && Nat.eqb l k0)))), <- Ropp_mult_distr_l_reverse, <- dsum_scal, <- dsum_add. apply dsum_ext. intros n k _.
      rewrite app_nth2 by (rewrite map_length; exact H). rewrite map_length, (nth_map_in _ _ _ (0, 0, 0)%nat) by exact H2. rewrite E. cbn [fst snd]. ring.
    + rewrite nth_overflow by (rewrite map_length; exact H2). apply dsum_zero. intros n k _. rewrite app_nth2 by (rewrite map_length; exact H). rewrite map_length, nth_overflow by (rewrite map_length; exact H2). ring.
Qed.
Lemma force_eq lam n k : multiplier_force P lam n k = sumN M (fun j => nth j (constraint_row P n k) 0 * lam (N + j)%nat).
Proof. unfold multiplier_force. replace (length (constraint_row P n k)) with M; [reflexivity|]. rewrite M_eq. unfold constraint_row. now rewrite app_length, !map_length. Qed.
Lemma force_work lam v : dsum (fun n k => v n k * multiplier_force P lam n k) = sumN M (fun j => lam (N + j)%nat * cd j v).
Proof.
  rewrite (sumN_ext M (fun j => lam (N + j)%nat * cd j v) (fun j => dsum (fun n k => lam (N + j)%nat * (v n k * nth j (constraint_row P n k) 0)))) by (intros j _; now rewrite dsum_scal, cd_row).
  symmetry. unfold dsum. rewrite sumN_swap. apply sumN_ext. intros n _. rewrite sumN_swap. apply sumN_ext. intros k _. rewrite force_eq, <- sumN_scal. apply sumN_ext. intros j _. ring.
Qed.
Lemma free_iff d : admissible P d <-> forall j, (j < M)%nat -> cd j d = 0.
Proof.
  rewrite M_eq. unfold cd, cdelta. split.
  - intros [H1 H2] j Hj. destruct (Nat.lt_ge_cases j (length (conditions P))) as [H|H].
    + rewrite app_nth1 by (rewrite map_length; exact H). rewrite (nth_map_in _ _ j ((0, 0)%nat, 0)) by exact H. pose proof (nth_In (conditions P) ((0, 0)%nat, 0) H) as Hin. destruct (nth j (conditions P) ((0, 0)%nat, 0)) as [[n0 k0] x]. exact (H1 _ _ _ Hin).
    + rewrite app_nth2 by (rewrite map_length; exact H). rewrite map_length. assert (Hl : (j - length (conditions P) < length (pairs P))%nat) by lia. rewrite (nth_map_in _ _ _ (0, 0, 0)%nat) by exact Hl. pose proof (nth_In (pairs P) (0, 0, 0)%nat Hl) as Hin.
      destruct (nth _ (pairs P) (0, 0, 0)%nat) as [[a b] k0]. cbn [fst snd]. rewrite (H2 _ _ _ Hin). ring.
  - intros H. split.
    + intros n k x Hin. apply (In_nth _ _ ((0, 0)%nat, 0)) in Hin as (j & Hj & E). specialize (H j ltac:(lia)). rewrite app_nth1 in H by (rewrite map_length; exact Hj). rewrite (nth_map_in _ _ j ((0, 0)%nat, 0)), E in H by exact Hj. exact H.
    + intros a b k Hin. apply (In_nth _ _ (0, 0, 0)%nat) in Hin as (j & Hj & E). specialize (H (length (conditions P) + j)%nat ltac:(lia)). rewrite app_nth2 in H by (rewrite map_length; lia). rewrite map_length in H.
      replace (length (conditions P) + j - length (conditions P))%nat with j in H by lia. rewrite (nth_map_in _ _ _ (0, 0, 0)%nat), E in H by exact Hj. cbn [fst snd] in H. lra.
Qed.
Lemma hold_iff u : constraints_hold P u <-> forall j, (j < M)%nat -> nth j (constraint_values P u) 0 = 0.
Proof.
  rewrite M_eq. unfold constraint_values. split.
  - intros [H1 H2] j Hj. destruct (Nat.lt_ge_cases j (length (conditions P))) as [H|H].
    + rewrite app_nth1 by (rewrite map_length; exact H). rewrite (nth_map_in _ _ j ((0, 0)%nat, 0)) by exact H. pose proof (nth_In (conditions P) ((0, 0)%nat, 0) H) as Hin. destruct (nth j (conditions P) ((0, 0)%nat, 0)) as [[n0 k0] x]. cbn [fst snd]. rewrite (H1 _ _ _ Hin). ring.
    + rewrite app_nth2 by (rewrite map_length; exact H). rewrite map_length. assert (Hl : (j - length (conditions P) < length (pairs P))%nat) by lia. rewrite (nth_map_in _ _ _ (0, 0, 0)%nat) by exact Hl. pose proof (nth_In (pairs P) (0, 0, 0)%nat Hl) as Hin.
      destruct (nth _ (pairs P) (0, 0, 0)%nat) as [[a b] k0]. cbn [fst snd]. rewrite (H2 _ _ _ Hin). ring.
  - intros H. split.
    + intros n k x Hin. apply (In_nth _ _ ((0, 0)%nat, 0)) in Hin as (j & Hj & E). specialize (H j ltac:(lia)). rewrite app_nth1 in H by (rewrite map_length; exact Hj). rewrite (nth_map_in _ _ j ((0, 0)%nat, 0)), E in H by exact Hj. cbn [fst snd] in H. lra.
    + intros a b k Hin. apply (In_nth _ _ (0, 0, 0)%nat) in Hin as (j & Hj & E). specialize (H (length (conditions P) + j)%nat ltac:(lia)). rewrite app_nth2 in H by (rewrite map_length; lia). rewrite map_length in H.
      replace (length (conditions P) + j - length (conditions P))%nat with j in H by lia. rewrite (nth_map_in _ _ _ (0, 0, 0)%nat), E in H by exact Hj. cbn [fst snd] in H. lra.
Qed.
(** work of the matrix applied to d in the direction v *)
Definition work (ijv : IJV) (d v : nodal) : R := dsum (fun n k => v n k * coo_mul N ijv (ravel P d) (dof P n k)).
Lemma rav d i : (i < N)%nat -> ravel P (reshape P d) i = d i.
Proof. intros Hi. destruct (dof_ex P i Hi) as (n & l & Hu & ->). rewrite ravel_dof by exact (proj2 Hu). reflexivity. Qed.
Definition diffs (f : vector -> R) (x : vector) : vector := fun i => f (step x 1 (unit_vec i)) - f x.
Lemma diffs_ok e : is_grad (num_aug P) (Lagrangian_fn P e) (diffs (Lagrangian_fn P e)).
Proof. exact (difference_is_gradient P Hok Hper e). Qed.
Lemma aug_form ijv eps y z : ijv_ok N ijv ->
  dotN (num_aug P) y (coo_mul (num_aug P) (snd (aug_ijv P ijv eps)) z)
  = work ijv (reshape P z) (reshape P y) + eps * sumN M (fun j => z (N + j)%nat * cd j (reshape P y)) + eps * sumN M (fun j => y (N + j)%nat * cd j (reshape P z)).
Proof.
  intros Hij. unfold dotN. replace (num_aug P) with (N + M)%nat at 1 by reflexivity. rewrite sumN_app. f_equal.
  - rewrite dsum_flat. rewrite <- force_work, <- dsum_scal. unfold work. rewrite <- dsum_add. apply dsum_ext. intros n k Hu. rewrite (aug_matrix_unknown P Hok Hper diffs diffs_ok ijv eps z n k Hij Hu).
    replace (coo_mul N ijv (ravel P (reshape P z)) (dof P n k)) with (coo_mul N ijv z (dof P n k)); [unfold reshape, dof; ring|]. unfold coo_mul. apply sumN_ext. intros j Hj. now rewrite rav.
  - rewrite <- sumN_scal. apply sumN_ext. intros j Hj. rewrite (aug_matrix_multiplier P Hok Hper diffs diffs_ok ijv eps z j Hij Hj), cdelta_sub.
    replace (fun n k => reshape P z n k - reshape P vzero n k) with (reshape P z); [ring|]. apply functional_extensionality; intros n; apply functional_extensionality; intros k. unfold reshape, vzero. ring.
Qed.
(** ** a regular augmented matrix has independent constraints *)
Lemma regular_independent eps u r ijv : matrix_ok P -> newton_update P u = Ok (r, ijv) -> solvable_augmented P eps -> independent_constraints P.
Proof.
  intros Hmat Hr Hs lam Hlam. set (y := fun i => if Nat.ltb i N then 0 else lam (i - N)%nat). destruct (Hs u r ijv Hr y) as (z & Hz).
  pose proof (aug_form ijv eps y z (Hmat _ _ _ Hr)) as E.
  assert (Hy0 : reshape P y = fun n k => if Nat.ltb (dof P n k) N then 0 else lam (dof P n k - N)%nat) by reflexivity.
  assert (Hyu : forall n k, unknown P n k -> reshape P y n k = 0).
  { intros n k Hu. unfold reshape, y. fold (dof P n k). pose proof (dof_lt P n k Hu). destruct (Nat.ltb_spec (dof P n k) N); [reflexivity|lia]. }
  assert (HyM : forall j, y (N + j)%nat = lam j) by (intros j; unfold y; destruct (Nat.ltb_spec (N + j)%nat N); [lia|]; f_equal; lia).
  assert (H1 : work ijv (reshape P z) (reshape P y) = 0) by (apply dsum_zero; intros n k Hu; rewrite (Hyu n k Hu); ring).
  assert (H2 : sumN M (fun j => z (N + j)%nat * cd j (reshape P y)) = 0) by (rewrite <- force_work; apply dsum_zero; intros n k Hu; rewrite (Hyu n k Hu); ring).
  assert (H3 : sumN M (fun j => y (N + j)%nat * cd j (reshape P z)) = 0).
  { rewrite <- force_work. apply dsum_zero. intros n k Hu. rewrite force_eq, M_eq. rewrite (sumN_ext _ _ (fun j => nth j (constraint_row P n k) 0 * lam j)) by (intros j _; now rewrite HyM). rewrite (Hlam n k Hu). ring. }
  rewrite H1, H2, H3 in E. rewrite <- M_eq. intros j Hj.
  assert (E2 : sumN (num_aug P) (fun i => y i * y i) = 0).
  { transitivity (dotN (num_aug P) y (coo_mul (num_aug P) (snd (aug_ijv P ijv eps)) z)); [|rewrite E; ring]. apply sumN_ext. intros i Hi. now rewrite (Hz i Hi). }
  rewrite <- HyM. apply Rsqr_0_uniq. apply (sumN_pos_zero _ (fun i => y i * y i) (fun i _ => Rle_0_sqr (y i)) E2). unfold num_aug. lia.
Qed.
(** ** ... and no motion that keeps the constraints and that the matrix does not feel *)
Lemma regular_definite eps u r ijv d : matrix_ok P -> newton_update P u = Ok (r, ijv) -> solvable_augmented P eps ->
  admissible P d -> (forall z, work ijv z d = 0) -> forall n k, unknown P n k -> d n k = 0.
Proof.
  intros Hmat Hr Hs Hd Hw. set (y := fun i => if Nat.ltb i N then ravel P d i else 0). destruct (Hs u r ijv Hr y) as (z & Hz).
  pose proof (aug_form ijv eps y z (Hmat _ _ _ Hr)) as E.
  assert (Hyu : forall n k, unknown P n k -> reshape P y n k = d n k).
  { intros n k Hu. unfold reshape, y. fold (dof P n k). pose proof (dof_lt P n k Hu). destruct (Nat.ltb_spec (dof P n k) N); [now apply ravel_dof; apply Hu|lia]. }
  assert (H1 : work ijv (reshape P z) (reshape P y) = 0) by (rewrite <- (Hw (reshape P z)); apply dsum_ext; intros n k Hu; now rewrite (Hyu n k Hu)).
  assert (H2 : sumN M (fun j => z (N + j)%nat * cd j (reshape P y)) = 0).
  { transitivity (sumN M (fun j => z (N + j)%nat * cd j d)); [rewrite <- !force_work; apply dsum_ext; intros n k Hu; now rewrite (Hyu n k Hu)|]. apply sumN_zero. intros j Hj. rewrite (proj1 (free_iff d) Hd j Hj). ring. }
  assert (H3 : sumN M (fun j => y (N + j)%nat * cd j (reshape P z)) = 0) by (apply sumN_zero; intros j _; unfold y; destruct (Nat.ltb_spec (N + j)%nat N); [lia|ring]).
  rewrite H1, H2, H3 in E. apply dsum_square.
  assert (E2 : dotN (num_aug P) y y = 0).
  { transitivity (dotN (num_aug P) y (coo_mul (num_aug P) (snd (aug_ijv P ijv eps)) z)); [|rewrite E; ring]. apply sumN_ext. intros i Hi. now rewrite (Hz i Hi). }
  unfold dotN, num_aug in E2. rewrite sumN_app, dsum_flat in E2. rewrite (sumN_zero M) in E2 by (intros j _; unfold y; destruct (Nat.ltb_spec (N + j)%nat N); [lia|ring]).
  transitivity (dsum (fun n k => y (dof P n k) * y (dof P n k))); [|lra]. apply dsum_ext. intros n k Hu. rewrite <- (Hyu n k Hu). reflexivity.
Qed.
(** ** with a definite form a right-hand side is reached if it fits the dependencies of the constraints *)
Lemma saddle_solvable eps ijv b : ijv_ok N ijv -> eps <> 0 ->
  (forall d, admissible P d -> work ijv d d = 0 -> forall n k, unknown P n k -> d n k = 0) ->
  (forall lam : vector, (forall n k, unknown P n k -> multiplier_force P lam n k = 0) -> sumN M (fun j => lam (N + j)%nat * b (N + j)%nat) = 0) ->
  exists x, same (num_aug P) (coo_mul (num_aug P) (snd (aug_ijv P ijv eps)) x) b.
Proof.
  intros Hij He Hdef Hb. destruct (fredholm (num_aug P) (num_aug P) (coo_entry (snd (aug_ijv P ijv eps))) b) as [(x & Hx)|(y & Hy & Hne)]; [exists x; exact Hx|]. exfalso. apply Hne.
  assert (Hz : forall z, work ijv (reshape P z) (reshape P y) + eps * sumN M (fun j => z (N + j)%nat * cd j (reshape P y)) + eps * sumN M (fun j => y (N + j)%nat * cd j (reshape P z)) = 0).
  { intros z. rewrite <- aug_form by exact Hij. unfold dotN, coo_mul.
    rewrite (sumN_ext (num_aug P) _ (fun i => sumN (num_aug P) (fun j => z j * (y i * coo_entry (snd (aug_ijv P ijv eps)) i j)))) by (intros i _; rewrite <- sumN_scal; apply sumN_ext; intros; ring).
    rewrite sumN_swap. apply sumN_zero. intros j Hj. rewrite sumN_scal, (Hy j Hj). ring. }
  assert (Hfree : admissible P (reshape P y)).
  { apply free_iff. intros j Hj. specialize (Hz (fun i => if Nat.eqb i (N + j) then 1 else 0)).
    assert (Hr0 : forall n k, unknown P n k -> reshape P (fun i => if Nat.eqb i (N + j) then 1 else 0) n k = 0).
    { intros n k Hu. unfold reshape. fold (dof P n k). pose proof (dof_lt P n k Hu). destruct (Nat.eqb_spec (dof P n k) (N + j)); [lia|reflexivity]. }
    replace (work ijv _ _) with 0 in Hz.
    2:{ symmetry. apply dsum_zero. intros n k Hu. unfold coo_mul. rewrite (sumN_zero N); [ring|]. intros i Hi. rewrite rav by exact Hi. cbv beta. destruct (Nat.eqb_spec i (N + j)); [lia|ring]. }
    rewrite <- (force_work y) in Hz. replace (dsum _) with 0 in Hz by (symmetry; apply dsum_zero; intros n k Hu; rewrite (Hr0 n k Hu); ring).
    rewrite (sumN_ext M _ (fun i => if Nat.eqb i j then cd i (reshape P y) else 0)) in Hz.
    2:{ intros i _. destruct (Nat.eqb_spec i j) as [->|Hn]; [rewrite Nat.eqb_refl; ring|]. destruct (Nat.eqb_spec (N + i) (N + j)); [lia|ring]. }
    rewrite (sumN_pick M j (fun i => cd i (reshape P y)) Hj) in Hz. apply (Rmult_eq_reg_l eps); [lra|exact He]. }
  assert (Hzero : forall n k, unknown P n k -> reshape P y n k = 0).
  { apply (Hdef _ Hfree). specialize (Hz (fun i => if Nat.ltb i N then y i else 0)).
    assert (Hr0 : forall n k, unknown P n k -> reshape P (fun i => if Nat.ltb i N then y i else 0) n k = reshape P y n k).
    { intros n k Hu. unfold reshape. fold (dof P n k). pose proof (dof_lt P n k Hu). destruct (Nat.ltb_spec (dof P n k) N); [reflexivity|lia]. }
    replace (work ijv (reshape P (fun i => if Nat.ltb i N then y i else 0)) (reshape P y)) with (work ijv (reshape P y) (reshape P y)) in Hz.
    2:{ apply dsum_ext. intros n k Hu. f_equal. unfold coo_mul. apply sumN_ext. intros i Hi. rewrite !rav by exact Hi. cbv beta. destruct (Nat.ltb_spec i N); [reflexivity|lia]. }
    rewrite <- (force_work y) in Hz. replace (dsum _) with (sumN M (fun j => y (N + j)%nat * cd j (reshape P y))) in Hz.
    2:{ rewrite <- force_work. apply dsum_ext. intros n k Hu. now rewrite (Hr0 n k Hu). }
    rewrite !(sumN_zero M) in Hz; [lra| |]; intros j Hj; rewrite (proj1 (free_iff _) Hfree j Hj); ring. }
  assert (Hforce : forall n k, unknown P n k -> multiplier_force P y n k = 0).
  { apply dsum_square. set (w := fun n k => multiplier_force P y n k). specialize (Hz (fun i => if Nat.ltb i N then ravel P w i else 0)).
    replace (work ijv _ _) with 0 in Hz by (symmetry; apply dsum_zero; intros n k Hu; rewrite (Hzero n k Hu); ring).
    rewrite (sumN_zero M (fun j => (if Nat.ltb (N + j) N then _ else 0) * _)) in Hz by (intros j _; destruct (Nat.ltb_spec (N + j) N); [lia|ring]).
    rewrite <- (force_work y) in Hz. apply (Rmult_eq_reg_l eps); [|exact He]. transitivity 0; [|ring]. rewrite <- Hz. rewrite Rmult_0_r, !Rplus_0_l. f_equal. apply dsum_ext. intros n k Hu. f_equal.
    unfold reshape. fold (dof P n k). pose proof (dof_lt P n k Hu). destruct (Nat.ltb_spec (dof P n k) N); [|lia]. rewrite ravel_dof by exact (proj2 Hu). reflexivity. }
  unfold num_aug. rewrite sumN_app, (Hb y Hforce), dsum_flat. rewrite dsum_zero; [ring|]. intros n k Hu. rewrite <- (Rmult_0_l (b (dof P n k))). f_equal. exact (Hzero n k Hu).
Qed.
Lemma regular_from eps u r ijv b : matrix_ok P -> newton_update P u = Ok (r, ijv) -> eps <> 0 -> independent_constraints P ->
  (forall d, admissible P d -> work ijv d d = 0 -> forall n k, unknown P n k -> d n k = 0) ->
  exists x, same (num_aug P) (coo_mul (num_aug P) (snd (aug_ijv P ijv eps)) x) b.
Proof.
  intros Hmat Hr He Hind Hdef. apply saddle_solvable; [exact (Hmat _ _ _ Hr)|exact He|exact Hdef|]. intros lam Hl. apply sumN_zero. intros j Hj. rewrite (Hind (fun j => lam (N + j)%nat)); [ring| |rewrite <- M_eq; exact Hj].
  intros n k Hu. rewrite <- M_eq, <- force_eq. exact (Hl n k Hu).
Qed.
(** ** a residual that does no work in motions that keep the constraints is carried by multipliers *)
Lemma balanced_multipliers u : balanced P u -> in_constrained_equilibrium P u.
Proof.
  intros (r & ijv & Hr & Hw). exists r, ijv.
  destruct (fredholm N M (fun i j => nth j (constraint_row P (i / pvec P) (i mod pvec P)) 0) (fun i => - ravel P r i)) as [(x & Hx)|(y & Hy & Hne)].
  - exists (fun i => x (i - N)%nat). split; [exact Hr|]. intros n k Hu. specialize (Hx (dof P n k) (dof_lt P n k Hu)). rewrite ravel_dof in Hx by exact (proj2 Hu).
    rewrite force_eq. rewrite (sumN_ext M _ (fun j => nth j (constraint_row P (dof P n k / pvec P) (dof P n k mod pvec P)) 0 * x j)); [lra|]. intros j _.
    replace (N + j - N)%nat with j by lia. f_equal. change (nth j (constraint_row P n k) 0 = ravel P (fun n k => nth j (constraint_row P n k) 0) (dof P n k)). now rewrite ravel_dof by exact (proj2 Hu).
  - exfalso. apply Hne. rewrite dsum_flat.
    transitivity (-1 * dsum (fun n k => reshape P y n k * r n k)).
    + rewrite <- dsum_scal. apply dsum_ext. intros n k Hu. rewrite ravel_dof by exact (proj2 Hu). unfold reshape, dof. ring.
    + unfold dsum. rewrite (Hw (reshape P y)); [ring|].
      apply free_iff. intros j Hj. rewrite <- cd_row. etransitivity; [|exact (Hy j Hj)]. rewrite dsum_flat. apply dsum_ext. intros n k Hu.
      rewrite <- (ravel_dof P (fun n k => nth j (constraint_row P n k) 0) n k (proj2 Hu)). reflexivity.
Qed.
(** ** the solver on an affine problem *)
Variable grad : (vector -> R) -> vector -> vector.
Hypothesis Hgrad : forall e, is_grad (num_aug P) (Lagrangian_fn P e) (grad (Lagrangian_fn P e)).
Hypothesis Hmat : matrix_ok P.
Hypothesis Haf : affine_problem P.
Hypothesis Hdef : forall u r ijv d, newton_update P u = Ok (r, ijv) -> admissible P d -> work ijv d d = 0 -> forall n k, unknown P n k -> d n k = 0.
(** the step from x is solvable exactly if the constraints can be met *)
Lemma consistent_step eps x r ijv : eps <> 0 -> newton_update P (reshape P x) = Ok (r, ijv) -> consistent_constraints P ->
  exists d, same (num_aug P) (coo_mul (num_aug P) (snd (aug_ijv P ijv eps)) d) (vopp (compute_residual_lm P grad (ravel P r) x eps)).
Proof.
  intros He Hr (u0 & Hu0). apply saddle_solvable; [exact (Hmat _ _ _ Hr)|exact He|intros d; exact (Hdef _ _ _ d Hr)|]. intros lam Hl.
  transitivity (- eps * dsum (fun n k => (reshape P x n k - u0 n k) * multiplier_force P lam n k)).
  - rewrite force_work, <- sumN_scal. apply sumN_ext. intros j Hj. unfold vopp. rewrite (residual_lm_multiplier P Hok Hper grad Hgrad _ _ _ _ Hj), <- cdelta_sub, (proj1 (hold_iff u0) Hu0 j Hj). ring.
  - rewrite dsum_zero; [ring|]. intros n k Hu. rewrite (Hl n k Hu). ring.
Qed.
Lemma step_lands eps x d r ijv : eps <> 0 -> newton_update P (reshape P x) = Ok (r, ijv) ->
  same (num_aug P) (coo_mul (num_aug P) (snd (aug_ijv P ijv eps)) d) (vopp (compute_residual_lm P grad (ravel P r) x eps)) ->
  exists r1 ijv1, newton_update P (reshape P (vadd x d)) = Ok (r1, ijv1) /\ same (num_aug P) (compute_residual_lm P grad (ravel P r1) (vadd x d) eps) vzero.
Proof.
  intros He Hr Hd. destruct (Haf (reshape P x) (reshape P d)) as (r0 & r1 & ijv0 & ijv1 & E0 & E1 & Ha).
  rewrite Hr in E0. injection E0 as <- <-. exists r1, ijv1. split; [exact E1|].
  destruct (aug_linearisation P Hok Hper grad Hgrad r r1 ijv eps x d (Hmat _ _ _ Hr)) as [L1 L2].
  intros i Hi. unfold vzero. pose proof (Hd i Hi) as Hdi. unfold vopp in Hdi. destruct (Nat.lt_ge_cases i N) as [H|H].
  - destruct (dof_ex P i H) as (n & k & Hu & ->). specialize (L1 n k Hu). rewrite (Ha n k Hu) in L1.
    replace (coo_mul N ijv (ravel P (reshape P d)) (dof P n k)) with (coo_mul N ijv d (dof P n k)) in L1; [lra|].
    unfold coo_mul. apply sumN_ext. intros j Hj. now rewrite rav.
  - unfold num_aug in Hi. replace i with (N + (i - N))%nat in * by lia. specialize (L2 (i - N)%nat ltac:(lia)). lra.
Qed.
Lemma step_iff eps x : eps <> 0 -> (step_solvable P grad eps x <-> consistent_constraints P).
Proof.
  intros He. split.
  - intros (r & ijv & d & Hr & Hd). destruct (step_lands eps x d r ijv He Hr Hd) as (r1 & ijv1 & Hr1 & Hz). exists (reshape P (vadd x d)). exact (proj1 (stationary_point P Hok Hper grad Hgrad r1 ijv1 _ eps He Hr1 Hz)).
  - intros Hcs. destruct (Haf (reshape P x) (fun _ _ => 0)) as (r & _ & ijv & _ & Hr & _ & _). destruct (consistent_step eps x r ijv He Hr Hcs) as (d & Hd). exists r, ijv, d. auto.
Qed.
Local Notation eps := (match p_num_eps_attr P with Some e => e | None => 1 end).
Lemma equilibrium_unique u w : constraints_hold P u -> constraints_hold P w -> in_constrained_equilibrium P u -> in_constrained_equilibrium P w -> forall n k, unknown P n k -> w n k = u n k.
Proof.
  intros Hu Hw (r & ijv & lam & Hr & Heq) (rw & ijvw & lamw & Hrw & Heqw) n k Hnk.
  set (d := fun n k => w n k - u n k). enough (Hd : d n k = 0) by (unfold d in Hd; lra). revert n k Hnk.
  assert (Hfree : admissible P d) by (apply free_iff; intros j Hj; unfold d; rewrite <- cdelta_sub, (proj1 (hold_iff u) Hu j Hj), (proj1 (hold_iff w) Hw j Hj); ring).
  apply (Hdef u r ijv d Hr Hfree).
  destruct (Haf u d) as (r0 & r1 & ijv0 & ijv1 & E0 & E1 & Ha). rewrite Hr in E0. injection E0 as <- <-.
  replace (fun n k => u n k + d n k) with w in E1 by (apply functional_extensionality; intros n; apply functional_extensionality; intros k; unfold d; ring).
  rewrite Hrw in E1. injection E1 as <- <-.
  transitivity (dsum (fun n k => d n k * multiplier_force P lam n k) + -1 * dsum (fun n k => d n k * multiplier_force P lamw n k)).
  - rewrite <- dsum_scal, <- dsum_add. apply dsum_ext. intros n k Hnk. specialize (Ha n k Hnk). specialize (Heq n k Hnk). specialize (Heqw n k Hnk).
    replace (coo_mul N ijv (ravel P d) (dof P n k)) with (multiplier_force P lam n k - multiplier_force P lamw n k) by lra. ring.
  - unfold dsum. rewrite !(multiplier_no_work P Hok Hper) by exact Hfree. ring.
Qed.
Variable ev : env.
Hypothesis Hex : exact_solvers ev.
Lemma lm_solved fuel : eps <> 0 -> consistent_constraints P ->
  exists u, solver_lagrange_multiplier ev P grad fuel true false = Some (Ok u) /\ constraints_hold P u /\ in_constrained_equilibrium P u /\
  forall w, constraints_hold P w -> in_constrained_equilibrium P w -> forall n k, unknown P n k -> w n k = u n k.
Proof.
  intros He Hcs. unfold solver_lagrange_multiplier. set (x := aug_dof_w_zero_bc P (assign_bc P vzero)).
  destruct (Haf (reshape P x) (fun _ _ => 0)) as (r & _ & ijv & _ & Hr & _ & _).
  rewrite (helper_lm_ok P Hok Hper grad Hgrad Hmat _ _ _ _ Hr). cbn [bind]. unfold linear_incremental_solver_lm.
  set (d := bicgstab ev _ _ _ _ _). assert (Hd : same (num_aug P) (coo_mul (num_aug P) (snd (aug_ijv P ijv eps)) d) (vopp (compute_residual_lm P grad (ravel P r) x eps))) by (apply Hex; exact (consistent_step eps x r ijv He Hr Hcs)).
  destruct (step_lands eps x d r ijv He Hr Hd) as (r1 & ijv1 & Hr1 & Hz). destruct (stationary_point P Hok Hper grad Hgrad r1 ijv1 _ eps He Hr1 Hz) as [H1 H2].
  eexists. split; [reflexivity|]. split; [exact H1|]. split; [exact H2|]. intros w Hw1 Hw2. exact (equilibrium_unique _ w H1 Hw1 H2 Hw2).
Qed.
(** Newton's method needs at most one pass *)
Lemma lm_newton (Hfl : exact_floats ev) : eps <> 0 -> consistent_constraints P -> exists u, solver_lagrange_multiplier ev P grad 1 false false = Some (Ok u).
Proof.
  intros He Hcs. assert (Hnu : forall d, exists r ijv, newton_update P (reshape P d) = Ok (r, ijv)).
  { intros d. destruct (Haf (reshape P d) (fun _ _ => 0)) as (r & _ & ijv & _ & Hr & _ & _). eauto. }
  unfold solver_lagrange_multiplier. destruct (Hnu (aug_dof_w_zero_bc P vzero)) as (r & ijv & Hr). rewrite (helper_lm_ok P Hok Hper grad Hgrad Hmat _ _ _ _ Hr). cbn [bind].
  set (d := linear_guess_solve_lm ev P _ _). destruct (Hnu d) as (r1 & ijv1 & Hr1). rewrite (helper_lm_ok P Hok Hper grad Hgrad Hmat _ _ _ _ Hr1). cbn [bind lm_loop].
  rewrite (proj1 Hfl). cbn [fl_gt]. destruct (Rltb tol _) eqn:E; [|eauto]. unfold linear_incremental_solver_lm.
  set (s := bicgstab ev _ _ (vopp _) _ _). assert (Hs : same (num_aug P) (coo_mul (num_aug P) (snd (aug_ijv P ijv1 eps)) s) (vopp (compute_residual_lm P grad (ravel P r1) d eps))) by (apply Hex; exact (consistent_step eps d r1 ijv1 He Hr1 Hcs)).
  destruct (step_lands eps d s r1 ijv1 He Hr1 Hs) as (r2 & ijv2 & Hr2 & Hz). rewrite (helper_lm_ok P Hok Hper grad Hgrad Hmat _ _ _ _ Hr2). rewrite (proj1 Hfl). cbn [fl_gt].
  rewrite (norm_zero _ _ Hz). unfold Rltb. pose proof tol_pos. destruct (Rlt_dec tol 0); [lra|]. eauto.
Qed.
End Saddle.
Close Scope R_scope.
