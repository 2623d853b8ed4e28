(** * Proofs about the Lagrange multiplier solver. *)
From Coq Require Import FunctionalExtensionality Lra.
From Verif Require Import Prelude PreludeFacts FemModel FemFacts FemMatProofs SolverModel SolverSpec SolverProofs.
Open Scope R_scope.

(** ** Splitting the multipliers *)
Lemma skipn_add {A} a b (l : list A) : skipn a (skipn b l) = skipn (a + b) l.
Proof. revert l. induction b as [|b IH]; intros l; [rewrite Nat.add_0_r; reflexivity|]. destruct l; [rewrite !skipn_nil; reflexivity|]. replace (a + S b)%nat with (S (a + b))%nat by lia. cbn [skipn]. apply IH. Qed.
Lemma sumR_combine_nth {A B} (l : list A) (m : list B) da db f : length l = length m ->
  sumR (combine l m) f = sumN (length m) (fun j => f (nth j l da, nth j m db)).
Proof.
  intros Hl. rewrite (sumR_nth _ (da, db)). rewrite combine_length, Hl, Nat.min_id. apply sumN_ext. intros i Hi. rewrite combine_nth by exact Hl. reflexivity.
Qed.
Lemma split_sum {B} (L : list (list nat)) : forall (Y : list (list B)) (lam : list R) s f,
  map (@length B) Y = map (@length nat) L -> (s + list_sum_len L = length lam)%nat ->
  sumR (seq 0 (length L)) (fun i => sumR (combine (nth i (np_split s (cumsum s L) lam) []) (nth i Y [])) f)
  = sumR (combine (skipn s lam) (concat Y)) f.
Proof.
  assert (Hsl : forall L a, fold_left (fun s (x : list nat) => (s + length x)%nat) L a = (a + list_sum_len L)%nat).
  { intros L0. unfold list_sum_len. induction L0 as [|x r IH]; intros a; cbn; [lia|]. rewrite IH, (IH (length x)). lia. }
  induction L as [|x L IH]; intros Y lam s f HY Hs; destruct Y as [|y Y]; try discriminate.
  - cbn. rewrite combine_nil. reflexivity.
  - cbn in HY. injection HY as Hy HY.
    assert (Hs' : (s + length x + list_sum_len L = length lam)%nat).
    { unfold list_sum_len in Hs. cbn [fold_left] in Hs. rewrite Hsl in Hs. lia. }
    cbn [length seq sumR cumsum np_split nth concat]. rewrite <- (seq_shift (length L) 0), (sumR_map S). cbn [nth].
    rewrite (IH Y lam (s + length x)%nat f HY Hs'). replace (s + length x - s)%nat with (length x) by lia.
    rewrite <- (firstn_skipn (length x) (skipn s lam)) at 2. rewrite skipn_add.
    replace (length x + s)%nat with (s + length x)%nat by lia.
    rewrite combine_app by (rewrite firstn_length, skipn_length; lia). rewrite sumR_app. reflexivity.
Qed.
Lemma list_sum_len_app l m : list_sum_len (l ++ m) = (list_sum_len l + list_sum_len m)%nat.
Proof.
  unfold list_sum_len. rewrite fold_left_app. generalize (fold_left (fun s x => (s + length x)%nat) l 0%nat). intros a. revert a.
  induction m as [|x m IH]; intros a; cbn; [lia|]. rewrite IH, (IH (length x)). lia.
Qed.
Lemma list_sum_len_concat (l : list (list nat)) : list_sum_len l = length (concat l).
Proof. induction l as [|x l IH]; [reflexivity|]. change (x :: l) with ([x] ++ l). rewrite list_sum_len_app, concat_app, app_length, IH. cbn. rewrite app_nil_r. reflexivity. Qed.
Lemma cumsum_last L s : last (cumsum s L) s = (s + list_sum_len L)%nat.
Proof.
  revert s. induction L as [|x L IH]; intros s; [cbn; lia|]. cbn [cumsum]. specialize (IH (s + length x)%nat).
  change (x :: L) with ([x] ++ L). rewrite list_sum_len_app. change (list_sum_len [x]) with (length x).
  replace (s + (length x + list_sum_len L))%nat with (s + length x + list_sum_len L)%nat by lia. rewrite <- IH.
  destruct L as [|y L]; [reflexivity|]. cbn [cumsum]. generalize (s + length x)%nat. intros q. generalize (q + length y)%nat. intros q2. generalize (cumsum q2 L). intros l. revert q2.
  induction l as [|z l IHl]; intros q2; [reflexivity|]. apply (IHl z).
Qed.
Lemma cumsum_last0 L : last (cumsum 0 L) 0%nat = list_sum_len L.
Proof. exact (cumsum_last L 0%nat). Qed.

(** ** Triplet sums *)
Definition tsum (T : list nat * list nat * list R) (f : (nat * nat) * R -> R) : R :=
  sumR (combine (combine (fst (fst T)) (snd (fst T))) (snd T)) f.
Definition teq (T : list nat * list nat * list R) : Prop :=
  length (fst (fst T)) = length (snd (fst T)) /\ length (snd (fst T)) = length (snd T).
Lemma tsum_app I1 I2 J1 J2 V1 V2 f : length I1 = length J1 -> length J1 = length V1 ->
  tsum (I1 ++ I2, J1 ++ J2, V1 ++ V2) f = tsum (I1, J1, V1) f + tsum (I2, J2, V2) f.
Proof.
  intros H1 H2. unfold tsum. cbn [fst snd]. rewrite combine_app by exact H1.
  rewrite combine_app by (rewrite combine_length; lia). apply sumR_app.
Qed.
Lemma tsum_cat a b f : teq a -> tsum (cat_ijv a b) f = tsum a f + tsum b f.
Proof. intros [H1 H2]. destruct a as [[? ?] ?], b as [[? ?] ?]. unfold cat_ijv. cbn [fst snd] in *. apply tsum_app; assumption. Qed.
Lemma teq_cat a b : teq a -> teq b -> teq (cat_ijv a b).
Proof. intros [H1 H2] [H3 H4]. unfold teq, cat_ijv. cbn [fst snd]. rewrite !app_length. lia. Qed.
Lemma tsum_symmetry T f : teq T -> tsum (symmetry T) f = tsum T f + tsum T (fun t => f ((snd (fst t), fst (fst t)), snd t)).
Proof.
  intros [H1 H2]. destruct T as [[Il Jl] Vl]. cbn [fst snd] in *. unfold symmetry. rewrite tsum_app by assumption. f_equal.
  unfold tsum. cbn [fst snd]. clear H2. revert Jl Vl H1. induction Il as [|i Il IH]; intros [|j Jl] Vl H1; try discriminate; [reflexivity|].
  destruct Vl as [|v Vl]; [reflexivity|]. cbn [combine sumR fst snd]. cbn in H1. rewrite IH by lia. reflexivity.
Qed.
Lemma teq_symmetry T : teq T -> teq (symmetry T).
Proof. intros [H1 H2]. destruct T as [[Il Jl] Vl]. unfold teq, symmetry. cbn [fst snd] in *. rewrite !app_length. lia. Qed.

(** A multiplier acts through a sparse row: pairs (index, coefficient). *)
Definition srow : Type := list (nat * R).
Definition rsum (g : nat) (rl : list srow) (F : nat -> nat * R -> R) : R :=
  sumR (combine (seq g (length rl)) rl) (fun jr => sumR (snd jr) (F (fst jr))).
Lemma rsum_app g r1 r2 F : rsum g (r1 ++ r2) F = rsum g r1 F + rsum (g + length r1) r2 F.
Proof. unfold rsum. rewrite app_length, seq_app, combine_app by apply seq_length. apply sumR_app. Qed.
Lemma rsum_cons g r rl F : rsum g (r :: rl) F = sumR r (F g) + rsum (S g) rl F.
Proof. reflexivity. Qed.
Lemma rsum_nth g rl F : rsum g rl F = sumN (length rl) (fun j => sumR (nth j rl []) (F (g + j)%nat)).
Proof.
  unfold rsum. rewrite (sumR_combine_nth (seq g (length rl)) rl 0%nat []) by apply seq_length.
  apply sumN_ext. intros j Hj. cbn [fst snd]. rewrite seq_nth by exact Hj. reflexivity.
Qed.

Section LM.
Variable P : problem.
Hypothesis Hok : bc_ok P.
Hypothesis Hper : periodic_ok P.
Local Notation N := (num_total_dofs P).
Local Notation drow := (fun p : nat * nat => [((pvec P * fst p + snd p)%nat, 1)] : srow).
Local Notation prow := (fun t : nat * nat * nat => [((pvec P * fst (fst t) + snd t)%nat, 1); ((pvec P * snd (fst t) + snd t)%nat, -1)] : srow).

Definition d_rows_of (l : list nat) : list srow := flat_map (fun i => map drow (bc_idx P i)) l.
Definition pairs_of (i : nat) : list (nat * nat * nat) :=
  combine (combine (nth i (p_node_inds_list_A P) []) (nth i (p_node_inds_list_B P) [])) (nth i (p_vec_inds_list P) []).
Definition p_rows_of (l : list nat) : list srow := flat_map (fun i => map prow (pairs_of i)) l.
Definition p_range : list nat := seq 0 (length (p_node_inds_list_A P)).
Definition srows : list srow := d_rows_of (bc_range P) ++ p_rows_of p_range.

Lemma d_chunk idx g e f :
  tsum (map (fun p : nat * nat => (pvec P * fst p + snd p)%nat) idx, seq g (length idx), repeat e (length idx)) f
  = rsum g (map drow idx) (fun j x => f ((fst x, j), e * snd x)).
Proof.
  unfold tsum. cbn [fst snd]. revert g. induction idx as [|p idx IH]; intros g; [reflexivity|]. cbn [map length seq repeat combine sumR].
  rewrite IH, rsum_cons. cbn [sumR fst snd]. rewrite Rmult_1_r. ring.
Qed.
Lemma p_chunk (A B v : list nat) g e f : length B = length A -> length v = length A ->
  tsum (map (fun p : nat * nat => (pvec P * fst p + snd p)%nat) (combine A v) ++ map (fun p : nat * nat => (pvec P * fst p + snd p)%nat) (combine B v),
        seq g (length A) ++ seq g (length A), repeat e (length A) ++ repeat (- e) (length A)) f
  = rsum g (map prow (combine (combine A B) v)) (fun j x => f ((fst x, j), e * snd x)).
Proof.
  intros HB Hv. rewrite tsum_app by (rewrite ?map_length, ?combine_length, ?seq_length, ?repeat_length; lia).
  unfold tsum. cbn [fst snd]. revert B v g HB Hv. induction A as [|a A IH]; intros [|b B] [|k v] g HB Hv; try discriminate; [cbn; unfold rsum; cbn; ring|].
  cbn in HB, Hv. specialize (IH B v (S g) ltac:(lia) ltac:(lia)). cbn [map length seq repeat combine sumR]. rewrite rsum_cons. cbn [sumR fst snd].
  rewrite <- IH. rewrite Rmult_1_r. replace (e * -1) with (- e) by ring. ring.
Qed.
Lemma triplets_d_spec e f : fst (triplets_d P e) = (N + length (d_rows_of (bc_range P)))%nat /\ teq (snd (triplets_d P e)) /\
  tsum (snd (triplets_d P e)) f = rsum N (d_rows_of (bc_range P)) (fun j x => f ((fst x, j), e * snd x)).
Proof.
  unfold triplets_d. assert (Hr : forall i, In i (bc_range P) -> (i < length (node_inds_list P))%nat) by (intros i Hi; apply in_seq in Hi; lia).
  induction (bc_range P) as [|i l IH] using rev_ind.
  - cbn. split; [lia|]. split; [split; reflexivity|reflexivity].
  - rewrite fold_left_app. cbn [fold_left].
    assert (Hi : (i < length (node_inds_list P))%nat) by (apply Hr; apply in_or_app; right; left; reflexivity).
    specialize (IH (fun j Hj => Hr j (in_or_app _ _ _ (or_introl Hj)))).
    destruct (fold_left _ l _) as [g [[Il Jl] Vl]]. cbn [fst snd] in *. destruct IH as (Hg & [T1 T2] & Hsum). cbn [fst snd] in *.
    destruct (bc_idx_len P i Hok Hi) as (_ & _ & Hm). rewrite <- Hm.
    unfold d_rows_of in *. rewrite flat_map_app. cbn [flat_map]. rewrite app_nil_r, app_length, map_length.
    split; [lia|]. split; [split; cbn [fst snd]; rewrite !app_length, ?map_length, ?seq_length, ?repeat_length; lia|].
    rewrite tsum_app by assumption. rewrite Hsum, d_chunk, rsum_app. rewrite Hg. reflexivity.
Qed.
Lemma triplets_p_spec g0 e f : fst (triplets_p P g0 e) = (g0 + length (p_rows_of p_range))%nat /\ teq (snd (triplets_p P g0 e)) /\
  tsum (snd (triplets_p P g0 e)) f = rsum g0 (p_rows_of p_range) (fun j x => f ((fst x, j), e * snd x)).
Proof.
  unfold triplets_p. fold p_range. destruct Hper as (_ & _ & Hp).
  assert (Hr : forall i, In i p_range -> (i < length (p_node_inds_list_A P))%nat) by (intros i Hi; apply in_seq in Hi; lia).
  induction p_range as [|i l IH] using rev_ind.
  - cbn. split; [lia|]. split; [split; reflexivity|reflexivity].
  - rewrite fold_left_app. cbn [fold_left].
    assert (Hi : (i < length (p_node_inds_list_A P))%nat) by (apply Hr; apply in_or_app; right; left; reflexivity).
    specialize (IH (fun j Hj => Hr j (in_or_app _ _ _ (or_introl Hj)))).
    destruct (fold_left _ l _) as [g [[Il Jl] Vl]]. cbn [fst snd] in *. destruct IH as (Hg & [T1 T2] & Hsum). cbn [fst snd] in *.
    destruct (Hp i Hi) as (HB & Hv & _).
    unfold p_rows_of in *. rewrite flat_map_app. cbn [flat_map]. rewrite app_nil_r, app_length, map_length.
    assert (Hlen : length (pairs_of i) = length (nth i (p_node_inds_list_A P) [])) by (unfold pairs_of; rewrite !combine_length; lia).
    split; [lia|]. split; [split; cbn [fst snd]; rewrite !app_length, ?map_length, ?seq_length, ?repeat_length; unfold p_idx; rewrite ?combine_length; lia|].
    rewrite tsum_app by assumption. rewrite Hsum. unfold p_idx. rewrite p_chunk by assumption. rewrite rsum_app. rewrite Hg. reflexivity.
Qed.

(** sizes *)
Lemma d_rows_len : length (d_rows_of (bc_range P)) = length (conditions P).
Proof.
  unfold d_rows_of, conditions. fold (bc_range P). assert (Hr : forall i, In i (bc_range P) -> (i < length (node_inds_list P))%nat) by (intros i Hi; apply in_seq in Hi; lia).
  induction (bc_range P) as [|i l IH]; [reflexivity|]. cbn [flat_map]. rewrite !app_length, map_length. f_equal; [|apply IH; intros j Hj; apply Hr; right; exact Hj].
  destruct (bc_idx_len P i Hok (Hr i (or_introl eq_refl))) as (H1 & _). rewrite combine_length. fold (bc_idx P i). fold (bc_vals P i). lia.
Qed.
Lemma d_rows_map : d_rows_of (bc_range P) = map (fun c => drow (fst c)) (conditions P).
Proof.
  unfold d_rows_of, conditions. fold (bc_range P). assert (Hr : forall i, In i (bc_range P) -> (i < length (node_inds_list P))%nat) by (intros i Hi; apply in_seq in Hi; lia).
  induction (bc_range P) as [|i l IH]; [reflexivity|]. cbn [flat_map]. rewrite map_app, IH by (intros j Hj; apply Hr; right; exact Hj). f_equal.
  destruct (bc_idx_len P i Hok (Hr i (or_introl eq_refl))) as (H1 & _). fold (bc_idx P i). fold (bc_vals P i).
  rewrite <- (map_map fst drow). rewrite map_fst_combine by exact H1. reflexivity.
Qed.
Lemma p_rows_map : p_rows_of p_range = map prow (pairs P).
Proof. unfold p_rows_of, pairs, p_range. rewrite !flat_map_concat_map, concat_map, map_map. reflexivity. Qed.
Lemma srows_len : length srows = (length (conditions P) + length (pairs P))%nat.
Proof. unfold srows. rewrite app_length, d_rows_len, p_rows_map, map_length. reflexivity. Qed.
Lemma lsl_d : list_sum_len (node_inds_list P) = length (conditions P).
Proof.
  rewrite list_sum_len_concat, <- d_rows_len. unfold d_rows_of, bc_range.
  rewrite <- (map_nth_seq (node_inds_list P) []) at 1. rewrite <- flat_map_concat_map.
  assert (Hr : forall i, In i (seq 0 (length (node_inds_list P))) -> (i < length (node_inds_list P))%nat) by (intros i Hi; apply in_seq in Hi; lia).
  induction (seq 0 (length (node_inds_list P))) as [|i l IH]; [reflexivity|]. cbn [flat_map]. rewrite !app_length, map_length, IH by (intros j Hj; apply Hr; right; exact Hj).
  destruct (bc_idx_len P i Hok (Hr i (or_introl eq_refl))) as (_ & _ & H). rewrite H. reflexivity.
Qed.
Lemma lsl_p : list_sum_len (p_node_inds_list_A P) = length (pairs P).
Proof.
  rewrite list_sum_len_concat. unfold pairs. fold p_range. destruct Hper as (_ & _ & Hp).
  rewrite <- (map_nth_seq (p_node_inds_list_A P) []) at 1. rewrite <- flat_map_concat_map. fold p_range.
  assert (Hr : forall i, In i p_range -> (i < length (p_node_inds_list_A P))%nat) by (intros i Hi; apply in_seq in Hi; lia).
  induction p_range as [|i l IH]; [reflexivity|]. cbn [flat_map]. rewrite !app_length, IH by (intros j Hj; apply Hr; right; exact Hj).
  destruct (Hp i (Hr i (or_introl eq_refl))) as (HB & Hv & _). rewrite !combine_length. lia.
Qed.
Lemma aug_size_eq : aug_size P = length srows.
Proof. unfold aug_size. rewrite lsl_d, lsl_p, srows_len. reflexivity. Qed.
Lemma constraint_values_len u : length (constraint_values P u) = aug_size P.
Proof. unfold constraint_values. rewrite app_length, !map_length, aug_size_eq, srows_len. reflexivity. Qed.

(** indices of the rows *)
Lemma srows_range j x : In x (nth j srows []) -> (fst x < N)%nat.
Proof.
  intros Hx. destruct (Nat.lt_ge_cases j (length srows)) as [Hj|Hj]; [|rewrite nth_overflow in Hx by exact Hj; destruct Hx].
  assert (Hin : In (nth j srows []) srows) by (apply nth_In; exact Hj). unfold srows in Hin at 2. apply in_app_or in Hin as [Hin|Hin].
  - unfold d_rows_of in Hin. apply in_flat_map in Hin as (i & Hi & Hin). apply in_map_iff in Hin as (p & E & Hp). rewrite <- E in Hx.
    destruct Hx as [<-|[]]. cbn [fst]. apply in_seq in Hi. destruct (bc_idx_range P i p Hok ltac:(lia) Hp) as [H1 H2]. exact (dof_lt P _ _ (conj H1 H2)).
  - unfold p_rows_of in Hin. apply in_flat_map in Hin as (i & Hi & Hin). apply in_map_iff in Hin as (p & E & Hp). rewrite <- E in Hx.
    apply in_seq in Hi. destruct Hper as (_ & _ & H). destruct (H i ltac:(lia)) as (_ & _ & HA & HB & Hv). destruct p as [[a b] k]. unfold pairs_of in Hp.
    pose proof (in_combine_r _ _ _ _ Hp) as Hk. pose proof (in_combine_l _ _ _ _ Hp) as Hab.
    pose proof (in_combine_l _ _ _ _ Hab) as Ha. pose proof (in_combine_r _ _ _ _ Hab) as Hb.
    rewrite Forall_forall in HA, HB, Hv. cbn [fst snd] in Hx. destruct Hx as [<-|[<-|[]]]; cbn [fst].
    + exact (dof_lt P _ _ (conj (HA _ Ha) (Hv _ Hk))).
    + exact (dof_lt P _ _ (conj (HB _ Hb) (Hv _ Hk))).
Qed.

(** the constraint values as sparse rows *)
Definition offset (j : nat) : R := nth j (map snd (conditions P) ++ repeat 0 (length (pairs P))) 0.
Lemma constraint_nth x j : (j < aug_size P)%nat ->
  nth j (constraint_values P (reshape P x)) 0 = sumR (nth j srows []) (fun e => snd e * x (fst e)) - offset j.
Proof.
  intros Hj. rewrite aug_size_eq, srows_len in Hj. unfold constraint_values, srows, offset. rewrite d_rows_map, p_rows_map.
  destruct (Nat.lt_ge_cases j (length (conditions P))) as [H|H].
  - rewrite !app_nth1 by (rewrite map_length; exact H).
    rewrite (nth_indep _ 0 ((fun c => reshape P x (fst (fst c)) (snd (fst c)) - snd c) ((0, 0)%nat, 0))) by (rewrite map_length; exact H).
    rewrite (nth_indep (map (fun c => drow (fst c)) (conditions P)) [] ((fun c => drow (fst c)) ((0, 0)%nat, 0))) by (rewrite map_length; exact H).
    rewrite (nth_indep (map snd (conditions P)) 0 (snd ((0, 0)%nat, 0))) by (rewrite map_length; exact H).
    rewrite (map_nth (fun c => reshape P x (fst (fst c)) (snd (fst c)) - snd c)), (map_nth (fun c => drow (fst c))), (map_nth snd). cbn [sumR fst snd]. unfold reshape. ring.
  - rewrite !app_nth2 by (rewrite map_length; exact H). rewrite !map_length. set (i := (j - length (conditions P))%nat) in *. assert (Hi : (i < length (pairs P))%nat) by lia.
    rewrite (nth_indep _ 0 ((fun t => reshape P x (fst (fst t)) (snd t) - reshape P x (snd (fst t)) (snd t)) (0, 0, 0)%nat)) by (rewrite map_length; exact Hi).
    rewrite (nth_indep (map prow (pairs P)) [] (prow (0, 0, 0)%nat)) by (rewrite map_length; exact Hi).
    rewrite (map_nth (fun t => reshape P x (fst (fst t)) (snd t) - reshape P x (snd (fst t)) (snd t))), (map_nth prow).
    rewrite nth_repeat. cbn [sumR fst snd]. unfold reshape. ring.
Qed.
Lemma cond_unknown c : In c (conditions P) -> unknown P (fst (fst c)) (snd (fst c)).
Proof.
  intros Hc. unfold conditions in Hc. apply in_flat_map in Hc as (i & Hi & Hc). apply in_seq in Hi. destruct c as [p v]. apply in_combine_l in Hc.
  exact (bc_idx_range P i p Hok ltac:(lia) Hc).
Qed.
Lemma pair_unknown t : In t (pairs P) -> unknown P (fst (fst t)) (snd t) /\ unknown P (snd (fst t)) (snd t).
Proof.
  intros Ht. unfold pairs in Ht. apply in_flat_map in Ht as (i & Hi & Ht). apply in_seq in Hi. destruct Hper as (_ & _ & H). destruct (H i ltac:(lia)) as (_ & _ & HA & HB & Hv).
  destruct t as [[a b] k]. pose proof (in_combine_r _ _ _ _ Ht) as Hk. pose proof (in_combine_l _ _ _ _ Ht) as Hab.
  rewrite Forall_forall in HA, HB, Hv. cbn [fst snd].
  exact (conj (conj (HA _ (in_combine_l _ _ _ _ Hab)) (Hv _ Hk)) (conj (HB _ (in_combine_r _ _ _ _ Hab)) (Hv _ Hk))).
Qed.
Lemma dof_eqb n k n' k' : (k < pvec P)%nat -> (k' < pvec P)%nat -> Nat.eqb (dof P n' k') (dof P n k) = Nat.eqb n n' && Nat.eqb k k'.
Proof.
  intros Hk Hk'. destruct (Nat.eqb_spec (dof P n' k') (dof P n k)) as [E|E].
  - destruct (dof_inj P _ _ _ _ Hk' Hk E) as [-> ->]. rewrite !Nat.eqb_refl. reflexivity.
  - destruct (Nat.eqb_spec n n'); [|reflexivity]. destruct (Nat.eqb_spec k k'); [|reflexivity]. subst. contradiction.
Qed.
Lemma constraint_row_nth n k j : (k < pvec P)%nat -> (j < aug_size P)%nat ->
  nth j (constraint_row P n k) 0 = sumR (nth j srows []) (fun e => if Nat.eqb (fst e) (dof P n k) then snd e else 0).
Proof.
  intros Hk Hj. rewrite aug_size_eq, srows_len in Hj. unfold constraint_row, srows. rewrite d_rows_map, p_rows_map.
  destruct (Nat.lt_ge_cases j (length (conditions P))) as [H|H].
  - rewrite !app_nth1 by (rewrite map_length; exact H).
    rewrite (nth_indep _ 0 ((fun c => ind (Nat.eqb n (fst (fst c)) && Nat.eqb k (snd (fst c)))) ((0, 0)%nat, 0))) by (rewrite map_length; exact H).
    rewrite (nth_indep (map (fun c => drow (fst c)) (conditions P)) [] ((fun c => drow (fst c)) ((0, 0)%nat, 0))) by (rewrite map_length; exact H).
    rewrite (map_nth (fun c => ind (Nat.eqb n (fst (fst c)) && Nat.eqb k (snd (fst c))))), (map_nth (fun c => drow (fst c))). cbn [sumR fst snd].
    pose proof (cond_unknown _ (nth_In (conditions P) ((0, 0)%nat, 0) H)) as [_ Hc]. fold (dof P (fst (fst (nth j (conditions P) (0%nat, 0%nat, 0)))) (snd (fst (nth j (conditions P) (0%nat, 0%nat, 0))))).
    rewrite dof_eqb by assumption. unfold ind. destruct (_ && _); ring.
  - rewrite !app_nth2 by (rewrite map_length; exact H). rewrite !map_length. set (i := (j - length (conditions P))%nat) in *. assert (Hi : (i < length (pairs P))%nat) by lia.
    rewrite (nth_indep _ 0 ((fun t => ind (Nat.eqb n (fst (fst t)) && Nat.eqb k (snd t)) - ind (Nat.eqb n (snd (fst t)) && Nat.eqb k (snd t))) (0, 0, 0)%nat)) by (rewrite map_length; exact Hi).
    rewrite (nth_indep (map prow (pairs P)) [] (prow (0, 0, 0)%nat)) by (rewrite map_length; exact Hi).
    rewrite (map_nth (fun t => ind (Nat.eqb n (fst (fst t)) && Nat.eqb k (snd t)) - ind (Nat.eqb n (snd (fst t)) && Nat.eqb k (snd t)))), (map_nth prow). cbn [sumR fst snd].
    destruct (pair_unknown _ (nth_In (pairs P) (0, 0, 0)%nat Hi)) as [[_ H1] _]. set (t := nth i (pairs P) (0, 0, 0)%nat) in *.
    fold (dof P (fst (fst t)) (snd t)). fold (dof P (snd (fst t)) (snd t)). rewrite !dof_eqb by assumption. unfold ind. destruct (_ && _), (_ && _); ring.
Qed.

(** ** The Lagrangian *)
Lemma Lagrangian_eq eps x :
  Lagrangian_fn P eps x = eps * sumN (aug_size P) (fun j => x (N + j)%nat * nth j (constraint_values P (reshape P x)) 0).
Proof.
  unfold Lagrangian_fn. f_equal. rewrite cumsum_last0.
  set (lam := map x (seq N (aug_size P))). set (u := reshape P x).
  assert (Hlam : length lam = aug_size P) by (unfold lam; rewrite map_length, seq_length; reflexivity).
  assert (Hd : (list_sum_len (node_inds_list P) <= length lam)%nat) by (rewrite Hlam; unfold aug_size; lia).
  set (Yd := map (fun i => combine (gather u (bc_idx P i)) (bc_vals P i)) (bc_range P)).
  set (Yp := map (fun i => combine (gather u (p_idx P (p_node_inds_list_A P) i)) (gather u (p_idx P (p_node_inds_list_B P) i))) p_range).
  assert (HYd : map (@length (R * R)) Yd = map (@length nat) (node_inds_list P)).
  { unfold Yd. rewrite map_map. rewrite <- (map_nth_seq (node_inds_list P) []) at 1. rewrite map_map. unfold bc_range. apply map_ext_in. intros i Hi. apply in_seq in Hi.
    destruct (bc_idx_len P i Hok ltac:(lia)) as (H1 & _ & H2). unfold gather. rewrite combine_length, map_length. lia. }
  assert (HYp : map (@length (R * R)) Yp = map (@length nat) (p_node_inds_list_A P)).
  { unfold Yp. rewrite map_map. rewrite <- (map_nth_seq (p_node_inds_list_A P) []) at 1. rewrite map_map. unfold p_range. apply map_ext_in. intros i Hi. apply in_seq in Hi.
    destruct Hper as (_ & _ & H). destruct (H i ltac:(lia)) as (HB & Hv & _). unfold gather, p_idx. rewrite combine_length, !map_length, !combine_length. lia. }
  pose proof (split_sum (node_inds_list P) Yd (firstn (list_sum_len (node_inds_list P)) lam) 0 (fun t => fst t * (fst (snd t) - snd (snd t))) HYd) as Sd.
  rewrite firstn_length_le in Sd by exact Hd. specialize (Sd eq_refl).
  pose proof (split_sum (p_node_inds_list_A P) Yp (skipn (list_sum_len (node_inds_list P)) lam) 0 (fun t => fst t * (fst (snd t) - snd (snd t))) HYp) as Sp.
  rewrite skipn_length in Sp. specialize (Sp ltac:(rewrite Hlam; unfold aug_size; lia)). cbn [skipn] in Sd, Sp.
  transitivity (sumR (combine (firstn (list_sum_len (node_inds_list P)) lam) (concat Yd)) (fun t => fst t * (fst (snd t) - snd (snd t)))
     + sumR (combine (skipn (list_sum_len (node_inds_list P)) lam) (concat Yp)) (fun t => fst t * (fst (snd t) - snd (snd t)))).
  { rewrite <- Sd, <- Sp. f_equal; apply sumR_ext; intros i Hi; f_equal; f_equal.
    - unfold Yd. rewrite (nth_indep _ [] ((fun i => combine (gather u (bc_idx P i)) (bc_vals P i)) 0%nat)) by (rewrite map_length; unfold bc_range in *; rewrite seq_length; apply in_seq in Hi; lia).
      rewrite (map_nth (fun i => combine (gather u (bc_idx P i)) (bc_vals P i))). unfold bc_range in *. apply in_seq in Hi. rewrite seq_nth by lia. reflexivity.
    - unfold Yp. rewrite (nth_indep _ [] ((fun i => combine (gather u (p_idx P (p_node_inds_list_A P) i)) (gather u (p_idx P (p_node_inds_list_B P) i))) 0%nat)) by (rewrite map_length; unfold p_range in *; rewrite seq_length; apply in_seq in Hi; lia).
      rewrite (map_nth (fun i => combine (gather u (p_idx P (p_node_inds_list_A P) i)) (gather u (p_idx P (p_node_inds_list_B P) i)))). unfold p_range in *. apply in_seq in Hi. rewrite seq_nth by lia. reflexivity. }
  assert (Cd : length (concat Yd) = list_sum_len (node_inds_list P)).
  { rewrite list_sum_len_concat. clear - HYd. revert HYd. generalize (node_inds_list P). induction Yd as [|y Y IH]; intros [|z l]; cbn; try discriminate; [reflexivity|]. intros [= H1 H2]. rewrite !app_length, H1, (IH l H2). reflexivity. }
  rewrite <- sumR_app, <- combine_app by (rewrite firstn_length_le, Cd by exact Hd; reflexivity). rewrite firstn_skipn.
  assert (HV : map (fun p : R * R => fst p - snd p) (concat Yd ++ concat Yp) = constraint_values P u).
  { rewrite map_app. unfold constraint_values. f_equal.
    - unfold Yd, conditions. rewrite concat_map, map_map, flat_map_concat_map, concat_map, map_map. f_equal. apply map_ext_in. intros i Hi.
      fold (bc_idx P i). fold (bc_vals P i). unfold gather. rewrite combine_map_l, map_map. reflexivity.
    - unfold Yp, pairs. fold p_range. rewrite concat_map, map_map, flat_map_concat_map, concat_map, map_map. f_equal. apply map_ext_in. intros i Hi.
      unfold gather, p_idx. destruct Hper as (_ & _ & H). apply in_seq in Hi. destruct (H i ltac:(lia)) as (HB & Hv & _).
      clear - HB Hv. revert HB Hv. generalize (nth i (p_node_inds_list_A P) []) (nth i (p_node_inds_list_B P) []) (nth i (p_vec_inds_list P) []).
      intros A. induction A as [|a A IH]; intros [|b B] [|k v] HB Hv; cbn in HB, Hv; try discriminate; [reflexivity|].
      cbn. f_equal. apply IH; lia. }
  assert (Hlen : length lam = length (concat Yd ++ concat Yp)).
  { rewrite <- (map_length (fun p : R * R => fst p - snd p)), HV, constraint_values_len. exact Hlam. }
  rewrite (sumR_combine_nth lam (concat Yd ++ concat Yp) 0 (0, 0)) by exact Hlen. rewrite <- Hlen, Hlam. apply sumN_ext. intros j Hj. cbn [fst snd]. f_equal.
  - unfold lam. rewrite (nth_indep _ 0 (x 0%nat)) by (rewrite map_length, seq_length; exact Hj). rewrite map_nth, seq_nth by exact Hj. reflexivity.
  - rewrite <- HV. rewrite (nth_indep _ 0 ((fun p : R * R => fst p - snd p) (0, 0))) by (rewrite map_length, <- Hlen, Hlam; exact Hj). rewrite (map_nth (fun p : R * R => fst p - snd p)). reflexivity.
Qed.

(** ** The augmented residual and matrix *)
Local Notation M := (aug_size P).
Lemma constraint_row_len n k : length (constraint_row P n k) = M.
Proof. unfold constraint_row. rewrite app_length, !map_length, aug_size_eq, srows_len. reflexivity. Qed.
Lemma multiplier_force_rows x n k : (k < pvec P)%nat ->
  multiplier_force P x n k = sumN M (fun j => sumR (nth j srows []) (fun e => (if Nat.eqb (fst e) (dof P n k) then snd e else 0) * x (N + j)%nat)).
Proof.
  intros Hk. unfold multiplier_force. rewrite constraint_row_len. apply sumN_ext. intros j Hj. rewrite constraint_row_nth by assumption. rewrite sumR_scal_r. reflexivity.
Qed.
(** the Lagrangian is affine along every coordinate *)
Lemma Lagrangian_line_unknown eps x n k s : unknown P n k ->
  Lagrangian_fn P eps (step x s (unit_vec (dof P n k))) = Lagrangian_fn P eps x + s * (eps * multiplier_force P x n k).
Proof.
  intros Hu. pose proof (dof_lt P n k Hu) as Hlt. rewrite multiplier_force_rows by exact (proj2 Hu).
  rewrite !Lagrangian_eq. rewrite <- Rmult_assoc, (Rmult_comm s eps), Rmult_assoc, <- Rmult_plus_distr_l. f_equal.
  rewrite <- sumN_scal, <- sumN_add. apply sumN_ext. intros j Hj. rewrite !constraint_nth by exact Hj. unfold step, unit_vec.
  destruct (Nat.eqb_spec (N + j) (dof P n k)); [lia|].
  replace (x (N + j)%nat + s * 0) with (x (N + j)%nat) by ring.
  assert (E : sumR (nth j srows []) (fun e => snd e * (x (fst e) + s * (if Nat.eqb (fst e) (dof P n k) then 1 else 0)))
            = sumR (nth j srows []) (fun e => snd e * x (fst e)) + s * sumR (nth j srows []) (fun e => if Nat.eqb (fst e) (dof P n k) then snd e else 0)).
  { rewrite <- sumR_scal, <- sumR_add. apply sumR_ext. intros e _. destruct (Nat.eqb _ _); ring. }
  rewrite E, sumR_scal_r. ring.
Qed.
Lemma Lagrangian_line_multiplier eps x j s : (j < M)%nat ->
  Lagrangian_fn P eps (step x s (unit_vec (N + j)%nat)) = Lagrangian_fn P eps x + s * (eps * nth j (constraint_values P (reshape P x)) 0).
Proof.
  intros Hj. rewrite !Lagrangian_eq. rewrite <- Rmult_assoc, (Rmult_comm s eps), Rmult_assoc, <- Rmult_plus_distr_l. f_equal.
  rewrite <- (sumN_pick M j (fun i => nth i (constraint_values P (reshape P x)) 0) Hj).
  rewrite <- sumN_scal, <- sumN_add. apply sumN_ext. intros i Hi. rewrite !constraint_nth by exact Hi.
  assert (E : sumR (nth i srows []) (fun e => snd e * step x s (unit_vec (N + j)%nat) (fst e)) = sumR (nth i srows []) (fun e => snd e * x (fst e))).
  { apply sumR_ext. intros e He. apply srows_range in He. unfold step, unit_vec. destruct (Nat.eqb_spec (fst e) (N + j)%nat); [lia|]. ring. }
  rewrite E. unfold step, unit_vec. destruct (Nat.eqb_spec i j) as [->|Hn]; [rewrite Nat.eqb_refl; ring|]. destruct (Nat.eqb_spec (N + i)%nat (N + j)%nat); [lia|]. ring.
Qed.
Lemma difference_is_gradient eps : is_grad (num_aug P) (Lagrangian_fn P eps) (fun x i => Lagrangian_fn P eps (step x 1 (unit_vec i)) - Lagrangian_fn P eps x).
Proof.
  intros x i Hi. unfold num_aug in Hi. destruct (Nat.lt_ge_cases i N) as [H|H].
  - destruct (dof_ex P i H) as (n & k & Hu & ->). rewrite (Lagrangian_line_unknown eps x n k 1 Hu).
    eapply dl_eq; [apply (dl_line (Lagrangian_fn P eps x) (eps * multiplier_force P x n k))| |ring]. intros s. rewrite Lagrangian_line_unknown by exact Hu. reflexivity.
  - replace i with (N + (i - N))%nat by lia. assert (Hj : (i - N < M)%nat) by lia. rewrite (Lagrangian_line_multiplier eps x _ 1 Hj).
    eapply dl_eq; [apply (dl_line (Lagrangian_fn P eps x) (eps * nth (i - N) (constraint_values P (reshape P x)) 0))| |ring]. intros s. rewrite Lagrangian_line_multiplier by exact Hj. reflexivity.
Qed.
Variable grad : (vector -> R) -> vector -> vector.
Hypothesis Hgrad : forall eps, is_grad (num_aug P) (Lagrangian_fn P eps) (grad (Lagrangian_fn P eps)).
Lemma grad_unknown eps x n k : unknown P n k -> grad (Lagrangian_fn P eps) x (dof P n k) = eps * multiplier_force P x n k.
Proof.
  intros Hu. pose proof (dof_lt P n k Hu) as Hlt. apply (dl_unique (fun t => Lagrangian_fn P eps (step x t (unit_vec (dof P n k)))) 0).
  - apply Hgrad. unfold num_aug. lia.
  - eapply dl_eq; [apply (dl_line (Lagrangian_fn P eps x))| |reflexivity]. intros s. symmetry. apply Lagrangian_line_unknown. exact Hu.
Qed.
Lemma grad_multiplier eps x j : (j < M)%nat -> grad (Lagrangian_fn P eps) x (N + j)%nat = eps * nth j (constraint_values P (reshape P x)) 0.
Proof.
  intros Hj. apply (dl_unique (fun t => Lagrangian_fn P eps (step x t (unit_vec (N + j)%nat))) 0).
  - apply Hgrad. unfold num_aug. lia.
  - eapply dl_eq; [apply (dl_line (Lagrangian_fn P eps x))| |reflexivity]. intros s. symmetry. apply Lagrangian_line_multiplier. exact Hj.
Qed.
Lemma residual_lm_unknown r x eps n k : unknown P n k ->
  compute_residual_lm P grad r x eps (dof P n k) = r (dof P n k) + eps * multiplier_force P x n k.
Proof.
  intros Hu. unfold compute_residual_lm, vadd, aug_dof_w_zero_bc, hstack. rewrite grad_unknown by exact Hu.
  destruct (Nat.ltb_spec (dof P n k) N) as [_|H]; [ring|]. pose proof (dof_lt P n k Hu). lia.
Qed.
Lemma residual_lm_multiplier r x eps j : (j < M)%nat ->
  compute_residual_lm P grad r x eps (N + j)%nat = eps * nth j (constraint_values P (reshape P x)) 0.
Proof.
  intros Hj. unfold compute_residual_lm, vadd, aug_dof_w_zero_bc, hstack. rewrite grad_multiplier by exact Hj.
  destruct (Nat.ltb_spec (N + j)%nat N) as [H|_]; [lia|]. rewrite nth_repeat. ring.
Qed.
Lemma aug_ijv_spec ijv eps : ijv_ok N ijv -> fst (aug_ijv P ijv eps) = num_aug P /\ teq (snd (aug_ijv P ijv eps)) /\
  forall f, tsum (snd (aug_ijv P ijv eps)) f = tsum ijv f
     + sumN M (fun j => sumR (nth j srows []) (fun e => f ((fst e, (N + j)%nat), eps * snd e) + f (((N + j)%nat, fst e), eps * snd e))).
Proof.
  intros (H1 & H2 & H3 & H4). unfold aug_ijv.
  destruct (triplets_d_spec eps (fun _ => 0)) as (Hg & Ht & _).
  assert (Hd : forall f, tsum (snd (triplets_d P eps)) f = rsum N (d_rows_of (bc_range P)) (fun j x => f ((fst x, j), eps * snd x))) by (intros f; apply triplets_d_spec).
  destruct (triplets_d P eps) as [g1 td]. cbn [fst snd] in *. subst g1.
  destruct (triplets_p_spec (N + length (d_rows_of (bc_range P))) eps (fun _ => 0)) as (Hg2 & Ht2 & _).
  assert (Hp : forall f, tsum (snd (triplets_p P (N + length (d_rows_of (bc_range P))) eps)) f = rsum (N + length (d_rows_of (bc_range P))) (p_rows_of p_range) (fun j x => f ((fst x, j), eps * snd x))) by (intros f; apply triplets_p_spec).
  destruct (triplets_p P _ eps) as [g2 tp]. cbn [fst snd] in *. subst g2.
  split; [unfold num_aug; rewrite aug_size_eq; unfold srows; rewrite app_length; lia|].
  split; [apply teq_cat; [split; assumption|]; apply teq_cat; apply teq_symmetry; assumption|].
  intros f. rewrite tsum_cat by (split; assumption). f_equal. rewrite tsum_cat by (apply teq_symmetry; assumption).
  rewrite !tsum_symmetry by assumption. rewrite !Hd, !Hp.
  rewrite aug_size_eq. transitivity (rsum N srows (fun j x => f ((fst x, j), eps * snd x) + f ((j, fst x), eps * snd x))).
  - assert (Hadd : forall g l F G, rsum g l (fun j x => F j x + G j x) = rsum g l F + rsum g l G).
    { intros g l F G. unfold rsum. rewrite <- sumR_add. apply sumR_ext. intros x _. apply sumR_add. }
    rewrite Hadd. unfold srows. rewrite !rsum_app. cbn [fst snd]. ring.
  - rewrite rsum_nth. reflexivity.
Qed.
Lemma aug_cols ijv eps : ijv_ok N ijv -> Forall (fun j => (j < num_aug P)%nat) (snd (fst (snd (aug_ijv P ijv eps)))).
Proof.
  intros Hij. destruct (aug_ijv_spec ijv eps Hij) as (_ & [T1 T2] & Hs).
  apply Forall_forall. intros c Hc. destruct (Nat.lt_ge_cases c (num_aug P)) as [H|H]; [exact H|exfalso].
  specialize (Hs (fun t => if Nat.eqb (snd (fst t)) c then 1 else 0)). destruct (snd (aug_ijv P ijv eps)) as [[Il Jl] Vl]. cbn [fst snd] in *.
  destruct Hij as (H1 & H2 & H3 & H4). destruct ijv as [[I0 J0] V0]. cbn [fst snd] in *.
  assert (Hz : tsum (I0, J0, V0) (fun t => if Nat.eqb (snd (fst t)) c then 1 else 0) = 0).
  { apply sumR_zero. intros [[i j] v] Hin. cbn [fst snd] in *. apply in_combine_l in Hin. apply in_combine_r in Hin. rewrite Forall_forall in H4. specialize (H4 _ Hin).
    unfold num_aug in H. destruct (Nat.eqb_spec j c); [lia|reflexivity]. }
  rewrite Hz in Hs. rewrite (sumN_zero M) in Hs.
  2:{ intros j Hj. apply sumR_zero. intros e He. apply srows_range in He. cbn [fst snd]. unfold num_aug in H.
      destruct (Nat.eqb_spec (N + j)%nat c); [lia|]. destruct (Nat.eqb_spec (fst e) c); [lia|]. ring. }
  rewrite Rplus_0_r in Hs. unfold tsum in Hs. cbn [fst snd] in Hs. clear - T1 T2 Hc Hs. revert Jl Vl T1 T2 Hc Hs.
  assert (Hnn : forall Jl Il Vl, 0 <= sumR (combine (combine Il Jl) Vl) (fun t : nat * nat * R => if Nat.eqb (snd (fst t)) c then 1 else 0)).
  { intros. apply sumR_nonneg. intros t _. destruct (Nat.eqb _ _); lra. }
  induction Il as [|i Il IH]; intros [|j Jl] [|v Vl] T1 T2 Hc Hs; cbn in T1, T2; try discriminate; [destruct Hc|].
  cbn [combine sumR fst snd] in Hs. destruct Hc as [->|Hc].
  - rewrite Nat.eqb_refl in Hs. pose proof (Hnn Jl Il Vl). lra.
  - apply (IH Jl Vl); [lia|lia|exact Hc|]. pose proof (Hnn Jl Il Vl). destruct (Nat.eqb j c); lra.
Qed.
Lemma coo_mul_tsum n T x r : length (fst (fst T)) = length (snd (fst T)) -> Forall (fun j => (j < n)%nat) (snd (fst T)) ->
  coo_mul n T x r = tsum T (fun t => if Nat.eqb (fst (fst t)) r then snd t * x (snd (fst t)) else 0).
Proof. intros H1 H2. destruct T as [[Il Jl] Vl]. apply coo_mul_eq; assumption. Qed.
Lemma aug_matrix_unknown ijv eps x n k : ijv_ok N ijv -> unknown P n k ->
  coo_mul (num_aug P) (snd (aug_ijv P ijv eps)) x (dof P n k) = coo_mul N ijv x (dof P n k) + eps * multiplier_force P x n k.
Proof.
  intros Hij Hu. pose proof (dof_lt P n k Hu) as Hlt. destruct (aug_ijv_spec ijv eps Hij) as (_ & [T1 T2] & Hs).
  rewrite coo_mul_tsum by (exact T1 || apply aug_cols; exact Hij). rewrite Hs. destruct Hij as (H1 & H2 & H3 & H4).
  rewrite <- coo_mul_tsum with (n := N) by assumption. f_equal. rewrite multiplier_force_rows by exact (proj2 Hu). rewrite <- sumN_scal. apply sumN_ext. intros j Hj.
  rewrite <- sumR_scal. apply sumR_ext. intros e He. cbn [fst snd]. destruct (Nat.eqb_spec (N + j)%nat (dof P n k)); [lia|]. destruct (Nat.eqb _ _); ring.
Qed.
Lemma aug_matrix_multiplier ijv eps x j : ijv_ok N ijv -> (j < M)%nat ->
  coo_mul (num_aug P) (snd (aug_ijv P ijv eps)) x (N + j)%nat = eps * (nth j (constraint_values P (reshape P x)) 0 - nth j (constraint_values P (reshape P vzero)) 0).
Proof.
  intros Hij Hj. destruct (aug_ijv_spec ijv eps Hij) as (_ & [T1 T2] & Hs).
  rewrite coo_mul_tsum by (exact T1 || apply aug_cols; exact Hij). rewrite Hs. destruct Hij as (H1 & H2 & H3 & H4).
  destruct ijv as [[I0 J0] V0]. cbn [fst snd] in *.
  assert (Hz : tsum (I0, J0, V0) (fun t => if Nat.eqb (fst (fst t)) (N + j)%nat then snd t * x (snd (fst t)) else 0) = 0).
  { apply sumR_zero. intros [[i c] v] Hin. cbn [fst snd] in *. apply in_combine_l in Hin. apply in_combine_l in Hin. rewrite Forall_forall in H3. specialize (H3 _ Hin).
    destruct (Nat.eqb_spec i (N + j)%nat); [lia|reflexivity]. }
  rewrite Hz, Rplus_0_l, !constraint_nth by exact Hj.
  rewrite (sumR_zero (nth j srows []) (fun e => snd e * vzero (fst e))) by (intros e _; unfold vzero; ring).
  replace (sumR (nth j srows []) (fun e => snd e * x (fst e)) - offset j - (0 - offset j)) with (sumR (nth j srows []) (fun e => snd e * x (fst e))) by ring.
  rewrite <- (sumN_pick M j (fun i => eps * sumR (nth i srows []) (fun e => snd e * x (fst e))) Hj). apply sumN_ext. intros i Hi.
  destruct (Nat.eqb_spec i j) as [->|Hn].
  - rewrite <- sumR_scal. apply sumR_ext. intros e He. apply srows_range in He. cbn [fst snd]. rewrite Nat.eqb_refl. destruct (Nat.eqb_spec (fst e) (N + j)%nat); [lia|]. ring.
  - apply sumR_zero. intros e He. apply srows_range in He. cbn [fst snd]. destruct (Nat.eqb_spec (fst e) (N + j)%nat); [lia|]. destruct (Nat.eqb_spec (N + i)%nat (N + j)%nat); [lia|]. ring.
Qed.
Lemma multiplier_force_add x d n k : multiplier_force P (vadd x d) n k = multiplier_force P x n k + multiplier_force P d n k.
Proof. unfold multiplier_force, vadd. rewrite <- sumN_add. apply sumN_ext. intros j _. ring. Qed.
Lemma constraint_add x d j : (j < M)%nat ->
  nth j (constraint_values P (reshape P (vadd x d))) 0 = nth j (constraint_values P (reshape P x)) 0 + (nth j (constraint_values P (reshape P d)) 0 - nth j (constraint_values P (reshape P vzero)) 0).
Proof.
  intros Hj. rewrite !constraint_nth by exact Hj. rewrite (sumR_zero (nth j srows []) (fun e => snd e * vzero (fst e))) by (intros e _; unfold vzero; ring).
  unfold vadd. rewrite (sumR_ext _ (fun e => snd e * (x (fst e) + d (fst e))) (fun e => snd e * x (fst e) + snd e * d (fst e))) by (intros; ring). rewrite sumR_add. ring.
Qed.
(** the error of the augmented linearisation is that of the unconstrained one, and only there *)
Lemma aug_linearisation r r1 ijv eps x d : ijv_ok N ijv ->
  (forall n k, unknown P n k ->
     compute_residual_lm P grad (ravel P r1) (vadd x d) eps (dof P n k) - compute_residual_lm P grad (ravel P r) x eps (dof P n k)
       - coo_mul (num_aug P) (snd (aug_ijv P ijv eps)) d (dof P n k)
     = r1 n k - r n k - coo_mul N ijv d (dof P n k)) /\
  (forall j, (j < M)%nat ->
     compute_residual_lm P grad (ravel P r1) (vadd x d) eps (N + j)%nat - compute_residual_lm P grad (ravel P r) x eps (N + j)%nat
       - coo_mul (num_aug P) (snd (aug_ijv P ijv eps)) d (N + j)%nat = 0).
Proof.
  intros Hij. split.
  - intros n k Hu. rewrite !residual_lm_unknown, aug_matrix_unknown, multiplier_force_add, !ravel_dof by (assumption || exact (proj2 Hu)). ring.
  - intros j Hj. rewrite !residual_lm_multiplier, aug_matrix_multiplier, constraint_add by assumption. ring.
Qed.
(** ** Stationary points *)
Lemma constraint_at_condition u n k v : In ((n, k), v) (conditions P) -> exists j, (j < M)%nat /\ nth j (constraint_values P u) 0 = u n k - v.
Proof.
  intros Hin. apply In_nth with (d := ((0, 0)%nat, 0)) in Hin as (j & Hj & Hn). exists j. split; [rewrite aug_size_eq, srows_len; lia|].
  unfold constraint_values. rewrite app_nth1 by (rewrite map_length; exact Hj).
  rewrite (nth_indep _ 0 ((fun c => u (fst (fst c)) (snd (fst c)) - snd c) ((0, 0)%nat, 0))) by (rewrite map_length; exact Hj).
  rewrite (map_nth (fun c => u (fst (fst c)) (snd (fst c)) - snd c)), Hn. reflexivity.
Qed.
Lemma constraint_at_pair u a b k : In (a, b, k) (pairs P) -> exists j, (j < M)%nat /\ nth j (constraint_values P u) 0 = u a k - u b k.
Proof.
  intros Hin. apply In_nth with (d := (0, 0, 0)%nat) in Hin as (j & Hj & Hn). exists (length (conditions P) + j)%nat. split; [rewrite aug_size_eq, srows_len; lia|].
  unfold constraint_values. rewrite app_nth2 by (rewrite map_length; lia). rewrite map_length. replace (length (conditions P) + j - length (conditions P))%nat with j by lia.
  rewrite (nth_indep _ 0 ((fun t => u (fst (fst t)) (snd t) - u (snd (fst t)) (snd t)) (0, 0, 0)%nat)) by (rewrite map_length; exact Hj).
  rewrite (map_nth (fun t => u (fst (fst t)) (snd t) - u (snd (fst t)) (snd t))), Hn. reflexivity.
Qed.
Lemma small_residual_constraints r x eps e : eps <> 0 -> (forall i, (i < num_aug P)%nat -> Rabs (compute_residual_lm P grad r x eps i) <= e) ->
  constraints_within P (e / Rabs eps) (reshape P x) /\
  forall n k, unknown P n k -> Rabs (r (dof P n k) + eps * multiplier_force P x n k) <= e.
Proof.
  intros He Hs. assert (Hc : forall j, (j < M)%nat -> Rabs (nth j (constraint_values P (reshape P x)) 0) <= e / Rabs eps).
  { intros j Hj. specialize (Hs (N + j)%nat ltac:(unfold num_aug; lia)). rewrite residual_lm_multiplier, Rabs_mult in Hs by exact Hj.
    pose proof (Rabs_pos_lt eps He). apply Rmult_le_reg_r with (Rabs eps); [assumption|]. unfold Rdiv. rewrite Rmult_assoc, Rinv_l by lra. lra. }
  split; [split|].
  - intros n k v Hin. destruct (constraint_at_condition (reshape P x) n k v Hin) as (j & Hj & <-). exact (Hc j Hj).
  - intros a b k Hin. destruct (constraint_at_pair (reshape P x) a b k Hin) as (j & Hj & <-). exact (Hc j Hj).
  - intros n k Hu. rewrite <- residual_lm_unknown by exact Hu. apply Hs. pose proof (dof_lt P n k Hu). unfold num_aug. lia.
Qed.
Lemma multiplier_force_scale c x n k : multiplier_force P (fun i => c * x i) n k = c * multiplier_force P x n k.
Proof. unfold multiplier_force. rewrite <- sumN_scal. apply sumN_ext. intros j _. ring. Qed.
Lemma stationary_point r ijv x eps : eps <> 0 -> newton_update P (reshape P x) = Ok (r, ijv) ->
  same (num_aug P) (compute_residual_lm P grad (ravel P r) x eps) vzero ->
  constraints_hold P (reshape P x) /\ in_constrained_equilibrium P (reshape P x).
Proof.
  intros He Hr Hz. destruct (small_residual_constraints (ravel P r) x eps 0 He) as [[Hc1 Hc2] Heq].
  { intros i Hi. rewrite (Hz i Hi). unfold vzero. rewrite Rabs_R0. lra. }
  unfold Rdiv in Hc1, Hc2. rewrite Rmult_0_l in Hc1, Hc2.
  assert (Habs : forall a, Rabs a <= 0 -> a = 0) by (intros a Ha; unfold Rabs in Ha; destruct (Rcase_abs a); lra).
  split; [split|].
  - intros n k v Hin. specialize (Habs _ (Hc1 n k v Hin)). lra.
  - intros a b k Hin. specialize (Habs _ (Hc2 a b k Hin)). lra.
  - exists r, ijv, (fun i => eps * x i). split; [exact Hr|]. intros n k Hu. specialize (Habs _ (Heq n k Hu)). rewrite ravel_dof in Habs by exact (proj2 Hu).
    rewrite multiplier_force_scale. exact Habs.
Qed.
(** ** The solver *)
Variable ev : env.
Hypothesis Hmat : matrix_ok P.
Lemma helper_lm_ok x eps r ijv : newton_update P (reshape P x) = Ok (r, ijv) ->
  newton_update_helper_lm P grad false eps x = Ok (compute_residual_lm P grad (ravel P r) x eps, coo_mul (num_aug P) (snd (aug_ijv P ijv eps))).
Proof.
  intros Hr. unfold newton_update_helper_lm. rewrite Hr. cbn [bind fst snd]. unfold get_A_fn_and_res_aug.
  destruct (aug_ijv_spec ijv eps (Hmat _ _ _ Hr)) as (Hg & _). destruct (aug_ijv P ijv eps) as [g aug]. cbn [fst snd] in *. subst g. reflexivity.
Qed.
Lemma helper_lm_inv x eps v A : newton_update_helper_lm P grad false eps x = Ok (v, A) ->
  exists r ijv, newton_update P (reshape P x) = Ok (r, ijv) /\ v = compute_residual_lm P grad (ravel P r) x eps /\ A = coo_mul (num_aug P) (snd (aug_ijv P ijv eps)).
Proof.
  intros H. destruct (newton_update P (reshape P x)) as [[r ijv]|e] eqn:Hr.
  - rewrite (helper_lm_ok _ _ _ _ Hr) in H. injection H as <- <-. eauto.
  - unfold newton_update_helper_lm in H. rewrite Hr in H. discriminate.
Qed.
Lemma petsc_lm_raises fuel linear : (forall u, exists r ijv, newton_update P u = Ok (r, ijv)) ->
  solver_lagrange_multiplier ev P grad fuel linear true = Some (Err UnboundLocalError).
Proof.
  intros Hnu. assert (Hh : forall eps x, newton_update_helper_lm P grad true eps x = Err UnboundLocalError).
  { intros eps x. unfold newton_update_helper_lm. destruct (Hnu (reshape P x)) as (r & ijv & ->). cbn [bind fst snd]. unfold get_A_fn_and_res_aug. destruct (aug_ijv P ijv eps). reflexivity. }
  unfold solver_lagrange_multiplier. destruct linear; rewrite Hh; reflexivity.
Qed.
Lemma affine_step_lm (Hex : exact_solvers ev) (Haf : affine_problem P) eps x r ijv : solvable_augmented P eps ->
  newton_update P (reshape P x) = Ok (r, ijv) ->
  let x' := linear_incremental_solver_lm ev P (compute_residual_lm P grad (ravel P r) x eps) (coo_mul (num_aug P) (snd (aug_ijv P ijv eps))) x in
  exists r1 ijv1, newton_update P (reshape P x') = Ok (r1, ijv1) /\ same (num_aug P) (compute_residual_lm P grad (ravel P r1) x' eps) vzero.
Proof.
  intros Hs Hr x'. set (v := compute_residual_lm P grad (ravel P r) x eps) in *. set (A := coo_mul (num_aug P) (snd (aug_ijv P ijv eps))) in *.
  set (d := bicgstab ev (num_aug P) A (vopp v) None None).
  assert (Hd : same (num_aug P) (A d) (vopp v)) by (apply Hex; apply (Hs _ _ _ Hr)).
  change x' with (vadd x d). clear x'. destruct (Haf (reshape P x) (reshape P d)) as (r0 & r1 & ijv0 & ijv1 & E0 & E1 & Ha).
  rewrite Hr in E0. injection E0 as <- <-. exists r1, ijv1. split; [exact E1|].
  destruct (aug_linearisation r r1 ijv eps x d (Hmat _ _ _ Hr)) as [L1 L2]. fold v in L1, L2. fold A in L1, L2.
  intros i Hi. unfold vzero. pose proof (Hd i Hi) as Hdi. unfold vopp in Hdi. destruct (Nat.lt_ge_cases i N) as [H|H].
  - destruct (dof_ex P i H) as (n & k & Hu & ->). specialize (L1 n k Hu). rewrite (Ha n k Hu) in L1.
    replace (coo_mul N ijv (ravel P (reshape P d)) (dof P n k)) with (coo_mul N ijv d (dof P n k)) in L1; [lra|].
    unfold coo_mul. apply sumN_ext. intros j Hj. f_equal. destruct (dof_ex P j Hj) as (n' & k' & Hu' & ->). rewrite ravel_dof by exact (proj2 Hu'). reflexivity.
  - unfold num_aug in Hi. replace i with (N + (i - N))%nat in * by lia. specialize (L2 (i - N)%nat ltac:(lia)). lra.
Qed.
Local Notation eps := (match p_num_eps_attr P with Some e => e | None => 1 end).
Lemma linear_lm_solution (Hex : exact_solvers ev) (Haf : affine_problem P) fuel : eps <> 0 -> solvable_augmented P eps ->
  exists u, solver_lagrange_multiplier ev P grad fuel true false = Some (Ok u) /\ constraints_hold P u /\ in_constrained_equilibrium P u.
Proof.
  intros He Hs. unfold solver_lagrange_multiplier. set (x := aug_dof_w_zero_bc P (assign_bc P vzero)).
  destruct (Haf (reshape P x) (fun _ _ => 0)) as (r & _ & ijv & _ & Hr & _ & _).
  rewrite (helper_lm_ok _ _ _ _ Hr). cbn [bind]. destruct (affine_step_lm Hex Haf _ _ _ _ Hs Hr) as (r1 & ijv1 & Hr1 & Hz).
  eexists. split; [reflexivity|]. exact (stationary_point _ _ _ _ He Hr1 Hz).
Qed.
Lemma lm_loop_exit fuel e x r ijv y : newton_update P (reshape P x) = Ok (r, ijv) ->
  lm_loop ev P grad fuel false e x (compute_residual_lm P grad (ravel P r) x e) (coo_mul (num_aug P) (snd (aug_ijv P ijv e)))
    (fnorm ev (num_aug P) (compute_residual_lm P grad (ravel P r) x e)) = Some (Ok y) ->
  exists r' ijv', newton_update P (reshape P y) = Ok (r', ijv') /\ fl_gt (fnorm ev (num_aug P) (compute_residual_lm P grad (ravel P r') y e)) tol = false.
Proof.
  revert x r ijv. induction fuel as [|fuel IH]; intros x r ijv Hr H; cbn [lm_loop] in H; destruct (fl_gt _ _) eqn:E in H; try discriminate.
  - injection H as <-. eauto.
  - destruct (newton_update_helper_lm P grad false e _) as [[v A]|] eqn:Eh; [|discriminate]. destruct (helper_lm_inv _ _ _ _ Eh) as (r' & ijv' & Hr' & -> & ->). exact (IH _ _ _ Hr' H).
  - injection H as <-. eauto.
Qed.
Lemma nonlinear_lm_returned fuel u : solver_lagrange_multiplier ev P grad fuel false false = Some (Ok u) ->
  exists x r ijv, u = reshape P x /\ newton_update P u = Ok (r, ijv) /\
  fl_gt (fnorm ev (num_aug P) (compute_residual_lm P grad (ravel P r) x eps)) tol = false.
Proof.
  unfold solver_lagrange_multiplier. intros H. destruct (newton_update_helper_lm P grad false _ _) as [[v A]|] eqn:E0; [cbn [bind] in H|discriminate].
  set (d := linear_guess_solve_lm ev P A _) in H. destruct (newton_update_helper_lm P grad false _ d) as [[v1 A1]|] eqn:E1; [cbn [bind] in H|discriminate].
  destruct (helper_lm_inv _ _ _ _ E1) as (r & ijv & Hr & -> & ->). destruct (lm_loop _ _ _ _ _ _ _ _ _ _) as [[y|]|] eqn:El; try discriminate.
  injection H as <-. destruct (lm_loop_exit _ _ _ _ _ _ Hr El) as (r' & ijv' & Hr' & Hf). eauto 6.
Qed.
Lemma nonlinear_lm_returned_pointwise (Hfl : exact_floats ev) fuel u : eps <> 0 -> solver_lagrange_multiplier ev P grad fuel false false = Some (Ok u) ->
  constraints_within P (tol / Rabs eps) u /\
  exists r ijv lam, newton_update P u = Ok (r, ijv) /\ forall n k, unknown P n k -> Rabs (r n k + multiplier_force P lam n k) <= tol.
Proof.
  intros He H. destruct (nonlinear_lm_returned _ _ H) as (x & r & ijv & -> & Hr & Hf). rewrite (proj1 Hfl) in Hf. cbn [fl_gt] in Hf.
  unfold Rltb in Hf. destruct (Rlt_dec _ _) as [|Hle] in Hf; [discriminate|]. apply Rnot_lt_le in Hle.
  destruct (small_residual_constraints (ravel P r) x eps tol He) as [Hc Hq].
  { intros i Hi. eapply Rle_trans; [|exact Hle]. exact (entry_le_norm _ _ _ Hi). }
  split; [exact Hc|]. exists r, ijv, (fun i => eps * x i). split; [exact Hr|]. intros n k Hu. rewrite multiplier_force_scale.
  rewrite <- (ravel_dof P r n k (proj2 Hu)). exact (Hq n k Hu).
Qed.
Lemma nonlinear_lm_terminates (Hex : exact_solvers ev) (Hfl : exact_floats ev) (Haf : affine_problem P) : solvable_augmented P eps ->
  exists u, solver_lagrange_multiplier ev P grad 1 false false = Some (Ok u).
Proof.
  intros Hs. assert (Hnu : forall d, exists r ijv, newton_update P (reshape P d) = Ok (r, ijv)).
  { intros d. destruct (Haf (reshape P d) (fun _ _ => 0)) as (r & _ & ijv & _ & Hr & _ & _). eauto. }
  unfold solver_lagrange_multiplier. destruct (Hnu (aug_dof_w_zero_bc P vzero)) as (r & ijv & Hr). rewrite (helper_lm_ok _ _ _ _ Hr). cbn [bind].
  set (d := linear_guess_solve_lm ev P _ _). destruct (Hnu d) as (r1 & ijv1 & Hr1). rewrite (helper_lm_ok _ _ _ _ Hr1). cbn [bind lm_loop].
  rewrite (proj1 Hfl). cbn [fl_gt]. destruct (Rltb tol _) eqn:E; [|eauto].
  destruct (affine_step_lm Hex Haf _ _ _ _ Hs Hr1) as (r2 & ijv2 & Hr2 & Hz). rewrite (helper_lm_ok _ _ _ _ Hr2). rewrite (proj1 Hfl). cbn [fl_gt].
  rewrite (norm_zero _ _ Hz). unfold Rltb. pose proof tol_pos. destruct (Rlt_dec tol 0); [lra|]. eauto.
Qed.
End LM.
Close Scope R_scope.
