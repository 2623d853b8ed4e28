(** * Theorems: sparse Jacobians by colouring (C65), the exported data frame (C66). *)
From Coq Require Import Lra Lia Permutation FunctionalExtensionality ClassicalEpsilon.
From Verif Require Import Prelude PreludeFacts FemModel FemFacts SjacModel SjacSpec SjacProofs.
Open Scope R_scope.

(** ** a differentiator that meets the contracts *)
Definition slope (g : R -> R) : R := epsilon (inhabits 0) (fun l => derivable_pt_lim g 0 l).
Lemma slope_spec g : (exists l, derivable_pt_lim g 0 l) -> derivable_pt_lim g 0 (slope g).
Proof. exact (epsilon_spec (inhabits 0) (fun l => derivable_pt_lim g 0 l)). Qed.
Definition jac0 (f : vect -> vect) (x : vect) (i j : nat) : R := slope (fun t => f (move x t (unit_vec j)) i).
Definition jvp0 (f : vect -> vect) (x d : vect) (i : nat) : R := slope (fun t => f (move x t d) i).
Lemma jac0_ok n : jac_contract n jac0.
Proof. intros f x i (g & Hg) j _. unfold jac0. apply slope_spec. eexists. apply Hg. Qed.
Lemma jvp0_ok : jvp_contract jvp0.
Proof. intros f x d i H. now apply slope_spec. Qed.

(** y = (x0 * x1, x1, x0): three outputs, two of which can share a projection *)
Definition fn0 (x : vect) : vect := fun i => match i with 0%nat => x 0%nat * x 1%nat | 1%nat => x 1%nat | _ => x 0%nat end.
Definition pat0 : bcoo := mkBcoo 3 2 [((0, 0)%nat, 1); ((0, 1)%nat, 1); ((1, 1)%nat, 1); ((2, 0)%nat, 1)].
Definition x0 : vect := fun j => match j with 0%nat => 2 | _ => 3 end.
Definition J0 (i j : nat) : R := match i, j with 0%nat, 0%nat => 3 | 0%nat, 1%nat => 2 | 1%nat, 1%nat => 1 | 2%nat, 0%nat => 1 | _, _ => 0 end.
Lemma pat0_ok : wf_pattern pat0 /\ positive pat0 /\ covers pat0 J0 /\ derivative 2 3 fn0 x0 J0.
Proof.
  split; [|split; [|split]].
  - split; [repeat constructor; cbn; intuition discriminate|repeat constructor; cbn; lia].
  - repeat constructor; cbn; lra.
  - intros i j Hi Hj Hn. unfold in_pattern. cbn in *. destruct i as [|[|[|i]]], j as [|[|j]]; cbn in Hn; try lia; try tauto.
  - intros d i Hi. unfold fn0, move, x0, sumN. destruct i as [|[|[|i]]]; [| | |lia]; cbn.
    + eapply dl_eq; [apply dl_mul; [apply (dl_line 2 (d 0%nat))|apply (dl_line 3 (d 1%nat))]|reflexivity|cbv beta; ring].
    + eapply dl_eq; [apply (dl_line 3 (d 1%nat))|reflexivity|ring].
    + eapply dl_eq; [apply (dl_line 2 (d 0%nat))|reflexivity|ring].
Qed.

(** ** every proper colouring *)
Theorem proper_colouring_rows_suffice : forall s J col k compressed, wf_pattern s -> covers s J -> proper_rows s col -> (forall i, (i < nrows s)%nat -> (col i < k)%nat) ->
  (forall c j, (c < k)%nat -> (j < ncols s)%nat -> compressed c j = sumN (nrows s) (fun i => if Nat.eqb (col i) c then J i j else 0)) ->
  same_pattern (expand_jacrev compressed col k s) s /\ equals_matrix (expand_jacrev compressed col k s) J.
Proof.
  intros s J col k C H1 H2 H3 H4 H5. apply expand_jacrev_exact; try assumption. intros c j Hc Hj. rewrite (H5 c j Hc Hj). apply sumN_ext. intros i _. unfold projection. rewrite Nat.eqb_sym. destruct (Nat.eqb c (col i)); ring.
Qed.
Print Assumptions proper_colouring_rows_suffice.
Example proper_rows_case : proper_rows pat0 (fun i => match i with 0%nat => 5%nat | _ => 2%nat end).
Proof.
  intros i k j Hi Hk. unfold in_pattern in *. cbn [map entries pat0 fst] in Hi, Hk.
  destruct Hi as [Hi|[Hi|[Hi|[Hi|[]]]]], Hk as [Hk|[Hk|[Hk|[Hk|[]]]]]; injection Hi as <- <-; try discriminate Hk; injection Hk as <-; intros E; (reflexivity || discriminate E).
Qed.
Theorem proper_colouring_cols_suffice : forall s J col k compressed, wf_pattern s -> covers s J -> proper_cols s col -> (forall j, (j < ncols s)%nat -> (col j < k)%nat) ->
  (forall i c, (i < nrows s)%nat -> (c < k)%nat -> compressed i c = sumN (ncols s) (fun j => if Nat.eqb (col j) c then J i j else 0)) ->
  same_pattern (expand_jacfwd compressed col k s) s /\ equals_matrix (expand_jacfwd compressed col k s) J.
Proof.
  intros s J col k C H1 H2 H3 H4 H5. apply expand_jacfwd_exact; try assumption. intros i c Hi Hc. rewrite (H5 i c Hi Hc). apply sumN_ext. intros j _. unfold projection. rewrite Nat.eqb_sym. destruct (Nat.eqb c (col j)); ring.
Qed.
Print Assumptions proper_colouring_cols_suffice.
Definition diag2 : bcoo := mkBcoo 2 2 [((0, 0)%nat, 1); ((1, 1)%nat, 1)].
Example proper_cols_case : proper_cols diag2 (fun _ => 0%nat) /\ ~ proper_cols pat0 (fun _ => 0%nat).
Proof.
  split; [intros i j l H1 H2; unfold in_pattern in *; cbn in *; intuition congruence|]. intros H. assert (E : 0%nat = 1%nat); [|discriminate]. apply (H 0%nat 0%nat 1%nat); [now left|right; now left|reflexivity].
Qed.

(** ** the colouring that is computed *)
Theorem greedy_colouring_proper : forall adj n order, (forall u v, adj u v = adj v u) -> Permutation order (seq 0 n) -> (0 < n)%nat ->
  exists col k, greedy_color adj n order = Ok (col, k) /\ (forall u v, (u < n)%nat -> (v < n)%nat -> u <> v -> adj u v = true -> col u <> col v) /\ forall u, (u < n)%nat -> (col u < k)%nat.
Proof. exact greedy_color_spec. Qed.
Print Assumptions greedy_colouring_proper.
(** a path of three nodes, coloured from its ends, takes two colours *)
Example greedy_case : exists col, greedy_color (fun u v => Nat.eqb (S u) v || Nat.eqb u (S v))%bool 3 [0; 2; 1]%nat = Ok (col, 2%nat) /\ map col [0; 1; 2]%nat = [0; 1; 0]%nat.
Proof. eexists. split; reflexivity. Qed.

Theorem sparse_jacrev_exact : forall jac order fn s x J, wf_pattern s -> positive s -> (0 < nrows s)%nat -> Permutation order (seq 0 (nrows s)) -> covers s J ->
  derivative (ncols s) (nrows s) fn x J -> jac_contract (ncols s) jac ->
  exists g, jacrev jac order fn s (ncols s) (nrows s) x = Ok g /\ same_pattern g s /\ equals_matrix g J.
Proof. exact jacrev_exact. Qed.
Print Assumptions sparse_jacrev_exact.
Example sparse_jacrev_case : exists g, jacrev jac0 [1; 0; 2]%nat fn0 pat0 2 3 x0 = Ok g /\ todense g 0%nat 0%nat = 3 /\ todense g 0%nat 1%nat = 2 /\ todense g 1%nat 0%nat = 0 /\ todense g 2%nat 0%nat = 1.
Proof.
  destruct pat0_ok as (H1 & H2 & H3 & H4). destruct (sparse_jacrev_exact jac0 [1; 0; 2]%nat fn0 pat0 x0 J0 H1 H2) as (g & E & (R1 & R2 & _) & Eq); [cbn; lia|constructor|exact H3|exact H4|apply jac0_ok|].
  exists g. split; [exact E|]. cbn in R1, R2. rewrite !Eq by (rewrite ?R1, ?R2; lia). cbn. auto.
Qed.
Theorem sparse_jacfwd_exact : forall jvp order fn s x J, wf_pattern s -> positive s -> (0 < ncols s)%nat -> Permutation order (seq 0 (ncols s)) -> covers s J ->
  derivative (ncols s) (nrows s) fn x J -> jvp_contract jvp ->
  exists g, jacfwd jvp order fn s (ncols s) (nrows s) x = Ok g /\ same_pattern g s /\ equals_matrix g J.
Proof. exact jacfwd_exact. Qed.
Print Assumptions sparse_jacfwd_exact.
Example sparse_jacfwd_case : exists g, jacfwd jvp0 [1; 0]%nat fn0 pat0 2 3 x0 = Ok g /\ todense g 0%nat 0%nat = 3 /\ todense g 0%nat 1%nat = 2 /\ todense g 1%nat 0%nat = 0 /\ todense g 2%nat 0%nat = 1.
Proof.
  destruct pat0_ok as (H1 & H2 & H3 & H4). destruct (sparse_jacfwd_exact jvp0 [1; 0]%nat fn0 pat0 x0 J0 H1 H2) as (g & E & (R1 & R2 & _) & Eq); [cbn; lia|constructor|exact H3|exact H4|apply jvp0_ok|].
  exists g. split; [exact E|]. cbn in R1, R2. rewrite !Eq by (rewrite ?R1, ?R2; lia). cbn. auto.
Qed.

(** ** rejected shapes *)
Theorem sparse_jac_shapes : forall jac jvp order fn s n m x, (n <> ncols s \/ m <> nrows s) -> jacrev jac order fn s n m x = Err ValueError /\ jacfwd jvp order fn s n m x = Err ValueError.
Proof. exact jac_shapes. Qed.
Print Assumptions sparse_jac_shapes.
Example shapes_case : jacrev jac0 [0; 1; 2]%nat fn0 pat0 2 2 x0 = Err ValueError.
Proof. apply (sparse_jac_shapes jac0 jvp0). right. cbn. lia. Qed.
Theorem sparse_jac_empty : forall jac jvp order fn s n m x, (nrows s = 0%nat -> jacrev jac order fn s n m x = Err ValueError) /\ (ncols s = 0%nat -> jacfwd jvp order fn s n m x = Err ValueError).
Proof. exact jac_empty. Qed.
Print Assumptions sparse_jac_empty.
Example empty_case : jacrev jac0 [] fn0 (mkBcoo 0 2 []) 2 0 x0 = Err ValueError.
Proof. apply (sparse_jac_empty jac0 jvp0). reflexivity. Qed.

(** ** the values of the pattern do matter: entries 1, 1, 1, -1 make the two rows (and the two columns)
    look independent *)
Definition signed2 : bcoo := mkBcoo 2 2 [((0, 0)%nat, 1); ((0, 1)%nat, 1); ((1, 0)%nat, 1); ((1, 1)%nat, -1)].
Definition ones2 (i j : nat) : R := 1.
Definition both (x : vect) : vect := fun _ => x 0%nat + x 1%nat.
Lemma signed2_ok : wf_pattern signed2 /\ covers signed2 ones2 /\ forall x, derivative 2 2 both x ones2.
Proof.
  split; [|split].
  - split; [repeat constructor; cbn; intuition discriminate|repeat constructor; cbn; lia].
  - intros i j Hi Hj _. unfold in_pattern. cbn in *. destruct i as [|[|i]], j as [|[|j]]; try lia; tauto.
  - intros x d i Hi. unfold both, move, sumN, ones2. cbn. eapply dl_eq; [apply dl_add; [apply (dl_line (x 0%nat) (d 0%nat))|apply (dl_line (x 1%nat) (d 1%nat))]|reflexivity|ring].
Qed.
Lemma signed2_out : output_connectivity signed2 1 0 = false /\ input_connectivity signed2 1 0 = false.
Proof. split; unfold output_connectivity, input_connectivity; apply Bool.negb_false_iff, Reqb_true; unfold sumN, todense; cbn; ring. Qed.
Theorem pattern_values_unused_refuted : exists s fn x J order, wf_pattern s /\ covers s J /\ derivative (ncols s) (nrows s) fn x J /\ Permutation order (seq 0 (nrows s)) /\ Permutation order (seq 0 (ncols s)) /\
  (forall jac, jac_contract (ncols s) jac -> exists g, jacrev jac order fn s (ncols s) (nrows s) x = Ok g /\ same_pattern g s /\ ~ equals_matrix g J) /\
  (forall jvp, jvp_contract jvp -> exists g, jacfwd jvp order fn s (ncols s) (nrows s) x = Ok g /\ same_pattern g s /\ ~ equals_matrix g J).
Proof.
  destruct signed2_ok as (H1 & H2 & H3). destruct signed2_out as (O1 & O2). exists signed2, both, (fun _ => 0), ones2, [0; 1]%nat. split; [exact H1|split; [exact H2|split; [apply H3|split; [apply Permutation_refl|split; [apply Permutation_refl|split]]]]].
  - intros jac Hj. unfold jacrev. cbn [greedy_color nrows ncols signed2]. unfold greedy. cbn [fold_left app used_by_neighbours filter map fst snd]. fold signed2. rewrite O1. cbn [map bind Nat.eqb negb]. eexists. split; [reflexivity|split; [repeat split|]].
    intros E. specialize (E 0%nat 0%nat ltac:(cbn; lia) ltac:(cbn; lia)). revert E. unfold todense, ones2. cbn [entries expand_jacrev map fst snd sumR Nat.eqb andb].
    set (col := fun v : nat => match colour_of [(0%nat, least_free []); (1%nat, least_free [])] v with Some c => c | None => 0%nat end). cbn [signed2 entries map fst snd sumR Nat.eqb andb].
    rewrite (projected_jac 2 2 both (fun _ => 0) ones2 (H3 _) jac col _ 0%nat Hj ltac:(lia)). unfold sumN, projection, ones2. cbn. lra.
  - intros jvp Hj. unfold jacfwd. cbn [greedy_color nrows ncols signed2]. unfold greedy. cbn [fold_left app used_by_neighbours filter map fst snd]. fold signed2. rewrite O2. cbn [map bind Nat.eqb negb]. eexists. split; [reflexivity|split; [repeat split|]].
    intros E. specialize (E 0%nat 0%nat ltac:(cbn; lia) ltac:(cbn; lia)). revert E. unfold todense, ones2. cbn. rewrite (basis_jvp 2 2 both (fun _ => 0) ones2 (H3 _) jvp _ _ 0%nat Hj ltac:(lia)). unfold sumN, projection, ones2. cbn. lra.
Qed.
Print Assumptions pattern_values_unused_refuted.
(** a position given twice is counted twice *)
Theorem repeated_positions_refuted : exists s fn x J, positive s /\ covers s J /\ derivative (ncols s) (nrows s) fn x J /\
  forall jvp, jvp_contract jvp -> exists g, jacfwd jvp [0%nat] fn s (ncols s) (nrows s) x = Ok g /\ same_pattern g s /\ ~ equals_matrix g J.
Proof.
  exists (mkBcoo 1 1 [((0, 0)%nat, 1); ((0, 0)%nat, 1)]), (fun x => x), (fun _ => 0), ones2. split; [repeat constructor; cbn; lra|split; [|split]].
  - intros i j Hi Hj _. cbn in *. left. f_equal; lia.
  - intros d i Hi. cbn in Hi. replace i with 0%nat by lia. unfold move, sumN, ones2. cbn. eapply dl_eq; [apply (dl_line 0 (d 0%nat))|reflexivity|ring].
  - intros jvp Hj. eexists. split; [reflexivity|split; [repeat split|]]. intros E. specialize (E 0%nat 0%nat ltac:(cbn; lia) ltac:(cbn; lia)). revert E. unfold todense, ones2. cbn.
    assert (D : derivative 1 1 (fun x : vect => x) (fun _ => 0) ones2).
    { intros d i Hi. replace i with 0%nat by lia. unfold move, sumN, ones2. cbn. eapply dl_eq; [apply (dl_line 0 (d 0%nat))|reflexivity|ring]. }
    rewrite (basis_jvp 1 1 (fun x => x) (fun _ => 0) ones2 D jvp _ _ 0%nat Hj ltac:(lia)). unfold sumN, projection, ones2. cbn. lra.
Qed.
Print Assumptions repeated_positions_refuted.

(** ** C66 *)
(** files listed in the order of their steps, equally spaced from step 0, one field each *)
Theorem data_frame_times_partial : forall rnd dt npts files ss, (2 <= length files)%nat -> (forall j f, nth_error files j = Some f -> num_fields f = 1%nat /\ step_number f = (j * ss)%nat) ->
  to_data_frame rnd dt npts files = Ok (timed_rows rnd dt npts files).
Proof. exact data_frame_times. Qed.
Print Assumptions data_frame_times_partial.
Example times_case : to_data_frame (fun t => t) 1 2 [mkVtu 0 1; mkVtu 10 1; mkVtu 20 1] =
  Ok [(0%nat, 0%nat, INR 0 * 1); (0%nat, 1%nat, INR 0 * 1); (1%nat, 0%nat, INR 10 * 1); (1%nat, 1%nat, INR 10 * 1); (2%nat, 0%nat, INR 20 * 1); (2%nat, 1%nat, INR 20 * 1)].
Proof. rewrite (data_frame_times_partial _ _ _ _ 10); [reflexivity|cbn; lia|]. intros [|[|[|j]]] f E; cbn in E; try (injection E as <-; split; reflexivity). destruct j; discriminate. Qed.
(** in every case the time counts the fields of the files before *)
Theorem data_frame_time_counts_fields : forall rnd dt npts files f1, nth_error files 1 = Some f1 -> (exists f, In f files /\ num_fields f <> 0%nat) ->
  to_data_frame rnd dt npts files = Ok (clocked_rows rnd dt npts (step_number f1) files).
Proof. exact data_frame_clock. Qed.
Print Assumptions data_frame_time_counts_fields.
Example clock_case : to_data_frame (fun t => t) 1 1 [mkVtu 0 2; mkVtu 10 2; mkVtu 20 2] = Ok [(0%nat, 0%nat, INR 0 * INR 10 * 1); (1%nat, 0%nat, INR 2 * INR 10 * 1); (2%nat, 0%nat, INR 4 * INR 10 * 1)].
Proof. rewrite (data_frame_time_counts_fields _ _ _ _ (mkVtu 10 2)); [reflexivity|reflexivity|]. exists (mkVtu 0 2). split; [now left|cbn; lia]. Qed.
(** the general claim fails: two fields per file, or a listing in another order *)
Theorem data_frame_times_refuted :
  (exists files, (forall j f, nth_error files j = Some f -> num_fields f = 2%nat /\ step_number f = (j * 10)%nat) /\ to_data_frame (fun t => t) 1 1 files <> Ok (timed_rows (fun t => t) 1 1 files)) /\
  (exists files, Permutation files [mkVtu 0 1; mkVtu 10 1; mkVtu 20 1] /\ to_data_frame (fun t => t) 1 1 files <> Ok (timed_rows (fun t => t) 1 1 files)).
Proof.
  split.
  - exists [mkVtu 0 2; mkVtu 10 2]. split.
    + intros [|[|j]] f E; cbn in E; try (injection E as <-; split; reflexivity). destruct j; discriminate.
    + intros H. apply (f_equal (fun r => match r with Ok l => nth 1 (map snd l) 0 | Err _ => 0 end)) in H. unfold to_data_frame, timed_rows in H. cbn -[INR] in H. rewrite !INR_IZR_INZ in H. cbn in H. lra.
  - exists [mkVtu 10 1; mkVtu 20 1; mkVtu 0 1]. split.
    + apply perm_trans with [mkVtu 10 1; mkVtu 0 1; mkVtu 20 1]; [apply perm_skip, perm_swap|apply perm_swap].
    + intros H. apply (f_equal (fun r => match r with Ok l => nth 0 (map snd l) 0 | Err _ => 0 end)) in H. unfold to_data_frame, timed_rows in H. cbn -[INR] in H. rewrite !INR_IZR_INZ in H. cbn in H. lra.
Qed.
Print Assumptions data_frame_times_refuted.
Theorem data_frame_too_little : forall rnd dt npts files,
  ((length files < 2)%nat -> to_data_frame rnd dt npts files = Err IndexError) /\
  ((2 <= length files)%nat -> (forall f, In f files -> num_fields f = 0%nat) -> to_data_frame rnd dt npts files = Err ValueError).
Proof. intros rnd dt npts files. split; [exact (data_frame_few rnd dt npts files)|exact (data_frame_all_empty rnd dt npts files)]. Qed.
Print Assumptions data_frame_too_little.
Example too_little_case : to_data_frame (fun t => t) 1 1 [mkVtu 0 1] = Err IndexError.
Proof. apply data_frame_too_little. cbn. lia. Qed.
Close Scope R_scope.
