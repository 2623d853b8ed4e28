(** * Moduli, the network surrogate and the training data of the multi-scale example. *)
From Coq Require Import Lra Lia FunctionalExtensionality Permutation.
From Verif Require Import Prelude PreludeFacts FemModel FemFacts FemSpec FemGeoProofs MatModel MatSpec MatProofs MatHyperProofs CrysModel CrysSpec CrysDiffProofs CrysFemProofs RveModel RveSpec RveProofs.
Open Scope R_scope.

(** ** compute_moduli *)
Lemma fold_or {A} (f : A -> bool) l acc : fold_left (fun a x => orb a (f x)) l acc = orb acc (existsb f l).
Proof.
  revert acc. induction l as [|x l IH]; intros acc; cbn [fold_left existsb]; [now rewrite orb_false_r|]. rewrite IH. now rewrite orb_assoc.
Qed.
Lemma inclusion_exists g p : inclusion g p = existsb (fun i => existsb (fun j => existsb (fun k =>
  Rltb (max_abs3 (fun d => p d - center g i j k d)) (L g * ratio g)) (seq 0 (num_units_z g))) (seq 0 (num_units_y g))) (seq 0 (num_units_x g)).
Proof.
  unfold inclusion.
  transitivity (fold_left (fun acc i => orb acc (existsb (fun j => existsb (fun k => Rltb (max_abs3 (fun d => p d - center g i j k d)) (L g * ratio g)) (seq 0 (num_units_z g))) (seq 0 (num_units_y g)))) (seq 0 (num_units_x g)) false).
  - f_equal. extensionality acc. extensionality i.
    transitivity (fold_left (fun acc j => orb acc (existsb (fun k => Rltb (max_abs3 (fun d => p d - center g i j k d)) (L g * ratio g)) (seq 0 (num_units_z g)))) (seq 0 (num_units_y g)) acc).
    + f_equal. extensionality a. extensionality j. apply fold_or.
    + apply fold_or.
  - rewrite fold_or. reflexivity.
Qed.
Lemma max_abs_lt x r : max_abs3 x < r <-> forall d, (d < 3)%nat -> Rabs (x d) < r.
Proof.
  unfold max_abs3. split.
  - intros H d Hd. pose proof (Rmax_l (Rmax (Rabs (x 0%nat)) (Rabs (x 1%nat))) (Rabs (x 2%nat))). pose proof (Rmax_r (Rmax (Rabs (x 0%nat)) (Rabs (x 1%nat))) (Rabs (x 2%nat))).
    pose proof (Rmax_l (Rabs (x 0%nat)) (Rabs (x 1%nat))). pose proof (Rmax_r (Rabs (x 0%nat)) (Rabs (x 1%nat))). destruct d as [|[|[|d]]]; try lia; lra.
  - intros H. repeat apply Rmax_lub_lt; apply H; lia.
Qed.
Lemma inclusion_iff g p : inclusion g p = true <-> exists i j k, (i < num_units_x g)%nat /\ (j < num_units_y g)%nat /\ (k < num_units_z g)%nat /\
  forall d, (d < 3)%nat -> Rabs (p d - (INR (ix i j k d) + / 2) * L g) < L g * ratio g.
Proof.
  rewrite inclusion_exists, existsb_exists.
  assert (C : forall i j k d, (d < 3)%nat -> center g i j k d = (INR (ix i j k d) + / 2) * L g) by (intros i j k d Hd; destruct d as [|[|[|d]]]; try lia; reflexivity).
  split.
  - intros (i & Hi & H). apply existsb_exists in H. destruct H as (j & Hj & H). apply existsb_exists in H. destruct H as (k & Hk & H). apply in_seq in Hi, Hj, Hk.
    apply Rltb_true in H. rewrite max_abs_lt in H. exists i, j, k. repeat split; try lia. intros d Hd. rewrite <- C by exact Hd. now apply H.
  - intros (i & j & k & Hi & Hj & Hk & H). exists i. split; [apply in_seq; lia|]. apply existsb_exists. exists j. split; [apply in_seq; lia|].
    apply existsb_exists. exists k. split; [apply in_seq; lia|]. apply Rltb_true, max_abs_lt. intros d Hd. rewrite C by exact Hd. now apply H.
Qed.
Lemma same_unit g x i i' : 0 < L g -> ratio g <= / 2 -> INR i * L g <= x <= (INR i + 1) * L g ->
  Rabs (x - (INR i' + / 2) * L g) < L g * ratio g -> i = i'.
Proof.
  intros HL Hr [H1 H2] H. apply Rabs_def2 in H. destruct H as [H3 H4].
  assert (INR i' * L g < x < (INR i' + 1) * L g) by nra.
  assert (INR i < INR i' + 1) by nra. assert (INR i' < INR i + 1) by nra.
  rewrite <- S_INR in *. apply INR_lt in H0, H5. lia.
Qed.
Lemma tiling g p i j k : 0 < L g -> ratio g <= / 2 -> (i < num_units_x g)%nat -> (j < num_units_y g)%nat -> (k < num_units_z g)%nat ->
  (forall d, (d < 3)%nat -> INR (ix i j k d) * L g <= p d <= (INR (ix i j k d) + 1) * L g) ->
  moduli_map g p = moduli_map (one_unit g) (fun d => p d - INR (ix i j k d) * L g).
Proof.
  intros HL Hr Hi Hj Hk Hp. unfold moduli_map. change (E_in (one_unit g)) with (E_in g). change (E_out (one_unit g)) with (E_out g). change (nu_in (one_unit g)) with (nu_in g). change (nu_out (one_unit g)) with (nu_out g).
  enough (inclusion g p = inclusion (one_unit g) (fun d => p d - INR (ix i j k d) * L g)) as -> by reflexivity.
  apply Bool.eq_iff_eq_true. rewrite !inclusion_iff. cbn [num_units_x num_units_y num_units_z one_unit L ratio]. split.
  - intros (i' & j' & k' & Hi' & Hj' & Hk' & H). exists 0%nat, 0%nat, 0%nat. repeat (split; [lia|]). intros d Hd. specialize (H d Hd). specialize (Hp d Hd).
    assert (Eix : ix i j k d = ix i' j' k' d) by (eapply same_unit; eassumption). rewrite <- Eix in H.
    replace (INR (ix 0 0 0 d)) with 0 by (destruct d as [|[|[|d]]]; try lia; reflexivity).
    replace (p d - INR (ix i j k d) * L g - (0 + / 2) * L g) with (p d - (INR (ix i j k d) + / 2) * L g) by ring. exact H.
  - intros (i' & j' & k' & Hi' & Hj' & Hk' & H). assert (i' = 0 /\ j' = 0 /\ k' = 0)%nat as (-> & -> & ->) by lia. exists i, j, k. repeat (split; [assumption|]).
    intros d Hd. specialize (H d Hd). replace (INR (ix 0 0 0 d)) with 0 in H by (destruct d as [|[|[|d]]]; try lia; reflexivity).
    replace (p d - (INR (ix i j k d) + / 2) * L g) with (p d - INR (ix i j k d) * L g - (0 + / 2) * L g) by ring. exact H.
Qed.
(** the outer faces lie in the matrix *)
Lemma outer_face g p d : 0 < L g -> ratio g <= / 2 -> (d < 3)%nat -> p d = 0 \/ p d = INR (units g d) * L g -> inclusion g p = false.
Proof.
  intros HL Hr Hd Hp. apply not_true_iff_false. rewrite inclusion_iff. intros (i & j & k & Hi & Hj & Hk & H). specialize (H d Hd). apply Rabs_def2 in H. destruct H as [H1 H2].
  assert (Hix : (ix i j k d < units g d)%nat) by (destruct d as [|[|[|d]]]; try lia; cbn; assumption).
  pose proof (pos_INR (ix i j k d)). assert (INR (ix i j k d) + 1 <= INR (units g d)) by (rewrite <- S_INR; apply le_INR; lia).
  destruct Hp as [E | E]; rewrite E in *; nra.
Qed.
Lemma traction_consistent g info p d : 0 < L g -> ratio g <= / 2 -> (d < 3)%nat -> p d = 0 \/ p d = INR (units g d) * L g ->
  traction_moduli g info = compute_moduli g info p.
Proof. intros HL Hr Hd Hp. destruct info; cbn [traction_moduli compute_moduli]; try reflexivity. unfold moduli_map. now rewrite (outer_face g p d). Qed.

(** ** symmetric tensors and their six components *)
Lemma flat_round X n : (n < 6)%nat -> tensor_to_flat (flat_to_tensor X) n = X n.
Proof. intros H. do 6 (destruct n as [|n]; [reflexivity|]). lia. Qed.
Lemma tensor_round A : msym 3 A -> meq 3 (flat_to_tensor (tensor_to_flat A)) A.
Proof. intros H i j Hi Hj. each3 i j; cbn; try reflexivity; apply H; lia. Qed.
Lemma flat_sym X : msym 3 (flat_to_tensor X).
Proof. intros i j Hi Hj. each3 i j; reflexivity. Qed.
Lemma flat_ext A B : meq 3 A B -> tensor_to_flat A = tensor_to_flat B.
Proof. intros H. extensionality n. do 6 (destruct n as [|n]; [cbn; apply H; lia|]). reflexivity. Qed.
(** ** the network energy *)
Lemma nn_frame nn Q D : orthogonal 3 Q -> psi_nn nn (matmul 3 Q D) = psi_nn nn D.
Proof.
  intros (_ & HQ). unfold psi_nn. f_equal. apply flat_ext. intros i j Hi Hj.
  rewrite (matmul_ext 3 _ (matmul 3 (transpose D) (transpose Q)) _ (matmul 3 Q D)); try assumption; [|intros k l _ _; apply matmul_transpose|intros k l _ _; reflexivity].
  rewrite matmul_assoc. apply (matmul_ext 3 _ (transpose D) _ D); try assumption; [intros k l _ _; reflexivity|]. intros k l Hk Hl.
  rewrite <- matmul_assoc. rewrite (matmul_ext 3 _ identity _ D); try assumption; [|intros a b _ _; reflexivity]. now apply matmul_identity_l.
Qed.
Lemma nn_training nn X : psi_nn nn (fun i j => flat_to_tensor X i j + eye i j) = nn (fst (H_to_C X)).
Proof. reflexivity. Qed.
Definition half_sym (y : nat -> R) : mat := flat_to_tensor (fun n => if Nat.ltb n 3 then y n else y n / 2).
Lemma half_sym_ddot y A : msym 3 A -> sumN 6 (fun n => y n * tensor_to_flat A n) = ddot 3 (half_sym y) A.
Proof.
  intros H. unfold ddot, half_sym, sumN. cbn.
  rewrite (H 1%nat 0%nat), (H 2%nat 0%nat), (H 2%nat 1%nat) by lia. field.
Qed.
Lemma nn_derivative nn dnn D i j : nn_grad nn dnn -> (i < 3)%nat -> (j < 3)%nat ->
  derivable_pt_lim (fun t => psi_nn nn (bump D i j t)) 0 (2 * matmul 3 D (half_sym (dnn (tensor_to_flat (matmul 3 (transpose D) D)))) i j).
Proof.
  intros Hn Hi Hj. set (S := half_sym (dnn (tensor_to_flat (matmul 3 (transpose D) D)))).
  assert (HB : path (bump D i j) (fun k l => if Nat.eqb k i && Nat.eqb l j then 1 else 0)).
  { intros k l _ _. unfold bump. destruct (Nat.eqb k i && Nat.eqb l j); [|apply dl_const].
    eapply dl_eq; [apply (dl_line (D k l) 1)|intros; cbn beta; ring|reflexivity]. }
  set (X := fun k l : nat => if Nat.eqb k i && Nat.eqb l j then 1 else 0) in *.
  assert (E0 : bump D i j 0 = D) by (unfold bump; extensionality k; extensionality l; destruct (_ && _); ring).
  assert (HT : path (fun t => transpose (bump D i j t)) (transpose X)) by (intros k l Hk Hl; exact (HB l k Hl Hk)).
  pose proof (path_matmul _ _ _ _ HT HB) as HC. cbv beta in HC. rewrite E0 in HC.
  set (C' := fun k l => matmul 3 (transpose X) D k l + matmul 3 (transpose D) X k l) in HC.
  eapply dl_eq.
  - apply (Hn (fun t => tensor_to_flat (matmul 3 (transpose (bump D i j t)) (bump D i j t))) (tensor_to_flat C')).
    intros n Hlt. destruct n as [|[|[|[|[|[|n]]]]]]; [apply (HC 0%nat 0%nat)|apply (HC 1%nat 1%nat)|apply (HC 2%nat 2%nat)|apply (HC 0%nat 1%nat)|apply (HC 0%nat 2%nat)|apply (HC 1%nat 2%nat)|]; lia.
  - reflexivity.
  - rewrite E0. rewrite half_sym_ddot.
    2: { intros k l Hk Hl. unfold C', matmul, transpose. rewrite Rplus_comm. f_equal; apply sumN_ext; intros; ring. }
    fold S. assert (HS : msym 3 S) by apply flat_sym.
    transitivity (2 * ddot 3 X (matmul 3 D S)); [|unfold X; now rewrite ddot_pick].
    unfold ddot, C', matmul, transpose, sumN. cbn [seq sumR].
    rewrite (HS 1%nat 0%nat), (HS 2%nat 0%nat), (HS 2%nat 1%nat) by lia. ring.
Qed.
Lemma nn_P nn dnn P_fn D : nn_grad nn dnn -> is_grad 3 (psi_nn nn) (fun _ => True) P_fn ->
  meq 3 (P_fn D) (fun i j => 2 * matmul 3 D (half_sym (dnn (tensor_to_flat (matmul 3 (transpose D) D)))) i j).
Proof. intros Hn HP i j Hi Hj. eapply dl_unique; [exact (HP D i j I Hi Hj)|now apply nn_derivative]. Qed.
Lemma nn_moment nn dnn P_fn D : nn_grad nn dnn -> is_grad 3 (psi_nn nn) (fun _ => True) P_fn -> msym 3 (matmul 3 (P_fn D) (transpose D)).
Proof.
  intros Hn HP i j Hi Hj. pose proof (nn_P nn dnn P_fn D Hn HP) as E. set (S := half_sym _) in E. assert (HS : msym 3 S) by apply flat_sym.
  rewrite !(matmul_ext 3 (P_fn D) (fun i j => 2 * matmul 3 D S i j) (transpose D) (transpose D)) by (assumption || (intros k l _ _; reflexivity)).
  unfold matmul, transpose, sumN. cbn [seq sumR]. rewrite (HS 1%nat 0%nat), (HS 2%nat 0%nat), (HS 2%nat 1%nat) by lia. ring.
Qed.

(** ** solve_rve_problem *)
Section Data.
Context {Sol : Type}.
Variables (solve : mat -> Sol) (energy : mat -> Sol -> R) (isnan : R -> bool).
Lemma retry_same s : solve_rve_problem solve energy isnan s = (solve (flat_to_tensor s), energy (flat_to_tensor s) (solve (flat_to_tensor s))).
Proof.
  unfold solve_rve_problem. destruct (isnan _); [|reflexivity]. unfold ratios. cbn [fold_left].
  replace (fun i j => 1 * flat_to_tensor s i j) with (flat_to_tensor s) by (extensionality i; extensionality j; ring). reflexivity.
Qed.
Variables (samples : list (nat -> R)) (choose : nat -> list nat -> nat).
Hypothesis Hchoose : forall f l, l <> [] -> In (choose f l) l.
Local Notation todo fin := (filter (fun i => negb (existsb (Nat.eqb i) fin)) (seq 0 (length samples))).
Lemma in_todo i fin : In i (todo fin) <-> (i < length samples)%nat /\ ~ In i fin.
Proof.
  clear Hchoose. rewrite filter_In, in_seq. assert (E : negb (existsb (Nat.eqb i) fin) = true <-> ~ In i fin).
  { rewrite negb_true_iff, <- not_true_iff_false, existsb_exists. split.
    - intros H Hi. apply H. exists i. split; [exact Hi|apply Nat.eqb_refl].
    - intros H (x & Hx & Ex). apply Nat.eqb_eq in Ex. subst. contradiction. }
  rewrite E. intuition lia.
Qed.
(** a sample that fails keeps the loop running *)
Lemma collect_stuck i fuel : forall fin, (i < length samples)%nat -> run_one solve energy isnan samples i = false -> ~ In i fin ->
  collect_data solve energy isnan samples choose fuel fin = None.
Proof.
  clear Hchoose. induction fuel as [|fuel IH]; intros fin Hi Hr Hn; cbn [collect_data]; destruct (todo fin) as [|x l] eqn:Et.
  - exfalso. assert (In i (todo fin)) by now apply in_todo. rewrite Et in H. destruct H.
  - reflexivity.
  - exfalso. assert (In i (todo fin)) by now apply in_todo. rewrite Et in H. destruct H.
  - apply IH; try assumption. destruct (run_one solve energy isnan samples (choose fuel (x :: l))) eqn:Er; [|exact Hn].
    intros [E | H]; [congruence|contradiction].
Qed.
Lemma collect_ok fuel : forall fin, (forall i, (i < length samples)%nat -> run_one solve energy isnan samples i = true) ->
  NoDup fin -> (forall i, In i fin -> (i < length samples)%nat) -> (length samples <= fuel + length fin)%nat ->
  exists r, collect_data solve energy isnan samples choose fuel fin = Some r /\ NoDup r /\ (forall i, In i r <-> (i < length samples)%nat).
Proof.
  induction fuel as [|fuel IH]; intros fin Hall Hnd Hlt Hf; cbn [collect_data]; destruct (todo fin) as [|x l] eqn:Et.
  - exists fin. split; [reflexivity|]. split; [exact Hnd|]. intros i. split; [apply Hlt|]. intros Hi. destruct (in_dec Nat.eq_dec i fin) as [|Hn]; [assumption|exfalso].
    assert (In i (todo fin)) by now apply in_todo. rewrite Et in H. destruct H.
  - exfalso. assert (Hx : In x (todo fin)) by (rewrite Et; now left). apply in_todo in Hx.
    assert (incl (x :: fin) (seq 0 (length samples))) as Hinc by (intros y [<- | Hy]; apply in_seq; [|specialize (Hlt y Hy)]; lia).
    apply NoDup_incl_length in Hinc; [|constructor; tauto]. rewrite seq_length in Hinc. cbn [length] in Hinc. lia.
  - exists fin. split; [reflexivity|]. split; [exact Hnd|]. intros i. split; [apply Hlt|]. intros Hi. destruct (in_dec Nat.eq_dec i fin) as [|Hn]; [assumption|exfalso].
    assert (In i (todo fin)) by now apply in_todo. rewrite Et in H. destruct H.
  - assert (Hc : In (choose fuel (x :: l)) (todo fin)) by (rewrite Et; apply Hchoose; discriminate). apply in_todo in Hc. destruct Hc as [Hc1 Hc2].
    rewrite Hall by exact Hc1. apply IH; [exact Hall|now constructor| |cbn [length]; lia]. intros i [<- | Hi]; [exact Hc1|now apply Hlt].
Qed.
End Data.

(** ** shuffle_data *)
Lemma skip_skip {X} (a b : nat) : forall l : list X, skipn a (skipn b l) = skipn (a + b) l.
Proof.
  induction b as [|b IH]; intros l; [now rewrite Nat.add_0_r|]. destruct l as [|x l]; [now rewrite !skipn_nil|]. rewrite Nat.add_succ_r. cbn [skipn]. apply IH.
Qed.
Lemma shuffle_partition {X} (d : X) data inds : Permutation inds (seq 0 (length data)) ->
  let '(train, validation, test) := shuffle_data d data inds in
  Permutation (train ++ validation ++ test) data /\
  length train = (8 * length data / 10)%nat /\ length validation = (9 * length data / 10 - 8 * length data / 10)%nat /\ length test = (length data - 9 * length data / 10)%nat.
Proof.
  intros HP. unfold shuffle_data, cut. set (n := length data). set (n1 := (8 * n / 10)%nat). set (n2 := (9 * n / 10)%nat).
  assert (Hl : length inds = n) by (rewrite (Permutation_length HP); apply seq_length).
  assert (Hn1 : (n1 <= n2)%nat) by (apply Nat.div_le_mono; lia). assert (Hn2 : (n2 <= n)%nat) by (apply Nat.div_le_upper_bound; lia).
  assert (Es : skipn n2 inds = skipn (n2 - n1) (skipn n1 inds)) by (rewrite skip_skip; f_equal; lia).
  split.
  - rewrite <- !map_app, Es, firstn_skipn, firstn_skipn. etransitivity; [apply Permutation_map; exact HP|]. unfold n. rewrite map_nth_seq. reflexivity.
  - rewrite !map_length, !firstn_length, !skipn_length, Hl. fold n. fold n1. fold n2. clearbody n1 n2 n. lia.
Qed.
(** ** scaling *)
Lemma fold_min_le l : forall x, fold_left Rmin l x <= x /\ (forall y, In y l -> fold_left Rmin l x <= y) /\ (fold_left Rmin l x = x \/ In (fold_left Rmin l x) l).
Proof.
  induction l as [|a l IH]; intros x; cbn [fold_left]; [split; [lra|split; [intros y []|now left]]|]. destruct (IH (Rmin x a)) as (H1 & H2 & H3). pose proof (Rmin_l x a). pose proof (Rmin_r x a).
  repeat split; [lra| |].
  - intros y [<- | Hy]; [lra|now apply H2].
  - destruct H3 as [E | H3]; [|right; now right]. rewrite E. unfold Rmin. destruct (Rle_dec x a); [now left|right; now left].
Qed.
Lemma fold_max_ge l : forall x, x <= fold_left Rmax l x /\ (forall y, In y l -> y <= fold_left Rmax l x) /\ (fold_left Rmax l x = x \/ In (fold_left Rmax l x) l).
Proof.
  induction l as [|a l IH]; intros x; cbn [fold_left]; [split; [lra|split; [intros y []|now left]]|]. destruct (IH (Rmax x a)) as (H1 & H2 & H3). pose proof (Rmax_l x a). pose proof (Rmax_r x a).
  repeat split; [lra| |].
  - intros y [<- | Hy]; [lra|now apply H2].
  - destruct H3 as [E | H3]; [|right; now right]. rewrite E. unfold Rmax. destruct (Rle_dec x a); [right; now left|now left].
Qed.
Lemma min_ok l : l <> [] -> In (minl l) l /\ forall y, In y l -> minl l <= y.
Proof.
  destruct l as [|x l]; [contradiction|]. intros _. cbn [minl]. destruct (fold_min_le l x) as (H1 & H2 & H3). split; [destruct H3 as [-> | H3]; [now left|now right]|].
  intros y [<- | Hy]; [exact H1|now apply H2].
Qed.
Lemma max_ok l : l <> [] -> In (maxl l) l /\ forall y, In y l -> y <= maxl l.
Proof.
  destruct l as [|x l]; [contradiction|]. intros _. cbn [maxl]. destruct (fold_max_ge l x) as (H1 & H2 & H3). split; [destruct H3 as [-> | H3]; [now left|now right]|].
  intros y [<- | Hy]; [exact H1|now apply H2].
Qed.
Lemma Reqb_true' x y : Reqb x y = true <-> x = y.
Proof. unfold Reqb. destruct (Req_EM_T x y); split; congruence. Qed.
Lemma scale_range l y : l <> [] -> In y l -> minl l <> maxl l -> exists s, min_max_scale y l = Some s /\ 0 <= s <= 1.
Proof.
  intros Hl Hy Hne. destruct (min_ok l Hl) as [Hm1 Hm2]. destruct (max_ok l Hl) as [HM1 HM2]. specialize (Hm2 y Hy). specialize (HM2 y Hy).
  unfold min_max_scale, div_finite. destruct (Reqb (maxl l - minl l) 0) eqn:E; [apply Reqb_true' in E; lra|]. eexists. split; [reflexivity|].
  assert (0 < maxl l - minl l) by lra. split; [apply Rmult_le_pos; [lra|left; now apply Rinv_0_lt_compat]|].
  apply (Rmult_le_reg_r (maxl l - minl l)); [assumption|]. unfold Rdiv. rewrite Rmult_assoc, Rinv_l by lra. lra.
Qed.
Lemma percent_min l pred : l <> [] -> percent_error (minl l) pred l = None.
Proof.
  intros _. unfold percent_error, min_max_scale, div_finite. destruct (Reqb (maxl l - minl l) 0); [reflexivity|].
  rewrite (proj2 (Reqb_true' _ _)); [reflexivity|]. unfold Rdiv. ring.
Qed.
Lemma percent_finite l y pred : l <> [] -> minl l <> maxl l -> y <> minl l ->
  percent_error y pred l = Some (Rabs (y - pred) / Rabs (y - minl l)).
Proof.
  intros Hl Hne Hy. destruct (min_ok l Hl) as [_ Hm]. destruct (max_ok l Hl) as [HM _]. specialize (Hm _ HM).
  assert (HD : 0 < maxl l - minl l) by lra. unfold percent_error, min_max_scale, div_finite.
  destruct (Reqb (maxl l - minl l) 0) eqn:E; [apply Reqb_true' in E; lra|]. set (D := maxl l - minl l) in *.
  destruct (Reqb ((y - minl l) / D) 0) eqn:E2.
  - exfalso. apply Reqb_true' in E2. apply Hy. assert (y - minl l = 0); [|lra]. apply (Rmult_eq_reg_r (/ D)); [|apply Rinv_neq_0_compat; lra]. unfold Rdiv in E2. lra.
  - cbn [option_map]. f_equal. unfold Rdiv. rewrite Rabs_mult, Rabs_Rabsolu, Rabs_inv.
    replace ((y - minl l) * / D - (pred - minl l) * / D) with ((y - pred) * / D) by ring. rewrite !Rabs_mult, (Rabs_inv D), (Rabs_pos_eq D) by lra.
    assert (Rabs (y - minl l) <> 0) by (apply Rabs_no_R0; lra). field. split; [assumption|lra].
Qed.
(** ** poly_psi at rest *)
Lemma poly_rest : poly_psi eye = [0; 0; 0; 0; 0; 0; 0; 0; 4; 16].
Proof.
  assert (H3 : I3_fn eye = 1) by (unfold I3_fn; cbn; ring). assert (H1 : I1_fn eye = 3) by (unfold I1_fn, trace, sumN, eye; cbn; ring).
  assert (H2 : I2_fn eye = 3) by (unfold I2_fn, trace, matmul, sumN, eye; cbn; field).
  unfold poly_psi, I1_bar_fn, I2_bar_fn. rewrite H3, H1, H2, !Rpower_1_l, sqrt_1. unfold flat2. cbn [seq map flat_map app tl pow Nat.mul Nat.add].
  repeat (f_equal; [ring|]). f_equal; ring.
Qed.
Close Scope R_scope.
