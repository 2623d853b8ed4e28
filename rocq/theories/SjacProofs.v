(** * Sparse Jacobians by colouring. *)
From Coq Require Import Lra Lia Permutation FunctionalExtensionality.
From Verif Require Import Prelude PreludeFacts FemModel FemFacts SjacModel SjacSpec.
Open Scope R_scope.

(** ** dense values *)
Lemma pair_eqb (p : nat * nat) i j : Nat.eqb (fst p) i && Nat.eqb (snd p) j = true <-> p = (i, j).
Proof. rewrite Bool.andb_true_iff, !Nat.eqb_eq. destruct p; cbn. split; [intros (-> & ->); reflexivity|injection 1 as -> ->; auto]. Qed.
Lemma todense_in s i j v : NoDup (map fst (entries s)) -> In ((i, j), v) (entries s) -> todense s i j = v.
Proof.
  unfold todense. induction (entries s) as [|e r IH]; cbn; [tauto|]. intros Hn [He|He]; inversion Hn as [|x y H1 H2]; subst.
  - cbn. rewrite !Nat.eqb_refl. cbn. rewrite sumR_zero; [lra|]. intros e He. destruct (Nat.eqb (fst (fst e)) i && Nat.eqb (snd (fst e)) j) eqn:E; [|reflexivity]. apply pair_eqb in E.
    exfalso. apply H1. cbn. rewrite <- E. now apply in_map.
  - rewrite (IH H2 He). destruct (Nat.eqb (fst (fst e)) i && Nat.eqb (snd (fst e)) j) eqn:E; [|lra]. apply pair_eqb in E. exfalso. apply H1. rewrite E. apply in_map_iff. exists ((i, j), v). auto.
Qed.
Lemma todense_out s i j : ~ in_pattern s i j -> todense s i j = 0.
Proof.
  intros H. unfold todense. apply sumR_zero. intros e He. destruct (Nat.eqb (fst (fst e)) i && Nat.eqb (snd (fst e)) j) eqn:E; [|reflexivity]. apply pair_eqb in E.
  exfalso. apply H. unfold in_pattern. rewrite <- E. now apply in_map.
Qed.
Lemma pattern_dec s i j : {in_pattern s i j} + {~ in_pattern s i j}.
Proof. apply in_dec. decide equality; apply Nat.eq_dec. Qed.
Lemma pattern_range s i j : wf_pattern s -> in_pattern s i j -> (i < nrows s)%nat /\ (j < ncols s)%nat.
Proof.
  intros (_ & H) Hi. apply in_map_iff in Hi. destruct Hi as (e & E & He). rewrite Forall_forall in H. apply H in He. now rewrite E in He.
Qed.

(** ** greedy colouring *)
Lemma least_free_spec l : ~ In (least_free l) l /\ forall c, (c < least_free l)%nat -> In c l.
Proof.
  unfold least_free. destruct (find _ _) as [c|] eqn:E.
  - apply find_some in E as E'. destruct E' as (Hc & Hn). apply Bool.negb_true_iff in Hn. split.
    + intros Hi. rewrite <- Bool.not_true_iff_false in Hn. apply Hn, existsb_exists. exists c. split; [exact Hi|apply Nat.eqb_refl].
    + intros c' Hc'. apply in_seq in Hc. destruct (in_dec Nat.eq_dec c' l) as [H|H]; [exact H|]. exfalso.
      assert (G : forall a b, (a + b)%nat = S (length l) -> (c' < a + b)%nat -> (a <= c')%nat -> (c' < c)%nat -> find (fun c => negb (existsb (Nat.eqb c) l)) (seq a b) = Some c -> False).
      { clear -H. intros a b. revert a. induction b as [|b IH]; intros a Hab Hlt Hle Hcc Hf; [cbn in Hf; discriminate|]. cbn in Hf. destruct (existsb (Nat.eqb a) l) eqn:Ea; cbn in Hf.
        - apply existsb_exists in Ea. destruct Ea as (y & Hy & Ey). apply Nat.eqb_eq in Ey. subst y. apply (IH (S a)); try lia; [|exact Hf]. destruct (Nat.eq_dec a c') as [->|]; [contradiction|lia].
        - injection Hf as ->. lia. }
      apply (G 0%nat (S (length l)) eq_refl); [lia|lia|exact Hc'|exact E].
  - exfalso. assert (Hall : incl (seq 0 (S (length l))) l).
    { intros c Hc. pose proof (find_none _ _ E c Hc) as H. apply Bool.negb_false_iff, existsb_exists in H. destruct H as (y & Hy & Ey). apply Nat.eqb_eq in Ey. now subst y. }
    pose proof (NoDup_incl_length (seq_NoDup _ _) Hall) as H. rewrite seq_length in H. lia.
Qed.
Definition good (adj : nat -> nat -> bool) (cs : list (nat * nat)) : Prop :=
  (forall u c v d, In (u, c) cs -> In (v, d) cs -> u <> v -> adj u v = true -> c <> d) /\ (forall u c c', In (u, c) cs -> (c' < c)%nat -> exists v, In (v, c') cs).
Lemma greedy_good adj order : (forall u v, adj u v = adj v u) -> NoDup order -> good adj (greedy adj order) /\ map fst (greedy adj order) = order.
Proof.
  intros Hs Hn. unfold greedy. assert (G : forall cs, good adj cs -> NoDup (map fst cs ++ order) ->
    good adj (fold_left (fun colours u => colours ++ [(u, least_free (used_by_neighbours adj colours u))]) order cs)
    /\ map fst (fold_left (fun colours u => colours ++ [(u, least_free (used_by_neighbours adj colours u))]) order cs) = map fst cs ++ order).
  { clear Hn. induction order as [|u r IH]; intros cs Hg Hn; cbn; [now rewrite app_nil_r|]. set (c := least_free (used_by_neighbours adj cs u)). destruct (least_free_spec (used_by_neighbours adj cs u)) as (F1 & F2). fold c in F1, F2.
    assert (Hu : ~ In u (map fst cs)) by (apply NoDup_remove_2 in Hn; intros H; apply Hn; rewrite in_app_iff; now left).
    assert (Hused : forall v d, In (v, d) cs -> adj u v = true -> d <> c).
    { intros v d Hv Ha ->. apply F1. unfold used_by_neighbours. apply in_map_iff. exists (v, c). split; [reflexivity|]. now apply filter_In. }
    destruct (IH (cs ++ [(u, c)])) as (G1 & G2).
    - split.
      + intros a ca b cb Ha Hb Hne Hadj. rewrite in_app_iff in Ha, Hb. destruct Ha as [Ha|[Ha|[]]], Hb as [Hb|[Hb|[]]].
        * apply (proj1 Hg a ca b cb); assumption.
        * injection Hb as <- <-. apply (Hused a ca Ha). now rewrite Hs.
        * injection Ha as <- <-. intros E. exact (Hused b cb Hb Hadj (eq_sym E)).
        * congruence.
      + intros v d c' Hv Hc'. rewrite in_app_iff in Hv. destruct Hv as [Hv|[Hv|[]]].
        * destruct (proj2 Hg v d c' Hv Hc') as (w & Hw). exists w. rewrite in_app_iff. now left.
        * injection Hv as <- <-. apply F2 in Hc'. unfold used_by_neighbours in Hc'. apply in_map_iff in Hc'. destruct Hc' as ((w, d) & E & Hw). cbn in E. subst d. apply filter_In in Hw. exists w. rewrite in_app_iff. now left.
    - rewrite map_app. cbn. rewrite <- app_assoc. exact Hn.
    - split; [exact G1|]. rewrite G2, map_app. cbn. now rewrite <- app_assoc. }
  destruct (G []) as (G1 & G2); [split; intros; contradiction|exact Hn|]. split; [exact G1|exact G2].
Qed.
Lemma colour_of_spec cs v c : NoDup (map fst cs) -> (colour_of cs v = Some c <-> In (v, c) cs).
Proof.
  induction cs as [|(u, d) r IH]; cbn; [split; [discriminate|tauto]|]. intros Hn. inversion Hn as [|x y H1 H2]; subst. destruct (Nat.eqb_spec u v) as [->|Hne].
  - split; [injection 1 as ->; now left|]. intros [E|E]; [now injection E as ->|]. exfalso. apply H1. apply in_map_iff. exists (v, c). auto.
  - rewrite (IH H2). split; [now right|]. intros [E|E]; [injection E as -> ->; congruence|exact E].
Qed.
Lemma greedy_color_spec adj n order : (forall u v, adj u v = adj v u) -> Permutation order (seq 0 n) -> (0 < n)%nat ->
  exists col k, greedy_color adj n order = Ok (col, k) /\ (forall u v, (u < n)%nat -> (v < n)%nat -> u <> v -> adj u v = true -> col u <> col v) /\ forall u, (u < n)%nat -> (col u < k)%nat.
Proof.
  intros Hs Hp Hn. assert (No : NoDup order) by (apply (Permutation_NoDup (Permutation_sym Hp)), seq_NoDup). destruct (greedy_good adj order Hs No) as ((G1 & G2) & G3).
  set (cd := greedy adj order) in *. assert (Nc : NoDup (map fst cd)) by (rewrite G3; exact No).
  set (col := fun v => match colour_of cd v with Some c => c | None => 0%nat end).
  assert (Hin : forall u, (u < n)%nat -> In (u, col u) cd).
  { intros u Hu. assert (Ho : In u (map fst cd)) by (rewrite G3; apply (Permutation_in _ (Permutation_sym Hp)), in_seq; lia). apply in_map_iff in Ho. destruct Ho as ((u', c) & E & Hc). cbn in E. subst u'.
    unfold col. rewrite (proj2 (colour_of_spec cd u c Nc) Hc). exact Hc. }
  assert (Hout : forall u c, In (u, c) cd -> (u < n)%nat /\ col u = c).
  { intros u c Hc. assert (Ho : In u order) by (rewrite <- G3; apply in_map_iff; exists (u, c); auto). apply (Permutation_in _ Hp), in_seq in Ho. split; [lia|].
    unfold col. now rewrite (proj2 (colour_of_spec cd u c Nc) Hc). }
  exists col, (length (nodup Nat.eq_dec (map col (seq 0 n)))). split; [destruct n; [lia|reflexivity]|]. split.
  - intros u v Hu Hv Hne Ha. exact (G1 u (col u) v (col v) (Hin u Hu) (Hin v Hv) Hne Ha).
  - intros u Hu. assert (Hall : incl (seq 0 (S (col u))) (nodup Nat.eq_dec (map col (seq 0 n)))).
    { intros c Hc. apply in_seq in Hc. apply nodup_In, in_map_iff. destruct (Nat.eq_dec c (col u)) as [->|Hne]; [exists u; split; [reflexivity|apply in_seq; lia]|].
      destruct (G2 u (col u) c (Hin u Hu)) as (v & Hv); [lia|]. apply Hout in Hv. exists v. split; [apply Hv|]. apply in_seq. lia. }
    pose proof (NoDup_incl_length (seq_NoDup _ _) Hall) as H. rewrite seq_length in H. lia.
Qed.

(** ** connectivity of positive patterns *)
Lemma todense_pos s i j : wf_pattern s -> positive s -> 0 <= todense s i j /\ (in_pattern s i j -> 0 < todense s i j).
Proof.
  intros (Hn & _) Hp. assert (H : in_pattern s i j -> 0 < todense s i j).
  { intros Hi. apply in_map_iff in Hi. destruct Hi as ((ij, v) & E & Hv). cbn in E. subst ij. rewrite (todense_in s i j v Hn Hv). unfold positive in Hp. rewrite Forall_forall in Hp. exact (Hp _ Hv). }
  split; [|exact H]. destruct (pattern_dec s i j) as [Hi|Hi]; [left; now apply H|right; symmetry; now apply todense_out].
Qed.
Lemma sumN_pos n f k : (k < n)%nat -> (forall i, (i < n)%nat -> 0 <= f i) -> 0 < f k -> 0 < sumN n f.
Proof.
  intros Hk Hf Hp. assert (f k <= sumN n f); [|lra]. rewrite <- (sumN_pick n k f Hk) at 1. apply sumN_le. intros i Hi. destruct (Nat.eqb i k); [lra|now apply Hf].
Qed.
Lemma output_connected s i k j : wf_pattern s -> positive s -> in_pattern s i j -> in_pattern s k j -> output_connectivity s i k = true.
Proof.
  intros Hw Hp Hi Hk. unfold output_connectivity. apply Bool.negb_true_iff. destruct (Reqb _ 0) eqn:E; [|reflexivity]. apply Reqb_true in E. exfalso.
  assert (0 < sumN (ncols s) (fun j => todense s i j * todense s k j)); [|lra]. apply (sumN_pos _ _ j).
  - apply (pattern_range s i j Hw Hi).
  - intros l _. apply Rmult_le_pos; apply (todense_pos s); assumption.
  - apply Rmult_lt_0_compat; now apply (todense_pos s).
Qed.
Lemma input_connected s i j l : wf_pattern s -> positive s -> in_pattern s i j -> in_pattern s i l -> input_connectivity s j l = true.
Proof.
  intros Hw Hp Hi Hk. unfold input_connectivity. apply Bool.negb_true_iff. destruct (Reqb _ 0) eqn:E; [|reflexivity]. apply Reqb_true in E. exfalso.
  assert (0 < sumN (nrows s) (fun i => todense s i j * todense s i l)); [|lra]. apply (sumN_pos _ _ i).
  - apply (pattern_range s i j Hw Hi).
  - intros r _. apply Rmult_le_pos; apply (todense_pos s); assumption.
  - apply Rmult_lt_0_compat; now apply (todense_pos s).
Qed.
Lemma output_sym s i k : output_connectivity s i k = output_connectivity s k i.
Proof. unfold output_connectivity. do 2 f_equal. apply sumN_ext. intros; ring. Qed.
Lemma input_sym s i k : input_connectivity s i k = input_connectivity s k i.
Proof. unfold input_connectivity. do 2 f_equal. apply sumN_ext. intros; ring. Qed.

(** ** derivatives *)
Lemma sumN_derive n (f : nat -> R -> R) l t : (forall i, (i < n)%nat -> derivable_pt_lim (f i) t (l i)) -> derivable_pt_lim (fun t => sumN n (fun i => f i t)) t (sumN n l).
Proof.
  induction n as [|n IH]; intros H; [apply derivable_pt_lim_const|]. rewrite sumN_S.
  replace (fun t => sumN (S n) (fun i => f i t)) with ((fun t => sumN n (fun i => f i t)) + f n)%F by (apply functional_extensionality; intros; unfold plus_fct; now rewrite sumN_S).
  apply derivable_pt_lim_plus; [apply IH; intros; apply H; lia|apply H; lia].
Qed.
Lemma scal_derive a f t l : derivable_pt_lim f t l -> derivable_pt_lim (fun t => a * f t) t (a * l).
Proof. intros H. exact (derivable_pt_lim_scal f a t l H). Qed.
Lemma unit_sum n (g : nat -> R) j : (j < n)%nat -> sumN n (fun l => g l * unit_vec j l) = g j.
Proof.
  intros H. rewrite <- (sumN_pick n j g H). apply sumN_ext. intros l _. unfold unit_vec. destruct (Nat.eqb l j); ring.
Qed.
Section Compressed.
Variables (n m : nat) (fn : vect -> vect) (x : vect) (J : nat -> nat -> R).
Hypothesis HJ : derivative n m fn x J.
Lemma projected_jac jac col c j : jac_contract n jac -> (j < n)%nat ->
  jac (fun x c => sumN m (fun i => projection col c i * fn x i)) x c j = sumN m (fun i => projection col c i * J i j).
Proof.
  intros Hc Hj. set (pf := fun x c => sumN m (fun i => projection col c i * fn x i)).
  assert (D : forall d, derivable_pt_lim (fun t => pf (move x t d) c) 0 (sumN n (fun l => sumN m (fun i => projection col c i * J i l) * d l))).
  { intros d. replace (sumN n (fun l => sumN m (fun i => projection col c i * J i l) * d l)) with (sumN m (fun i => projection col c i * sumN n (fun l => J i l * d l))).
    - apply sumN_derive. intros i Hi. apply scal_derive. apply HJ. exact Hi.
    - transitivity (sumN m (fun i => sumN n (fun l => projection col c i * J i l * d l))); [apply sumN_ext; intros i _; rewrite <- sumN_scal; apply sumN_ext; intros; ring|].
      rewrite sumN_swap. apply sumN_ext. intros l _. now rewrite <- sumN_scal_r. }
  pose proof (Hc pf x c (ex_intro _ _ D) j Hj) as H1. pose proof (D (unit_vec j)) as H2. rewrite (unit_sum n _ j Hj) in H2. exact (uniqueness_limite _ _ _ _ H1 H2).
Qed.
Lemma basis_jvp jvp col c i : jvp_contract jvp -> (i < m)%nat -> jvp fn x (fun j => projection col c j) i = sumN n (fun j => J i j * projection col c j).
Proof. intros Hc Hi. pose proof (HJ (fun j => projection col c j) i Hi) as H. exact (uniqueness_limite _ _ _ _ (Hc fn x _ i (ex_intro _ _ H)) H). Qed.
End Compressed.
Lemma expand_dense s g (f : (nat * nat) -> R) : wf_pattern s -> entries g = map (fun e => (fst e, f (fst e))) (entries s) ->
  (forall i j, in_pattern s i j -> todense g i j = f (i, j)) /\ (forall i j, ~ in_pattern s i j -> todense g i j = 0).
Proof.
  intros (Hn & _) He. assert (Hm : map fst (entries g) = map fst (entries s)) by (rewrite He, map_map; reflexivity). split.
  - intros i j Hi. apply in_map_iff in Hi. destruct Hi as (e & E & Hi). apply todense_in; [now rewrite Hm|]. rewrite He. apply in_map_iff. exists e. split; [now rewrite E|exact Hi].
  - intros i j Hi. apply todense_out. unfold in_pattern. now rewrite Hm.
Qed.
Section Exact.
Variables (s : bcoo) (J : nat -> nat -> R) (col : nat -> nat).
Hypothesis Hw : wf_pattern s.
Hypothesis Hc : covers s J.
Lemma rows_exact i j : proper_rows s col -> in_pattern s i j -> sumN (nrows s) (fun k => projection col (col i) k * J k j) = J i j.
Proof.
  intros Hp Hi. destruct (pattern_range s i j Hw Hi) as (Li & Lj). rewrite <- (sumN_pick (nrows s) i (fun k => J k j) Li). apply sumN_ext. intros k Hk. unfold projection.
  destruct (Nat.eqb_spec k i) as [->|Hne]; [rewrite Nat.eqb_refl; ring|]. destruct (Nat.eqb_spec (col i) (col k)) as [E|E]; [|ring].
  destruct (Req_dec (J k j) 0) as [->|Hz]; [ring|]. exfalso. apply Hne. symmetry. apply (Hp i k j Hi); [|exact E]. now apply Hc.
Qed.
Lemma cols_exact i j : proper_cols s col -> in_pattern s i j -> sumN (ncols s) (fun l => J i l * projection col (col j) l) = J i j.
Proof.
  intros Hp Hi. destruct (pattern_range s i j Hw Hi) as (Li & Lj). rewrite <- (sumN_pick (ncols s) j (fun l => J i l) Lj). apply sumN_ext. intros l Hl. unfold projection.
  destruct (Nat.eqb_spec l j) as [->|Hne]; [rewrite Nat.eqb_refl; ring|]. destruct (Nat.eqb_spec (col j) (col l)) as [E|E]; [|ring].
  destruct (Req_dec (J i l) 0) as [->|Hz]; [ring|]. exfalso. apply Hne. symmetry. apply (Hp i j l Hi); [|exact E]. now apply Hc.
Qed.
End Exact.
Lemma clamp_below k c : (c < k)%nat -> clamp k c = c.
Proof. intros H. unfold clamp. lia. Qed.

(** ** jacrev and jacfwd *)
Lemma equals_of_pattern s g J : wf_pattern s -> covers s J -> nrows g = nrows s -> ncols g = ncols s ->
  (forall i j, in_pattern s i j -> todense g i j = J i j) -> (forall i j, ~ in_pattern s i j -> todense g i j = 0) -> equals_matrix g J.
Proof.
  intros Hw Hc H1 H2 Hin Hout i j Hi Hj. rewrite H1 in Hi. rewrite H2 in Hj. destruct (pattern_dec s i j) as [H|H]; [now apply Hin|]. rewrite (Hout i j H).
  destruct (Req_dec (J i j) 0) as [->|Hz]; [reflexivity|]. exfalso. apply H. now apply Hc.
Qed.
Lemma expand_jacrev_exact s J col k compressed : wf_pattern s -> covers s J -> proper_rows s col -> (forall i, (i < nrows s)%nat -> (col i < k)%nat) ->
  (forall c j, (c < k)%nat -> (j < ncols s)%nat -> compressed c j = sumN (nrows s) (fun i => projection col c i * J i j)) ->
  same_pattern (expand_jacrev compressed col k s) s /\ equals_matrix (expand_jacrev compressed col k s) J.
Proof.
  intros Hw Hc Hp Hk HC. split; [repeat split; cbn; rewrite map_map; reflexivity|].
  destruct (expand_dense s (expand_jacrev compressed col k s) (fun ij => compressed (clamp k (col (fst ij))) (snd ij)) Hw eq_refl) as (D1 & D2).
  apply (equals_of_pattern s); auto. intros i j Hi. destruct (pattern_range s i j Hw Hi) as (Li & Lj). rewrite (D1 i j Hi). cbn [fst snd]. rewrite (clamp_below k (col i) (Hk i Li)), (HC _ _ (Hk i Li) Lj). now apply rows_exact.
Qed.
Lemma expand_jacfwd_exact s J col k compressed : wf_pattern s -> covers s J -> proper_cols s col -> (forall j, (j < ncols s)%nat -> (col j < k)%nat) ->
  (forall i c, (i < nrows s)%nat -> (c < k)%nat -> compressed i c = sumN (ncols s) (fun j => J i j * projection col c j)) ->
  same_pattern (expand_jacfwd compressed col k s) s /\ equals_matrix (expand_jacfwd compressed col k s) J.
Proof.
  intros Hw Hc Hp Hk HC. split; [repeat split; cbn; rewrite map_map; reflexivity|].
  destruct (expand_dense s (expand_jacfwd compressed col k s) (fun ij => compressed (fst ij) (clamp k (col (snd ij)))) Hw eq_refl) as (D1 & D2).
  apply (equals_of_pattern s); auto. intros i j Hi. destruct (pattern_range s i j Hw Hi) as (Li & Lj). rewrite (D1 i j Hi). cbn [fst snd]. rewrite (clamp_below k (col j) (Hk j Lj)), (HC _ _ Li (Hk j Lj)). now apply cols_exact.
Qed.
Lemma jacrev_exact jac order fn s x J : wf_pattern s -> positive s -> (0 < nrows s)%nat -> Permutation order (seq 0 (nrows s)) -> covers s J ->
  derivative (ncols s) (nrows s) fn x J -> jac_contract (ncols s) jac ->
  exists g, jacrev jac order fn s (ncols s) (nrows s) x = Ok g /\ same_pattern g s /\ equals_matrix g J.
Proof.
  intros Hw Hp Hn Ho Hc HJ Hjac. destruct (greedy_color_spec (output_connectivity s) (nrows s) order (output_sym s) Ho Hn) as (col & k & E & P1 & P2).
  unfold jacrev. rewrite E. cbn [bind]. rewrite !Nat.eqb_refl. cbn [negb fst snd]. eexists. split; [reflexivity|]. apply expand_jacrev_exact; try assumption.
  - intros i l j Hi Hl Ec. destruct (Nat.eq_dec i l) as [->|Hne]; [reflexivity|]. exfalso. revert Ec. apply P1; [apply (pattern_range s i j Hw Hi)|apply (pattern_range s l j Hw Hl)|exact Hne|now apply (output_connected s i l j)].
  - intros c j Hck Hj. now apply projected_jac with (n := ncols s).
Qed.
Lemma jacfwd_exact jvp order fn s x J : wf_pattern s -> positive s -> (0 < ncols s)%nat -> Permutation order (seq 0 (ncols s)) -> covers s J ->
  derivative (ncols s) (nrows s) fn x J -> jvp_contract jvp ->
  exists g, jacfwd jvp order fn s (ncols s) (nrows s) x = Ok g /\ same_pattern g s /\ equals_matrix g J.
Proof.
  intros Hw Hp Hn Ho Hc HJ Hjvp. destruct (greedy_color_spec (input_connectivity s) (ncols s) order (input_sym s) Ho Hn) as (col & k & E & P1 & P2).
  unfold jacfwd. rewrite E. cbn [bind]. rewrite !Nat.eqb_refl. cbn [negb fst snd]. eexists. split; [reflexivity|]. apply expand_jacfwd_exact; try assumption.
  - intros i j l Hi Hl Ec. destruct (Nat.eq_dec j l) as [->|Hne]; [reflexivity|]. exfalso. revert Ec. apply P1; [apply (pattern_range s i j Hw Hi)|apply (pattern_range s i l Hw Hl)|exact Hne|now apply (input_connected s i j l)].
  - intros i c Hi Hck. now apply (basis_jvp (ncols s) (nrows s) fn x J HJ).
Qed.
Lemma jac_shapes jac jvp order fn s n m x : (n <> ncols s \/ m <> nrows s) -> jacrev jac order fn s n m x = Err ValueError /\ jacfwd jvp order fn s n m x = Err ValueError.
Proof.
  intros H. unfold jacrev, jacfwd. assert (G : negb (Nat.eqb n (ncols s)) = true \/ negb (Nat.eqb n (ncols s)) = false /\ negb (Nat.eqb m (nrows s)) = true).
  { destruct (Nat.eqb_spec n (ncols s)), (Nat.eqb_spec m (nrows s)); cbn; tauto. }
  assert (E : forall adj k (f : (nat -> nat) * nat -> res bcoo), (forall c, f c = Err ValueError) -> bind (greedy_color adj k order) f = Err ValueError).
  { intros adj k f Hf. destruct k; [reflexivity|]. cbn [greedy_color bind]. apply Hf. }
  split; apply E; intros c; (destruct G as [G|(G & G')]; [rewrite G; reflexivity|rewrite G, G'; reflexivity]).
Qed.
Lemma jac_empty jac jvp order fn s n m x : (nrows s = 0%nat -> jacrev jac order fn s n m x = Err ValueError) /\ (ncols s = 0%nat -> jacfwd jvp order fn s n m x = Err ValueError).
Proof. split; intros H; unfold jacrev, jacfwd; rewrite H; reflexivity. Qed.

(** ** the exported frame *)
Lemma frame_rows_spec rnd dt npts ss files : forall k i, (forall j f, nth_error files j = Some f -> num_fields f = 1%nat /\ step_number f = ((i + j) * ss)%nat) ->
  frame_rows rnd dt npts ss k i files = flat_map (fun j => match nth_error files j with
     | Some f => if Nat.eqb (num_fields f) 0 then [] else map (fun p => ((k + j)%nat, p, rnd (INR (step_number f) * dt))) (seq 0 npts) | None => [] end) (seq 0 (length files)).
Proof.
  induction files as [|f r IH]; intros k i H; [reflexivity|]. cbn [frame_rows length seq flat_map nth_error]. destruct (H 0%nat f eq_refl) as (H1 & H2). f_equal.
  - rewrite H1. cbn. apply map_ext. intros p. rewrite H2, !Nat.add_0_r, mult_INR. reflexivity.
  - rewrite (IH (S k) (i + num_fields f)%nat).
    + rewrite <- seq_shift, flat_map_concat_map, flat_map_concat_map, map_map. f_equal. apply map_ext. intros j. cbn [nth_error]. destruct (nth_error r j) as [g|]; [|reflexivity]. now replace (S k + j)%nat with (k + S j)%nat by lia.
    + intros j g Hg. destruct (H (S j) g Hg) as (G1 & G2). split; [exact G1|]. rewrite G2, H1. f_equal. lia.
Qed.
Lemma data_frame_times rnd dt npts files ss : (2 <= length files)%nat -> (forall j f, nth_error files j = Some f -> num_fields f = 1%nat /\ step_number f = (j * ss)%nat) ->
  to_data_frame rnd dt npts files = Ok (timed_rows rnd dt npts files).
Proof.
  intros Hl H. unfold to_data_frame. destruct (nth_error files 1) as [f1|] eqn:E; [|apply nth_error_None in E; lia]. destruct (H 1%nat f1 E) as (N1 & S1). rewrite Nat.mul_1_l in S1.
  destruct (forallb _ files) eqn:F.
  - rewrite forallb_forall in F. apply nth_error_In in E. apply F in E. rewrite N1 in E. discriminate.
  - f_equal. rewrite (frame_rows_spec rnd dt npts (step_number f1) files 0 0); [reflexivity|]. intros j f Hf. rewrite S1. now apply H.
Qed.
(** the time printed is that of a clock that ticks once per field *)
Lemma fields_before_cons f r k : fields_before (f :: r) (S k) = (num_fields f + fields_before r k)%nat.
Proof. reflexivity. Qed.
Lemma frame_rows_clock rnd dt npts ss files : forall k i,
  frame_rows rnd dt npts ss k i files = flat_map (fun j => match nth_error files j with
     | Some f => if Nat.eqb (num_fields f) 0 then [] else map (fun p => ((k + j)%nat, p, rnd (INR (i + fields_before files j) * INR ss * dt))) (seq 0 npts) | None => [] end) (seq 0 (length files)).
Proof.
  induction files as [|f r IH]; intros k i; [reflexivity|]. cbn [frame_rows length seq flat_map nth_error]. f_equal.
  - destruct (Nat.eqb (num_fields f) 0); [reflexivity|]. apply map_ext. intros p. unfold fields_before. cbn [firstn map list_sum fold_right]. now rewrite !Nat.add_0_r.
  - rewrite (IH (S k) (i + num_fields f)%nat). rewrite <- seq_shift, flat_map_concat_map, flat_map_concat_map, map_map. f_equal. apply map_ext. intros j. cbn [nth_error]. destruct (nth_error r j) as [g|]; [|reflexivity].
    rewrite fields_before_cons. replace (S k + j)%nat with (k + S j)%nat by lia. now rewrite Nat.add_assoc.
Qed.
Lemma data_frame_clock rnd dt npts files f1 : nth_error files 1 = Some f1 -> (exists f, In f files /\ num_fields f <> 0%nat) ->
  to_data_frame rnd dt npts files = Ok (clocked_rows rnd dt npts (step_number f1) files).
Proof.
  intros H1 (f & Hf & Hn). unfold to_data_frame. rewrite H1. destruct (forallb _ files) eqn:F.
  - rewrite forallb_forall in F. apply F in Hf. apply Nat.eqb_eq in Hf. contradiction.
  - f_equal. rewrite frame_rows_clock. reflexivity.
Qed.
Lemma data_frame_all_empty rnd dt npts files : (2 <= length files)%nat -> (forall f, In f files -> num_fields f = 0%nat) -> to_data_frame rnd dt npts files = Err ValueError.
Proof.
  intros Hl H. unfold to_data_frame. destruct (nth_error files 1) as [f1|] eqn:E; [|apply nth_error_None in E; lia]. replace (forallb _ files) with true; [reflexivity|]. symmetry. apply forallb_forall. intros f Hf. now rewrite (H f Hf).
Qed.
Lemma data_frame_few rnd dt npts files : (length files < 2)%nat -> to_data_frame rnd dt npts files = Err IndexError.
Proof. intros H. unfold to_data_frame. replace (nth_error files 1) with (@None vtu); [reflexivity|]. symmetry. apply nth_error_None. lia. Qed.
Close Scope R_scope.
