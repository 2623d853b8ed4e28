(** * Proofs about edges and grain segmentation (C18, C19). *)
From Verif Require Import Prelude PreludeFacts GrainModel GrainSpec.
From Coq Require Import Relations Permutation.

(** ** Edges *)
Definition inc (m : nat) (e : nat * nat) : list nat :=
  (if Nat.eqb (fst e) m then [snd e] else []) ++ (if Nat.eqb (snd e) m then [fst e] else []).

Lemma append_at_ok ll node x : node < length ll ->
  exists ll', append_at ll node x = Ok ll' /\ length ll' = length ll /\
    forall m, nth m ll' [] = nth m ll [] ++ (if Nat.eqb node m then [x] else []).
Proof.
  intros H. unfold append_at. destruct (nth_error ll node) as [l|] eqn:E.
  2:{ apply nth_error_None in E. lia. }
  eexists; split; [reflexivity|]. split; [apply upd_length|].
  intros m. rewrite nth_upd. destruct (Nat.eqb_spec node m) as [->|N].
  - destruct (Nat.ltb_spec m (length ll)); [|lia].
    now rewrite (nth_error_nth _ _ _ E).
  - now rewrite app_nil_r.
Qed.

Lemma add_edges_ok edges : forall ll,
  (forall e, In e edges -> fst e < length ll /\ snd e < length ll) ->
  exists ll', add_edges edges ll = Ok ll' /\ length ll' = length ll /\
    forall m, nth m ll' [] = nth m ll [] ++ flat_map (inc m) edges.
Proof.
  induction edges as [|[a b] r IH]; intros ll H.
  - exists ll. cbn. repeat split; auto. intros; now rewrite app_nil_r.
  - cbn [add_edges]. destruct (H (a, b) (or_introl eq_refl)) as [Ha Hb]; cbn in Ha, Hb.
    destruct (append_at_ok ll a b Ha) as (l1 & E1 & L1 & N1).
    rewrite E1. cbn [bind].
    destruct (append_at_ok l1 b a) as (l2 & E2 & L2 & N2); [lia|].
    rewrite E2. cbn [bind].
    destruct (IH l2) as (l3 & E3 & L3 & N3).
    { intros e He. rewrite L2, L1. apply H. now right. }
    exists l3. repeat split; [exact E3|lia|].
    intros m. rewrite N3, N2, N1. cbn [flat_map]. unfold inc at 2; cbn [fst snd].
    now rewrite !app_assoc.
Qed.

Lemma inc_in m e x : In x (inc m e) <-> e = (m, x) \/ e = (x, m).
Proof.
  destruct e as [a b]; unfold inc; cbn [fst snd]. rewrite in_app_iff.
  destruct (Nat.eqb_spec a m), (Nat.eqb_spec b m); cbn; subst;
    split; intros H; repeat match goal with
    | [ H : _ \/ _ |- _ ] => destruct H
    | [ H : False |- _ ] => destruct H
    | [ H : (_, _) = (_, _) |- _ ] => inversion H; clear H; subst
    end; subst; try tauto; auto.
Qed.

Lemma nodup_incident m edges : NoDup edges -> (forall e, In e edges -> fst e < snd e) ->
  NoDup (flat_map (inc m) edges).
Proof.
  induction edges as [|e r IH]; intros ND LT; [constructor|].
  cbn [flat_map]. inversion_clear ND as [|? ? Hn ND'].
  assert (Hr : NoDup (flat_map (inc m) r)) by (apply IH; auto; intros; apply LT; now right).
  pose proof (LT e (or_introl eq_refl)) as He.
  assert (D : forall x, In x (inc m e) -> ~ In x (flat_map (inc m) r)).
  { intros x Hx Hin. apply in_flat_map in Hin. destruct Hin as (e' & He' & Hx').
    pose proof (LT e' (or_intror He')) as Hlt'.
    apply inc_in in Hx. apply inc_in in Hx'.
    destruct Hx as [-> | ->], Hx' as [-> | ->]; cbn in *; try lia; contradiction. }
  unfold inc in *. destruct e as [a b]; cbn [fst snd] in *.
  destruct (Nat.eqb_spec a m), (Nat.eqb_spec b m); cbn in *; try lia; auto;
    constructor; auto.
Qed.

Lemma decode3_ex n1 n2 n3 m : m < n1 * (n2 * n3) ->
  exists i j k, i < n1 /\ j < n2 /\ k < n3 /\ m = i * (n2 * n3) + j * n3 + k.
Proof.
  intros H. destruct (decode3 n1 n2 n3 m H) as (H1 & H2 & H3 & H4).
  exists (m / n3 / n2), ((m / n3) mod n2), (m mod n3). repeat split; auto.
Qed.

Lemma NoDup_flat3 {A} n1 n2 n3 (f : nat -> nat -> nat -> A) :
  (forall i j k i' j' k', i < n1 -> j < n2 -> k < n3 -> i' < n1 -> j' < n2 -> k' < n3 ->
     f i j k = f i' j' k' -> i = i' /\ j = j' /\ k = k') ->
  NoDup (flat3 n1 n2 n3 f).
Proof.
  intros Inj. apply NoDup_nth_error. intros a b Ha Hab.
  rewrite flat3_length in Ha.
  assert (Hb : b < n1 * (n2 * n3)).
  { assert (nth_error (flat3 n1 n2 n3 f) b <> None).
    { rewrite <- Hab. apply nth_error_Some. rewrite flat3_length; lia. }
    apply nth_error_Some in H. rewrite flat3_length in H. lia. }
  destruct (decode3_ex n1 n2 n3 a ltac:(lia)) as (i & j & k & Hi & Hj & Hk & ->).
  destruct (decode3_ex n1 n2 n3 b ltac:(lia)) as (i' & j' & k' & Hi' & Hj' & Hk' & ->).
  rewrite !nth_error_flat3 in Hab by lia.
  assert (E : f i j k = f i' j' k') by congruence.
  destruct (Inj _ _ _ _ _ _ Hi Hj Hk Hi' Hj' Hk' E) as (-> & -> & ->). reflexivity.
Qed.

Lemma NoDup_app_intro {A} (l l' : list A) : NoDup l -> NoDup l' ->
  (forall x, In x l -> ~ In x l') -> NoDup (l ++ l').
Proof.
  induction l as [|x l IH]; intros H1 H2 D; [exact H2|].
  inversion_clear H1. cbn. constructor.
  - rewrite in_app_iff. intros [?|?]; [contradiction|]. apply (D x); [now left|auto].
  - apply IH; auto. intros y Hy. apply D. now right.
Qed.

Lemma cell_ind_inj Ny Nx k j i k' j' i' : j < Ny -> j' < Ny -> i < Nx -> i' < Nx ->
  cell_ind Ny Nx k j i = cell_ind Ny Nx k' j' i' -> k = k' /\ j = j' /\ i = i'.
Proof.
  unfold cell_ind. intros. apply (encode3_inj Ny Nx); auto; lia.
Qed.

Lemma cell_ind_lt Nz Ny Nx k j i : k < Nz -> j < Ny -> i < Nx -> cell_ind Ny Nx k j i < Nx * Ny * Nz.
Proof.
  unfold cell_ind. intros. pose proof (encode3_lt Nz Ny Nx k j i). nia.
Qed.

Lemma cell_ind_no Ny Nx k j i : cell_ind Ny Nx k j i = cell_no Nx Ny i j k.
Proof. unfold cell_ind, cell_no. lia. Qed.

Lemma in_grid_edges Nx Ny Nz e : In e (grid_edges Nx Ny Nz) <->
  (exists k j i, k < Nz /\ j < Ny /\ i + 1 < Nx /\ e = (cell_ind Ny Nx k j i, cell_ind Ny Nx k j (i + 1))) \/
  (exists k j i, k < Nz /\ j + 1 < Ny /\ i < Nx /\ e = (cell_ind Ny Nx k j i, cell_ind Ny Nx k (j + 1) i)) \/
  (exists k j i, k + 1 < Nz /\ j < Ny /\ i < Nx /\ e = (cell_ind Ny Nx k j i, cell_ind Ny Nx (k + 1) j i)).
Proof.
  unfold grid_edges. rewrite !in_app_iff, !in_flat3.
  split; intros [H|[H|H]]; [left|right; left|right; right|left|right; left|right; right];
    destruct H as (k & j & i & ? & ? & ? & H); exists k, j, i; repeat split; auto; lia.
Qed.

Lemma grid_edges_range Nx Ny Nz e : In e (grid_edges Nx Ny Nz) ->
  fst e < snd e /\ fst e < Nx * Ny * Nz /\ snd e < Nx * Ny * Nz.
Proof.
  rewrite in_grid_edges. intros [H|[H|H]]; destruct H as (k & j & i & ? & ? & ? & ->); cbn [fst snd];
    (split; [unfold cell_ind; nia|split; apply cell_ind_lt; lia]).
Qed.

Lemma grid_edges_NoDup Nx Ny Nz : NoDup (grid_edges Nx Ny Nz).
Proof.
  unfold grid_edges.
  repeat apply NoDup_app_intro.
  - apply NoDup_flat3. intros. apply pair_equal_spec in H5. destruct H5 as [H5 _].
    apply cell_ind_inj in H5; lia.
  - apply NoDup_flat3. intros. apply pair_equal_spec in H5. destruct H5 as [H5 _].
    apply cell_ind_inj in H5; lia.
  - apply NoDup_flat3. intros. apply pair_equal_spec in H5. destruct H5 as [H5 _].
    apply cell_ind_inj in H5; lia.
  - intros x. rewrite !in_flat3. intros (k & j & i & ? & ? & ? & ->) (k' & j' & i' & ? & ? & ? & E).
    apply pair_equal_spec in E. destruct E as [E1 E2]. unfold cell_ind in *.
    assert (Nx = Ny * Nx) by nia. nia.
  - intros x. rewrite in_app_iff, !in_flat3. intros (k & j & i & ? & ? & ? & ->) [H'|H'];
      destruct H' as (k' & j' & i' & ? & ? & ? & E); apply pair_equal_spec in E; destruct E as [E1 E2];
      unfold cell_ind in *.
    + assert (1 = Nx) by nia. lia.
    + assert (1 = Ny * Nx) by nia. nia.
Qed.

Theorem edges_in_order_ok Nx Ny Nz : exists adj, compute_edges_in_order Nx Ny Nz = Ok adj /\
  length adj = Nx * Ny * Nz /\
  forall n, NoDup (nth n adj []) /\ forall m, In m (nth n adj []) <-> face_neighbours Nx Ny Nz n m.
Proof.
  unfold compute_edges_in_order.
  destruct (add_edges_ok (grid_edges Nx Ny Nz) (repeat [] (Nx * Ny * Nz))) as (adj & E & L & N).
  { intros e He. rewrite repeat_length. apply grid_edges_range in He. tauto. }
  exists adj. rewrite repeat_length in L. repeat split; [exact E|exact L| | |].
  - rewrite N. replace (nth n (repeat [] (Nx * Ny * Nz)) []) with (@nil nat).
    + apply nodup_incident; [apply grid_edges_NoDup|]. intros e He. apply grid_edges_range in He. tauto.
    + symmetry. apply nth_repeat.
  - rewrite N, nth_repeat. cbn [app]. rewrite in_flat_map. intros (e & He & Hx).
    apply inc_in in Hx. apply in_grid_edges in He.
    destruct He as [H|[H|H]]; destruct H as (k & j & i & ? & ? & ? & ->);
      destruct Hx as [Hx|Hx]; apply pair_equal_spec in Hx; destruct Hx as [<- <-]; rewrite !cell_ind_no.
    + exists i, j, k, (i + 1), j, k. unfold dist1. repeat split; lia.
    + exists (i + 1), j, k, i, j, k. unfold dist1. repeat split; lia.
    + exists i, j, k, i, (j + 1), k. unfold dist1. repeat split; lia.
    + exists i, (j + 1), k, i, j, k. unfold dist1. repeat split; lia.
    + exists i, j, k, i, j, (k + 1). unfold dist1. repeat split; lia.
    + exists i, j, (k + 1), i, j, k. unfold dist1. repeat split; lia.
  - intros (i & j & k & i' & j' & k' & Hi & Hj & Hk & Hi' & Hj' & Hk' & -> & -> & D).
    rewrite N, nth_repeat. cbn [app]. rewrite in_flat_map.
    rewrite <- !cell_ind_no. unfold dist1 in D.
    assert (C : (i' = i + 1 /\ j' = j /\ k' = k) \/ (i = i' + 1 /\ j' = j /\ k' = k) \/
                (j' = j + 1 /\ i' = i /\ k' = k) \/ (j = j' + 1 /\ i' = i /\ k' = k) \/
                (k' = k + 1 /\ j' = j /\ i' = i) \/ (k = k' + 1 /\ j' = j /\ i' = i)) by lia.
    destruct C as [C|[C|[C|[C|[C|C]]]]]; destruct C as (-> & -> & ->).
    1: exists (cell_ind Ny Nx k j i, cell_ind Ny Nx k j (i + 1)).
    2: exists (cell_ind Ny Nx k j i', cell_ind Ny Nx k j (i' + 1)).
    3: exists (cell_ind Ny Nx k j i, cell_ind Ny Nx k (j + 1) i).
    4: exists (cell_ind Ny Nx k j' i, cell_ind Ny Nx k (j' + 1) i).
    5: exists (cell_ind Ny Nx k j i, cell_ind Ny Nx (k + 1) j i).
    6: exists (cell_ind Ny Nx k' j i, cell_ind Ny Nx (k' + 1) j i).
    all: (split; [apply in_grid_edges|apply inc_in; tauto]).
    1, 2: left; repeat eexists; lia.
    1, 2: right; left; repeat eexists; lia.
    all: right; right; repeat eexists; lia.
Qed.

Lemma face_neighbours_sym Nx Ny Nz n m : face_neighbours Nx Ny Nz n m -> face_neighbours Nx Ny Nz m n.
Proof.
  intros (i & j & k & i' & j' & k' & Hi & Hj & Hk & Hi' & Hj' & Hk' & -> & -> & D).
  exists i', j', k', i, j, k. unfold dist1 in *. repeat split; auto; lia.
Qed.

(** ** Breadth-first search *)
Section BfsProofs.
Variables (edges : list (list nat)) (solid : list bool) (ori : list nat) (num_oris : nat).
Let N := length solid.
Hypothesis Hedges : length edges = N.
Hypothesis Hori : length ori = N.
Hypothesis Hrange : forall n m, In m (nth n edges []) -> m < N.
Hypothesis Hsym : forall n m, In m (nth n edges []) -> In n (nth m edges []).
Hypothesis Hnum : forall o, In o ori -> o < num_oris.

Let adj (n m : nat) := In m (nth n edges []).
Let step := same_grain_step adj solid ori.
Let conn := connected adj solid ori.
Definition vis (v : list bool) (n : nat) : Prop := nth_error v n = Some true.

Lemma step_sym n m : step n m -> step m n.
Proof. intros (H1 & H2 & H3 & H4). repeat split; auto. apply Hsym, H1. Qed.
Lemma conn_sym n m : conn n m -> conn m n.
Proof.
  intros H. induction H as [n m H|n|n m p _ IH1 _ IH2].
  - apply rt_step, step_sym, H.
  - apply rt_refl.
  - eapply rt_trans; eauto.
Qed.
Lemma conn_trans n m p : conn n m -> conn m p -> conn n p.
Proof. intros; eapply rt_trans; eauto. Qed.
Lemma conn_ori n m : conn n m -> nth_error ori n = nth_error ori m.
Proof.
  intros H. induction H as [n m (_ & _ & _ & H)|n|n m p _ IH1 _ IH2]; congruence.
Qed.
Lemma conn_solid n m : conn n m -> is_solid solid n -> is_solid solid m.
Proof.
  intros H. induction H as [n m (_ & _ & H & _)|n|n m p _ IH1 _ IH2]; auto.
Qed.

Lemma vis_upd v n m : n < length v -> vis (upd v n true) m <-> vis v m \/ m = n.
Proof.
  intros H. unfold vis. rewrite nth_error_upd.
  destruct (Nat.eqb_spec n m) as [->|D].
  - destruct (Nat.ltb_spec m (length v)); [|lia]. tauto.
  - split; [tauto|]. intros [?|?]; [auto|congruence].
Qed.

Lemma scan_ok o cns : forall queue v, length v = N -> (forall c, In c cns -> c < N) ->
  exists new v', scan solid ori o cns queue v = Ok (queue ++ new, v') /\ length v' = N /\ NoDup new /\
    (forall n, In n new <-> In n cns /\ ~ vis v n /\ nth_error ori n = Some o /\ is_solid solid n) /\
    (forall n, vis v' n <-> vis v n \/ In n new).
Proof.
  induction cns as [|c r IH]; intros queue v Lv Hc.
  - exists [], v. cbn. rewrite app_nil_r. repeat split; auto; try constructor; try tauto.
  - cbn [scan].
    assert (Hcn : c < N) by (apply Hc; now left).
    destruct (nth_error v c) as [bv|] eqn:Ev; [|apply nth_error_None in Ev; lia].
    destruct (nth_error ori c) as [oc|] eqn:Eo; [|apply nth_error_None in Eo; lia].
    destruct (nth_error solid c) as [sc|] eqn:Es; [|apply nth_error_None in Es; unfold N in *; lia].
    destruct (negb bv && Nat.eqb oc o && sc) eqn:Eb.
    + rewrite !Bool.andb_true_iff, Bool.negb_true_iff, Nat.eqb_eq in Eb. destruct Eb as [[-> ->] ->].
      destruct (IH (queue ++ [c]) (upd v c true)) as (new & v' & E & L & ND & Hn & Hv).
      { now rewrite upd_length. } { intros; apply Hc; now right. }
      exists (c :: new), v'. rewrite E, <- app_assoc. cbn [app].
      assert (Hcv : ~ vis v c) by (unfold vis; congruence).
      split; [reflexivity|]. split; [exact L|]. split; [|split].
      * constructor; [|exact ND]. rewrite Hn. intros (_ & H & _). apply H. rewrite vis_upd by lia. now right.
      * intros n. cbn [In]. rewrite Hn, vis_upd by lia. split.
        -- intros [<-|(H1 & H2 & H3 & H4)]; [repeat split; auto; now left|].
           repeat split; auto; tauto.
        -- intros (H1 & H2 & H3 & H4). destruct (Nat.eq_dec c n) as [->|D]; [now left|].
           right. repeat split; auto.
           ++ destruct H1; [contradiction|auto].
           ++ intros [?|?]; [contradiction|now subst].
      * intros n. rewrite Hv, vis_upd by lia. cbn [In]. intuition (subst; auto).
    + destruct (IH queue v Lv) as (new & v' & E & L & ND & Hn & Hv).
      { intros; apply Hc; now right. }
      exists new, v'. split; [exact E|]. split; [exact L|]. split; [exact ND|]. split; [|exact Hv].
      intros n. rewrite Hn. cbn [In]. split.
      * intros (H1 & H2 & H3 & H4). repeat split; auto.
      * intros (H1 & H2 & H3 & H4). repeat split; auto. destruct H1 as [<-|H1]; [|exact H1].
        exfalso. rewrite Eo in H3. inversion H3; subst. unfold is_solid in H4. rewrite Es in H4.
        inversion H4; subst. rewrite Nat.eqb_refl in Eb. destruct bv; cbn in Eb; [|discriminate].
        apply H2. exact Ev.
Qed.

Lemma NoDup_lt_length (l : list nat) M : NoDup l -> (forall x, In x l -> x < M) -> length l <= M.
Proof.
  intros ND H. rewrite <- (seq_length M 0). apply NoDup_incl_length; auto.
  intros x Hx. apply in_seq. specialize (H x Hx). lia.
Qed.

Lemma is_solid_lt n : is_solid solid n -> n < N.
Proof. intros H. apply nth_error_Some. unfold is_solid in H. now rewrite H. Qed.

Lemma flood_ok (V0 : nat -> Prop) i o : forall fuel queue group v,
  length v = N ->
  N <= fuel + length group ->
  NoDup (group ++ queue) ->
  (forall n, vis v n <-> V0 n \/ In n (group ++ queue)) ->
  (forall n, In n (group ++ queue) -> ~ V0 n /\ is_solid solid n /\ nth_error ori n = Some o /\ conn i n) ->
  (forall n m, In n group -> step n m -> vis v m) ->
  exists g v', flood edges solid ori fuel o queue group v = Some (Ok (g, v')) /\ length v' = N /\
    NoDup g /\
    (forall n, vis v' n <-> V0 n \/ In n g) /\
    (forall n, In n g -> ~ V0 n /\ is_solid solid n /\ nth_error ori n = Some o /\ conn i n) /\
    (forall n m, In n g -> step n m -> vis v' m) /\
    (forall n, In n (group ++ queue) -> In n g).
Proof.
  induction fuel as [|fuel IH]; intros queue group v Lv Hf ND Hv Hin Hcl.
  - destruct queue as [|s q].
    + exists group, v. cbn. rewrite app_nil_r in *. repeat split; auto; firstorder.
    + exfalso. assert (length (group ++ s :: q) <= N).
      { apply NoDup_lt_length; auto. intros x Hx. apply is_solid_lt, Hin, Hx. }
      rewrite app_length in H. cbn in H. lia.
  - destruct queue as [|s q].
    + exists group, v. cbn. rewrite app_nil_r in *. repeat split; auto; firstorder.
    + cbn [flood].
      assert (Hs : In s (group ++ s :: q)) by (apply in_or_app; right; now left).
      destruct (Hin s Hs) as (HV0s & Hsol & Hos & Hcs).
      pose proof (is_solid_lt s Hsol) as HsN.
      destruct (nth_error edges s) as [cns|] eqn:Ee; [|apply nth_error_None in Ee; lia].
      assert (Ecns : nth s edges [] = cns) by (now apply nth_error_nth).
      destruct (scan_ok o cns q v Lv) as (new & v1 & E & L1 & NDn & Hn & Hv1).
      { intros c Hc. apply (Hrange s). now rewrite Ecns. }
      rewrite E.
      assert (Happ : forall n, In n ((group ++ [s]) ++ (q ++ new)) <-> In n (group ++ s :: q) \/ In n new).
      { intros n. rewrite !in_app_iff. cbn [In]. tauto. }
      destruct (IH (q ++ new) (group ++ [s]) v1) as (g & v' & Eg & Lg & NDg & Hvg & Hing & Hclg & Hsub).
      * exact L1.
      * rewrite app_length. cbn. lia.
      * rewrite <- app_assoc. cbn [app]. rewrite app_comm_cons, app_assoc.
        apply NoDup_app_intro; auto. intros x Hx Hx'. apply Hn in Hx'. destruct Hx' as (_ & Hx' & _).
        apply Hx', Hv. now right.
      * intros n. rewrite Happ, Hv1, Hv. tauto.
      * intros n. rewrite Happ. intros [H|H]; [now apply Hin|].
        apply Hn in H. destruct H as (H1 & H2 & H3 & H4).
        repeat split; auto.
        -- intros H0. apply H2, Hv. now left.
        -- eapply conn_trans; [exact Hcs|]. apply rt_step. repeat split; auto; [|congruence].
           unfold adj. now rewrite Ecns.
      * intros n m. rewrite in_app_iff. intros [H|[<-|[]]] St.
        -- apply Hv1. left. eapply Hcl; eauto.
        -- destruct St as (Ha & _ & Hms & Hmo). unfold adj in Ha. rewrite Ecns in Ha.
           apply Hv1. destruct (nth_error v m) as [[|]|] eqn:Em.
           ++ left. exact Em.
           ++ right. apply Hn. repeat split; auto; [unfold vis; congruence|congruence].
           ++ apply nth_error_None in Em. apply is_solid_lt in Hms. lia.
      * exists g, v'. repeat split; auto; try (apply Hing; assumption); try (apply Hvg).
        intros n Hn'. apply Hsub, Happ. now left.
Qed.

Lemma concat_upd_perm (grains : list (list (list nat))) o gs (g : list nat) :
  nth_error grains o = Some gs ->
  Permutation (concat (upd grains o (gs ++ [g]))) (concat grains ++ [g]).
Proof.
  revert o. induction grains as [|x r IH]; intros [|o] H; cbn in *; try discriminate.
  - inversion H; subst. rewrite <- !app_assoc. apply Permutation_app_head. apply Permutation_app_comm.
  - rewrite <- app_assoc. apply Permutation_app_head, IH, H.
Qed.

Lemma perm_concat {A} (l l' : list (list A)) : Permutation l l' -> Permutation (concat l) (concat l').
Proof.
  induction 1; cbn; auto.
  - now apply Permutation_app_head.
  - rewrite !app_assoc. apply Permutation_app_tail, Permutation_app_comm.
  - etransitivity; eauto.
Qed.

(** The groups found so far. *)
Definition good (G : list (list nat)) (v : list bool) : Prop :=
  NoDup (concat G) /\
  (forall n, vis v n <-> In n (concat G)) /\
  (forall g, In g G -> exists s, is_solid solid s /\ forall n, In n g <-> conn s n).

Definition placed (grains : list (list (list nat))) : Prop :=
  forall o gs g n, nth_error grains o = Some gs -> In g gs -> In n g -> nth_error ori n = Some o.

Lemma good_solid G v n : good G v -> In n (concat G) -> is_solid solid n.
Proof.
  intros (_ & _ & H) Hn. apply in_concat in Hn. destruct Hn as (g & Hg & Hn).
  destruct (H g Hg) as (s & Hs & Hc). apply Hc in Hn. eapply conn_solid; eauto.
Qed.

Lemma outer_ok idx : forall v grains, (forall i, In i idx -> i < N) ->
  length v = N -> length grains = num_oris ->
  good (concat grains) v -> placed grains ->
  exists gr, bfs_outer edges solid ori idx v grains = Some (Ok gr) /\ length gr = num_oris /\
    (exists v', length v' = N /\ good (concat gr) v' /\
      (forall n, vis v n -> vis v' n) /\ (forall i, In i idx -> is_solid solid i -> vis v' i)) /\
    placed gr.
Proof.
  induction idx as [|i r IH]; intros v grains Hidx Lv Lg HG HP.
  - exists grains. cbn. repeat split; auto. exists v. repeat split; auto; try apply HG. intros i [].
  - cbn [bfs_outer].
    assert (Hi : i < N) by (apply Hidx; now left).
    assert (Hr : forall i, In i r -> i < N) by (intros; apply Hidx; now right).
    destruct (nth_error v i) as [bv|] eqn:Ev; [|apply nth_error_None in Ev; lia].
    destruct (nth_error solid i) as [sc|] eqn:Es; [|apply nth_error_None in Es; unfold N in *; lia].
    destruct (negb bv && sc) eqn:Eb.
    + apply Bool.andb_true_iff in Eb. destruct Eb as [Eb ->]. apply Bool.negb_true_iff in Eb. subst bv.
      destruct (nth_error ori i) as [o|] eqn:Eo; [|apply nth_error_None in Eo; lia].
      assert (Ho : o < num_oris) by (apply Hnum; eapply nth_error_In; eauto).
      destruct (nth_error grains o) as [gs|] eqn:Eg; [|apply nth_error_None in Eg; lia].
      destruct HG as (ND & Hvis & Hcomp).
      assert (Hiv : ~ vis v i) by (unfold vis; congruence).
      assert (Hclosed : forall n m, vis v n -> step n m -> vis v m).
      { intros n m Hn St. apply Hvis. apply Hvis in Hn. apply in_concat in Hn.
        destruct Hn as (g & Hg & Hn). apply in_concat. exists g. split; [exact Hg|].
        destruct (Hcomp g Hg) as (s & _ & Hc). apply Hc. apply Hc in Hn.
        eapply conn_trans; [exact Hn|apply rt_step, St]. }
      destruct (flood_ok (vis v) i o (length solid) [i] [] (upd v i true)) as (g & v1 & Ef & L1 & NDg & Hv1 & Hin & Hcl & Hsub).
      * now rewrite upd_length.
      * cbn. unfold N; lia.
      * repeat constructor. intros [].
      * intros n. rewrite vis_upd by lia. cbn. intuition.
      * intros n [<-|[]]. repeat split; auto. apply rt_refl.
      * intros n m [].
      * rewrite Ef.
        assert (Hgi : In i g) by (apply Hsub; now left).
        assert (Hgc : forall n, In n g <-> conn i n).
        { intros n. split; [intros H; apply Hin, H|].
          intros H. apply clos_rt_rtn1 in H. induction H as [|y z St _ IHc]; [exact Hgi|].
          assert (Hz : vis v1 z) by (eapply Hcl; eauto).
          apply Hv1 in Hz. destruct Hz as [Hz|Hz]; [|exact Hz].
          exfalso. apply (Hin y IHc). eapply Hclosed; [exact Hz|]. apply step_sym, St. }
        pose proof (concat_upd_perm grains o gs g Eg) as PP.
        pose proof (perm_concat _ _ PP) as PPc. rewrite concat_app in PPc. cbn [concat] in PPc.
        rewrite app_nil_r in PPc.
        destruct (IH v1 (upd grains o (gs ++ [g])) Hr L1) as (gr & Er & Lr & Hv' & HPr).
        -- now rewrite upd_length.
        -- repeat split.
           ++ eapply Permutation_NoDup; [symmetry; exact PPc|].
              apply NoDup_app_intro; auto. intros x Hx Hx'. apply (Hin x Hx'), Hvis, Hx.
           ++ intros H. apply (Permutation_in _ (Permutation_sym PPc)).
              apply in_or_app. apply Hv1 in H. destruct H as [H|H]; [left; apply Hvis, H|now right].
           ++ intros H. apply (Permutation_in _ PPc) in H. apply in_app_or in H. apply Hv1.
              destruct H as [H|H]; [left; apply Hvis, H|now right].
           ++ intros g' Hg'. apply (Permutation_in _ PP) in Hg'. apply in_app_or in Hg'.
              destruct Hg' as [Hg'|[<-|[]]]; [now apply Hcomp|].
              exists i. split; [exact Es|exact Hgc].
        -- intros o' gs' g' n. rewrite nth_error_upd.
           destruct (Nat.eqb_spec o o') as [<-|Eq].
           ++ destruct (Nat.ltb_spec o (length grains)); [|lia].
              intros Es' Hg' Hn. inversion Es'; subst gs'. apply in_app_or in Hg'.
              destruct Hg' as [Hg'|[<-|[]]]; [eapply HP; eauto|]. apply Hin, Hn.
           ++ intros E' Hg' Hn. eapply HP; eauto.
        -- exists gr. split; [exact Er|]. split; [exact Lr|]. split; [|exact HPr].
           destruct Hv' as (v' & Lv' & Gv' & Mono & Cov).
           exists v'. split; [exact Lv'|]. split; [exact Gv'|]. split.
           ++ intros n Hn. apply Mono, Hv1. now left.
           ++ intros j [<-|Hj] Hsj; [apply Mono, Hv1; now right|now apply Cov].
    + destruct (IH v grains Hr Lv Lg HG HP) as (gr & Er & Lr & Hv' & HPr).
      exists gr. split; [exact Er|]. split; [exact Lr|]. split; [|exact HPr].
      destruct Hv' as (v' & Lv' & Gv' & Mono & Cov).
      exists v'. split; [exact Lv'|]. split; [exact Gv'|]. split; [exact Mono|].
      intros j [<-|Hj] Hsj; [|now apply Cov].
      unfold is_solid in Hsj. rewrite Es in Hsj. inversion Hsj; subst sc.
      destruct bv; [|discriminate]. apply Mono, Ev.
Qed.

Theorem BFS_ok : exists gr,
  BFS_grains edges solid ori num_oris = Some (Ok gr) /\
  BFS edges solid ori num_oris = Some (Ok (concat gr)) /\
  length gr = num_oris /\
  NoDup (concat (concat gr)) /\
  (forall n, In n (concat (concat gr)) <-> is_solid solid n) /\
  (forall g, In g (concat gr) -> g <> [] /\ forall n m, In n g -> (In m g <-> conn n m)) /\
  placed gr.
Proof.
  unfold BFS, BFS_grains.
  assert (Hrep : concat (repeat (@nil (list nat)) num_oris) = []).
  { clear. induction num_oris; cbn; auto. }
  destruct (outer_ok (seq 0 (length solid)) (repeat false (length solid)) (repeat [] num_oris))
    as (gr & E & L & (v' & Lv' & (ND & Hvis & Hcomp) & Mono & Cov) & HP).
  - intros i Hi. apply in_seq in Hi. unfold N; lia.
  - apply repeat_length.
  - apply repeat_length.
  - rewrite Hrep. repeat split; cbn; try tauto; try constructor.
    intros H. unfold vis in H. apply nth_error_In, repeat_spec in H. discriminate.
  - intros o gs g n H. apply nth_error_In, repeat_spec in H. subst. intros [].
  - exists gr. rewrite E. split; [reflexivity|]. split; [reflexivity|]. split; [exact L|].
    split; [exact ND|]. split; [|split; [|exact HP]].
    + intros n. split.
      * eapply good_solid. split; [exact ND|]. split; [exact Hvis|exact Hcomp].
      * intros H. apply Hvis, Cov; auto. apply in_seq. pose proof (is_solid_lt n H). unfold N in *. lia.
    + intros g Hg. destruct (Hcomp g Hg) as (s & Hs & Hc). split.
      * intros ->. assert (In s []) by (apply Hc, rt_refl). auto.
      * intros n m Hn. rewrite Hc. apply Hc in Hn. split; intros H.
        -- eapply conn_trans; [apply conn_sym, Hn|exact H].
        -- eapply conn_trans; eauto.
Qed.
End BfsProofs.

Lemma connected_ext (adj adj' : nat -> nat -> Prop) solid ori n m :
  (forall a b, adj a b <-> adj' a b) -> connected adj solid ori n m -> connected adj' solid ori n m.
Proof.
  intros H C. induction C as [n m (A & B)|n|n m p _ IH1 _ IH2].
  - apply rt_step. split; [apply H, A|exact B].
  - apply rt_refl.
  - eapply rt_trans; eauto.
Qed.

(** On the regular grid. *)
Lemma nth_in_range {A} (l : list (list A)) n x : In x (nth n l []) -> n < length l.
Proof.
  intros H. destruct (Nat.lt_ge_cases n (length l)); auto. rewrite nth_overflow in H by auto. destruct H.
Qed.

Lemma grid_bfs_ok Nx Ny Nz solid ori num_oris :
  length solid = Nx * Ny * Nz -> length ori = Nx * Ny * Nz -> (forall o, In o ori -> o < num_oris) ->
  exists adj gr, compute_edges_in_order Nx Ny Nz = Ok adj /\
    BFS_grains adj solid ori num_oris = Some (Ok gr) /\
    BFS adj solid ori num_oris = Some (Ok (concat gr)) /\
    length gr = num_oris /\
    NoDup (concat (concat gr)) /\
    (forall n, In n (concat (concat gr)) <-> is_solid solid n) /\
    (forall g, In g (concat gr) -> g <> [] /\
       forall n m, In n g -> (In m g <-> connected (face_neighbours Nx Ny Nz) solid ori n m)) /\
    (forall o gs g n, nth_error gr o = Some gs -> In g gs -> In n g -> nth_error ori n = Some o).
Proof.
  intros Hs Ho Hn. destruct (edges_in_order_ok Nx Ny Nz) as (adj & E & L & Hadj).
  destruct (BFS_ok adj solid ori num_oris) as (gr & E1 & E2 & L2 & ND & Hin & Hg & HP); try lia; auto.
  - intros n m H. apply Hadj in H. apply face_neighbours_sym in H. apply (Hadj m) in H.
    apply nth_in_range in H. lia.
  - intros n m H. apply (Hadj n) in H. apply (Hadj m). now apply face_neighbours_sym.
  - exists adj, gr. repeat split; auto; try (apply Hin; assumption).
    + apply Hg; auto.
    + intros H'. eapply connected_ext; [|exact (proj1 (proj2 (Hg g H) n m H0) H')]. intros a b. apply Hadj.
    + intros H'. apply (proj2 (Hg g H) n m); auto. eapply connected_ext; [|exact H']. intros a b. symmetry. apply Hadj.
Qed.
