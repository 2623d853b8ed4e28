From Coq Require Import Lra FunctionalExtensionality.
From Verif Require Import Prelude PreludeFacts FemModel FemFacts FemSpec.
Open Scope R_scope.

(** ** C40: batches *)
Section Batches.
Context {V : Type}.
Variable F : fem V.
Context {B : Type}.
Variable fn : nodal -> (nat -> nat -> nat -> R) -> (nat -> R) -> (nat -> nat -> nat -> R) -> list (nat -> V) -> list (nat -> V) -> B.

Definition entry (x : inputs V) (i : nat) : res B :=
  match nth_error (in_sol x) i, nth_error (in_grads x) i, nth_error (in_JxW x) i, nth_error (in_vg x) i,
        mapM (fun l => match nth_error l i with Some v => Ok v | None => Err IndexError end) (in_mass x),
        mapM (fun l => match nth_error l i with Some v => Ok v | None => Err IndexError end) (in_lap x) with
  | Some s, Some g, Some w, Some vg, Ok mv, Ok lv => Ok (fn s g w vg mv lv)
  | _, _, _, _, _, _ => Err IndexError
  end.
Definition same_sizes (n : nat) (x : inputs V) : Prop :=
  length (in_sol x) = n /\ length (in_grads x) = n /\ length (in_JxW x) = n /\ length (in_vg x) = n
  /\ Forall (fun l => length l = n) (in_mass x) /\ Forall (fun l => length l = n) (in_lap x).

Lemma vmap_ok n x : same_sizes n x -> vmap_fn fn x = mapM (entry x) (seq 0 n).
Proof.
  intros (H1 & H2 & H3 & H4 & H5 & H6). unfold vmap_fn. rewrite H1, H2, H3, H4.
  rewrite !Nat.eqb_refl. cbn [andb].
  assert (H5' : forallb (fun l : list (nat -> V) => Nat.eqb (length l) n) (in_mass x) = true).
  { apply forallb_forall. intros l Hl. apply Nat.eqb_eq. rewrite Forall_forall in H5. auto. }
  assert (H6' : forallb (fun l : list (nat -> V) => Nat.eqb (length l) n) (in_lap x) = true).
  { apply forallb_forall. intros l Hl. apply Nat.eqb_eq. rewrite Forall_forall in H6. auto. }
  rewrite H5', H6'. reflexivity.
Qed.
Lemma vmap_bad x : vmap_fn fn x = Err ValueError \/ same_sizes (length (in_sol x)) x.
Proof.
  unfold vmap_fn. destruct (_ && _) eqn:E; [right|now left].
  repeat (apply andb_prop in E; destruct E as (E & ?)).
  repeat match goal with H : Nat.eqb _ _ = true |- _ => apply Nat.eqb_eq in H end.
  repeat match goal with H : forallb _ _ = true |- _ => rewrite forallb_forall in H end.
  repeat split; auto; apply Forall_forall; intros l Hl; apply Nat.eqb_eq; auto.
Qed.

Lemma nth_error_slice {X} (l : list X) m k i : (i < k)%nat -> nth_error (firstn k (skipn m l)) i = nth_error l (m + i).
Proof.
  intros H. revert l. induction m as [|m IH]; intros l; cbn [skipn plus].
  - revert i l H. induction k as [|k IHk]; intros i l H; [lia|]. destruct l as [|x l]; [reflexivity|].
    destruct i as [|i]; cbn; [reflexivity|]. apply IHk. lia.
  - destruct l as [|x l].
    + rewrite firstn_nil. destruct i; reflexivity.
    + rewrite IH. reflexivity.
Qed.
Lemma entry_slice x m k i : (i < k)%nat ->
  entry (tree_map (fun _ l => firstn k (skipn m l)) x) i = entry x (m + i).
Proof.
  intros H. unfold entry, tree_map; cbn. rewrite !nth_error_slice, !mapM_of_map by exact H.
  now rewrite !(mapM_ext_in _ (fun l => match nth_error l (m + i) with Some v => Ok v | None => Err IndexError end)
     _ (fun l _ => f_equal (fun o => match o with Some v => Ok v | None => Err IndexError end) (nth_error_slice l m k i H))).
Qed.
Lemma slice_length {X} (l : list X) m k n : length l = n -> (m + k <= n)%nat -> length (firstn k (skipn m l)) = k.
Proof. intros H1 H2. rewrite firstn_length, skipn_length. lia. Qed.
Lemma same_sizes_slice n x m k : same_sizes n x -> (m + k <= n)%nat ->
  same_sizes k (tree_map (fun _ l => firstn k (skipn m l)) x).
Proof.
  intros (H1 & H2 & H3 & H4 & H5 & H6) H. unfold same_sizes, tree_map; cbn.
  repeat split; try (apply slice_length with n; assumption).
  - apply Forall_map. eapply Forall_impl; [|exact H5]. intros l Hl. cbn. now apply slice_length with n.
  - apply Forall_map. eapply Forall_impl; [|exact H6]. intros l Hl. cbn. now apply slice_length with n.
Qed.
Lemma vmap_slice n x m k : same_sizes n x -> (m + k <= n)%nat ->
  vmap_fn fn (tree_map (fun _ l => firstn k (skipn m l)) x) = mapM (entry x) (seq m k).
Proof.
  intros H Hk. rewrite (vmap_ok k) by now apply same_sizes_slice with n.
  replace (seq m k) with (map (fun i => (m + i)%nat) (seq 0 k)).
  - rewrite mapM_of_map. apply mapM_ext_in. intros i Hi. apply in_seq in Hi. apply entry_slice. lia.
  - clear. assert (G : forall s, map (fun i => (m + i)%nat) (seq s k) = seq (m + s) k).
    { induction k as [|k IH]; intros s; cbn; [reflexivity|]. f_equal. rewrite IH. f_equal. lia. }
    rewrite G. f_equal. lia.
Qed.

Lemma concat_seqs b k r : concat (map (fun i => seq (i * b) b) (seq 0 k)) ++ seq (k * b) r = seq 0 (k * b + r).
Proof.
  rewrite seq_app. cbn [plus]. f_equal.
  induction k as [|k IH]; [reflexivity|].
  rewrite seq_S, map_app, concat_app, IH. cbn. rewrite app_nil_r.
  replace (b + k * b)%nat with (k * b + b)%nat by lia. now rewrite seq_app.
Qed.

Lemma last_slice n x m : same_sizes n x ->
  tree_map (fun _ l => skipn m l) x = tree_map (fun _ l => firstn (n - m) (skipn m l)) x.
Proof.
  assert (G : forall X (l : list X), length l = n -> skipn m l = firstn (n - m) (skipn m l)).
  { intros X l H. symmetry. apply firstn_all2. rewrite skipn_length. lia. }
  intros (H1 & H2 & H3 & H4 & H5 & H6). unfold tree_map. f_equal; try (now apply G).
  - apply map_ext_in. intros l Hl. apply G. rewrite Forall_forall in H5. auto.
  - apply map_ext_in. intros l Hl. apply G. rewrite Forall_forall in H6. auto.
Qed.

Lemma batches_cover n : (0 < n)%nat ->
  let cuts := if Nat.ltb n 20 then n else 20%nat in
  (0 < cuts)%nat /\ (0 < n / cuts)%nat /\ ((cuts - 1) * (n / cuts) < n)%nat.
Proof.
  intros H. cbn zeta.
  assert (Hc : (0 < (if Nat.ltb n 20 then n else 20) <= n)%nat) by (destruct (Nat.ltb_spec n 20); lia).
  generalize dependent (if Nat.ltb n 20 then n else 20%nat). intros cuts Hc.
  split; [lia|]. assert (0 < n / cuts)%nat by (apply Nat.div_str_pos; lia).
  split; [assumption|]. pose proof (Nat.mul_div_le n cuts). nia.
Qed.

Lemma split_direct x : (0 < num_cells F)%nat -> same_sizes (num_cells F) x ->
  split_and_compute_cell F fn x = mapM (entry x) (seq 0 (num_cells F)).
Proof.
  intros H0 Hx. unfold split_and_compute_cell.
  pose proof (batches_cover (num_cells F) H0) as (Hc & Hb & Hl). cbv zeta in Hc, Hb, Hl |- *.
  set (cuts := if Nat.ltb (num_cells F) 20 then num_cells F else 20%nat) in *.
  set (b := (num_cells F / cuts)%nat) in *.
  destruct (Nat.eqb_spec cuts 0) as [|_]; [lia|].
  erewrite (mapM_concat _ (entry x) (fun i => if Nat.ltb i (cuts - 1) then seq (i * b) b else seq (i * b) (num_cells F - i * b))).
  - f_equal. assert (Es : seq 0 cuts = seq 0 (cuts - 1) ++ [(cuts - 1)%nat]).
    { replace cuts with (S (cuts - 1)) at 1 by lia. apply seq_S. }
    rewrite Es, map_app, concat_app. cbn [map concat plus]. rewrite Nat.ltb_irrefl, app_nil_r.
    rewrite (map_ext_in _ (fun i => seq (i * b) b)).
    + rewrite concat_seqs. f_equal. nia.
    + intros i Hi. apply in_seq in Hi. destruct (Nat.ltb_spec i (cuts - 1)); [reflexivity|lia].
  - intros i Hi. apply in_seq in Hi. destruct (Nat.ltb_spec i (cuts - 1)).
    + replace ((i + 1) * b - i * b)%nat with b by nia. apply vmap_slice with (num_cells F); [assumption|nia].
    + assert (i = (cuts - 1)%nat) as -> by lia.
      rewrite (last_slice (num_cells F)) by assumption.
      apply vmap_slice with (num_cells F); [assumption|nia].
Qed.

Lemma vars_at_ok (leaves : list (list (nat -> V))) c : Forall (fun l => length l = num_cells F) leaves -> (c < num_cells F)%nat ->
  mapM (fun l => match nth_error l c with Some v => Ok v | None => Err IndexError end) leaves = Ok (vars_at leaves c).
Proof.
  intros H Hc. induction H as [|l ls Hl Hs IH]; [reflexivity|].
  cbn. destruct (nth_error l c) eqn:E.
  - cbn in IH |- *. rewrite IH. reflexivity.
  - apply nth_error_None in E. lia.
Qed.
Lemma entry_ok x c : inputs_sized F x -> (c < num_cells F)%nat ->
  exists s g w vg, nth_error (in_sol x) c = Some s /\ nth_error (in_grads x) c = Some g /\ nth_error (in_JxW x) c = Some w
    /\ nth_error (in_vg x) c = Some vg /\ entry x c = Ok (fn s g w vg (vars_at (in_mass x) c) (vars_at (in_lap x) c)).
Proof.
  intros (H1 & H2 & H3 & H4 & H5 & H6) Hc. unfold entry. rewrite !vars_at_ok by assumption.
  assert (G : forall X (l : list X), length l = num_cells F -> exists v, nth_error l c = Some v).
  { intros X l Hl. destruct (nth_error l c) eqn:E; [eauto|]. apply nth_error_None in E. lia. }
  destruct (G _ _ H1) as (s & ->), (G _ _ H2) as (g & ->), (G _ _ H3) as (w & ->), (G _ _ H4) as (vg & ->).
  exists s, g, w, vg. auto.
Qed.

(** The statement of C40. *)
Lemma split_spec x : inputs_sized F x -> (0 < num_cells F)%nat ->
  exists ys, split_and_compute_cell F fn x = Ok ys /\ length ys = num_cells F /\
  forall c, (c < num_cells F)%nat -> exists s g w vg,
    nth_error (in_sol x) c = Some s /\ nth_error (in_grads x) c = Some g /\ nth_error (in_JxW x) c = Some w
    /\ nth_error (in_vg x) c = Some vg /\ nth_error ys c = Some (fn s g w vg (vars_at (in_mass x) c) (vars_at (in_lap x) c)).
Proof.
  intros Hx H0. rewrite split_direct by (auto; destruct Hx as (?&?&?&?&?&?); repeat split; assumption).
  destruct (mapM (entry x) (seq 0 (num_cells F))) as [ys|e] eqn:E.
  - exists ys. split; [reflexivity|]. split; [apply mapM_ok_length in E; now rewrite E, seq_length|].
    intros c Hc. destruct (entry_ok x c Hx Hc) as (s & g & w & vg & ? & ? & ? & ? & He).
    exists s, g, w, vg. repeat split; auto.
    destruct (mapM_ok_nth _ _ _ c c E) as (y & Hy & Hn); [now apply nth_error_seq0|]. congruence.
  - exfalso. apply mapM_err in E. destruct E as (c & Hc & He). apply in_seq in Hc.
    destruct (entry_ok x c Hx) as (? & ? & ? & ? & _ & _ & _ & _ & Ho); [lia|]. congruence.
Qed.
Lemma split_zero x : num_cells F = 0%nat -> split_and_compute_cell F fn x = Err ZeroDivisionError.
Proof. intros H. unfold split_and_compute_cell. now rewrite H. Qed.

(** An internal variable (or anything else) of another length is rejected. *)
Lemma split_bad_sizes x : (0 < num_cells F)%nat -> length (in_sol x) = num_cells F -> ~ inputs_sized F x ->
  split_and_compute_cell F fn x = Err ValueError.
Proof.
  intros H0 Hs Hx. unfold split_and_compute_cell.
  pose proof (batches_cover (num_cells F) H0) as (Hc & Hb & Hl). cbv zeta in Hc, Hb, Hl |- *.
  set (cuts := if Nat.ltb (num_cells F) 20 then num_cells F else 20%nat) in *.
  set (b := (num_cells F / cuts)%nat) in *.
  destruct (Nat.eqb_spec cuts 0) as [|_]; [lia|].
  match goal with |- bind (mapM ?g _) _ = _ => set (f := g) end.
  assert (Hlast : f (cuts - 1)%nat = Err ValueError).
  { unfold f. rewrite Nat.ltb_irrefl. set (m := ((cuts - 1) * b)%nat) in *.
    destruct (vmap_bad (tree_map (fun _ l => skipn m l) x)) as [|Hok]; [assumption|]. exfalso. apply Hx.
    unfold same_sizes, tree_map in Hok. cbn [in_sol in_grads in_JxW in_vg in_mass in_lap] in Hok.
    destruct Hok as (_ & K2 & K3 & K4 & K5 & K6).
    assert (G : forall X (l : list X), length (skipn m l) = length (skipn m (in_sol x)) -> length l = num_cells F).
    { intros X l E. rewrite !skipn_length in E. lia. }
    repeat split; auto; try (apply G; assumption).
    - apply Forall_forall. intros l Hl'. rewrite Forall_map, Forall_forall in K5. apply G. auto.
    - apply Forall_forall. intros l Hl'. rewrite Forall_map, Forall_forall in K6. apply G. auto. }
  destruct (mapM f (seq 0 cuts)) as [v|e] eqn:Em.
  - exfalso. destruct (mapM_ok_nth _ _ _ (cuts - 1) (cuts - 1)%nat Em) as (y & Hy & _).
    + apply nth_error_seq0. lia.
    + congruence.
  - cbn. f_equal. assert (Hall : forall i, f i = Err ValueError \/ exists v, f i = Ok v).
    { intros i. unfold f. destruct (vmap_bad (tree_map (if Nat.ltb i (cuts - 1) then fun _ l => firstn ((i + 1) * b - i * b) (skipn (i * b) l) else fun _ l => skipn (i * b) l) x)) as [|Hok]; [now left|].
      right. rewrite (vmap_ok _ _ Hok). set (x' := tree_map _ x) in *.
      destruct (mapM (entry x') (seq 0 (length (in_sol x')))) as [v|e'] eqn:E; [eauto|].
      exfalso. apply mapM_err in E. destruct E as (c & Hcin & He). apply in_seq in Hcin.
      destruct Hok as (K1 & K2 & K3 & K4 & K5 & K6). unfold entry in He.
      assert (G : forall X (l : list X), length l = length (in_sol x') -> exists v, nth_error l c = Some v).
      { intros X l Hl'. destruct (nth_error l c) eqn:E; [eauto|]. apply nth_error_None in E. lia. }
      assert (GM : forall ls : list (list (nat -> V)), Forall (fun l => length l = length (in_sol x')) ls ->
        exists v, mapM (fun l => match nth_error l c with Some v => Ok v | None => Err IndexError end) ls = Ok v).
      { induction 1 as [|l ls Hl' _ (v & IH)]; [now exists []|]. destruct (G _ _ Hl') as (u & Hu). exists (u :: v). cbn. rewrite Hu. cbn. now rewrite IH. }
      destruct (G _ _ K1) as (? & R1), (G _ _ K2) as (? & R2), (G _ _ K3) as (? & R3), (G _ _ K4) as (? & R4), (GM _ K5) as (? & R5), (GM _ K6) as (? & R6).
      rewrite R1, R2, R3, R4, R5, R6 in He. discriminate. }
    apply mapM_err in Em. destruct Em as (i & _ & Hi). destruct (Hall i) as [Hi'|(v & Hi')]; congruence.
Qed.
End Batches.
Close Scope R_scope.
