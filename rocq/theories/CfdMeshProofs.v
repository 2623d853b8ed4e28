(** * Proofs about the CFD mesh tables (C27). *)
From Verif Require Import Prelude PreludeFacts GridFacts CfdMeshModel CfdMeshSpec.
From Coq Require Import Lra Psatz ZifyBool ZifyNat.
Open Scope R_scope.

Lemma padi_mid n i : (i < n)%nat -> padi n (i + 1) = i.
Proof. intros H. unfold padi. destruct (Nat.eqb_spec (i + 1) 0), (Nat.leb_spec (i + 1) n); lia. Qed.
Lemma padi_lo n i : (i < n)%nat -> padi n i = (i - 1)%nat.
Proof. intros H. unfold padi. destruct (Nat.eqb_spec i 0), (Nat.leb_spec i n); lia. Qed.
Lemma padi_hi n i : (i < n)%nat -> padi n (i + 2) = Nat.min (i + 1) (n - 1).
Proof. intros H. unfold padi. destruct (Nat.eqb_spec (i + 2) 0), (Nat.leb_spec (i + 2) n); lia. Qed.

Lemma number_idx m i j k : number (mNy m) (mNz m) (i, j, k) = cell_idx m i j k.
Proof. unfold number, cell_idx. lia. Qed.

Section M.
Variable m : mesh3.
Notation Nx := (mNx m). Notation Ny := (mNy m). Notation Nz := (mNz m).
Notation idx := (cell_idx m).

Lemma idx_lt i j k : (i < Nx)%nat -> (j < Ny)%nat -> (k < Nz)%nat -> (idx i j k < cell_num m)%nat.
Proof. intros. apply encode3_lt; assumption. Qed.
Lemma idx_ex n : (n < cell_num m)%nat ->
  exists i j k, (i < Nx)%nat /\ (j < Ny)%nat /\ (k < Nz)%nat /\ n = idx i j k.
Proof. intros H. destruct (decode3 _ _ _ _ H) as (A & B & C & D). eexists _, _, _. repeat split; eauto. Qed.
Lemma idx_inj i j k i' j' k' : (j < Ny)%nat -> (j' < Ny)%nat -> (k < Nz)%nat -> (k' < Nz)%nat ->
  idx i j k = idx i' j' k' -> i = i' /\ j = j' /\ k = k'.
Proof. apply encode3_inj. Qed.

Lemma conn_row i j k : (i < Nx)%nat -> (j < Ny)%nat -> (k < Nz)%nat ->
  nth_error (cell_conn m) (idx i j k) =
  Some [idx i j k; idx (i - 1) j k; idx (Nat.min (i + 1) (Nx - 1)) j k;
        idx i (j - 1) k; idx i (Nat.min (j + 1) (Ny - 1)) k;
        idx i j (k - 1); idx i j (Nat.min (k + 1) (Nz - 1))].
Proof.
  intros Hi Hj Hk. unfold cell_conn, cell_idx. rewrite nth_error_flat3 by assumption.
  unfold cell_index, cell_idx.
  now rewrite (padi_mid Nx i Hi), (padi_mid Ny j Hj), (padi_mid Nz k Hk), (padi_hi Nx i Hi), (padi_hi Ny j Hj),
    (padi_hi Nz k Hk), (padi_lo Nx i Hi), (padi_lo Ny j Hj), (padi_lo Nz k Hk).
Qed.

Lemma conn_spec i j k : (i < Nx)%nat -> (j < Ny)%nat -> (k < Nz)%nat ->
  exists row, nth_error (cell_conn m) (number Ny Nz (i, j, k)) = Some row /\ length row = 7%nat /\
    nth_error row 0 = Some (number Ny Nz (i, j, k)) /\
    forall s, (s < 6)%nat -> nth_error row (S s) =
      Some (number Ny Nz (match across Nx Ny Nz s i j k with Some c => c | None => (i, j, k) end)).
Proof.
  intros Hi Hj Hk. rewrite number_idx, conn_row by assumption. eexists. split; [reflexivity|].
  split; [reflexivity|]. split; [reflexivity|].
  intros s Hs. do 6 (destruct s as [|s]; [cbn [nth_error across]; f_equal;
    repeat match goal with |- context [Nat.eqb ?a ?b] => destruct (Nat.eqb_spec a b)
      | |- context [Nat.ltb ?a ?b] => destruct (Nat.ltb_spec a b) end;
    rewrite number_idx; f_equal; lia|]). lia.
Qed.

Lemma across_range s i j k i' j' k' : (i < Nx)%nat -> (j < Ny)%nat -> (k < Nz)%nat -> (s < 6)%nat ->
  across Nx Ny Nz s i j k = Some (i', j', k') ->
  (i' < Nx)%nat /\ (j' < Ny)%nat /\ (k' < Nz)%nat /\ across Nx Ny Nz (opposite s) i' j' k' = Some (i, j, k).
Proof.
  intros Hi Hj Hk Hs.
  do 6 (destruct s as [|s]; [cbn [across opposite Nat.even Nat.add Nat.sub];
    repeat match goal with |- context [Nat.eqb ?a ?b] => destruct (Nat.eqb_spec a b)
      | |- context [Nat.ltb ?a ?b] => destruct (Nat.ltb_spec a b) end; intros E; inversion E; subst;
    repeat split; try lia;
    repeat match goal with |- context [Nat.eqb ?a ?b] => destruct (Nat.eqb_spec a b)
      | |- context [Nat.ltb ?a ?b] => destruct (Nat.ltb_spec a b) end; try lia; repeat f_equal; lia|]). lia.
Qed.

Lemma opposite_lt s : (s < 6)%nat -> (opposite s < 6)%nat.
Proof. intros. do 6 (destruct s as [|s]; [cbn; lia|]). lia. Qed.

Lemma conn_mutual n s n' row : (n < cell_num m)%nat -> (s < 6)%nat ->
  nth_error (cell_conn m) n = Some row -> nth_error row (S s) = Some n' -> n' <> n ->
  exists row', nth_error (cell_conn m) n' = Some row' /\ nth_error row' (S (opposite s)) = Some n.
Proof.
  intros Hn Hs Hrow Hs' Hne. destruct (idx_ex n Hn) as (i & j & k & Hi & Hj & Hk & ->).
  destruct (conn_spec i j k Hi Hj Hk) as (row0 & R0 & _ & _ & Rs).
  rewrite number_idx, Hrow in R0. inversion R0; subst row0. rewrite (Rs s Hs) in Hs'. inversion Hs' as [E].
  destruct (across Nx Ny Nz s i j k) as [[[i' j'] k']|] eqn:A.
  - destruct (across_range s i j k i' j' k' Hi Hj Hk Hs A) as (Hi' & Hj' & Hk' & A').
    destruct (conn_spec i' j' k' Hi' Hj' Hk') as (row' & R' & _ & _ & Rs').
    exists row'. split; [exact R'|]. rewrite (Rs' _ (opposite_lt s Hs)), A'. now rewrite number_idx.
  - exfalso. apply Hne. now rewrite <- E, number_idx.
Qed.

(** ** Surfaces *)
Lemma combine_repeat {A B} (a : A) (l : list B) : combine (repeat a (length l)) l = map (pair a) l.
Proof. induction l; cbn; congruence. Qed.
Lemma combine_app {A B} (l1 r1 : list A) (l2 r2 : list B) : length l1 = length l2 ->
  combine (l1 ++ r1) (l2 ++ r2) = combine l1 l2 ++ combine r1 r2.
Proof.
  revert l2; induction l1 as [|x l1 IH]; intros [|y l2] H; cbn in *; try discriminate; [reflexivity|].
  now rewrite IH by lia.
Qed.
Lemma combine_repeat_app {A B} (a : A) n (l : list B) r r' : length l = n ->
  combine (repeat a n ++ r) (l ++ r') = map (pair a) l ++ combine r r'.
Proof. intros <-. rewrite combine_app by apply repeat_length. now rewrite combine_repeat. Qed.

Lemma pairs_eq : combine (surf_orient m) (surf_cell m) =
  flat_map (fun s => map (pair s) (nth s (side_cells m) [])) (seq 0 6).
Proof.
  unfold surf_orient, surf_cell, side_cells. cbn [concat flat_map seq nth].
  rewrite !combine_repeat_app by (rewrite flat2_length; lia).
  rewrite <- (app_nil_r (repeat 5%nat _)), combine_repeat_app by (rewrite flat2_length; lia). reflexivity.
Qed.
Lemma orient_length : length (surf_orient m) = length (surf_cell m).
Proof.
  unfold surf_orient, surf_cell, side_cells. cbn [concat]. rewrite !app_length, !repeat_length, !flat2_length.
  cbn. lia.
Qed.

Lemma NoDup_flat2' {A} n1 n2 (f : nat -> nat -> A) :
  (forall i j i' j', (i < n1)%nat -> (j < n2)%nat -> (i' < n1)%nat -> (j' < n2)%nat -> f i j = f i' j' -> i = i' /\ j = j') ->
  NoDup (flat2 n1 n2 f).
Proof.
  intros H. rewrite NoDup_nth_error. intros p q Hp E. rewrite flat2_length in Hp.
  assert (Hq : (q < n1 * n2)%nat).
  { rewrite <- (flat2_length n1 n2 f). apply nth_error_Some. rewrite <- E. apply nth_error_Some. now rewrite flat2_length. }
  destruct (decode2 n1 n2 p Hp) as (A1 & A2 & A3). destruct (decode2 n1 n2 q Hq) as (B1 & B2 & B3).
  rewrite <- A3, <- B3 in E. rewrite !nth_error_flat2 in E by assumption. inversion E as [E'].
  destruct (H _ _ _ _ A1 A2 B1 B2 E') as (C1 & C2). rewrite <- A3, <- B3, C1, C2. reflexivity.
Qed.

Lemma side_NoDup s : (0 < Nx)%nat -> (0 < Ny)%nat -> (0 < Nz)%nat -> (s < 6)%nat -> NoDup (nth s (side_cells m) []).
Proof.
  intros Px Py Pz Hs. do 6 (destruct s as [|s]; [cbn [nth side_cells]; apply NoDup_flat2'; intros * ? ? ? ? E;
    apply idx_inj in E; lia|]). lia.
Qed.

Lemma in_side s c : (0 < Nx)%nat -> (0 < Ny)%nat -> (0 < Nz)%nat -> (s < 6)%nat ->
  In c (nth s (side_cells m) []) <->
  exists i j k, (i < Nx)%nat /\ (j < Ny)%nat /\ (k < Nz)%nat /\ c = number Ny Nz (i, j, k) /\ across Nx Ny Nz s i j k = None.
Proof.
  intros Px Py Pz Hs.
  assert (G : forall i j k, across Nx Ny Nz s i j k = None <->
    match s with 0 => i = 0 | 1 => Nx <= i + 1 | 2 => j = 0 | 3 => Ny <= j + 1 | 4 => k = 0 | _ => Nz <= k + 1 end%nat).
  { intros i j k. do 6 (destruct s as [|s]; [cbn [across];
      repeat match goal with |- context [Nat.eqb ?a ?b] => destruct (Nat.eqb_spec a b)
      | |- context [Nat.ltb ?a ?b] => destruct (Nat.ltb_spec a b) end; split; intros; try discriminate; try lia; reflexivity|]). lia. }
  do 6 (destruct s as [|s]; [cbn [nth side_cells]; rewrite in_flat2; split;
    [intros (x & y & Hx & Hy & ->); eexists _, _, _; rewrite G, number_idx; repeat split; try eassumption; try lia
    |intros (i & j & k & Hi & Hj & Hk & -> & A); rewrite G in A; rewrite number_idx;
     first [exists j, k; repeat split; try assumption; f_equal; lia
           |exists i, k; repeat split; try assumption; f_equal; lia
           |exists i, j; repeat split; try assumption; f_equal; lia]]|]). lia.
Qed.

Lemma NoDup_sides (f : nat -> list nat) l : NoDup l -> (forall s, In s l -> NoDup (f s)) ->
  NoDup (flat_map (fun s => map (pair s) (f s)) l).
Proof.
  induction l as [|s l IH]; intros ND H; cbn; [constructor|]. inversion ND; subst.
  assert (G : forall x, In x (map (pair s) (f s)) -> ~ In x (flat_map (fun s => map (pair s) (f s)) l)).
  { intros x Hx Hx'. apply in_map_iff in Hx as (c & <- & _). apply in_flat_map in Hx' as (s' & Hs' & Hc).
    apply in_map_iff in Hc as (c' & E & _). inversion E; subst. contradiction. }
  assert (N1 : NoDup (map (pair s) (f s))).
  { apply FinFun.Injective_map_NoDup; [intros x y E; congruence|apply H; now left]. }
  assert (N2 : NoDup (flat_map (fun s => map (pair s) (f s)) l)) by (apply IH; auto; intros; apply H; now right).
  revert G N1. generalize (map (pair s) (f s)). intros l1; induction l1 as [|x l1 IH1]; intros G N1; cbn; [assumption|].
  inversion N1; subst. constructor.
  - rewrite in_app_iff. intros [C|C]; [contradiction|]. apply (G x); [now left|assumption].
  - apply IH1; [|assumption]. intros y Hy. apply G. now right.
Qed.

Lemma pairs_NoDup : (0 < Nx)%nat -> (0 < Ny)%nat -> (0 < Nz)%nat -> NoDup (combine (surf_orient m) (surf_cell m)).
Proof.
  intros. rewrite pairs_eq. apply NoDup_sides; [apply seq_NoDup|].
  intros s Hs. apply in_seq in Hs. apply side_NoDup; try assumption; lia.
Qed.
Lemma in_pairs s c : (0 < Nx)%nat -> (0 < Ny)%nat -> (0 < Nz)%nat ->
  In (s, c) (combine (surf_orient m) (surf_cell m)) <->
  (s < 6)%nat /\ exists i j k, (i < Nx)%nat /\ (j < Ny)%nat /\ (k < Nz)%nat /\ c = number Ny Nz (i, j, k) /\ across Nx Ny Nz s i j k = None.
Proof.
  intros. rewrite pairs_eq, in_flat_map. split.
  - intros (s' & Hs' & Hc). apply in_map_iff in Hc as (c' & E & Hc). inversion E; subst. apply in_seq in Hs'.
    split; [lia|]. apply in_side; try assumption; lia.
  - intros (Hs & Hc). exists s. split; [apply in_seq; lia|]. apply in_map, in_side; assumption.
Qed.

(** The index sets. *)
Lemma surf_sets_concat : concat (surf_sets m) = seq 0 (length (surf_cell m)).
Proof.
  unfold surf_sets, surf_cell, side_cells, arange. cbn [concat]. rewrite !app_length, !flat2_length, app_nil_r.
  cbn [length].
  replace (Ny * Nz + (Ny * Nz + (Nx * Nz + (Nx * Nz + (Nx * Ny + (Nx * Ny + 0))))))%nat with
    ((Ny * Nz - 0) + ((Ny * Nz * 2 - Ny * Nz) + ((Ny * Nz * 2 + Nx * Nz - Ny * Nz * 2)
      + ((Ny * Nz * 2 + Nx * Nz * 2 - (Ny * Nz * 2 + Nx * Nz)) + ((Ny * Nz * 2 + Nx * Nz * 2 + Nx * Ny - (Ny * Nz * 2 + Nx * Nz * 2))
      + (Ny * Nz * 2 + Nx * Nz * 2 + Nx * Ny * 2 - (Ny * Nz * 2 + Nx * Nz * 2 + Nx * Ny)))))))%nat by lia.
  rewrite !seq_app. repeat (apply (f_equal2 (@app nat)); [f_equal; lia|]). f_equal; lia.
Qed.

Lemma surf_sets_num : map (@length nat) (surf_sets m) = surf_set_num m.
Proof. unfold surf_sets, surf_set_num, arange. cbn [map]. rewrite !seq_length. repeat (apply (f_equal2 (@cons nat)); [lia|]). reflexivity. Qed.

Lemma gather_mid {A} (d : A) (l1 l2 l3 : list A) a b : a = length l1 -> b = length l2 ->
  map (fun p => nth p (l1 ++ l2 ++ l3) d) (seq a b) = l2.
Proof.
  intros -> ->. apply list_ext. intros q. rewrite nth_error_map.
  destruct (Nat.lt_ge_cases q (length l2)) as [H|H].
  - rewrite (nth_error_nth' _ 0%nat) by now rewrite seq_length. rewrite seq_nth by assumption. cbn [option_map].
    rewrite app_nth2, app_nth1 by lia. rewrite (nth_error_nth' _ d) by lia. do 2 f_equal. lia.
  - rewrite (proj2 (nth_error_None _ _)) by (rewrite seq_length; lia). cbn. symmetry. apply nth_error_None. lia.
Qed.

(** surf_cell[surf_sets[s]] is side s, and surf_orient says so. *)
Lemma gather_side s : (s < 6)%nat ->
  map (fun p => nth p (surf_cell m) 0%nat) (nth s (surf_sets m) []) = nth s (side_cells m) [].
Proof.
  intros Hs. unfold surf_cell, surf_sets, side_cells, arange. cbn [concat].
  destruct s as [|[|[|[|[|[|s]]]]]]; [| | | | | |lia]; cbn [nth].
  - apply (gather_mid _ []); [reflexivity|rewrite flat2_length; lia].
  - apply gather_mid; rewrite flat2_length; lia.
  - rewrite app_assoc. apply gather_mid; rewrite ?app_length, !flat2_length; lia.
  - rewrite 2 app_assoc. apply gather_mid; rewrite ?app_length, !flat2_length; lia.
  - rewrite 3 app_assoc. apply gather_mid; rewrite ?app_length, !flat2_length; lia.
  - rewrite 4 app_assoc. apply gather_mid; rewrite ?app_length, !flat2_length; lia.
Qed.
Lemma gather_orient s : (s < 6)%nat ->
  map (fun p => nth p (surf_orient m) 6%nat) (nth s (surf_sets m) []) =
  repeat s (length (nth s (side_cells m) [])).
Proof.
  intros Hs. unfold surf_orient, surf_sets, side_cells, arange. rewrite <- (app_nil_r (repeat 5%nat _)).
  destruct s as [|[|[|[|[|[|s]]]]]]; [| | | | | |lia]; cbn [nth]; rewrite flat2_length; rewrite ?(Nat.mul_comm Nx Ny).
  - apply (gather_mid _ []); [reflexivity|rewrite repeat_length; lia].
  - apply gather_mid; rewrite repeat_length; lia.
  - rewrite app_assoc. apply gather_mid; rewrite ?app_length, !repeat_length; lia.
  - rewrite 2 app_assoc. apply gather_mid; rewrite ?app_length, !repeat_length; lia.
  - rewrite 3 app_assoc. apply gather_mid; rewrite ?app_length, !repeat_length; lia.
  - rewrite 4 app_assoc. apply gather_mid; rewrite ?app_length, !repeat_length; lia.
Qed.

(** Geometry. *)
Lemma linspace_nth L n i : (0 < n)%nat -> (i <= n)%nat -> nth i (linspace 0 L (n + 1)) 0 = INR i * (L / INR n).
Proof.
  intros Hn Hi. unfold linspace. rewrite (nth_indep _ 0 (0 + INR 0 * ((L - 0) / INR (n + 1 - 1)))) by (rewrite map_length, seq_length; lia).
  rewrite (map_nth (fun i => 0 + INR i * ((L - 0) / INR (n + 1 - 1)))). rewrite seq_nth by lia.
  replace (n + 1 - 1)%nat with n by lia. cbn [Nat.add]. unfold Rdiv. ring.
Qed.
Lemma mid_eq L n i : (i < n)%nat -> mid L n i = (INR i + 1 / 2) * (L / INR n).
Proof.
  intros H. unfold mid. rewrite !linspace_nth by lia. rewrite plus_INR. cbn [INR]. lra.
Qed.
Lemma Xc_nth i j k : (i < Nx)%nat -> (j < Ny)%nat -> (k < Nz)%nat ->
  nth (idx i j k) (Xc m) (0, 0, 0) = centre (dXx m) (dXy m) (dXz m) i j k.
Proof.
  intros Hi Hj Hk. apply nth_error_nth. unfold Xc, cell_idx. rewrite nth_error_flat3 by assumption.
  unfold centre, dXx, dXy, dXz. now rewrite !mid_eq by assumption.
Qed.
Lemma surface_eq : surface m =
  map (fun sc => add3 (nth (snd sc) (Xc m) (0, 0, 0)) (nth (fst sc) (offsets m) (0, 0, 0)))
      (combine (surf_orient m) (surf_cell m)).
Proof.
  rewrite pairs_eq. unfold surface, side_cells, offsets. cbn [combine map concat flat_map seq nth fst snd].
  rewrite !map_app, !map_map. reflexivity.
Qed.
Lemma offset_face s i j k : (s < 6)%nat ->
  add3 (centre (dXx m) (dXy m) (dXz m) i j k) (nth s (offsets m) (0, 0, 0)) = face_centre (dXx m) (dXy m) (dXz m) s i j k.
Proof.
  intros Hs. unfold face_centre, offsets, add3, centre.
  do 6 (destruct s as [|s]; [cbn [nth normal]; repeat (apply pair_equal_spec; split); lra|]). lia.
Qed.
Lemma surface_nth p s c : (0 < Nx)%nat -> (0 < Ny)%nat -> (0 < Nz)%nat ->
  nth_error (surf_orient m) p = Some s -> nth_error (surf_cell m) p = Some c ->
  exists i j k, (i < Nx)%nat /\ (j < Ny)%nat /\ (k < Nz)%nat /\ c = number Ny Nz (i, j, k) /\
    across Nx Ny Nz s i j k = None /\
    nth_error (surface m) p = Some (face_centre (dXx m) (dXy m) (dXz m) s i j k).
Proof.
  intros Px Py Pz Hs Hc.
  assert (E : nth_error (combine (surf_orient m) (surf_cell m)) p = Some (s, c)).
  { revert Hs Hc. generalize (surf_orient m), (surf_cell m). intros l l'. revert l l'. induction p as [|p IH]; intros [|x l] [|y l'];
      cbn; try discriminate; [congruence|apply IH]. }
  pose proof (nth_error_In _ _ E) as I. apply in_pairs in I as (Hs6 & i & j & k & Hi & Hj & Hk & -> & A); try assumption.
  exists i, j, k. do 4 (split; [assumption || reflexivity|]). split; [exact A|].
  rewrite surface_eq, nth_error_map, E. cbn [option_map fst snd].
  rewrite number_idx, Xc_nth by assumption. now rewrite offset_face.
Qed.
End M.

(** ** mesh2d *)
Lemma conn2_spec m i j : (i < nNx m)%nat -> (j < nNy m)%nat ->
  exists row, nth_error (cell_conn2 m) (i * nNy m + j) = Some row /\ length row = 5%nat /\
    nth_error row 0 = Some (i * nNy m + j)%nat /\
    forall s, (s < 4)%nat -> nth_error row (S s) =
      Some (let '(i', j') := match across2 (nNx m) (nNy m) s i j with Some c => c | None => (i, j) end in i' * nNy m + j')%nat.
Proof.
  intros Hi Hj. unfold cell_conn2. rewrite nth_error_flat2 by assumption. eexists. split; [reflexivity|].
  unfold cell_index2, cell_idx2.
  rewrite (padi_mid _ i Hi), (padi_mid _ j Hj), (padi_hi _ i Hi), (padi_hi _ j Hj), (padi_lo _ i Hi), (padi_lo _ j Hj).
  split; [reflexivity|]. split; [reflexivity|].
  intros s Hs. do 4 (destruct s as [|s]; [cbn [nth_error across2]; f_equal;
    repeat match goal with |- context [Nat.eqb ?a ?b] => destruct (Nat.eqb_spec a b)
      | |- context [Nat.ltb ?a ?b] => destruct (Nat.ltb_spec a b) end; first [reflexivity | (apply (f_equal2 Nat.add); [apply (f_equal2 Nat.mul); [lia|reflexivity]|lia])]|]). lia.
Qed.

Lemma NoDup_map_inj {A B} (f : A -> B) l : (forall x y, f x = f y -> x = y) -> NoDup l -> NoDup (map f l).
Proof. intros. apply FinFun.Injective_map_NoDup; assumption. Qed.
Lemma surf2 m : (0 < nNx m)%nat -> (0 < nNy m)%nat ->
  concat (surf_sets2 m) = seq 0 (length (surf_cell2 m)) /\
  forall s, (s < 4)%nat ->
    NoDup (map (fun p => nth p (surf_cell2 m) 0%nat) (nth s (surf_sets2 m) [])) /\
    forall c, In c (map (fun p => nth p (surf_cell2 m) 0%nat) (nth s (surf_sets2 m) [])) <->
      exists i j, (i < nNx m)%nat /\ (j < nNy m)%nat /\ c = (i * nNy m + j)%nat /\ across2 (nNx m) (nNy m) s i j = None.
Proof.
  intros Px Py. split.
  - unfold surf_sets2, surf_cell2, side_cells2, arange. cbn [concat]. rewrite !app_length, !map_length, !seq_length, app_nil_r.
    cbn [length].
    replace (nNy m + (nNy m + (nNx m + (nNx m + 0))))%nat with
      ((nNy m - 0) + ((nNy m * 2 - nNy m) + ((nNy m * 2 + nNx m - nNy m * 2) + (nNy m * 2 + nNx m * 2 - (nNy m * 2 + nNx m)))))%nat by lia.
    rewrite !seq_app. repeat (apply (f_equal2 (@app nat)); [f_equal; lia|]). f_equal; lia.
  - intros s Hs.
    assert (G : map (fun p => nth p (surf_cell2 m) 0%nat) (nth s (surf_sets2 m) []) = nth s (side_cells2 m) []).
    { unfold surf_cell2, surf_sets2, side_cells2, arange. cbn [concat].
      destruct s as [|[|[|[|s]]]]; [| | | |lia]; cbn [nth].
      - apply (gather_mid _ []); [reflexivity|rewrite map_length, seq_length; lia].
      - apply gather_mid; rewrite map_length, seq_length; lia.
      - rewrite app_assoc. apply gather_mid; rewrite ?app_length, !map_length, !seq_length; lia.
      - rewrite 2 app_assoc. apply gather_mid; rewrite ?app_length, !map_length, !seq_length; lia. }
    rewrite G. clear G.
    assert (G : forall i j, across2 (nNx m) (nNy m) s i j = None <->
      match s with 0 => i = 0 | 1 => nNx m <= i + 1 | 2 => j = 0 | _ => nNy m <= j + 1 end%nat).
    { intros i j. do 4 (destruct s as [|s]; [cbn [across2];
        repeat match goal with |- context [Nat.eqb ?a ?b] => destruct (Nat.eqb_spec a b)
        | |- context [Nat.ltb ?a ?b] => destruct (Nat.ltb_spec a b) end; split; intros; try discriminate; try lia; reflexivity|]). lia. }
    do 4 (destruct s as [|s]; [cbn [nth side_cells2]; split;
      [apply NoDup_map_inj; [unfold cell_idx2; intros; nia|apply seq_NoDup]
      |intros c; rewrite in_map_iff; split;
        [intros (x & <- & Hx); apply in_seq in Hx; eexists _, _; rewrite G; unfold cell_idx2; repeat split; lia
        |intros (i & j & Hi & Hj & -> & A); rewrite G in A; unfold cell_idx2;
         first [exists i; split; [f_equal; lia|apply in_seq; lia] | exists j; split; [nia|apply in_seq; lia]]]]|]). lia.
Qed.
