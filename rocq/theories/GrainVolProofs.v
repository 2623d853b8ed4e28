(** * Proofs about grain volumes, initial state and layered meshes (C20, C21, C24). *)
From Verif Require Import Prelude PreludeFacts GrainModel GrainSpec GrainProofs.
From Coq Require Import Lra Psatz ZifyBool ZifyNat Permutation.

Lemma mapM_map {A B} (f : A -> res B) (g : A -> B) l :
  (forall x, In x l -> f x = Ok (g x)) -> mapM f l = Ok (map g l).
Proof.
  induction l as [|x l IH]; intros H; [reflexivity|]. cbn [mapM map].
  rewrite H by now left. cbn [bind]. rewrite IH by (intros; apply H; now right). reflexivity.
Qed.

Lemma lookup_all_ok {A} (l : list A) d grain : (forall g, In g grain -> g < length l) ->
  lookup_all l grain = Ok (map (fun g => nth g l d) grain).
Proof.
  intros H. apply mapM_map. intros g Hg. rewrite (nth_error_nth' l d (H g Hg)). reflexivity.
Qed.

Open Scope R_scope.
Lemma sum_repeat_const (w : R) grain n : (forall g, In g grain -> (g < n)%nat) ->
  sum_list (map (fun g => nth g (repeat w n) 0) grain) = INR (length grain) * w.
Proof.
  intros H. unfold sum_list. rewrite sumR_map.
  rewrite (sumR_ext grain _ (fun _ => w)).
  - apply sumR_const.
  - intros g Hg. apply (repeat_spec n w). apply nth_In. rewrite repeat_length. now apply H.
Qed.
Lemma sum_lengths (grains : list (list nat)) w :
  sum_list (map (fun g => INR (length g) * w) grains) = INR (length (concat grains)) * w.
Proof.
  unfold sum_list. rewrite sumR_map. induction grains as [|g r IH]; cbn [sumR concat].
  - cbn. lra.
  - rewrite IH, app_length, plus_INR. lra.
Qed.
Close Scope R_scope.

Lemma argwhere_from_length l : forall i, length (argwhere_from (fun b : bool => b) l i) = count_true l.
Proof.
  unfold count_true. induction l as [|[|] l IH]; intros i; cbn; auto.
Qed.
Lemma count_true_length solid l : NoDup l -> (forall n, In n l <-> is_solid solid n) -> length l = count_true solid.
Proof.
  intros ND H. rewrite <- (argwhere_from_length solid 0).
  apply Permutation_length, NoDup_Permutation; [exact ND|apply argwhere_NoDup|].
  intros n. rewrite H. fold (argwhere (fun b : bool => b) solid). rewrite in_argwhere. unfold is_solid.
  split.
  - intros E. exists true. auto.
  - intros (b & E & ->). exact E.
Qed.

Open Scope R_scope.
Lemma process_eta_ok pca Nx Ny Nz num_oris T Tl ori dv cents :
  length T = (Nx * Ny * Nz)%nat -> length ori = (Nx * Ny * Nz)%nat -> length cents = (Nx * Ny * Nz)%nat ->
  (forall o, In o ori -> (o < num_oris)%nat) ->
  let solid := map (fun t => Rltb t Tl) T in
  let w := dv / INR (Nx * Ny * Nz) in
  exists adj grains vols ratios,
    compute_edges_in_order Nx Ny Nz = Ok adj /\
    BFS adj solid ori num_oris = Some (Ok grains) /\
    process_eta pca Nx Ny Nz num_oris T Tl ori dv cents = Some (Ok (vols, ratios)) /\
    vols = map (fun g => INR (length g) * w) grains /\
    length ratios = length grains /\
    (forall i g, nth_error grains i = Some g -> (length g < 5)%nat -> nth_error ratios i = Some 1) /\
    sum_list vols = INR (count_true solid) * w.
Proof.
  intros HT Ho Hc Hn solid w.
  assert (Ls : length solid = (Nx * Ny * Nz)%nat) by (unfold solid; now rewrite map_length).
  destruct (grid_bfs_ok Nx Ny Nz solid ori num_oris Ls Ho Hn)
    as (adj & gr & E1 & _ & E2 & _ & ND & Hin & _ & _).
  set (grains := concat gr) in *.
  assert (Hr : forall grain, In grain grains -> forall g, In g grain -> (g < Nx * Ny * Nz)%nat).
  { intros grain Hg g Hgg. rewrite <- Ls. apply nth_error_Some. intros E.
    assert (S : is_solid solid g) by (apply Hin, in_concat; eauto). unfold is_solid in S. congruence. }
  exists adj, grains.
  unfold process_eta. rewrite E1. fold solid. rewrite E2.
  unfold get_aspect_ratio_inputs. rewrite Hc. fold w.
  rewrite (mapM_map (lookup_all (repeat w (Nx * Ny * Nz))) (map (fun g => nth g (repeat w (Nx * Ny * Nz)) 0)) grains).
  2:{ intros grain Hg. apply lookup_all_ok. rewrite repeat_length. now apply Hr. }
  cbn [bind].
  rewrite (mapM_map (lookup_all cents) (map (fun g => nth g cents (0, 0, 0))) grains).
  2:{ intros grain Hg. apply lookup_all_ok. rewrite Hc. now apply Hr. }
  cbn [bind fst snd]. unfold aspect_ratios_and_vols.
  do 2 eexists. split; [reflexivity|]. split; [reflexivity|]. split; [reflexivity|].
  assert (EV : map sum_list (map (map (fun g => nth g (repeat w (Nx * Ny * Nz)) 0)) grains)
             = map (fun g => INR (length g) * w) grains).
  { rewrite map_map. apply map_ext_in. intros grain Hg. apply sum_repeat_const. now apply Hr. }
  split; [exact EV|]. split; [|split].
  - rewrite map_length, combine_length, !map_length. lia.
  - intros i g Hi Hl. rewrite nth_error_map.
    assert (EC : nth_error (combine (map (map (fun g => nth g (repeat w (Nx * Ny * Nz)) 0)) grains)
                    (map (map (fun g => nth g cents (0, 0, 0))) grains)) i
              = Some (map (fun g => nth g (repeat w (Nx * Ny * Nz)) 0) g, map (fun g => nth g cents (0, 0, 0)) g)).
    { clear -Hi. revert i Hi. induction grains as [|x r IH]; intros [|i] Hi; cbn in *; try discriminate.
      - inversion Hi; subst. reflexivity.
      - now apply IH. }
    match goal with |- option_map ?f ?x = _ => transitivity (option_map f (Some (map (fun g => nth g (repeat w (Nx * Ny * Nz)) 0) g, map (fun g => nth g cents (0, 0, 0)) g))); [exact (f_equal (option_map f) EC)|] end.
    cbn [option_map]. rewrite map_length. destruct (Nat.ltb_spec (length g) 5); [reflexivity|lia].
  - rewrite EV, sum_lengths. f_equal. f_equal. now apply count_true_length.
Qed.
Close Scope R_scope.

(** ** Initial state *)
Lemma list_max_ge l : forall x m, fold_left Nat.max l x = m -> x <= m /\ forall y, In y l -> y <= m.
Proof.
  induction l as [|y l IH]; intros x m H; cbn in H; [subst; split; [lia|intros ? []]|].
  apply IH in H. split; [lia|]. intros z [<-|Hz]; [lia|now apply H].
Qed.

Lemma cell_orientations_ok num_grains phys grain_oris :
  phys <> [] -> (forall p, In p phys -> 1 <= p <= num_grains) -> In num_grains phys ->
  length grain_oris = num_grains ->
  cell_orientations num_grains phys grain_oris = Ok (map (fun p => nth (p - 1) grain_oris 0) phys).
Proof.
  intros Hne Hp Hm Hl. unfold cell_orientations, list_max_opt.
  destruct phys as [|p0 r]; [contradiction|]. cbn [map].
  destruct (list_max_ge (map (fun p => p - 1) r) (p0 - 1) _ eq_refl) as [M1 M2].
  set (m := fold_left Nat.max _ _) in *.
  assert (Hub : m <= num_grains - 1).
  { assert (A : forall l x b, x <= b -> (forall y, In y l -> y <= b) -> fold_left Nat.max l x <= b).
    { clear. induction l as [|y l IH]; intros x b Hx Hl; cbn; [exact Hx|]. apply IH.
      - specialize (Hl y (or_introl eq_refl)). lia.
      - intros; apply Hl; now right. }
    apply A.
    - specialize (Hp p0 (or_introl eq_refl)). lia.
    - intros y Hy. apply in_map_iff in Hy. destruct Hy as (q & <- & Hq). specialize (Hp q (or_intror Hq)). lia. }
  assert (num_grains - 1 <= m).
  { destruct Hm as [->|Hm]; [exact M1|]. apply M2. apply in_map_iff. exists num_grains. split; [reflexivity|exact Hm]. }
  pose proof (Hp _ Hm). replace (num_grains =? m + 1) with true by (symmetry; apply Nat.eqb_eq; lia).
  rewrite (lookup_all_ok grain_oris 0 (p0 - 1 :: map (fun p => p - 1) r)).
  - cbn [map]. rewrite map_map. reflexivity.
  - intros g Hg. rewrite Hl. change (In g (map (fun p => p - 1) (p0 :: r))) in Hg. apply in_map_iff in Hg.
    destruct Hg as (q & <- & Hq). specialize (Hp q Hq). lia.
Qed.

Lemma cell_orientations_wrong_count num_grains phys grain_oris :
  (forall p, In p phys -> 1 <= p < num_grains) -> phys <> [] ->
  cell_orientations num_grains phys grain_oris = Err AssertionError.
Proof.
  intros Hp Hne. unfold cell_orientations, list_max_opt. destruct phys as [|p0 r]; [contradiction|]. cbn [map].
  assert (A : forall l x b, x <= b -> (forall y, In y l -> y <= b) -> fold_left Nat.max l x <= b).
  { clear. induction l as [|y l IH]; intros x b Hx Hl; cbn; [exact Hx|]. apply IH.
    - specialize (Hl y (or_introl eq_refl)). lia.
    - intros; apply Hl; now right. }
  assert (fold_left Nat.max (map (fun p => p - 1) r) (p0 - 1) <= num_grains - 2).
  { apply A.
    - specialize (Hp p0 (or_introl eq_refl)). lia.
    - intros y Hy. apply in_map_iff in Hy. destruct Hy as (q & <- & Hq). specialize (Hp q (or_intror Hq)). lia. }
  specialize (Hp p0 (or_introl eq_refl)).
  destruct (Nat.eqb_spec num_grains (fold_left Nat.max (map (fun p => p - 1) r) (p0 - 1) + 1)); [lia|reflexivity].
Qed.

Lemma ini_cond_row M ori n o : nth_error ori n = Some o -> o < M -> one_hot M (nth n (ini_cond M ori) []) o.
Proof.
  intros Hn Ho. unfold ini_cond.
  assert (E : nth n (map (fun o => upd (repeat 0%R M) o 1%R) ori) [] = upd (repeat 0%R M) o 1%R).
  { apply nth_error_nth. now rewrite nth_error_map, Hn. }
  rewrite E. split; [now rewrite upd_length, repeat_length|].
  intros p Hp. rewrite nth_upd, repeat_length.
  rewrite (Nat.eqb_sym p o). destruct (Nat.eqb_spec o p) as [->|].
  - destruct (Nat.ltb_spec p M); [reflexivity|lia].
  - apply (repeat_spec M 0%R). apply nth_In. now rewrite repeat_length.
Qed.

(** ** Layers *)
Section Layers.
Variables (h : R) (P : list pt3) (C : list (list nat)).

Lemma stack_ok nexts : (forall q, In q nexts -> p_points q = P /\ p_cells q = C) ->
  forall prev layer,
  p_points prev = flat_map (fun l => map (layer_point h l) P) (seq 0 layer) ->
  p_cells prev = flat_map (fun l => map (map (in_layer (length P) l)) C) (seq 0 layer) ->
  p_points (stack_layers h prev layer nexts) = flat_map (fun l => map (layer_point h l) P) (seq 0 (layer + length nexts)) /\
  p_cells (stack_layers h prev layer nexts) = flat_map (fun l => map (map (in_layer (length P) l)) C) (seq 0 (layer + length nexts)).
Proof.
  induction nexts as [|q r IH]; intros Hq prev layer H1 H2; cbn [stack_layers length].
  - rewrite Nat.add_0_r. auto.
  - replace (layer + S (length r)) with (S layer + length r) by lia.
    destruct (Hq q (or_introl eq_refl)) as [Ep Ec].
    apply IH; [intros; apply Hq; now right| |]; unfold generate_new_mesh; cbn [p_points p_cells];
      rewrite seq_S, flat_map_app; cbn [flat_map]; rewrite app_nil_r, Nat.add_0_l.
    + rewrite H1, Ep. f_equal.
    + rewrite H2, Ec, Ep. f_equal. apply map_ext. intros c. apply map_ext. intros n. unfold in_layer. lia.
Qed.

Lemma layer_point_0 p : layer_point h 0 p = p.
Proof. destruct p as [[x y] z]. cbn. do 2 f_equal. lra. Qed.

Lemma stack_from_base base nexts : p_points base = P -> p_cells base = C ->
  (forall q, In q nexts -> p_points q = P /\ p_cells q = C) ->
  let m := stack_layers h base 1 nexts in
  length (p_points m) = S (length nexts) * length P /\
  length (p_cells m) = S (length nexts) * length C /\
  forall l c cell, l <= length nexts -> nth_error C c = Some cell ->
    nth_error (p_cells m) (in_layer (length C) l c) = Some (map (in_layer (length P) l) cell) /\
    forall n p, nth_error P n = Some p -> nth_error (p_points m) (in_layer (length P) l n) = Some (layer_point h l p).
Proof.
  intros HP HC Hq m.
  destruct (stack_ok nexts Hq base 1) as [E1 E2].
  { cbn. rewrite app_nil_r, HP. symmetry. rewrite <- (map_id P) at 2. apply map_ext, layer_point_0. }
  { cbn. rewrite app_nil_r, HC. symmetry. rewrite <- (map_id C) at 2. apply map_ext. intros c.
    rewrite <- (map_id c) at 2. apply map_ext. reflexivity. }
  fold m in E1, E2. rewrite E1, E2. cbn [Nat.add].
  rewrite (flat_map_const_length _ (length P)), (flat_map_const_length _ (length C)), seq_length
    by (intros; now rewrite map_length).
  split; [reflexivity|]. split; [reflexivity|].
  intros l c cell Hl Hc. unfold in_layer at 1 3.
  split.
  - rewrite (nth_error_flat_map_const _ (length C) _ l c l).
    + now rewrite nth_error_map, Hc.
    + intros; now rewrite map_length.
    + apply nth_error_Some. congruence.
    + apply nth_error_seq0. lia.
  - intros n p Hp. rewrite (nth_error_flat_map_const _ (length P) _ l n l).
    + exact (map_nth_error (layer_point h l) n P Hp).
    + intros; now rewrite map_length.
    + apply nth_error_Some. congruence.
    + apply nth_error_seq0. lia.
Qed.
End Layers.
