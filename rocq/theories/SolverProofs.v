(** * Proofs about boundary conditions and the row-elimination solver. *)
From Coq Require Import FunctionalExtensionality Lra.
From Verif Require Import Prelude PreludeFacts FemModel FemFacts SolverModel SolverSpec.
Open Scope R_scope.

(** ** Lookup of the last entry *)
Definition hit (n k : nat) (u : (nat * nat) * R) : bool := Nat.eqb n (fst (fst u)) && Nat.eqb k (snd (fst u)).
Definition lookup (n k : nat) (l : list ((nat * nat) * R)) : option R := option_map snd (find (hit n k) (rev l)).
Lemma find_app {A} (p : A -> bool) l m : find p (l ++ m) = match find p l with Some x => Some x | None => find p m end.
Proof. induction l as [|x l IH]; cbn; [reflexivity|]. destruct (p x); [reflexivity|exact IH]. Qed.
Lemma lookup_app n k l m : lookup n k (l ++ m) = match lookup n k m with Some v => Some v | None => lookup n k l end.
Proof. unfold lookup. rewrite rev_app_distr, find_app. destruct (find _ (rev m)); reflexivity. Qed.
Lemma lookup_nil n k : lookup n k [] = None. Proof. reflexivity. Qed.
Lemma lookup_one n k u : lookup n k [u] = if hit n k u then Some (snd u) else None.
Proof. unfold lookup. cbn. destruct (hit n k u); reflexivity. Qed.
Lemma lookup_in n k l v : lookup n k l = Some v -> In ((n, k), v) l.
Proof.
  unfold lookup. destruct (find (hit n k) (rev l)) as [[[a b] w]|] eqn:E; cbn; [|discriminate]. intros [= <-].
  apply find_some in E. destruct E as [Hin Hh]. rewrite <- in_rev in Hin.
  unfold hit in Hh. cbn in Hh. apply andb_prop in Hh as [H1 H2]. apply Nat.eqb_eq in H1, H2. subst. exact Hin.
Qed.
Lemma lookup_none n k l v : lookup n k l = None -> ~ In ((n, k), v) l.
Proof.
  unfold lookup. destruct (find (hit n k) (rev l)) as [u|] eqn:E; cbn; [discriminate|]. intros _ Hin.
  apply (find_none _ _ E) in Hin || (rewrite in_rev in Hin; apply (find_none _ _ E) in Hin).
  unfold hit in Hin. cbn in Hin. rewrite !Nat.eqb_refl in Hin. discriminate.
Qed.
Lemma lookup_none_iff n k l : lookup n k l = None <-> ~ In (n, k) (map fst l).
Proof.
  split.
  - intros H Hin. apply in_map_iff in Hin as ([p v] & E & Hin). cbn in E. subst p. exact (lookup_none n k l v H Hin).
  - intros H. destruct (lookup n k l) as [v|] eqn:E; [|reflexivity]. exfalso. apply H. apply lookup_in in E.
    apply in_map_iff. exists ((n, k), v). split; [reflexivity|exact E].
Qed.

Lemma map_fst_combine {A B} (l : list A) (m : list B) : length l = length m -> map fst (combine l m) = l.
Proof. revert m. induction l as [|x l IH]; intros [|y m]; cbn; try discriminate; [reflexivity|]. intros [= H]. rewrite IH by exact H. reflexivity. Qed.
Lemma set_at_spec a idx vals n k :
  set_at a idx vals n k = match lookup n k (combine idx vals) with Some v => v | None => a n k end.
Proof.
  unfold set_at. revert a. induction (combine idx vals) as [|u l IH] using rev_ind; intros a; [reflexivity|].
  rewrite fold_left_app. cbn [fold_left]. rewrite lookup_app, lookup_one. unfold here, hit.
  destruct (Nat.eqb n (fst (fst u)) && Nat.eqb k (snd (fst u))); [reflexivity|]. apply IH.
Qed.
Lemma add_at_spec a idx vals n k : NoDup idx -> length idx = length vals ->
  add_at a idx vals n k = match lookup n k (combine idx vals) with Some v => a n k + v | None => a n k end.
Proof.
  intros Hnd Hl. unfold add_at.
  assert (Hnd' : NoDup (map fst (combine idx vals))).
  { rewrite map_fst_combine; [exact Hnd|exact Hl]. }
  clear Hnd Hl. revert a. induction (combine idx vals) as [|u l IH] using rev_ind; intros a; [reflexivity|].
  rewrite fold_left_app. cbn [fold_left]. rewrite lookup_app, lookup_one.
  rewrite map_app in Hnd'. cbn in Hnd'. apply NoDup_remove in Hnd' as [H1 H2]. rewrite app_nil_r in H1, H2.
  specialize (IH H1 a). change (here n k (fst u)) with (hit n k u). destruct (hit n k u) eqn:E; [|exact IH].
  replace (lookup n k l) with (@None R) in IH.
  { rewrite IH. reflexivity. }
  symmetry. apply lookup_none_iff. unfold hit in E. apply andb_prop in E as [E1 E2]. apply Nat.eqb_eq in E1, E2.
  subst. destruct (fst u); exact H2.
Qed.

(** a value list built position by position from the index list *)
Lemma lookup_combine_map n k idx (f : nat * nat -> R) :
  lookup n k (combine idx (map f idx)) = if existsb (here n k) idx then Some (f (n, k)) else None.
Proof.
  induction idx as [|p l IH] using rev_ind; [reflexivity|].
  rewrite map_app, combine_app by (rewrite map_length; reflexivity). rewrite lookup_app. cbn [map combine].
  rewrite lookup_one, existsb_app. cbn [existsb]. rewrite orb_false_r. unfold hit at 1. cbn [fst snd]. fold (here n k p).
  destruct (here n k p) eqn:E.
  - rewrite orb_true_r. unfold here in E. apply andb_prop in E as [E1 E2]. apply Nat.eqb_eq in E1, E2. subst. destruct p; reflexivity.
  - rewrite orb_false_r. exact IH.
Qed.
Lemma lookup_combine_none n k idx vals : length idx = length vals ->
  lookup n k (combine idx vals) = None <-> existsb (here n k) idx = false.
Proof.
  intros Hl. rewrite lookup_none_iff, map_fst_combine by exact Hl. split.
  - intros H. apply Bool.not_true_is_false. intros E. apply existsb_exists in E as ([a b] & Hin & E).
    unfold here in E. apply andb_prop in E as [E1 E2]. apply Nat.eqb_eq in E1, E2. cbn in E1, E2. subst. exact (H Hin).
  - intros E Hin. assert (existsb (here n k) idx = true); [|congruence]. apply existsb_exists. exists (n, k). split; [exact Hin|].
    unfold here. cbn. rewrite !Nat.eqb_refl. reflexivity.
Qed.

Section P.
Variable P : problem.
Local Notation N := (num_total_dofs P).

(** the conditions numbered in l *)
Definition conds_of (l : list nat) : list ((nat * nat) * R) := flat_map (fun i => combine (bc_idx P i) (bc_vals P i)) l.
Lemma prescribed_lookup n k : prescribed P n k = lookup n k (conds_of (bc_range P)).
Proof. reflexivity. Qed.
Lemma conds_of_app l m : conds_of (l ++ m) = conds_of l ++ conds_of m.
Proof. apply flat_map_app. Qed.
Lemma conds_of_one i : conds_of [i] = combine (bc_idx P i) (bc_vals P i).
Proof. unfold conds_of. cbn. apply app_nil_r. Qed.

Lemma bc_idx_len i : bc_ok P -> (i < length (node_inds_list P))%nat -> length (bc_idx P i) = length (bc_vals P i) /\ NoDup (bc_idx P i)
  /\ length (bc_idx P i) = length (nth i (node_inds_list P) []).
Proof.
  intros H Hi. destruct (H i Hi) as (H1 & H2 & H3 & _). unfold bc_idx, bc_vals. rewrite combine_length. rewrite H1, Nat.min_id.
  split; [symmetry; exact H2|]. split; [exact H3|reflexivity].
Qed.
Lemma bc_idx_range i p : bc_ok P -> (i < length (node_inds_list P))%nat -> In p (bc_idx P i) -> (fst p < num_nodes_p P)%nat /\ (snd p < pvec P)%nat.
Proof.
  intros H Hi Hp. destruct (H i Hi) as (_ & _ & _ & H4 & H5). destruct p as [a b]. unfold bc_idx in Hp. cbn.
  split; [exact (proj1 (Forall_forall _ _) H4 _ (in_combine_l _ _ _ _ Hp))|exact (proj1 (Forall_forall _ _) H5 _ (in_combine_r _ _ _ _ Hp))].
Qed.

(** general shape of the condition loops: a body that acts cellwise *)
Lemma loop_spec (body : nodal -> nat -> nodal) (g : nat -> nat -> R -> R) l a0 n k :
  (forall a i, In i l -> body a i n k = match lookup n k (combine (bc_idx P i) (bc_vals P i)) with Some v => g n k v | None => a n k end) ->
  fold_left body l a0 n k = match lookup n k (conds_of l) with Some v => g n k v | None => a0 n k end.
Proof.
  induction l as [|i l IH] using rev_ind; intros H; [reflexivity|].
  rewrite fold_left_app, conds_of_app, conds_of_one, lookup_app. cbn [fold_left]. rewrite H by (apply in_or_app; right; left; reflexivity).
  destruct (lookup n k (combine (bc_idx P i) (bc_vals P i))); [reflexivity|].
  apply IH. intros a j Hj. apply H. apply in_or_app. left. exact Hj.
Qed.

Lemma reshape_ravel (s : nodal) n k : (k < pvec P)%nat -> reshape P (ravel P s) n k = s n k.
Proof.
  intros Hk. unfold reshape, ravel. replace (pvec P * n + k)%nat with (k + n * pvec P)%nat by lia.
  rewrite Nat.div_add, Nat.mod_add by lia. rewrite Nat.div_small, Nat.mod_small by exact Hk. f_equal.
Qed.
Lemma ravel_dof (s : nodal) n k : (k < pvec P)%nat -> ravel P s (dof P n k) = s n k.
Proof. exact (reshape_ravel s n k). Qed.
Lemma dof_lt n k : unknown P n k -> (dof P n k < N)%nat.
Proof. intros [H1 H2]. unfold dof, num_total_dofs. nia. Qed.
Lemma dof_ex i : (i < N)%nat -> exists n k, unknown P n k /\ i = dof P n k.
Proof.
  intros Hi. unfold num_total_dofs in Hi. exists (i / pvec P)%nat, (i mod pvec P)%nat. assert (pvec P <> 0)%nat by nia.
  split; [split; [apply Nat.div_lt_upper_bound; lia|apply Nat.mod_upper_bound; lia]|]. unfold dof. apply Nat.div_mod. lia.
Qed.
Lemma dof_inj n k n' k' : (k < pvec P)%nat -> (k' < pvec P)%nat -> dof P n k = dof P n' k' -> n = n' /\ k = k'.
Proof. unfold dof. intros. assert (n = n') by nia. subst. split; [reflexivity|lia]. Qed.

Hypothesis Hok : bc_ok P.

Lemma apply_bc_vec_spec r d n k : unknown P n k ->
  apply_bc_vec P r d (dof P n k) = match prescribed P n k with Some v => d (dof P n k) - v | None => r (dof P n k) end.
Proof.
  intros [Hn Hk]. unfold apply_bc_vec. rewrite ravel_dof by exact Hk.
  rewrite (loop_spec _ (fun n k v => d (dof P n k) - v) _ _ n k); [reflexivity|].
  intros a i Hi. apply in_seq in Hi. destruct (bc_idx_len i Hok) as (Hl & Hnd & _); [lia|]. cbv beta zeta.
  rewrite add_at_spec by (rewrite ?map_length; assumption). rewrite set_at_spec. unfold gather. rewrite (lookup_combine_map n k (bc_idx P i) (fun p => reshape P d (fst p) (snd p))).
  assert (Hneg : lookup n k (combine (bc_idx P i) (map Ropp (bc_vals P i))) = option_map Ropp (lookup n k (combine (bc_idx P i) (bc_vals P i)))).
  { rewrite combine_map_r. unfold lookup. rewrite <- map_rev. induction (rev (combine (bc_idx P i) (bc_vals P i))) as [|u l IH]; [reflexivity|].
    cbn [map find]. change (hit n k (fst u, - snd u)) with (hit n k u). destruct (hit n k u); [reflexivity|exact IH]. }
  rewrite Hneg. destruct (lookup n k (combine (bc_idx P i) (bc_vals P i))) as [v|] eqn:E; cbn [option_map].
  - destruct (existsb (here n k) (bc_idx P i)) eqn:X; [cbn [fst snd]; unfold reshape, dof; ring|].
    apply (lookup_combine_none n k (bc_idx P i) (bc_vals P i) Hl) in X. congruence.
  - apply (lookup_combine_none n k _ _ Hl) in E. rewrite E. reflexivity.
Qed.

(** loops that only set values computed from the index *)
Lemma set_loop (f : nat * nat -> R) a0 n k :
  fold_left (fun s i => set_at s (bc_idx P i) (map f (bc_idx P i))) (bc_range P) a0 n k
  = match prescribed P n k with Some _ => f (n, k) | None => a0 n k end.
Proof.
  rewrite (loop_spec _ (fun n k _ => f (n, k)) _ _ n k); [reflexivity|].
  intros a i Hi. apply in_seq in Hi. destruct (bc_idx_len i Hok) as (Hl & _); [lia|]. rewrite set_at_spec, lookup_combine_map.
  destruct (existsb (here n k) (bc_idx P i)) eqn:X.
  - destruct (lookup n k (combine (bc_idx P i) (bc_vals P i))) eqn:E; [reflexivity|].
    apply (lookup_combine_none n k _ _ Hl) in E. congruence.
  - apply (lookup_combine_none n k (bc_idx P i) (bc_vals P i) Hl) in X. rewrite X. reflexivity.
Qed.
Lemma row_elimination_spec fn d n k : unknown P n k ->
  row_elimination P fn d (dof P n k) = match prescribed P n k with Some _ => d (dof P n k) | None => fn d (dof P n k) end.
Proof.
  intros [Hn Hk]. unfold row_elimination, gather. rewrite ravel_dof by exact Hk.
  rewrite (set_loop (fun p => reshape P d (fst p) (snd p))). reflexivity.
Qed.
Lemma copy_bc_spec d n k : unknown P n k ->
  copy_bc P d (dof P n k) = match prescribed P n k with Some _ => d (dof P n k) | None => 0 end.
Proof.
  intros [Hn Hk]. unfold copy_bc, gather. rewrite ravel_dof by exact Hk.
  rewrite (set_loop (fun p => reshape P d (fst p) (snd p))). reflexivity.
Qed.
Lemma assign_const_bc_spec c d n k : unknown P n k ->
  assign_const_bc P c d (dof P n k) = match prescribed P n k with Some _ => c | None => d (dof P n k) end.
Proof. intros [Hn Hk]. unfold assign_const_bc. rewrite ravel_dof by exact Hk. rewrite (set_loop (fun _ => c)). reflexivity. Qed.
Lemma assign_bc_spec d n k : unknown P n k ->
  assign_bc P d (dof P n k) = match prescribed P n k with Some v => v | None => d (dof P n k) end.
Proof.
  intros [Hn Hk]. unfold assign_bc. rewrite ravel_dof by exact Hk. rewrite (loop_spec _ (fun _ _ v => v) _ _ n k); [reflexivity|].
  intros a i _. apply set_at_spec.
Qed.

(** ** The PETSc matrix acts like the row-eliminated operator *)
Lemma zero_rows_fold l M i j :
  fold_left (fun A r => zero_rows (bc_rows P r) A) l M i j
  = if existsb (fun r => existsb (Nat.eqb i) (bc_rows P r)) l then (if Nat.eqb i j then 1 else 0) else M i j.
Proof.
  induction l as [|r l IH] using rev_ind; [reflexivity|]. rewrite fold_left_app, existsb_app. cbn [fold_left existsb]. rewrite orb_false_r.
  unfold zero_rows at 1. destruct (existsb (Nat.eqb i) (bc_rows P r)); [rewrite orb_true_r; reflexivity|]. rewrite orb_false_r. exact IH.
Qed.
Lemma bc_rows_hit n k : unknown P n k ->
  existsb (fun r => existsb (Nat.eqb (dof P n k)) (bc_rows P r)) (bc_range P)
  = match prescribed P n k with Some _ => true | None => false end.
Proof.
  intros [Hn Hk]. rewrite prescribed_lookup. unfold conds_of. assert (Hall : forall r, In r (bc_range P) -> (r < length (node_inds_list P))%nat).
  { intros r Hr. apply in_seq in Hr. lia. }
  induction (bc_range P) as [|r l IH] using rev_ind; [reflexivity|].
  rewrite existsb_app, flat_map_app, lookup_app. cbn [existsb flat_map]. rewrite app_nil_r, orb_false_r.
  assert (Hr : (r < length (node_inds_list P))%nat) by (apply Hall; apply in_or_app; right; left; reflexivity).
  destruct (bc_idx_len r Hok Hr) as (Hl & _).
  assert (Hh : existsb (Nat.eqb (dof P n k)) (bc_rows P r) = existsb (here n k) (bc_idx P r)).
  { pose proof (bc_idx_range r) as Hrg. unfold bc_rows. assert (Hrg' : forall p, In p (bc_idx P r) -> (snd p < pvec P)%nat) by (intros p Hp; exact (proj2 (Hrg p Hok Hr Hp))).
    clear - Hrg' Hk. induction (bc_idx P r) as [|p l IH]; [reflexivity|]. cbn [map existsb]. rewrite IH by (intros q Hq; apply Hrg'; right; exact Hq). f_equal.
    assert (Hp := Hrg' p (or_introl eq_refl)). unfold here. destruct p as [a b]. cbn [fst snd] in *.
    destruct (Nat.eqb_spec (dof P n k) (a * pvec P + b)) as [E|E].
    - destruct (dof_inj n k a b Hk Hp) as [-> ->]; [unfold dof in *; lia|]. rewrite !Nat.eqb_refl. reflexivity.
    - destruct (Nat.eqb_spec n a); [|reflexivity]. destruct (Nat.eqb_spec k b); [|reflexivity]. subst. exfalso. apply E. unfold dof. lia. }
  rewrite Hh, IH by (intros q Hq; apply Hall; apply in_or_app; left; exact Hq).
  destruct (lookup n k (combine (bc_idx P r) (bc_vals P r))) eqn:E.
  - destruct (existsb (here n k) (bc_idx P r)) eqn:X; [apply orb_true_r|]. apply (lookup_combine_none n k (bc_idx P r) (bc_vals P r) Hl) in X. congruence.
  - apply (lookup_combine_none n k _ _ Hl) in E. rewrite E. apply orb_false_r.
Qed.
Lemma get_A_fn_spec ijv use_petsc x n k : unknown P n k ->
  lop_apply N (get_A_fn P ijv use_petsc) x (dof P n k)
  = match prescribed P n k with Some _ => x (dof P n k) | None => coo_mul N ijv x (dof P n k) end.
Proof.
  intros Hu. destruct use_petsc; cbn [get_A_fn lop_apply]; [|exact (row_elimination_spec _ _ n k Hu)].
  unfold mat_vec. erewrite sumN_ext by (intros j _; rewrite zero_rows_fold, bc_rows_hit by exact Hu; reflexivity).
  destruct (prescribed P n k); [|reflexivity].
  rewrite <- (sumN_pick' N (dof P n k) x (dof_lt n k Hu)). apply sumN_ext. intros j _. destruct (Nat.eqb (dof P n k) j); ring.
Qed.

(** ** Derivative of the constrained residual *)
Lemma apply_bc_derivative (rf : vector -> vector) x (D : vector) d n k : unknown P n k ->
  derivable_pt_lim (fun t => rf (step x t d) (dof P n k)) 0 (D (dof P n k)) ->
  derivable_pt_lim (fun t => apply_bc P rf (step x t d) (dof P n k)) 0 (row_elimination P (fun _ => D) d (dof P n k)).
Proof.
  intros Hu H. rewrite row_elimination_spec by exact Hu.
  apply dl_ext with (f := fun t => match prescribed P n k with Some v => step x t d (dof P n k) - v | None => rf (step x t d) (dof P n k) end);
    [intros t; unfold apply_bc; rewrite apply_bc_vec_spec by exact Hu; reflexivity|].
  destruct (prescribed P n k) as [v|]; [|exact H].
  eapply dl_ext with (f := fun t => (x (dof P n k) - v) + t * d (dof P n k)); [intros t; unfold step; ring|]. apply dl_line.
Qed.
Lemma jacobi_is_diagonal ijv use_petsc i : (i < N)%nat ->
  jacobi_preconditioner P ijv i = lop_apply N (get_A_fn P ijv use_petsc) (unit_vec i) i.
Proof.
  intros Hi. destruct (dof_ex i Hi) as (n & k & Hu & ->). rewrite get_A_fn_spec by exact Hu. unfold jacobi_preconditioner, assign_ones_bc.
  rewrite assign_const_bc_spec by exact Hu. unfold unit_vec. destruct (prescribed P n k); [rewrite Nat.eqb_refl; reflexivity|].
  unfold coo_mul. rewrite <- (sumN_pick N (dof P n k) (fun c => coo_entry ijv (dof P n k) c) Hi). apply sumN_ext. intros j _.
  destruct (Nat.eqb j (dof P n k)); ring.
Qed.
Lemma increment_guess_spec dofs r n k : unknown P n k -> prescribed P n k <> None ->
  increment_guess P dofs (dof P n k) = vopp (apply_bc_vec P r dofs) (dof P n k).
Proof.
  intros Hu Hp. unfold increment_guess, vsub, vopp. rewrite assign_bc_spec, copy_bc_spec, apply_bc_vec_spec by exact Hu.
  destruct (prescribed P n k) as [v|]; [ring|contradiction].
Qed.

(** ** The linear step *)
Variable ev : env.
Lemma linear_step_exact (Hex : exact_solvers ev) res_vec ijv use_petsc dofs precond :
  (forall b, exists x, same N (lop_apply N (get_A_fn P ijv use_petsc) x) b) ->
  exists inc, linear_incremental_solver ev P res_vec (get_A_fn P ijv use_petsc) ijv dofs precond = vadd dofs inc
  /\ same N (lop_apply N (get_A_fn P ijv use_petsc) inc) (vopp res_vec).
Proof.
  intros Hs. unfold linear_incremental_solver. eexists. split; [reflexivity|]. destruct Hex as [Hj Hk].
  destruct use_petsc; cbn [get_A_fn lop_apply] in *; [apply Hk|apply Hj]; apply Hs.
Qed.
Lemma step_meets_conditions (Hex : exact_solvers ev) r ijv use_petsc dofs precond :
  (forall b, exists x, same N (lop_apply N (get_A_fn P ijv use_petsc) x) b) ->
  forall n k v, unknown P n k -> prescribed P n k = Some v ->
  linear_incremental_solver ev P (apply_bc_vec P r dofs) (get_A_fn P ijv use_petsc) ijv dofs precond (dof P n k) = v.
Proof.
  intros Hs n k v Hu Hv. destruct (linear_step_exact Hex (apply_bc_vec P r dofs) ijv use_petsc dofs precond Hs) as (inc & -> & Hi).
  specialize (Hi _ (dof_lt n k Hu)). rewrite get_A_fn_spec in Hi by exact Hu. unfold vopp in Hi. rewrite apply_bc_vec_spec, Hv in Hi by exact Hu.
  unfold vadd. rewrite Hi. ring.
Qed.
Lemma helper_ok use_petsc dofs r ijv : newton_update P (reshape P dofs) = Ok (r, ijv) ->
  newton_update_helper P use_petsc dofs = Ok (apply_bc_vec P (ravel P r) dofs, get_A_fn P ijv use_petsc, ijv).
Proof. intros H. unfold newton_update_helper. rewrite H. reflexivity. Qed.
Lemma helper_inv use_petsc dofs x : newton_update_helper P use_petsc dofs = Ok x -> exists r ijv, newton_update P (reshape P dofs) = Ok (r, ijv)
  /\ x = (apply_bc_vec P (ravel P r) dofs, get_A_fn P ijv use_petsc, ijv).
Proof. unfold newton_update_helper. destruct (newton_update P (reshape P dofs)) as [[r ijv]|e]; cbn; [|discriminate]. intros [= <-]. eauto. Qed.

(** After one exact step from any point an affine problem is solved. *)
Lemma affine_step (Hex : exact_solvers ev) (Haf : affine_problem P) use_petsc precond dofs r ijv : solvable_problem P use_petsc ->
  newton_update P (reshape P dofs) = Ok (r, ijv) ->
  let dofs' := linear_incremental_solver ev P (apply_bc_vec P (ravel P r) dofs) (get_A_fn P ijv use_petsc) ijv dofs precond in
  exists r1 ijv1, newton_update P (reshape P dofs') = Ok (r1, ijv1) /\ same N (apply_bc_vec P (ravel P r1) dofs') vzero.
Proof.
  intros Hs Hr dofs'. pose proof (Hs _ _ _ Hr) as Hsv.
  destruct (linear_step_exact Hex (apply_bc_vec P (ravel P r) dofs) ijv use_petsc dofs precond Hsv) as (inc & E & Hi).
  subst dofs'. rewrite E. destruct (Haf (reshape P dofs) (reshape P inc)) as (r0 & r1 & ijv0 & ijv1 & E0 & E1 & Ha).
  rewrite Hr in E0. injection E0 as <- <-. exists r1, ijv1. split; [exact E1|].
  intros i Hlt. destruct (dof_ex i Hlt) as (n & k & Hu & ->). rewrite apply_bc_vec_spec by exact Hu.
  specialize (Hi _ (dof_lt n k Hu)). rewrite get_A_fn_spec in Hi by exact Hu. unfold vopp in Hi. rewrite apply_bc_vec_spec in Hi by exact Hu.
  unfold vzero, vadd. destruct (prescribed P n k) as [v|]; [lra|]. rewrite ravel_dof in * by exact (proj2 Hu). rewrite (Ha n k Hu).
  replace (coo_mul N ijv (ravel P (reshape P inc)) (dof P n k)) with (coo_mul N ijv inc (dof P n k)); [rewrite Hi; ring|].
  unfold coo_mul. apply sumN_ext. intros j Hj. f_equal. destruct (dof_ex j Hj) as (n' & k' & Hu' & ->). rewrite ravel_dof by exact (proj2 Hu'). reflexivity.
Qed.
Lemma zero_constrained_solution dofs r ijv : newton_update P (reshape P dofs) = Ok (r, ijv) -> same N (apply_bc_vec P (ravel P r) dofs) vzero ->
  meets_conditions P (reshape P dofs) /\ in_equilibrium P (reshape P dofs).
Proof.
  intros Hr H. assert (Hat : forall n k, unknown P n k -> match prescribed P n k with Some v => dofs (dof P n k) - v | None => r n k end = 0).
  { intros n k Hu. specialize (H _ (dof_lt n k Hu)). rewrite apply_bc_vec_spec in H by exact Hu. rewrite ravel_dof in H by exact (proj2 Hu). exact H. }
  split.
  - intros n k v Hu Hv. specialize (Hat n k Hu). rewrite Hv in Hat. unfold reshape. unfold dof in Hat. lra.
  - exists r, ijv. split; [exact Hr|]. intros n k Hu Hv. specialize (Hat n k Hu). rewrite Hv in Hat. exact Hat.
Qed.
Lemma linear_solve_solution (Hex : exact_solvers ev) (Hfl : exact_floats ev) (Haf : affine_problem P) use_petsc precond fuel guess :
  solvable_problem P use_petsc ->
  exists u, solver_row_elimination ev P fuel true precond guess use_petsc = Some (Ok u) /\ meets_conditions P u /\ in_equilibrium P u.
Proof.
  intros Hs. destruct Hfl as [Hf1 Hf2]. unfold solver_row_elimination.
  destruct (Haf (reshape P (assign_bc P vzero)) (fun _ _ => 0)) as (r & _ & ijv & _ & Hr & _ & _).
  rewrite (helper_ok use_petsc _ _ _ Hr). cbn [bind].
  destruct (affine_step Hex Haf use_petsc precond _ _ _ Hs Hr) as (r1 & ijv1 & Hr1 & Hz).
  rewrite (helper_ok use_petsc _ _ _ Hr1). cbn [bind]. unfold finish. cbn [fst snd]. rewrite Hf1, Hf2. cbn [fl_finite].
  eexists. split; [reflexivity|]. exact (zero_constrained_solution _ _ _ Hr1 Hz).
Qed.
Lemma norm_zero n v : same n v vzero -> sqrt (dotN n v v) = 0.
Proof. intros H. unfold dotN. rewrite (sumN_zero n). - apply sqrt_0. - intros i Hi. rewrite (H i Hi). unfold vzero. ring. Qed.
Lemma tol_pos : 0 < tol. Proof. unfold tol. lra. Qed.
Lemma nonlinear_affine_terminates (Hex : exact_solvers ev) (Hfl : exact_floats ev) (Haf : affine_problem P) use_petsc precond guess :
  solvable_problem P use_petsc ->
  exists u, solver_row_elimination ev P 1 false precond guess use_petsc = Some (Ok u).
Proof.
  intros Hs. destruct Hfl as [Hf1 Hf2]. unfold solver_row_elimination.
  assert (Hnu : forall d, exists r ijv, newton_update P (reshape P d) = Ok (r, ijv)).
  { intros d. destruct (Haf (reshape P d) (fun _ _ => 0)) as (r & _ & ijv & _ & Hr & _ & _). eauto. }
  match goal with |- exists u, match ?g with _ => _ end = _ => assert (Hg : exists d, g = Ok d) end.
  { destruct guess; [eauto|]. destruct (Hnu vzero) as (r & ijv & Hr). rewrite (helper_ok use_petsc _ _ _ Hr). cbn. eauto. }
  destruct Hg as (d & ->). destruct (Hnu d) as (r & ijv & Hr). rewrite (helper_ok use_petsc _ _ _ Hr).
  cbn [newton_loop]. unfold finish. rewrite Hf1. cbn [fl_gt]. destruct (Rltb tol (sqrt _)) eqn:E.
  - destruct (affine_step Hex Haf use_petsc precond _ _ _ Hs Hr) as (r1 & ijv1 & Hr1 & Hz). rewrite (helper_ok use_petsc _ _ _ Hr1).
    rewrite Hf1. cbn [fl_gt]. rewrite (norm_zero _ _ Hz). unfold Rltb. pose proof tol_pos. destruct (Rlt_dec tol 0); [lra|].
    cbn [fst snd fl_finite]. rewrite Hf2. eauto.
  - cbn [fst snd fl_finite]. rewrite Hf2. eauto.
Qed.
(** the linear guess of the nonlinear branch *)
Lemma linear_guess_exact (Hex : exact_solvers ev) ijv use_petsc precond : (forall b, exists x, same N (lop_apply N (get_A_fn P ijv use_petsc) x) b) ->
  forall n k, unknown P n k -> let g := linear_guess_solve ev P (get_A_fn P ijv use_petsc) ijv precond in
  match prescribed P n k with Some v => g (dof P n k) = v | None => coo_mul N ijv g (dof P n k) = loads P n k end.
Proof.
  intros Hs n k Hu g. destruct Hex as [Hj Hk].
  assert (H : same N (lop_apply N (get_A_fn P ijv use_petsc) g) (assign_bc P (ravel P (loads P)))).
  { subst g. unfold linear_guess_solve. destruct use_petsc; cbn [get_A_fn lop_apply] in *; [apply Hk|apply Hj]; apply Hs. }
  specialize (H _ (dof_lt n k Hu)). rewrite get_A_fn_spec, assign_bc_spec, ravel_dof in H by (exact Hu || exact (proj2 Hu)).
  destruct (prescribed P n k); exact H.
Qed.

(** ** What a returned solution satisfies, whatever the linear solver did *)
Lemma newton_loop_exit fuel use_petsc precond dofs res_vec A ijv rv x :
  (exists r, newton_update P (reshape P dofs) = Ok (r, ijv) /\ res_vec = apply_bc_vec P (ravel P r) dofs) -> rv = fnorm ev N res_vec ->
  newton_loop ev P fuel use_petsc precond dofs res_vec A ijv rv = Some (Ok x) ->
  exists r ijv', newton_update P (reshape P (fst x)) = Ok (r, ijv') /\ snd x = fnorm ev N (apply_bc_vec P (ravel P r) (fst x)) /\ fl_gt (snd x) tol = false.
Proof.
  revert dofs res_vec A ijv rv. induction fuel as [|fuel IH]; intros dofs res_vec A ijv rv (r & Hr & ->) -> H; cbn [newton_loop] in H.
  - destruct (fl_gt (fnorm ev N (apply_bc_vec P (ravel P r) dofs)) tol) eqn:E; [discriminate|]. injection H as <-. cbn [fst snd]. eauto.
  - cbv zeta in H. destruct (fl_gt (fnorm ev N (apply_bc_vec P (ravel P r) dofs)) tol) eqn:E.
    + destruct (newton_update_helper P use_petsc _) as [[[rv' A'] ijv']|e] eqn:Eh; [|discriminate].
      destruct (helper_inv _ _ _ Eh) as (r' & ij & Hr' & [= -> -> ->]). eapply IH; [|reflexivity|exact H]. eauto.
    + injection H as <-. cbn [fst snd]. eauto.
Qed.
Lemma nonlinear_returned fuel precond guess use_petsc u :
  solver_row_elimination ev P fuel false precond guess use_petsc = Some (Ok u) ->
  exists d r ijv, u = reshape P d /\ newton_update P u = Ok (r, ijv) /\ all_finite ev N d = true /\
  exists nm, fnorm ev N (apply_bc_vec P (ravel P r) d) = Fin nm /\ nm <= tol.
Proof.
  unfold solver_row_elimination. intros H.
  match type of H with match ?g with _ => _ end = _ => destruct g as [d|e]; [|discriminate] end.
  destruct (newton_update_helper P use_petsc d) as [[[rv A] ijv]|e] eqn:Eh; [|discriminate].
  destruct (helper_inv _ _ _ Eh) as (r & ij & Hr & [= -> -> ->]).
  destruct (newton_loop _ _ _ _ _ _ _ _ _ _) as [[x|e]|] eqn:El; try discriminate.
  eapply newton_loop_exit in El; [|eauto|reflexivity]. destruct El as (r' & ij' & Hr' & Hn & Hg). unfold finish in H.
  destruct (fl_finite (snd x)) eqn:E1; [|discriminate]. destruct (all_finite ev N (fst x)) eqn:E2; [|discriminate]. injection H as <-.
  exists (fst x), r', ij'. repeat split; try assumption. rewrite <- Hn. destruct (snd x) as [nm| |]; try discriminate.
  exists nm. split; [reflexivity|]. cbn in Hg. unfold Rltb in Hg. destruct (Rlt_dec tol nm); [discriminate|]. lra.
Qed.
Lemma linear_returned fuel precond guess use_petsc u :
  solver_row_elimination ev P fuel true precond guess use_petsc = Some (Ok u) ->
  exists d r ijv, u = reshape P d /\ newton_update P u = Ok (r, ijv) /\ all_finite ev N d = true /\
  exists nm, fnorm ev N (apply_bc_vec P (ravel P r) d) = Fin nm.
Proof.
  unfold solver_row_elimination. intros [= H].
  destruct (newton_update_helper P use_petsc (assign_bc P vzero)) as [[[rv A] ijv]|e] eqn:E0; [cbn [bind] in H|discriminate].
  match type of H with bind (newton_update_helper _ _ ?d) _ = _ => destruct (newton_update_helper P use_petsc d) as [[[rv1 A1] ijv1]|e] eqn:E1; [cbn [bind] in H|discriminate] end.
  destruct (helper_inv _ _ _ E1) as (r & ij & Hr & [= -> -> ->]). unfold finish in H. cbn [fst snd] in H.
  destruct (fl_finite _) eqn:F1; [|discriminate]. destruct (all_finite ev N _) eqn:F2; [|discriminate]. injection H as <-.
  eexists _, _, _. split; [reflexivity|]. split; [exact Hr|]. split; [exact F2|]. destruct (fnorm ev N _); try discriminate. eauto.
Qed.
Lemma entry_le_norm n v i : (i < n)%nat -> Rabs (v i) <= sqrt (dotN n v v).
Proof.
  intros Hi. rewrite <- sqrt_Rsqr_abs. apply sqrt_le_1_alt. unfold Rsqr, dotN.
  rewrite <- (sumN_pick n i (fun j => v j * v j) Hi). apply sumN_le. intros j _. destruct (Nat.eqb j i); [lra|]. nra.
Qed.
Lemma nonlinear_returned_pointwise (Hfl : exact_floats ev) fuel precond guess use_petsc u :
  solver_row_elimination ev P fuel false precond guess use_petsc = Some (Ok u) ->
  exists r ijv, newton_update P u = Ok (r, ijv) /\ forall n k, unknown P n k -> Rabs (constrained P r u n k) <= tol.
Proof.
  intros H. destruct (nonlinear_returned _ _ _ _ _ H) as (d & r & ijv & -> & Hr & _ & nm & Hn & Hle). destruct Hfl as [Hf1 _].
  rewrite Hf1 in Hn. injection Hn as <-. exists r, ijv. split; [exact Hr|]. intros n k Hu.
  eapply Rle_trans; [|exact Hle]. eapply Rle_trans; [|exact (entry_le_norm _ _ _ (dof_lt n k Hu))]. right. f_equal.
  rewrite apply_bc_vec_spec by exact Hu. rewrite ravel_dof by exact (proj2 Hu). reflexivity.
Qed.
End P.
Close Scope R_scope.
