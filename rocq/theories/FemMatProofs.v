From Coq Require Import Lra FunctionalExtensionality.
From Verif Require Import Prelude PreludeFacts GridFacts FemModel FemFacts FemSpec FemProofs FemAsmProofs.
Open Scope R_scope.

(** ** Sparse matrices given by triplets *)
Lemma coo_mul_eq n Il Jl Vl x r : length Il = length Jl -> Forall (fun j => (j < n)%nat) Jl ->
  coo_mul n (Il, Jl, Vl) x r = sumR (combine (combine Il Jl) Vl) (fun t => if Nat.eqb (fst (fst t)) r then snd t * x (snd (fst t)) else 0).
Proof.
  intros Hl HJ. unfold coo_mul, coo_entry.
  rewrite (sumN_ext n _ (fun c => sumR (combine (combine Il Jl) Vl) (fun t => if Nat.eqb (snd (fst t)) c then (if Nat.eqb (fst (fst t)) r then snd t * x c else 0) else 0))).
  - rewrite sumN_sumR_swap. apply sumR_ext. intros t Ht.
    rewrite (sumN_pick' n (snd (fst t)) (fun c => if Nat.eqb (fst (fst t)) r then snd t * x c else 0)); [reflexivity|].
    destruct t as [[i j] w]. apply in_combine_l in Ht. apply in_combine_r in Ht. rewrite Forall_forall in HJ. now apply HJ.
  - intros c _. rewrite <- sumR_scal_r. apply sumR_ext. intros t _.
    destruct (Nat.eqb (fst (fst t)) r), (Nat.eqb (snd (fst t)) c); cbn; ring.
Qed.

Section Mat.
Context {V : Type}.
Variable F : fem V.
Local Notation E := (f_ele F).
Local Notation nn := (num_nodes (f_ele F)).
Hypothesis Hwf : wf_mesh F.

(** local degrees of freedom in order *)
Definition ldofs : list (nat * nat) := flat_map (fun a => map (fun i => (a, i)) (seq 0 (vec F))) (seq 0 nn).
Definition gdof (conn : list nat) (p : nat * nat) : nat := (vec F * nth (fst p) conn 0%nat + snd p)%nat.
Definition pairs : list ((nat * nat) * (nat * nat)) := flat_map (fun p => map (fun q => (p, q)) ldofs) ldofs.
Lemma ldofs_length : length ldofs = (nn * vec F)%nat.
Proof. unfold ldofs. rewrite flat_map_const_length with (c := vec F); [now rewrite seq_length|]. intros a _. now rewrite map_length, seq_length. Qed.
Lemma in_ldofs p : In p ldofs -> (fst p < nn)%nat /\ (snd p < vec F)%nat.
Proof.
  unfold ldofs. intros H. apply in_flat_map in H. destruct H as (a & Ha & Hp). apply in_map_iff in Hp. destruct Hp as (i & <- & Hi).
  apply in_seq in Ha, Hi. cbn. lia.
Qed.
Lemma flat_map_map {A B C} (f : B -> list C) (g : A -> B) l : flat_map f (map g l) = flat_map (fun x => f (g x)) l.
Proof. induction l; cbn; [reflexivity|]. now rewrite IHl. Qed.
Lemma map_flat_map {A B C} (f : B -> C) (g : A -> list B) l : map f (flat_map g l) = flat_map (fun x => map f (g x)) l.
Proof. induction l; cbn; [reflexivity|]. now rewrite map_app, IHl. Qed.
Lemma flat_map_flat_map {A B C} (f : B -> list C) (g : A -> list B) l : flat_map f (flat_map g l) = flat_map (fun x => flat_map f (g x)) l.
Proof. induction l; cbn; [reflexivity|]. now rewrite flat_map_app, IHl. Qed.
Lemma inds_of_eq conn : length conn = nn -> inds_of F conn = map (gdof conn) ldofs.
Proof.
  intros H. unfold inds_of, ldofs. rewrite map_flat_map. rewrite <- (map_nth_seq conn 0%nat) at 1. rewrite flat_map_map, H.
  apply flat_map_ext. intros a. rewrite map_map. reflexivity.
Qed.
Lemma block_I_eq conn : length conn = nn -> block_I F conn = map (fun pq => gdof conn (fst pq)) pairs.
Proof.
  intros H. unfold block_I, pairs. rewrite inds_of_eq by exact H. rewrite flat_map_map, map_flat_map. apply flat_map_ext. intros p.
  rewrite map_map. cbn. rewrite <- ldofs_length. induction ldofs; cbn; [reflexivity|]. now f_equal.
Qed.
Lemma concat_repeat {A B} (l : list A) (x : list B) : concat (repeat x (length l)) = flat_map (fun _ => x) l.
Proof. induction l; cbn; [reflexivity|]. now rewrite IHl. Qed.
Lemma block_J_eq conn : length conn = nn -> block_J F conn = map (fun pq => gdof conn (snd pq)) pairs.
Proof.
  intros H. unfold block_J, pairs. rewrite inds_of_eq by exact H. rewrite <- ldofs_length, concat_repeat, map_flat_map.
  apply flat_map_ext. intros p. rewrite map_map. reflexivity.
Qed.
Lemma block_V_eq j : block_V F j = map (fun pq => j (fst (fst pq)) (snd (fst pq)) (fst (snd pq)) (snd (snd pq))) pairs.
Proof.
  unfold block_V, pairs. rewrite map_flat_map. unfold ldofs at 2. rewrite flat_map_flat_map. apply flat_map_ext. intros a.
  rewrite flat_map_map. apply flat_map_ext. intros i. rewrite map_map. cbn. unfold ldofs. rewrite map_flat_map.
  apply flat_map_ext. intros b. rewrite map_map. reflexivity.
Qed.
Lemma sum_ldofs f : sumR ldofs f = sumN nn (fun a => sumN (vec F) (fun i => f (a, i))).
Proof. unfold ldofs. rewrite sumR_flat_map. apply sumR_ext. intros a _. now rewrite sumR_map. Qed.
Lemma sum_block conn j f : length conn = nn ->
  sumR (combine (combine (block_I F conn) (block_J F conn)) (block_V F j)) f
  = sumN nn (fun a => sumN (vec F) (fun i => sumN nn (fun b => sumN (vec F) (fun l =>
      f ((vec F * nth a conn 0 + i, vec F * nth b conn 0 + l)%nat, j a i b l))))).
Proof.
  intros H. rewrite block_I_eq, block_J_eq, block_V_eq by exact H.
  rewrite !combine_map_l, !combine_map_r, combine_same. rewrite !combine_map_l, combine_same, !sumR_map.
  unfold pairs. rewrite sumR_flat_map, sum_ldofs. apply sumN_ext. intros a _. apply sumN_ext. intros i _.
  rewrite sumR_map, sum_ldofs. reflexivity.
Qed.
Lemma block_lengths conn j : length conn = nn -> length (block_I F conn) = length pairs /\ length (block_J F conn) = length pairs /\ length (block_V F j) = length pairs.
Proof. intros H. rewrite block_I_eq, block_J_eq, block_V_eq, !map_length by exact H. auto. Qed.
Lemma blocks_JI_length conns : Forall (fun c => length c = nn) conns -> length (flat_map (block_I F) conns) = length (flat_map (block_J F) conns).
Proof.
  induction 1 as [|c conns Hc _ IH]; [reflexivity|]. cbn. rewrite !app_length, IH.
  destruct (block_lengths c (fun _ _ _ _ => 0) Hc) as (-> & -> & _). reflexivity.
Qed.
Lemma sum_blocks conns js f : Forall (fun c => length c = nn) conns ->
  length conns = length js ->
  sumR (combine (combine (flat_map (block_I F) conns) (flat_map (block_J F) conns)) (flat_map (block_V F) js)) f
  = sumR (combine conns js) (fun cj => sumN nn (fun a => sumN (vec F) (fun i => sumN nn (fun b => sumN (vec F) (fun l =>
      f ((vec F * nth a (fst cj) 0 + i, vec F * nth b (fst cj) 0 + l)%nat, snd cj a i b l)))))).
Proof.
  intros H. revert js. induction H as [|c conns Hc Hcs IH]; intros [|j js] Hl; cbn in Hl; try discriminate; [reflexivity|].
  cbn [flat_map combine sumR fst snd]. destruct (block_lengths c j Hc) as (L1 & L2 & L3).
  rewrite !combine_app, sumR_app, sum_block by (rewrite ?combine_length; congruence || assumption || lia).
  f_equal. apply IH. lia.
Qed.
Lemma gdof_in_range conn p : length conn = nn -> Forall (fun n => (n < num_total_nodes F)%nat) conn -> In p ldofs ->
  (gdof conn p < num_total_nodes F * vec F)%nat.
Proof.
  intros H Hn Hp. apply in_ldofs in Hp. unfold gdof.
  assert (nth (fst p) conn 0 < num_total_nodes F)%nat.
  { rewrite Forall_forall in Hn. apply Hn, nth_In. lia. }
  nia.
Qed.
Definition conn_ok (c : list nat) : Prop := length c = nn /\ Forall (fun n => (n < num_total_nodes F)%nat) c.
Lemma in_pairs pq : In pq pairs -> In (fst pq) ldofs /\ In (snd pq) ldofs.
Proof.
  unfold pairs. intros H. apply in_flat_map in H. destruct H as (p & Hp & Hq). apply in_map_iff in Hq. destruct Hq as (q & <- & Hq). auto.
Qed.
Lemma blocks_in_range conns : Forall conn_ok conns ->
  Forall (fun i => (i < num_total_nodes F * vec F)%nat) (flat_map (block_I F) conns) /\
  Forall (fun i => (i < num_total_nodes F * vec F)%nat) (flat_map (block_J F) conns).
Proof.
  intros H. split; apply Forall_flat_map; (eapply Forall_impl; [|exact H]); intros c (Hc & Hn).
  - rewrite block_I_eq by exact Hc. apply Forall_map, Forall_forall. intros pq Hpq. apply gdof_in_range; auto. now apply in_pairs in Hpq.
  - rewrite block_J_eq by exact Hc. apply Forall_map, Forall_forall. intros pq Hpq. apply gdof_in_range; auto. now apply in_pairs in Hpq.
Qed.
Lemma conns_ok {X} (l : list X) (cell : X -> nat) : Forall (fun x => (cell x < num_cells F)%nat) l ->
  Forall conn_ok (map (fun x => nth (cell x) (cells F) []) l).
Proof.
  intros H. apply Forall_map. eapply Forall_impl; [|exact H]. intros x Hx. cbn.
  unfold wf_mesh in Hwf. rewrite Forall_forall in Hwf. apply (Hwf _ (nth_In _ [] Hx)).
Qed.
Lemma flatten_at d n k : (k < vec F)%nat -> flatten F d (vec F * n + k) = d n k.
Proof.
  intros H. unfold flatten. rewrite Nat.mul_comm. rewrite Nat.div_add_l by lia. rewrite Nat.div_small by lia.
  rewrite Nat.add_0_r. f_equal. rewrite Nat.add_comm, Nat.mod_add by lia. now apply Nat.mod_small.
Qed.
Lemma dof_eqb m i n k : (i < vec F)%nat -> (k < vec F)%nat -> Nat.eqb (vec F * m + i) (vec F * n + k) = Nat.eqb m n && Nat.eqb i k.
Proof.
  intros Hi Hk. destruct (Nat.eqb_spec m n) as [->|Hm]; cbn.
  - destruct (Nat.eqb_spec i k) as [->|Hik]; [apply Nat.eqb_refl|]. apply Nat.eqb_neq. lia.
  - apply Nat.eqb_neq. intros H. apply Hm. nia.
Qed.

(** product of the assembled matrix with an increment *)
Lemma assembled_mul {X} (l : list X) (cell : X -> nat) (jac : X -> jac4) d n k :
  Forall (fun x => (cell x < num_cells F)%nat) l -> (k < vec F)%nat ->
  coo_mul (num_total_nodes F * vec F)
    (flat_map (block_I F) (map (fun x => nth (cell x) (cells F) []) l),
     flat_map (block_J F) (map (fun x => nth (cell x) (cells F) []) l), flat_map (block_V F) (map jac l)) (flatten F d) (vec F * n + k)
  = corners F l cell (fun x => jac_mul F (jac x) (cells_sol F d (cell x))) n k.
Proof.
  intros Hl Hk. pose proof (conns_ok l cell Hl) as Hok. destruct (blocks_in_range _ Hok) as (HI & HJ).
  assert (Hlen : Forall (fun c => length c = nn) (map (fun x => nth (cell x) (cells F) []) l)).
  { eapply Forall_impl; [|exact Hok]. intros c Hc. apply Hc. }
  rewrite coo_mul_eq; [|now apply blocks_JI_length|exact HJ].
  rewrite sum_blocks; [|exact Hlen|now rewrite !map_length].
  rewrite combine_map_l, combine_map_r, combine_same, !sumR_map. unfold corners. apply sumR_ext. intros x Hx. cbn [fst snd].
  apply sumN_ext. intros a Ha. unfold jac_mul, cells_sol, cell_node.
  rewrite (sumN_ext (vec F) _ (fun i => if Nat.eqb i k then (if Nat.eqb (nth a (nth (cell x) (cells F) []) 0%nat) n then
      sumN nn (fun b => sumN (vec F) (fun l0 => jac x a i b l0 * d (nth b (nth (cell x) (cells F) []) 0%nat) l0)) else 0) else 0)).
  - rewrite (sumN_pick (vec F) k (fun i => if Nat.eqb _ n then sumN nn (fun b => sumN (vec F) (fun l0 => jac x a i b l0 * d _ l0)) else 0)) by exact Hk.
    reflexivity.
  - intros i Hi. rewrite dof_eqb by assumption. destruct (Nat.eqb i k) eqn:Eik; rewrite ?andb_true_r, ?andb_false_r.
    + destruct (Nat.eqb _ n); [|apply sumN_zero; intros b _; now apply sumN_zero].
      apply sumN_ext. intros b _. apply sumN_ext. intros l0 Hl0. now rewrite flatten_at.
    + apply sumN_zero. intros b _. now apply sumN_zero.
Qed.
Lemma corners_app {X} (l1 l2 : list X) cell g n k : corners F (l1 ++ l2) cell g n k = corners F l1 cell g n k + corners F l2 cell g n k.
Proof. unfold corners. apply sumR_app. Qed.
Lemma corners_map {X Y} (f : X -> Y) l cell g n k : corners F (map f l) cell g n k = corners F l (fun x => cell (f x)) (fun x => g (f x)) n k.
Proof. unfold corners. now rewrite (sumR_map f l). Qed.

Variable jac : nodal -> (nat -> nat -> nat -> R) -> (nat -> R) -> (nat -> nat -> nat -> R) -> list (nat -> V) -> list (nat -> V) -> jac4.
Variable cjac : ((nat -> R) -> nat -> R) -> nodal -> (nat -> nat -> R) -> (nat -> R) -> jac4.
Definition cell_jac (iv : internal_vars V) (sol : nodal) (c : nat) : jac4 :=
  jac (cells_sol F sol c) (shape_grads F c) (JxW F c) (v_grads_JxW F c) (vars_at (iv_mass iv) c) (vars_at (iv_laplace iv) c).
Definition cauchy_jac (sol : nodal) (x : (nat * nat) * ((nat -> R) -> nat -> R)) : jac4 :=
  cjac (snd x) (cells_sol F sol (fst (fst x))) (face_shape_vals E (snd (fst x))) (nanson_scale F (fst x)).

Lemma newton_spec inds sol iv :
  iv_sized F iv -> (0 < num_cells F)%nat -> neumann_ok F inds -> (forall sel, In sel inds -> faces_ok F sel) ->
  exists r IJV, compute_newton_vars F inds sol iv jac cjac = Ok (r, IJV)
  /\ compute_residual_vars F inds sol iv = Ok r
  /\ (forall i, In i (fst (fst IJV)) \/ In i (snd (fst IJV)) -> (i < num_total_nodes F * vec F)%nat)
  /\ length (fst (fst IJV)) = length (snd IJV) /\ length (snd (fst IJV)) = length (snd IJV)
  /\ forall d n k, (k < vec F)%nat ->
     coo_mul (num_total_nodes F * vec F) IJV (flatten F d) (vec F * n + k)
     = corners F (all_cells F) (fun c => c) (fun c => jac_mul F (cell_jac iv sol c) (cells_sol F d c)) n k
     + corners F (cauchy_faces F) (fun x => fst (fst x)) (fun x => jac_mul F (cauchy_jac sol x) (cells_sol F d (fst (fst x)))) n k.
Proof.
  intros Hiv H0 Hn Hs. destruct (neumann_eq F Hwf inds iv Hn Hs) as (nm & Hnm & _).
  unfold compute_newton_vars, split_and_compute_cell_jac, compute_residual_vars. rewrite !split_the_inputs by assumption.
  cbn [bind fst snd]. rewrite !map_map. cbn [fst snd].
  unfold compute_residual_vars_helper. rewrite Hnm. cbn [bind].
  eexists. eexists. split; [reflexivity|]. split; [reflexivity|].
  set (conns := map (fun c => nth c (cells F) []) (all_cells F) ++ map (fun x : (nat * nat) * ((nat -> R) -> nat -> R) => nth (fst (fst x)) (cells F) []) (cauchy_faces F)).
  set (js := map (cell_jac iv sol) (all_cells F) ++ map (cauchy_jac sol) (cauchy_faces F)).
  match goal with |- context[newton_IJV ?a ?b ?c ?d] =>
    assert (EQ : newton_IJV a b c d = (flat_map (block_I F) conns, flat_map (block_J F) conns, flat_map (block_V F) js)) end.
  { unfold newton_IJV, conns, js. rewrite !flat_map_app. change (map (fun c => nth c (cells F) []) (all_cells F)) with (map (fun c => nth c (cells F) []) (seq 0 (num_cells F))). rewrite <- (cells_as_map F).
    unfold cauchy_faces. destruct (cauchy_bc_info F) as [[locs fns]|]; reflexivity. }
  rewrite EQ. clear EQ. cbn [fst snd].
  assert (Hok : Forall conn_ok conns).
  { unfold conns. apply Forall_app. split; [apply (conns_ok (all_cells F) (fun c => c)), all_cells_lt|].
    apply (conns_ok (cauchy_faces F) (fun x => fst (fst x))), cauchy_faces_lt. }
  assert (Hlen : Forall (fun c => length c = nn) conns) by (eapply Forall_impl; [|exact Hok]; intros c Hc; apply Hc).
  assert (HLJ : length conns = length js) by (unfold conns, js; now rewrite !app_length, !map_length).
  destruct (blocks_in_range _ Hok) as (HI & HJ). rewrite Forall_forall in HI, HJ.
  split; [intros i [Hi|Hi]; auto|].
  assert (HV : length (flat_map (block_I F) conns) = length (flat_map (block_V F) js)).
  { clear - Hlen HLJ. clearbody js. revert js HLJ. induction Hlen as [|c cs Hc _ IH]; intros [|j js] Hl; cbn in *; try discriminate; [reflexivity|].
    rewrite !app_length, (IH js) by lia. destruct (block_lengths c j Hc) as (-> & _ & ->). reflexivity. }
  split; [exact HV|]. split; [rewrite <- HV; symmetry; now apply blocks_JI_length|].
  intros d n k Hk.
  set (l := map (fun c => inl c) (all_cells F) ++ map inr (cauchy_faces F) : list (nat + (nat * nat) * ((nat -> R) -> nat -> R))).
  set (cell := fun x : nat + (nat * nat) * ((nat -> R) -> nat -> R) => match x with inl c => c | inr y => fst (fst y) end).
  set (jj := fun x : nat + (nat * nat) * ((nat -> R) -> nat -> R) => match x with inl c => cell_jac iv sol c | inr y => cauchy_jac sol y end).
  replace conns with (map (fun x => nth (cell x) (cells F) []) l) by (unfold conns, l; now rewrite map_app, !map_map).
  replace js with (map jj l) by (unfold js, l; now rewrite map_app, !map_map).
  rewrite assembled_mul; [|unfold l; apply Forall_app; rewrite !Forall_map; split; [apply all_cells_lt|apply cauchy_faces_lt]|exact Hk].
  unfold l. rewrite corners_app, !corners_map. reflexivity.
Qed.

Lemma cells_sol_step sol t d c : cells_sol F (add_step sol t d) c = add_step (cells_sol F sol c) t (cells_sol F d c).
Proof. reflexivity. Qed.

Lemma residual_steps inds iv : iv_sized F iv -> (0 < num_cells F)%nat -> neumann_ok F inds -> (forall sel, In sel inds -> faces_ok F sel) ->
  exists ext : nodal, forall s, exists r, compute_residual_vars F inds s iv = Ok r /\ forall n k,
  r n k = corners F (all_cells F) (fun c => c) (cell_force F iv s) n k
        + corners F (cauchy_faces F) (fun x => fst (fst x)) (cauchy_force F s) n k - ext n k.
Proof.
  intros Hiv H0 Hn Hs. destruct (neumann_eq F Hwf inds iv Hn Hs) as (nm & Hnm & _).
  exists (fun n k => (match iv_body iv with Some b => compute_body_force_by_sol F b | None => compute_body_force_by_fn F end) n k + nm n k).
  intros s. destruct (residual_eq F Hwf inds s iv nm Hiv H0 Hnm) as (r & Hr & He). exists r. split; [exact Hr|]. intros n k.
  rewrite He. ring.
Qed.

Lemma matrix_is_derivative inds sol iv :
  iv_sized F iv -> (0 < num_cells F)%nat -> neumann_ok F inds -> (forall sel, In sel inds -> faces_ok F sel) ->
  (forall c, (c < num_cells F)%nat ->
     is_jacobian F (fun s => kernel F s (shape_grads F c) (JxW F c) (v_grads_JxW F c) (vars_at (iv_mass iv) c) (vars_at (iv_laplace iv) c))
       (cells_sol F sol c) (cell_jac iv sol c)) ->
  (forall x, In x (cauchy_faces F) ->
     is_jacobian F (fun s => cauchy_kernel F (snd x) s (face_shape_vals E (snd (fst x))) (nanson_scale F (fst x)))
       (cells_sol F sol (fst (fst x))) (cauchy_jac sol x)) ->
  exists r IJV, compute_newton_vars F inds sol iv jac cjac = Ok (r, IJV) /\
  forall d, exists rt : R -> nodal, (forall t, compute_residual_vars F inds (add_step sol t d) iv = Ok (rt t)) /\
  forall n k, (k < vec F)%nat ->
    derivable_pt_lim (fun t => rt t n k) 0 (coo_mul (num_total_nodes F * vec F) IJV (flatten F d) (vec F * n + k)).
Proof.
  intros Hiv H0 Hn Hs Hj Hcj. destruct (newton_spec inds sol iv Hiv H0 Hn Hs) as (r & IJV & Hr & _ & _ & _ & _ & Hmul).
  exists r, IJV. split; [exact Hr|]. intros d.
  destruct (residual_steps inds iv Hiv H0 Hn Hs) as (ext & Hext).
  exists (fun t n k => match compute_residual_vars F inds (add_step sol t d) iv with Ok r => r n k | Err _ => 0 end).
  split.
  - intros t. destruct (Hext (add_step sol t d)) as (rt & -> & _). reflexivity.
  - intros n k Hk. rewrite Hmul by exact Hk.
    apply dl_ext with (f := fun t => corners F (all_cells F) (fun c => c) (cell_force F iv (add_step sol t d)) n k
        + corners F (cauchy_faces F) (fun x => fst (fst x)) (cauchy_force F (add_step sol t d)) n k - ext n k).
    { intros t. destruct (Hext (add_step sol t d)) as (rt & -> & He). now rewrite He. }
    eapply dl_eq; [apply dl_sub; [apply dl_add|apply dl_const]|reflexivity|apply Rminus_0_r].
    + unfold corners. apply dl_sumR. intros c Hc. apply in_seq in Hc. apply dl_sumN. intros a Ha. apply dl_if; [|apply dl_const].
      apply (Hj c); [lia|exact Ha|exact Hk].
    + unfold corners. apply dl_sumR. intros x Hx. apply dl_sumN. intros a Ha. apply dl_if; [|apply dl_const].
      apply (Hcj x Hx); assumption.
Qed.

Lemma affine_residual inds sol iv d :
  iv_sized F iv -> (0 < num_cells F)%nat -> neumann_ok F inds -> (forall sel, In sel inds -> faces_ok F sel) ->
  (forall c a k, (c < num_cells F)%nat -> (a < nn)%nat -> (k < vec F)%nat ->
     cell_force F iv (add_step sol 1 d) c a k = cell_force F iv sol c a k + jac_mul F (cell_jac iv sol c) (cells_sol F d c) a k) ->
  (forall x a k, In x (cauchy_faces F) -> (a < nn)%nat -> (k < vec F)%nat ->
     cauchy_force F (add_step sol 1 d) x a k = cauchy_force F sol x a k + jac_mul F (cauchy_jac sol x) (cells_sol F d (fst (fst x))) a k) ->
  exists r r1 IJV, compute_newton_vars F inds sol iv jac cjac = Ok (r, IJV) /\
  compute_residual_vars F inds (add_step sol 1 d) iv = Ok r1 /\
  forall n k, (k < vec F)%nat -> r1 n k = r n k + coo_mul (num_total_nodes F * vec F) IJV (flatten F d) (vec F * n + k).
Proof.
  intros Hiv H0 Hn Hs Hj Hcj. destruct (newton_spec inds sol iv Hiv H0 Hn Hs) as (r & IJV & Hr & Hrr & _ & _ & _ & Hmul).
  destruct (residual_steps inds iv Hiv H0 Hn Hs) as (ext & Hext).
  destruct (Hext (add_step sol 1 d)) as (r1 & Hr1 & He1). destruct (Hext sol) as (r0 & Hr0 & He0).
  assert (r0 = r) as -> by congruence.
  exists r, r1, IJV. split; [exact Hr|]. split; [exact Hr1|]. intros n k Hk. rewrite Hmul, He1, He0 by exact Hk.
  assert (G : forall X (l : list X) cell f g h, (forall x a, In x l -> (a < nn)%nat -> f x a k = g x a k + h x a k) ->
     corners F l cell f n k = corners F l cell g n k + corners F l cell h n k).
  { intros X l cell f g h H. unfold corners. rewrite <- sumR_add. apply sumR_ext. intros x Hx. rewrite <- sumN_add. apply sumN_ext.
    intros a Ha. destruct (Nat.eqb _ n); [now apply H|ring]. }
  rewrite (G _ (all_cells F) (fun c => c) (cell_force F iv (add_step sol 1 d)) (cell_force F iv sol) (fun c => jac_mul F (cell_jac iv sol c) (cells_sol F d c))).
  2: { intros c a Hc Ha. apply in_seq in Hc. apply Hj; auto. lia. }
  rewrite (G _ (cauchy_faces F) _ (cauchy_force F (add_step sol 1 d)) (cauchy_force F sol) (fun x => jac_mul F (cauchy_jac sol x) (cells_sol F d (fst (fst x))))).
  2: { intros x a Hx Ha. apply Hcj; auto. }
  ring.
Qed.
End Mat.
Close Scope R_scope.

(** ** The residual entry by entry *)
Section Corners.
Open Scope R_scope.
Context {V : Type}.
Variable F : fem V.
Local Notation E := (f_ele F).
Local Notation nn := (num_nodes (f_ele F)).
Hypothesis Hwf : wf_mesh F.
Lemma body_corners iv n k :
  (match iv_body iv with Some b => compute_body_force_by_sol F b | None => compute_body_force_by_fn F end) n k
  = corners F (all_cells F) (fun c => c) (fun c a k => sumN (num_quads E) (fun q => body_load F iv c q k * shape_vals E q a * JxW F c q)) n k.
Proof.
  unfold body_load. destruct (iv_body iv) as [b|].
  - unfold compute_body_force_by_sol. rewrite scatter_cells by exact Hwf. unfold zeros. rewrite Rplus_0_l. reflexivity.
  - unfold compute_body_force_by_fn. destruct (source_info F) as [fn|].
    + rewrite scatter_cells by exact Hwf. unfold zeros. rewrite Rplus_0_l. unfold corners. apply sumR_ext. intros c _.
      apply sumN_ext. intros a _. destruct (Nat.eqb _ n); [|reflexivity]. apply sumN_ext. intros q _. ring.
    + unfold zeros, corners. symmetry. apply sumR_zero. intros c _. apply sumN_zero. intros a _. destruct (Nat.eqb _ n); [|reflexivity].
      apply sumN_zero. intros q _. ring.
Qed.
Lemma residual_corners inds sol iv :
  iv_sized F iv -> (0 < num_cells F)%nat -> neumann_ok F inds -> (forall sel, In sel inds -> faces_ok F sel) ->
  exists r, compute_residual_vars F inds sol iv = Ok r /\ forall n k,
  r n k = corners F (all_cells F) (fun c => c) (cell_force F iv sol) n k
        + corners F (cauchy_faces F) (fun x => fst (fst x)) (cauchy_force F sol) n k
        - corners F (all_cells F) (fun c => c) (fun c a k => sumN (num_quads E) (fun q => body_load F iv c q k * shape_vals E q a * JxW F c q)) n k
        - sumR (indexed inds) (fun isel => corners F (indexed (snd isel)) (fun js => fst (snd js))
            (fun js a k => sumN (num_face_quads E) (fun p => face_shape_vals E (snd (snd js)) p a
               * traction F iv (fst isel) (fst js) (snd js) p k * nanson_scale F (snd js) p)) n k).
Proof.
  intros Hiv H0 Hn Hs0. assert (Hs : forall sel, In sel inds -> Forall (fun s => (fst s < num_cells F)%nat) sel).
  { intros sel Hsel. eapply Forall_impl; [|apply Hs0; exact Hsel]. cbn. tauto. }
  assert (Hnm : exists nm, compute_Neumann_integral_vars F inds (iv_neumann iv) = Ok nm /\ forall n k,
     nm n k = sumR (indexed inds) (fun isel => corners F (indexed (snd isel)) (fun js => fst (snd js)) (face_load F iv (fst isel)) n k)).
  { unfold compute_Neumann_integral_vars, neumann_ok in *. destruct (neumann_bc_info F) as [fns|] eqn:Ef.
    - destruct (neumann_loop_eq F Hwf fns iv inds Ef Hs 0 zeros) as (r & Hr & Hv); [lia|]. exists r. split; [exact Hr|].
      intros n k. rewrite Hv. unfold zeros. apply Rplus_0_l.
    - exists zeros. split; [reflexivity|]. intros n k. unfold zeros. symmetry. apply sumR_zero. intros isel _. unfold corners.
      apply sumR_zero. intros js _. apply sumN_zero. intros a _. destruct (Nat.eqb _ n); [|reflexivity]. unfold face_load, traction. rewrite Ef.
      apply sumN_zero. intros p _. ring. }
  destruct Hnm as (nm & Hnm & Hv). destruct (residual_eq F Hwf inds sol iv nm Hiv H0 Hnm) as (r & Hr & He). exists r. split; [exact Hr|].
  intros n k. rewrite He, Hv, body_corners. reflexivity.
Qed.
End Corners.
