(** * The finite-element problem object meets the hypotheses of the solver theorems. *)
From Coq Require Import FunctionalExtensionality Lra Sorted.
From Verif Require Import Prelude PreludeFacts FemModel FemFacts FemSpec FemProofs FemAsmProofs FemMatProofs FemGeoProofs SolverModel SolverSpec SolverProofs SolverLmProofs SolverAdProofs.
Open Scope R_scope.

Lemma nth_error_Some_lt {A} (l : list A) n x : nth_error l n = Some x -> (n < length l)%nat.
Proof. intros H. apply nth_error_Some. congruence. Qed.
Lemma find_app {A} f (l m : list A) : find f (l ++ m) = match find f l with Some x => Some x | None => find f m end.
Proof. induction l as [|a l IH]; [reflexivity|]. cbn. destruct (f a); [reflexivity|exact IH]. Qed.
Lemma find_none_iff {A} f (l : list A) : find f l = None <-> forall x, In x l -> f x = false.
Proof.
  split; [intros H x Hx; exact (find_none f l H x Hx)|]. intros H. induction l as [|a l IH]; [reflexivity|]. cbn. rewrite (H a (or_introl eq_refl)). apply IH. intros x Hx. apply H. right. exact Hx.
Qed.
Lemma nth_map_in {A B} (f : A -> B) (l : list A) i da db : (i < length l)%nat -> nth i (map f l) db = f (nth i l da).
Proof. intros H. rewrite (nth_indep _ db (f da)) by (rewrite map_length; exact H). apply map_nth. Qed.
Lemma combine_map_same {A B C} (f : A -> B) (g : A -> C) l : combine (map f l) (map g l) = map (fun x => (f x, g x)) l.
Proof. induction l; [reflexivity|]. cbn. f_equal. assumption. Qed.

Section FemP.
Context {V : Type}.
Variable F : fem V.
Variables (inds : list (list (nat * nat))) (iv : internal_vars V).
Variable jac : nodal -> (nat -> nat -> nat -> R) -> (nat -> R) -> (nat -> nat -> nat -> R) -> list (nat -> V) -> list (nat -> V) -> jac4.
Variable cjac : ((nat -> R) -> nat -> R) -> nodal -> (nat -> nat -> R) -> (nat -> R) -> jac4.
Variables (locs : list (point -> bool)) (vecs : list nat) (fns : list (point -> R)).
Variable pinfo : option (list ((point -> bool) * (point -> bool) * (point -> point) * nat)).
Variable eps : option R.
Variable P : problem.
Hypothesis HP : fem_problem F inds iv jac cjac (Some (locs, vecs, fns)) pinfo eps = Ok P.
Hypothesis Hvecs : Forall (fun k => (k < vec F)%nat) vecs.
Hypothesis Hpv : match pinfo with None => True | Some info => Forall (fun t => (snd t < vec F)%nat) info end.

Definition sel (i : nat) : list nat := argwhere (nth i locs (fun _ => false)) (map (points F) (seq 0 (num_total_nodes F))).
Lemma in_sel i n : In n (sel i) <-> (n < num_total_nodes F)%nat /\ nth i locs (fun _ => false) (points F n) = true.
Proof.
  unfold sel. rewrite in_argwhere. split.
  - intros (x & Hx & Hp). assert (Hn : (n < num_total_nodes F)%nat) by (apply nth_error_Some_lt in Hx; rewrite map_length, seq_length in Hx; exact Hx).
    rewrite nth_error_map, (nth_error_nth' _ 0%nat), seq_nth in Hx by (rewrite ?seq_length; exact Hn). cbn in Hx. injection Hx as <-. auto.
  - intros [Hn Hp]. exists (points F n). split; [|exact Hp]. rewrite nth_error_map, (nth_error_nth' _ 0%nat), seq_nth by (rewrite ?seq_length; exact Hn). reflexivity.
Qed.
Lemma fem_problem_fields :
  length locs = length fns /\ length fns = length vecs /\ num_nodes_p P = num_total_nodes F /\ pvec P = vec F /\
  newton_update P = (fun sol => compute_newton_vars F inds sol iv jac cjac) /\
  node_inds_list P = map sel (seq 0 (length locs)) /\
  vec_inds_list P = map (fun i => map (fun _ => nth i vecs 0%nat) (sel i)) (seq 0 (length locs)) /\
  vals_list P = map (fun i => map (fun n => nth i fns (fun _ => 0) (points F n)) (sel i)) (seq 0 (length locs)) /\
  has_periodic P = (match pinfo with None => false | Some _ => true end) /\ p_num_eps_attr P = eps /\
  exists pl, (match pinfo with None => Ok [] | Some info => periodic_boundary_conditions F info end) = Ok pl /\
  p_node_inds_list_A P = map (fun t => fst (fst t)) pl /\ p_node_inds_list_B P = map (fun t => snd (fst t)) pl /\ p_vec_inds_list P = map snd pl.
Proof.
  unfold fem_problem in HP. unfold Dirichlet_boundary_conditions in HP.
  destruct (Nat.eqb (length locs) (length fns) && Nat.eqb (length fns) (length vecs)) eqn:E; [|discriminate].
  apply andb_prop in E as [E1 E2]. apply Nat.eqb_eq in E1, E2. cbn [bind] in HP.
  destruct (match pinfo with None => Ok [] | Some info => periodic_boundary_conditions F info end) as [pl|]; [cbn [bind] in HP|discriminate].
  destruct (fem_loads F inds iv); [cbn [bind] in HP|discriminate]. injection HP as <-. cbn. repeat (split; [first [assumption|reflexivity]|]). exists pl. repeat split; reflexivity.
Qed.
Lemma fem_N : num_total_dofs P = (num_total_nodes F * vec F)%nat.
Proof. destruct fem_problem_fields as (_ & _ & H1 & H2 & _). unfold num_total_dofs. rewrite H1, H2. reflexivity. Qed.
Lemma fem_bc_ok : bc_ok P.
Proof.
  destruct fem_problem_fields as (L1 & L2 & HN & HV & _ & Hn & Hv & Hx & _). intros i Hi. rewrite Hn in Hi. rewrite map_length, seq_length in Hi. cbv zeta.
  rewrite Hn, Hv, Hx. rewrite !(nth_map_in _ _ i 0%nat) by (rewrite seq_length; exact Hi). rewrite !seq_nth by exact Hi. cbn [plus].
  rewrite !map_length. split; [reflexivity|]. split; [reflexivity|]. split; [|split].
  - rewrite <- (map_id (sel i)) at 1. rewrite combine_map_same. apply FinFun.Injective_map_NoDup; [intros a b H; congruence|]. apply argwhere_NoDup.
  - apply Forall_forall. intros n Hin. rewrite HN. apply in_sel in Hin. apply Hin.
  - apply Forall_forall. intros k Hin. apply in_map_iff in Hin as (n & <- & _). rewrite HV. rewrite Forall_forall in Hvecs. apply Hvecs. apply nth_In. lia.
Qed.
Lemma fem_periodic_ok : periodic_ok P.
Proof.
  destruct fem_problem_fields as (_ & _ & HN & HV & _ & _ & _ & _ & _ & _ & pl & Hpl & HA & HB & Hv).
  unfold periodic_ok. rewrite HA, HB, Hv, !map_length. split; [reflexivity|]. split; [reflexivity|]. intros i Hi. cbv zeta.
  rewrite !(nth_map_in _ _ i ([], [], [])) by exact Hi.
  destruct pinfo as [info|]; [|injection Hpl as <-; cbn in Hi; lia].
  unfold periodic_boundary_conditions in Hpl.
  pose proof (mapM_ok_length _ _ _ Hpl) as Hlen. rewrite Hlen in Hi.
  destruct (nth_error info i) as [t|] eqn:Et; [|apply nth_error_None in Et; lia].
  destruct (mapM_ok_nth _ _ _ _ _ Hpl Et) as (y & Hf & Hy). rewrite (nth_error_nth _ _ _ Hy).
  destruct t as [[[A B] mp] v]. destruct (periodic_pair F A B mp) as [[la lb]|] eqn:Ep; [|discriminate]. cbn in Hf. injection Hf as <-. cbn [fst snd].
  destruct (periodic_pair_ok F A B mp la lb Ep) as (H1 & _ & _ & H2 & H3). rewrite map_length. split; [lia|]. split; [reflexivity|]. split; [|split].
  - apply Forall_forall. intros n Hin. rewrite HN. apply H2 in Hin. apply Hin.
  - apply Forall_forall. intros n Hin. rewrite HN. apply In_nth_error in Hin as (j & Hj). destruct (nth_error la j) as [a|] eqn:Ea.
    + destruct (H3 j a Ea) as (b & Hb & Hlt & _). congruence.
    + apply nth_error_None in Ea. apply nth_error_Some_lt in Hj. lia.
  - apply Forall_forall. intros k Hin. apply in_map_iff in Hin as (n & <- & _). rewrite HV. rewrite Forall_forall in Hpv. exact (Hpv _ (nth_error_In _ _ Et)).
Qed.
Lemma fem_conditions : conditions P = flat_map (fun i => map (fun n => ((n, nth i vecs 0%nat), nth i fns (fun _ => 0) (points F n))) (sel i)) (seq 0 (length locs)).
Proof.
  destruct fem_problem_fields as (L1 & L2 & HN & HV & _ & Hn & Hv & Hx & _). unfold conditions. rewrite Hn. rewrite map_length, seq_length.
  rewrite !flat_map_concat_map. f_equal. apply map_ext_in. intros i Hi. apply in_seq in Hi. rewrite Hv, Hx.
  rewrite !(nth_map_in _ _ i 0%nat) by (rewrite seq_length; lia). rewrite !seq_nth by lia. cbn [plus].
  rewrite <- (map_id (sel i)) at 1. rewrite !combine_map_same. reflexivity.
Qed.
Local Notation applies := (applies F locs vecs).
Lemma fem_prescribed_last i n k : unknown P n k -> applies i n k -> (forall i', (i < i')%nat -> ~ applies i' n k) ->
  prescribed P n k = Some (nth i fns (fun _ => 0) (points F n)).
Proof.
  destruct fem_problem_fields as (L1 & L2 & HN & HV & _). intros [Hu _] (Hi & Hk & Hl) Hlast. rewrite HN in Hu.
  unfold prescribed. rewrite fem_conditions. replace (length locs) with (i + (1 + (length locs - S i)))%nat by lia. rewrite !seq_app, !flat_map_app, !rev_app_distr, !find_app.
  set (f := fun u : nat * nat * R => _). cbn [plus].
  assert (E1 : find f (rev (flat_map (fun i => map (fun n => ((n, nth i vecs 0%nat), nth i fns (fun _ => 0) (points F n))) (sel i)) (seq (i + 1) (length locs - S i)))) = None).
  { apply find_none_iff. intros x Hx. apply in_rev in Hx. apply in_flat_map in Hx as (j & Hj & Hx). apply in_seq in Hj. apply in_map_iff in Hx as (n' & <- & Hn'). apply in_sel in Hn'.
    unfold f. cbn [fst snd]. destruct (Nat.eqb_spec n n') as [<-|]; [|reflexivity]. destruct (Nat.eqb_spec k (nth j vecs 0%nat)) as [Hj2|]; [|reflexivity].
    exfalso. apply (Hlast j ltac:(lia)). split; [lia|]. split; [symmetry; exact Hj2|apply Hn']. }
  rewrite E1. cbn [seq flat_map]. rewrite app_nil_r. clear E1.
  set (g := fun n : nat => _). assert (Hin : In n (rev (sel i))) by (rewrite <- in_rev; apply in_sel; auto).
  assert (E2 : find f (map g (rev (sel i))) = Some (g n)).
  { induction (rev (sel i)) as [|a l IH]; [destruct Hin|]. cbn [map find]. unfold f at 1. change (fst (fst (g a))) with a. change (snd (fst (g a))) with (nth i vecs 0%nat). rewrite Hk, Nat.eqb_refl.
    destruct (Nat.eqb_spec n a) as [<-|Hne]; [reflexivity|]. cbn [andb]. apply IH. destruct Hin as [Ha|Hin]; [congruence|exact Hin]. }
  rewrite <- map_rev, E2. reflexivity.
Qed.
Lemma fem_prescribed_none n k : (forall i, ~ applies i n k) -> prescribed P n k = None.
Proof.
  destruct fem_problem_fields as (L1 & L2 & HN & HV & _). intros H. unfold prescribed. rewrite fem_conditions.
  match goal with |- option_map snd (find ?f ?l) = None => assert (E : find f l = None); [|rewrite E; reflexivity] end.
  apply find_none_iff. intros x Hx. apply in_rev in Hx. apply in_flat_map in Hx as (j & Hj & Hx). apply in_seq in Hj. apply in_map_iff in Hx as (n' & <- & Hn'). apply in_sel in Hn'.
  cbn [fst snd]. destruct (Nat.eqb_spec n n') as [<-|]; [|reflexivity]. destruct (Nat.eqb_spec k (nth j vecs 0%nat)) as [Hj2|]; [|reflexivity].
  exfalso. apply (H j). split; [lia|]. split; [symmetry; exact Hj2|apply Hn'].
Qed.
Hypothesis Hwf : wf_mesh F.
Hypothesis Hiv : iv_sized F iv.
Hypothesis Hc : (0 < num_cells F)%nat.
Hypothesis Hneu : neumann_ok F inds.
Hypothesis Hfaces : forall s, In s inds -> faces_ok F s.
Lemma fem_matrix_ok : matrix_ok P.
Proof.
  intros u r ijv H. destruct fem_problem_fields as (_ & _ & _ & _ & Hnu & _). rewrite Hnu in H.
  destruct (newton_spec F Hwf jac cjac inds u iv Hiv Hc Hneu Hfaces) as (r0 & ijv0 & H0 & _ & Hr & H1 & H2 & _). rewrite H0 in H. injection H as <- <-.
  unfold ijv_ok. rewrite fem_N. split; [congruence|]. split; [exact H2|]. split; apply Forall_forall; intros i Hi; apply Hr; auto.
Qed.
Hypothesis Hcell : forall sol d c a k, (c < num_cells F)%nat -> (a < num_nodes (f_ele F))%nat -> (k < vec F)%nat ->
  cell_force F iv (add_step sol 1 d) c a k = cell_force F iv sol c a k + jac_mul F (cell_jac F jac iv sol c) (cells_sol F d c) a k.
Hypothesis Hcau : forall sol d x a k, In x (cauchy_faces F) -> (a < num_nodes (f_ele F))%nat -> (k < vec F)%nat ->
  cauchy_force F (add_step sol 1 d) x a k = cauchy_force F sol x a k + jac_mul F (cauchy_jac F cjac sol x) (cells_sol F d (fst (fst x))) a k.
Lemma fem_affine : affine_problem P.
Proof.
  intros u d. destruct fem_problem_fields as (_ & _ & HN & HV & Hnu & _).
  destruct (affine_residual F Hwf jac cjac inds u iv d Hiv Hc Hneu Hfaces (Hcell u d) (Hcau u d)) as (r & r1 & ijv & H1 & H2 & H3).
  destruct (newton_spec F Hwf jac cjac inds (add_step u 1 d) iv Hiv Hc Hneu Hfaces) as (r2 & ijv2 & H4 & H5 & _). rewrite H2 in H5. injection H5 as <-.
  exists r, r1, ijv, ijv2. rewrite Hnu. split; [exact H1|]. split.
  - etransitivity; [|exact H4]. cbv beta. f_equal. apply functional_extensionality. intros n. apply functional_extensionality. intros k. unfold add_step. ring.
  - intros n k [_ Hk]. rewrite HV in Hk. rewrite (H3 n k Hk). rewrite fem_N. unfold dof. rewrite HV. f_equal. unfold coo_mul. apply sumN_ext. intros j _. unfold ravel, flatten. rewrite HV. reflexivity.
Qed.

Lemma fem_linear_solve ev grad fuel precond guess use_petsc : pinfo = None -> exact_solvers ev -> exact_floats ev -> solvable_problem P use_petsc ->
  exists u r, solver ev P grad fuel true precond guess use_petsc = Some (Ok u) /\
  (forall i n k, (n < num_total_nodes F)%nat -> last_applying F locs vecs i n k -> u n k = nth i fns (fun _ => 0) (points F n)) /\
  compute_residual_vars F inds u iv = Ok r /\
  (forall n k, (n < num_total_nodes F)%nat -> (k < vec F)%nat -> (forall i, ~ applies i n k) -> r n k = 0).
Proof.
  intros Hpi Hex Hfl Hs. pose proof fem_problem_fields as (L1 & L2 & HN & HV & Hnu & _ & _ & _ & Hper & _).
  destruct (linear_solve_solution P fem_bc_ok ev Hex Hfl fem_affine use_petsc precond fuel guess Hs) as (u & Hu & Hm & r & ijv & Hr & Hq).
  exists u, r. split; [unfold solver; rewrite Hper, Hpi; exact Hu|]. split; [|split].
  - intros i n k Hn [Ha Hl]. assert (Hun : unknown P n k).
    { split; [rewrite HN; exact Hn|]. rewrite HV. destruct Ha as (Hi & <- & _). rewrite Forall_forall in Hvecs. apply Hvecs. apply nth_In. lia. }
    apply (Hm n k); [exact Hun|]. exact (fem_prescribed_last i n k Hun Ha Hl).
  - rewrite Hnu in Hr. destruct (newton_spec F Hwf jac cjac inds u iv Hiv Hc Hneu Hfaces) as (r0 & ijv0 & H0 & H1 & _). rewrite H0 in Hr. injection Hr as <- <-. exact H1.
  - intros n k Hn Hk Hna. apply Hq; [split; [rewrite HN; exact Hn|rewrite HV; exact Hk]|]. exact (fem_prescribed_none n k Hna).
Qed.
Lemma fem_condition_in i n k : (n < num_total_nodes F)%nat -> applies i n k -> In ((n, k), nth i fns (fun _ => 0) (points F n)) (conditions P).
Proof.
  intros Hn (Hi & <- & Hl). rewrite fem_conditions. apply in_flat_map. exists i. split; [apply in_seq; lia|].
  apply in_map_iff. exists n. split; [reflexivity|]. apply in_sel. auto.
Qed.
Lemma fem_pair_in info i A B mp v a : pinfo = Some info -> nth_error info i = Some (A, B, mp, v) -> (a < num_total_nodes F)%nat -> A (points F a) = true ->
  exists b, In (a, b, v) (pairs P) /\ (b < num_total_nodes F)%nat /\ B (points F b) = true /\ dist (dim F) (mp (points F a)) (points F b) < EPS.
Proof.
  intros Hpi Hi Ha HA. pose proof fem_problem_fields as (_ & _ & _ & _ & _ & _ & _ & _ & _ & _ & pl & Hpl & HA' & HB' & Hv'). rewrite Hpi in Hpl.
  unfold periodic_boundary_conditions in Hpl. destruct (mapM_ok_nth _ _ _ _ _ Hpl Hi) as (y & Hf & Hy).
  destruct (periodic_pair F A B mp) as [[la lb]|] eqn:Ep; [|discriminate]. cbn in Hf. injection Hf as <-.
  destruct (periodic_pair_ok F A B mp la lb Ep) as (H1 & _ & _ & H2 & H3). pose proof (proj2 (H2 a) (conj Ha HA)) as Hin. apply In_nth_error in Hin as (j & Hj).
  destruct (H3 j a Hj) as (b & Hb & Hlt & HBb & Hd & _). exists b. split; [|auto].
  unfold pairs. apply in_flat_map. exists i. assert (Hil : (i < length pl)%nat) by exact (nth_error_Some_lt _ _ _ Hy). split; [apply in_seq; rewrite HA', map_length; lia|].
  rewrite HA', HB', Hv'. rewrite !(nth_map_in _ _ i ([], [], [])) by exact Hil. rewrite (nth_error_nth _ _ _ Hy). cbn [fst snd].
  clear - Hj Hb. revert lb j Hj Hb. induction la as [|x la IH]; intros [|z lb] [|j] Hj Hb; cbn in Hj, Hb; try discriminate.
  - injection Hj as ->. injection Hb as ->. left. reflexivity.
  - right. exact (IH lb j Hj Hb).
Qed.
Lemma fem_periodic_linear_solve ev grad fuel precond guess info : pinfo = Some info ->
  (forall e, is_grad (num_aug P) (Lagrangian_fn P e) (grad (Lagrangian_fn P e))) ->
  exact_solvers ev -> (match eps with Some e => e | None => 1 end) <> 0 -> solvable_augmented P (match eps with Some e => e | None => 1 end) ->
  exists u, solver ev P grad fuel true precond guess false = Some (Ok u) /\
  (forall i n k, (n < num_total_nodes F)%nat -> applies i n k -> u n k = nth i fns (fun _ => 0) (points F n)) /\
  (forall i A B mp v a, nth_error info i = Some (A, B, mp, v) -> (a < num_total_nodes F)%nat -> A (points F a) = true ->
     exists b, (b < num_total_nodes F)%nat /\ B (points F b) = true /\ dist (dim F) (mp (points F a)) (points F b) < EPS /\ u a v = u b v) /\
  in_constrained_equilibrium P u.
Proof.
  intros Hpi Hg Hex He Hs. pose proof fem_problem_fields as (_ & _ & _ & _ & _ & _ & _ & _ & Hper & Heps & _). rewrite <- Heps in He, Hs.
  destruct (linear_lm_solution P fem_bc_ok fem_periodic_ok grad Hg ev fem_matrix_ok Hex fem_affine fuel He Hs) as (u & Hu & [Hd Hp] & Hq).
  exists u. split; [unfold solver; rewrite Hper, Hpi; exact Hu|]. split; [|split; [|exact Hq]].
  - intros i n k Hn Ha. apply Hd. exact (fem_condition_in i n k Hn Ha).
  - intros i A B mp v a Hi Ha HA. destruct (fem_pair_in info i A B mp v a Hpi Hi Ha HA) as (b & Hin & Hb & HB & Hdist). exists b. repeat (split; [assumption|]). exact (Hp a b v Hin).
Qed.
End FemP.
Close Scope R_scope.
