(** * Finite element problems with periodic conditions. *)
From Coq Require Import String FunctionalExtensionality Classical Lra Lia.
From Verif Require Import Prelude PreludeFacts FemModel FemFacts FemSpec FemProofs FemAsmProofs FemMatProofs FemGeoProofs BasisModel BasisSpec MatModel SolverModel SolverSpec SolverProofs SolverLmProofs SolverAdProofs SolverFemProofs MmaNewtonProofs RveModel RveSpec RveMeanProofs RveSolveProofs WellSpec WellProofs WellBoxProofs ConnSpec ConnRankProofs ConnMainProofs SaddleSpec SaddleModel SaddleProofs.
Open Scope R_scope.
Open Scope list_scope.
Local Notation admissible := RveSpec.admissible.
Local Notation dof := SolverSpec.dof.

(** ** when constraints are independent *)
Section Independent.
Variable P : problem.
Hypothesis Hok : bc_ok P.
Hypothesis Hper : periodic_ok P.
Local Notation M := (length (conditions P) + length (pairs P))%nat.
(** independent constraints can take any values *)
Lemma independent_reaches t : independent_constraints P -> exists d, forall j, (j < M)%nat -> cd P j d = t j.
Proof.
  intros Hi. destruct (fredholm M (num_total_dofs P) (fun j i => nth j (constraint_row P (i / pvec P) (i mod pvec P)) 0) t) as [(x & Hx)|(y & Hy & Hne)].
  - exists (reshape P x). intros j Hj. rewrite <- (cd_row P Hok Hper), <- (Hx j Hj), dsum_flat. apply dsum_ext. intros n k Hu.
    pose proof (ravel_dof P (fun n k => nth j (constraint_row P n k) 0) n k (proj2 Hu)) as E. unfold ravel in E. rewrite E. unfold reshape, SolverSpec.dof. ring.
  - exfalso. apply Hne. apply sumN_zero. intros j Hj. rewrite (Hi y); [ring| |exact Hj]. intros n k Hu. transitivity (sumN M (fun i => y i * nth i (constraint_row P (dof P n k / pvec P) (dof P n k mod pvec P)) 0)); [|exact (Hy _ (dof_lt P n k Hu))]. apply sumN_ext. intros l _.
    pose proof (ravel_dof P (fun n k => nth l (constraint_row P n k) 0) n k (proj2 Hu)) as E. unfold ravel in E. rewrite E. ring.
Qed.
Lemma cd_condition j n k x d : nth_error (conditions P) j = Some ((n, k), x) -> cd P j d = d n k.
Proof.
  intros H. assert (Hj : (j < length (conditions P))%nat) by (apply nth_error_Some; congruence). unfold cd, cdelta. rewrite app_nth1 by (rewrite map_length; exact Hj).
  rewrite (nth_map_in _ _ j ((0, 0)%nat, 0)) by exact Hj. rewrite (nth_error_nth _ _ _ H). reflexivity.
Qed.
Lemma cd_pair j a b k d : nth_error (pairs P) j = Some (a, b, k) -> cd P (length (conditions P) + j) d = d a k - d b k.
Proof.
  intros H. assert (Hj : (j < length (pairs P))%nat) by (apply nth_error_Some; congruence). unfold cd, cdelta. rewrite app_nth2 by (rewrite map_length; lia). rewrite map_length.
  replace (length (conditions P) + j - length (conditions P))%nat with j by lia. rewrite (nth_map_in _ _ j (0, 0, 0)%nat) by exact Hj. rewrite (nth_error_nth _ _ _ H). reflexivity.
Qed.
(** a pair whose two ends both have a value *)
Lemma held_pair_dependent a b k : In (a, b, k) (pairs P) -> conditioned P a k -> conditioned P b k -> ~ independent_constraints P.
Proof.
  intros Hp (x & Ha) (y & Hb) Hi. apply In_nth_error in Hp as (j & Hj). apply In_nth_error in Ha as (ja & Hja). apply In_nth_error in Hb as (jb & Hjb).
  assert (Lj : (j < length (pairs P))%nat) by (apply nth_error_Some; congruence). assert (La : (ja < length (conditions P))%nat) by (apply nth_error_Some; congruence). assert (Lb : (jb < length (conditions P))%nat) by (apply nth_error_Some; congruence).
  destruct (independent_reaches (fun i => if Nat.eqb i (length (conditions P) + j) then 1 else 0) Hi) as (d & Hd).
  pose proof (Hd (length (conditions P) + j)%nat ltac:(lia)) as H1. rewrite (cd_pair _ _ _ _ d Hj), Nat.eqb_refl in H1.
  pose proof (Hd ja ltac:(lia)) as H2. rewrite (cd_condition _ _ _ _ d Hja) in H2. pose proof (Hd jb ltac:(lia)) as H3. rewrite (cd_condition _ _ _ _ d Hjb) in H3.
  destruct (Nat.eqb_spec ja (length (conditions P) + j)); [lia|]. destruct (Nat.eqb_spec jb (length (conditions P) + j)); [lia|]. lra.
Qed.
(** a component with two values *)
Lemma held_twice_dependent : ~ NoDup (map fst (conditions P)) -> ~ independent_constraints P.
Proof.
  intros Hn Hi. apply Hn. apply (proj2 (NoDup_nth_error _)). intros i j Hil Hij. rewrite map_length in Hil. destruct (Nat.eq_dec i j) as [|Hne]; [assumption|exfalso].
  rewrite !nth_error_map in Hij. destruct (nth_error (conditions P) i) as [[[n k] x]|] eqn:Ei; [|apply nth_error_None in Ei; lia]. destruct (nth_error (conditions P) j) as [[[n' k'] y]|] eqn:Ej; [|discriminate]. cbn in Hij. injection Hij as <- <-.
  assert (Hjl : (j < length (conditions P))%nat) by (apply nth_error_Some; congruence).
  destruct (independent_reaches (fun l => if Nat.eqb l i then 1 else 0) Hi) as (d & Hd). pose proof (Hd i ltac:(lia)) as H1. pose proof (Hd j ltac:(lia)) as H2.
  rewrite (cd_condition _ _ _ _ d Ei), Nat.eqb_refl in H1. rewrite (cd_condition _ _ _ _ d Ej) in H2. destruct (Nat.eqb_spec j i); [lia|]. lra.
Qed.
(** a ring of four pairs *)
Lemma ring_dependent a b c e k : In (a, b, k) (pairs P) -> In (b, c, k) (pairs P) -> In (e, c, k) (pairs P) -> In (a, e, k) (pairs P) -> a <> b -> b <> e -> a <> e -> ~ independent_constraints P.
Proof.
  intros H1 H2 H3 H4 Hab Hbe Hae Hi. apply In_nth_error in H1 as (j1 & E1). apply In_nth_error in H2 as (j2 & E2). apply In_nth_error in H3 as (j3 & E3). apply In_nth_error in H4 as (j4 & E4).
  assert (L1 : (j1 < length (pairs P))%nat) by (apply nth_error_Some; congruence). assert (L2 : (j2 < length (pairs P))%nat) by (apply nth_error_Some; congruence).
  assert (L3 : (j3 < length (pairs P))%nat) by (apply nth_error_Some; congruence). assert (L4 : (j4 < length (pairs P))%nat) by (apply nth_error_Some; congruence).
  assert (N2 : j2 <> j1) by congruence. assert (N3 : j3 <> j1) by congruence. assert (N4 : j4 <> j1) by congruence.
  destruct (independent_reaches (fun i => if Nat.eqb i (length (conditions P) + j1) then 1 else 0) Hi) as (d & Hd).
  pose proof (Hd (length (conditions P) + j1)%nat ltac:(lia)) as D1. pose proof (Hd (length (conditions P) + j2)%nat ltac:(lia)) as D2. pose proof (Hd (length (conditions P) + j3)%nat ltac:(lia)) as D3. pose proof (Hd (length (conditions P) + j4)%nat ltac:(lia)) as D4.
  rewrite (cd_pair _ _ _ _ d E1), Nat.eqb_refl in D1. rewrite (cd_pair _ _ _ _ d E2) in D2. rewrite (cd_pair _ _ _ _ d E3) in D3. rewrite (cd_pair _ _ _ _ d E4) in D4.
  destruct (Nat.eqb_spec (length (conditions P) + j2) (length (conditions P) + j1)); [lia|]. destruct (Nat.eqb_spec (length (conditions P) + j3) (length (conditions P) + j1)); [lia|]. destruct (Nat.eqb_spec (length (conditions P) + j4) (length (conditions P) + j1)); [lia|]. lra.
Qed.
(** constraints without common components *)
Lemma separate_independent : separate_constraints P -> independent_constraints P.
Proof.
  intros (Hnd & Hnp & Hsep) lam Hl.
  assert (Ec : forall i n k m l x, nth_error (conditions P) i = Some ((m, l), x) -> nth i (constraint_row P n k) 0 = ind (Nat.eqb n m && Nat.eqb k l)).
  { intros i n k m l x H. assert (Hi : (i < length (conditions P))%nat) by (apply nth_error_Some; congruence). unfold constraint_row. rewrite app_nth1 by (rewrite map_length; exact Hi). rewrite (nth_map_in _ _ i ((0, 0)%nat, 0)) by exact Hi. rewrite (nth_error_nth _ _ _ H). reflexivity. }
  assert (Ep : forall i n k a b l, nth_error (pairs P) i = Some (a, b, l) -> nth (length (conditions P) + i) (constraint_row P n k) 0 = ind (Nat.eqb n a && Nat.eqb k l) - ind (Nat.eqb n b && Nat.eqb k l)).
  { intros i n k a b l H. assert (Hi : (i < length (pairs P))%nat) by (apply nth_error_Some; congruence). unfold constraint_row. rewrite app_nth2 by (rewrite map_length; lia). rewrite map_length.
    replace (length (conditions P) + i - length (conditions P))%nat with i by lia. rewrite (nth_map_in _ _ i (0, 0, 0)%nat) by exact Hi. rewrite (nth_error_nth _ _ _ H). reflexivity. }
  assert (Hpairs : forall j, (j < length (pairs P))%nat -> lam (length (conditions P) + j)%nat = 0).
  { intros j Hj. destruct (nth_error (pairs P) j) as [[[a b] k]|] eqn:Ej; [|apply nth_error_None in Ej; lia]. pose proof (nth_error_In _ _ Ej) as Hin. destruct (Hsep a b k Hin) as [Hnc Hnb].
    destruct (pair_unknown P Hper a b k Hin) as [Hua _]. transitivity (sumN M (fun i => nth i (constraint_row P a k) 0 * lam i)); [symmetry|exact (Hl a k Hua)]. rewrite sumN_app. rewrite (sumN_zero (length (conditions P))).
    2:{ intros i Hi. destruct (nth_error (conditions P) i) as [[[m l] x]|] eqn:Ei; [|apply nth_error_None in Ei; lia]. rewrite (Ec i a k m l x Ei). destruct (Nat.eqb_spec a m) as [<-|]; [|cbn; ring]. destruct (Nat.eqb_spec k l) as [<-|]; [|cbn; ring].
        exfalso. apply Hnc. exists x. exact (nth_error_In _ _ Ei). }
    rewrite (sumN_ext (length (pairs P)) _ (fun i => if Nat.eqb i j then lam (length (conditions P) + i)%nat else 0)); [rewrite (sumN_pick _ j (fun i => lam (length (conditions P) + i)%nat) Hj); ring|].
    intros i Hi. destruct (nth_error (pairs P) i) as [[[c e] l]|] eqn:Ei; [|apply nth_error_None in Ei; lia]. rewrite (Ep i a k c e l Ei).
    destruct (Nat.eqb_spec k l) as [<-|Hkl].
    - pose proof (Hnb c e (nth_error_In _ _ Ei)) as Hea. destruct (Nat.eqb_spec a e); [congruence|]. destruct (Nat.eqb_spec a c) as [<-|Hac].
      + assert (Hij : i = j).
        { apply (proj1 (NoDup_nth_error _) Hnp); [rewrite map_length; exact Hi|]. rewrite !nth_error_map, Ei, Ej. reflexivity. }
        subst i. rewrite Nat.eqb_refl. cbn. ring.
      + destruct (Nat.eqb_spec i j) as [->|]; [congruence|]. cbn. ring.
    - destruct (Nat.eqb_spec i j) as [->|]; [congruence|]. rewrite !Bool.andb_false_r. cbn. ring. }
  intros j Hj. destruct (Nat.lt_ge_cases j (length (conditions P))) as [H|H]; [|replace j with (length (conditions P) + (j - length (conditions P)))%nat by lia; apply Hpairs; lia].
  destruct (nth_error (conditions P) j) as [[[n k] x]|] eqn:Ej; [|apply nth_error_None in Ej; lia]. pose proof (condition_unknown P Hok _ _ _ (nth_error_In _ _ Ej)) as Hu.
  transitivity (sumN M (fun i => nth i (constraint_row P n k) 0 * lam i)); [symmetry|exact (Hl n k Hu)]. rewrite sumN_app, (sumN_zero (length (pairs P))) by (intros i Hi; rewrite (Hpairs i Hi); ring).
  rewrite (sumN_ext (length (conditions P)) _ (fun i => if Nat.eqb i j then lam i else 0)); [rewrite (sumN_pick _ j lam H); ring|].
  intros i Hi. destruct (nth_error (conditions P) i) as [[[m l] y]|] eqn:Ei; [|apply nth_error_None in Ei; lia]. rewrite (Ec i n k m l y Ei).
  destruct (Nat.eqb_spec i j) as [->|Hne].
  - rewrite Ei in Ej. injection Ej as -> -> ->. rewrite !Nat.eqb_refl. cbn. ring.
  - destruct (Nat.eqb_spec n m) as [<-|]; [|cbn; ring]. destruct (Nat.eqb_spec k l) as [<-|]; [|cbn; ring]. exfalso. apply Hne. apply (proj1 (NoDup_nth_error _) Hnd); [rewrite map_length; exact Hi|]. rewrite !nth_error_map, Ei, Ej. reflexivity.
Qed.
End Independent.

(** ** linear finite element problems *)
Section Fem.
Context {V : Type}.
Variable F : fem V.
Variable tm : list V -> mat -> mat.
Hypothesis Htm : tensor_map F = Some tm.
Hypothesis Hlin : linear_tensor F tm.
Hypothesis Hmass : mass_map F = None.
Hypothesis Hcau : cauchy_bc_info F = None.
Variables (inds : list (list (nat * nat))) (iv : internal_vars V).
Variable jac : nodal -> (nat -> nat -> nat -> R) -> (nat -> R) -> (nat -> nat -> nat -> R) -> list (nat -> V) -> list (nat -> V) -> jac4.
Variable cjac : ((nat -> R) -> nat -> R) -> nodal -> (nat -> nat -> R) -> (nat -> R) -> jac4.
Hypothesis Hjac : exact_jacobians F iv jac.
Variables (locs : list (point -> bool)) (vecs : list nat) (fns : list (point -> R)).
Variable info : list ((point -> bool) * (point -> bool) * (point -> point) * nat).
Variable eps : option R.
Variable P : problem.
Hypothesis HP : fem_problem F inds iv jac cjac (Some (locs, vecs, fns)) (Some info) eps = Ok P.
Hypothesis Hvecs : Forall (fun k => (k < vec F)%nat) vecs.
Hypothesis Hpv : Forall (fun t => (snd t < vec F)%nat) info.
Hypothesis Hwf : wf_mesh F.
Hypothesis Hloads : loads_ok F inds iv.
Hypothesis Hc : (0 < num_cells F)%nat.
Local Notation e := (match eps with Some x => x | None => 1 end).
Lemma sf_affine : affine_problem P.
Proof.
  destruct Hloads as (Hiv & Hneu & Hfc).
  exact (fem_affine F inds iv jac cjac locs vecs fns (Some info) eps P HP Hwf Hiv Hc Hneu Hfc (force_step F tm Htm Hlin Hmass iv jac Hjac) (no_faces F Hcau cjac)).
Qed.
Lemma sf_bc : bc_ok P.
Proof. exact (fem_bc_ok F inds iv jac cjac locs vecs fns (Some info) eps P HP Hvecs). Qed.
Lemma sf_per : periodic_ok P.
Proof. exact (fem_periodic_ok F inds iv jac cjac locs vecs fns (Some info) eps P HP Hpv). Qed.
Lemma sf_mat : matrix_ok P.
Proof. destruct Hloads as (Hiv & Hneu & Hfc). exact (fem_matrix_ok F inds iv jac cjac locs vecs fns (Some info) eps P HP Hwf Hiv Hc Hneu Hfc). Qed.
Lemma sf_sizes : num_nodes_p P = num_total_nodes F /\ pvec P = vec F.
Proof. pose proof (fem_problem_fields F inds iv jac cjac locs vecs fns (Some info) eps P HP) as (_ & _ & H1 & H2 & _). auto. Qed.
Lemma sf_unknown n k : unknown P n k <-> (n < num_total_nodes F)%nat /\ (k < vec F)%nat.
Proof. destruct sf_sizes as [H1 H2]. unfold unknown. rewrite H1, H2. tauto. Qed.
Lemma sf_residual s rr jj : newton_update P s = Ok (rr, jj) -> forall v, dsum P (fun n k => v n k * rr n k) = energy_form F iv s v - load_work F inds iv v.
Proof.
  destruct Hloads as (Hiv & Hneu & Hfc). pose proof (fem_problem_fields F inds iv jac cjac locs vecs fns (Some info) eps P HP) as (_ & _ & HN & HV & Hnu & _).
  intros Hs w. rewrite Hnu in Hs. destruct (newton_spec F Hwf jac cjac inds s iv Hiv Hc Hneu Hfc) as (ra & ja & Ha & Hb & _). rewrite Ha in Hs. injection Hs as <- <-.
  destruct (FemAsmProofs.virtual_work F Hwf inds s iv Hiv Hc Hneu Hfc) as (rb & Hrb & Hw). rewrite Hb in Hrb. injection Hrb as <-. unfold dsum. rewrite HN, HV, Hw, power_form, (no_cauchy F Hcau) by assumption. unfold load_work. ring.
Qed.
Lemma sf_work u r ijv d v : newton_update P u = Ok (r, ijv) -> work P ijv d v = energy_form F iv d v.
Proof.
  intros Hr. destruct (sf_affine u d) as (r0 & r1 & ijv0 & ijv1 & H0 & H1 & Hd). rewrite Hr in H0. injection H0 as <- <-.
  pose proof (sf_residual _ _ _ Hr v) as E0. pose proof (sf_residual _ _ _ H1 v) as E1.
  replace (fun n k => u n k + d n k) with (fun n k => 1 * d n k + u n k) in E1 by (apply functional_extensionality; intros; apply functional_extensionality; intros; ring).
  rewrite (form_l F tm Htm Hlin) in E1.
  assert (Es : dsum P (fun n k => v n k * r1 n k) = dsum P (fun n k => v n k * r n k) + work P ijv d v).
  { unfold work. rewrite <- dsum_add. apply dsum_ext. intros n k Hu. rewrite (Hd n k Hu). ring. }
  lra.
Qed.
Section Definite.
Hypothesis Hdef : forall d, admissible P d -> energy_form F iv d d = 0 -> same_field F d (fun _ _ => 0).
Lemma sf_def u r ijv d : newton_update P u = Ok (r, ijv) -> admissible P d -> work P ijv d d = 0 -> forall n k, unknown P n k -> d n k = 0.
Proof. intros Hr Hd Hw n k Hu. rewrite (sf_work u r ijv d d Hr) in Hw. apply sf_unknown in Hu. exact (Hdef d Hd Hw n k (proj1 Hu) (proj2 Hu)). Qed.
Lemma sf_step_iff grad x : (forall y, is_grad (num_aug P) (Lagrangian_fn P y) (grad (Lagrangian_fn P y))) -> e <> 0 -> (step_solvable P grad e x <-> consistent_constraints P).
Proof. intros Hg He. exact (step_iff P sf_bc sf_per grad Hg sf_mat sf_affine sf_def e x He). Qed.
Lemma sf_solved grad ev fuel precond guess : (forall y, is_grad (num_aug P) (Lagrangian_fn P y) (grad (Lagrangian_fn P y))) -> exact_solvers ev -> e <> 0 -> consistent_constraints P ->
  exists u, solver ev P grad fuel true precond guess false = Some (Ok u) /\ constraints_hold P u /\ in_constrained_equilibrium P u /\
  forall w, constraints_hold P w -> in_constrained_equilibrium P w -> same_field F w u.
Proof.
  intros Hg Hex He Hcs. pose proof (fem_problem_fields F inds iv jac cjac locs vecs fns (Some info) eps P HP) as (_ & _ & _ & _ & _ & _ & _ & _ & Hpp & Heps & _). rewrite <- Heps in He.
  destruct (lm_solved P sf_bc sf_per grad Hg sf_mat sf_affine sf_def ev Hex fuel He Hcs) as (u & H1 & H2 & H3 & H4). exists u. split; [unfold solver; rewrite Hpp; exact H1|]. split; [exact H2|]. split; [exact H3|].
  intros w Hw Hq n k Hn Hk. apply H4; auto. apply sf_unknown. auto.
Qed.
Lemma sf_newton grad ev precond guess : (forall y, is_grad (num_aug P) (Lagrangian_fn P y) (grad (Lagrangian_fn P y))) -> exact_solvers ev -> exact_floats ev -> e <> 0 -> consistent_constraints P ->
  exists u, solver ev P grad 1 false precond guess false = Some (Ok u).
Proof.
  intros Hg Hex Hfl He Hcs. pose proof (fem_problem_fields F inds iv jac cjac locs vecs fns (Some info) eps P HP) as (_ & _ & _ & _ & _ & _ & _ & _ & Hpp & Heps & _). rewrite <- Heps in He.
  unfold solver. rewrite Hpp. exact (lm_newton P sf_bc sf_per grad Hg sf_mat sf_affine sf_def ev Hex Hfl He Hcs).
Qed.
End Definite.
Section Symmetric.
Hypothesis Hsym : forall u v, energy_form F iv u v = energy_form F iv v u.
Hypothesis Hpos : forall u, 0 <= energy_form F iv u u.
Lemma null_form d : energy_form F iv d d = 0 -> forall z, energy_form F iv z d = 0.
Proof.
  intros H0 z. set (b := energy_form F iv z d). set (a := energy_form F iv z z).
  assert (Hq : forall t, 0 <= 2 * t * b + t * t * a).
  { intros t. pose proof (Hpos (fun n k => t * z n k + d n k)) as H. rewrite (form_l F tm Htm Hlin), !(form_r F) in H. rewrite (Hsym d z), H0 in H. fold a b in H. lra. }
  assert (Ha : 0 <= a) by apply Hpos. destruct (Req_dec b 0) as [|Hb]; [assumption|exfalso]. pose proof (Hq (- b / (a + 1))) as H.
  assert (E : 2 * (- b / (a + 1)) * b + - b / (a + 1) * (- b / (a + 1)) * a = - (b * b) * ((a + 2) / ((a + 1) * (a + 1)))) by (field; lra).
  rewrite E in H. assert (0 < b * b) by nra. assert (0 < (a + 2) / ((a + 1) * (a + 1))) by (apply Rdiv_lt_0_compat; nra). nra.
Qed.
Lemma sf_regular_iff x : x <> 0 -> (solvable_augmented P x <-> independent_constraints P /\ forall d, admissible P d -> energy_form F iv d d = 0 -> same_field F d (fun _ _ => 0)).
Proof.
  intros Hx. destruct (sf_affine (fun _ _ => 0) (fun _ _ => 0)) as (r & _ & ijv & _ & Hr & _ & _). split.
  - intros Hs. split; [exact (regular_independent P sf_bc sf_per x _ r ijv sf_mat Hr Hs)|]. intros d Hd H0 n k Hn Hk.
    apply (regular_definite P sf_bc sf_per x _ r ijv d sf_mat Hr Hs Hd); [|now apply sf_unknown]. intros z. rewrite (sf_work _ _ _ _ _ Hr). now apply null_form.
  - intros [Hi Hdef] u r' ijv' Hr' b. exact (regular_from P sf_bc sf_per x u r' ijv' b sf_mat Hr' Hx Hi (fun d => sf_def Hdef u r' ijv' d Hr')).
Qed.
(** solutions are the fields of least energy among those that meet the constraints *)
Lemma sf_minimal u w : constraints_hold P u -> in_constrained_equilibrium P u -> constraints_hold P w ->
  potential F inds iv w - potential F inds iv u = / 2 * energy_form F iv (fun n k => -1 * u n k + w n k) (fun n k => -1 * u n k + w n k).
Proof.
  intros Hu Hq Hw. set (d := fun n k => -1 * u n k + w n k).
  assert (Hd : admissible P d).
  { destruct Hu as [U1 U2]. destruct Hw as [W1 W2]. split; [intros n k x Hx; unfold d; rewrite (U1 _ _ _ Hx), (W1 _ _ _ Hx); ring|intros a b k Hx; unfold d; rewrite (U2 _ _ _ Hx), (W2 _ _ _ Hx); ring]. }
  destruct (RveSolveProofs.virtual_work P sf_bc sf_per u Hq) as (r & ijv & Hr & Hz). specialize (Hz d Hd). pose proof (sf_residual u r ijv Hr d) as E. unfold dsum in E. rewrite Hz in E.
  replace w with (fun n k => 1 * d n k + u n k) by (apply functional_extensionality; intros; apply functional_extensionality; intros; unfold d; ring).
  unfold potential. destruct Hloads as (Hiv & Hneu & Hfc). rewrite (load_comb F inds iv 1 d u). rewrite !(form_l F tm Htm Hlin), !(form_r F). rewrite (Hsym d u). lra.
Qed.
End Symmetric.
Lemma sf_conditioned n k : (n < num_total_nodes F)%nat -> (conditioned P n k <-> fixed F locs vecs n k).
Proof.
  intros Hn. unfold conditioned, fixed. split.
  - intros (x & Hx). rewrite (fem_conditions F inds iv jac cjac locs vecs fns (Some info) eps P HP) in Hx. apply in_flat_map in Hx as (i & Hi & Hx). apply in_seq in Hi. apply in_map_iff in Hx as (m & Em & Hm). injection Em as -> <- _. apply in_sel in Hm.
    exists i. split; [lia|]. split; [reflexivity|]. apply Hm.
  - intros (i & Hi). eexists. exact (fem_condition_in F inds iv jac cjac locs vecs fns (Some info) eps P HP Hc i n k Hn Hi).
Qed.
Lemma sf_zero_consistent : Forall (fun f : point -> R => forall p, f p = 0) fns -> consistent_constraints P.
Proof.
  intros Hz. exists (fun _ _ => 0). split; [|reflexivity]. intros n k v Hx. rewrite (fem_conditions F inds iv jac cjac locs vecs fns (Some info) eps P HP) in Hx. apply in_flat_map in Hx as (i & Hi & Hx). apply in_seq in Hi. apply in_map_iff in Hx as (m & Em & _). injection Em as _ _ <-.
  destruct (Nat.lt_ge_cases i (length fns)) as [H|H]; [|now rewrite nth_overflow]. rewrite Forall_forall in Hz. symmetry. apply Hz. now apply nth_In.
Qed.
End Fem.

(** ** LinearPoisson on a mesh of any Lagrange element *)
Section Poisson.
Context {V : Type}.
Variable F : fem V.
Variables (B : basix) (t : string).
Hypothesis HM : lagrange_mesh F B t.
Hypothesis Htm : tensor_map F = Some (fun _ => poisson_map).
Hypothesis Hmass : mass_map F = None.
Hypothesis Hcau : cauchy_bc_info F = None.
Variables (inds : list (list (nat * nat))) (iv : internal_vars V).
Hypothesis Hloads : loads_ok F inds iv.
Variable jac : nodal -> (nat -> nat -> nat -> R) -> (nat -> R) -> (nat -> nat -> nat -> R) -> list (nat -> V) -> list (nat -> V) -> jac4.
Variable cjac : ((nat -> R) -> nat -> R) -> nodal -> (nat -> nat -> R) -> (nat -> R) -> jac4.
Hypothesis Hjac : exact_jacobians F iv jac.
Variables (locs : list (point -> bool)) (vecs : list nat) (fns : list (point -> R)).
Variable info : list ((point -> bool) * (point -> bool) * (point -> point) * nat).
Variable eps : option R.
Variable P : problem.
Hypothesis HP : fem_problem F inds iv jac cjac (Some (locs, vecs, fns)) (Some info) eps = Ok P.
Hypothesis Hvecs : Forall (fun k => (k < vec F)%nat) vecs.
Hypothesis Hpv : Forall (fun t => (snd t < vec F)%nat) info.
Lemma sp_wf : wf_mesh F.
Proof. now destruct HM as (_ & _ & _ & _ & _ & Hwf & _). Qed.
Lemma sp_cells : (0 < num_cells F)%nat.
Proof. now destruct HM as (_ & _ & _ & _ & _ & _ & Hnc & _). Qed.
Lemma sp_joined d n m k : admissible P d -> energy_form F iv d d = 0 -> (k < vec F)%nat -> joined F P k n m -> d m k = d n k.
Proof.
  intros [_ Hd] H0 Hk Hj. induction Hj as [|c a b Hc Ha Hb _ IH|a b Hab _ IH|a b Hab _ IH]; [reflexivity| | |].
  - rewrite <- IH. now apply (lp_cell F B t HM Htm iv).
  - rewrite <- IH. symmetry. exact (Hd _ _ _ Hab).
  - rewrite <- IH. exact (Hd _ _ _ Hab).
Qed.
Lemma sp_definite : anchored F P -> forall d, admissible P d -> energy_form F iv d d = 0 -> same_field F d (fun _ _ => 0).
Proof. intros Ha d Hd H0 n k Hn Hk. destruct (Ha n k Hn Hk) as (m & Hj & x & Hx). rewrite <- (sp_joined d n m k Hd H0 Hk Hj). exact (proj1 Hd _ _ _ Hx). Qed.
Lemma sp_indicator k n : exists f : nat -> R, forall m, (m < num_total_nodes F)%nat -> (joined F P k n m /\ f m = 1) \/ (~ joined F P k n m /\ f m = 0).
Proof.
  generalize (num_total_nodes F) as N. induction N as [|N (f & IH)]; [exists (fun _ => 0); intros; lia|].
  destruct (classic (joined F P k n N)) as [Hl|Hl].
  - exists (fun m => if Nat.eqb m N then 1 else f m). intros m Hm. destruct (Nat.eqb_spec m N) as [->|Hne]; [left; auto|apply IH; lia].
  - exists (fun m => if Nat.eqb m N then 0 else f m). intros m Hm. destruct (Nat.eqb_spec m N) as [->|Hne]; [right; auto|apply IH; lia].
Qed.
Lemma sp_loose : (forall d, admissible P d -> energy_form F iv d d = 0 -> same_field F d (fun _ _ => 0)) -> anchored F P.
Proof.
  intros Hdef n k Hn Hk. apply NNPP. intros Hno. destruct (sp_indicator k n) as (f & Hf). set (w := (fun m l => if Nat.eqb l k then f m else 0) : nodal).
  pose proof (sf_bc F inds iv jac cjac locs vecs fns info eps P HP Hvecs) as Hok. pose proof (sf_per F inds iv jac cjac locs vecs fns info eps P HP Hpv) as Hper.
  pose proof (sf_unknown F inds iv jac cjac locs vecs fns info eps P HP) as Hun.
  assert (Hw : w n k = 0).
  { apply (Hdef w); [|clear Hno|exact Hn|exact Hk].
    - split.
      + intros m l x Hx. unfold w. destruct (Nat.eqb_spec l k) as [->|]; [|reflexivity]. pose proof (proj1 (Hun _ _) (condition_unknown P Hok _ _ _ Hx)) as [Hm _].
        destruct (Hf m Hm) as [[Hj _]|[_ ->]]; [|reflexivity]. exfalso. apply Hno. exists m. split; [exact Hj|]. exists x. exact Hx.
      + intros a b l Hx. unfold w. destruct (Nat.eqb_spec l k) as [->|]; [|reflexivity]. destruct (pair_unknown P Hper a b k Hx) as [Hua Hub]. apply Hun in Hua. apply Hun in Hub.
        destruct (Hf a (proj1 Hua)) as [[Ja ->]|[Ja ->]]; destruct (Hf b (proj1 Hub)) as [[Jb ->]|[Jb ->]]; try reflexivity; exfalso; [apply Jb; now apply (joined_pair F P k n a b)|apply Ja; now apply (joined_back F P k n a b)].
    - rewrite (lp_form F Htm). apply sumN_zero. intros c Hc. apply sumN_zero. intros q Hq. rewrite (sumN_zero (vec F)); [ring|]. intros l _. apply sumN_zero. intros i _.
      assert (Hx : exists x, forall a, (a < num_nodes (f_ele F))%nat -> w (cell_node F c a) l = x).
      { unfold w. destruct (Nat.eqb l k); [|exists 0; reflexivity].
        destruct (classic (exists a, (a < num_nodes (f_ele F))%nat /\ joined F P k n (cell_node F c a))) as [(a & Ha & Hla)|Hnone].
        - exists 1. intros b Hb. destruct (Hf (cell_node F c b) (cell_node_lt F sp_wf c b Hc Hb)) as [[_ ->]|[Hnl _]]; [reflexivity|]. exfalso. apply Hnl. now apply (joined_cell F P k n c a b).
        - exists 0. intros b Hb. destruct (Hf (cell_node F c b) (cell_node_lt F sp_wf c b Hc Hb)) as [[Hl _]|[_ ->]]; [|reflexivity]. exfalso. apply Hnone. eauto. }
      destruct Hx as (x & Hx). rewrite (constant_grad F B t HM w c q l i x Hc Hq Hx). ring. }
  unfold w in Hw. rewrite Nat.eqb_refl in Hw. destruct (Hf n Hn) as [[_ E]|[Hnl _]]; [lra|]. apply Hnl. constructor.
Qed.
Lemma sp_regular_iff x : x <> 0 -> (solvable_augmented P x <-> independent_constraints P /\ anchored F P).
Proof.
  intros Hx. rewrite (sf_regular_iff F _ Htm (lp_linear F) Hmass Hcau inds iv jac cjac Hjac locs vecs fns info eps P HP Hvecs Hpv sp_wf Hloads sp_cells (lp_sym F Htm iv) (lp_nonneg F B t HM Htm iv) x Hx).
  split; intros [H1 H2]; (split; [exact H1|]); [now apply sp_loose|now apply sp_definite].
Qed.
End Poisson.
Close Scope R_scope.
