(** * Concrete problems for the solver theorems. *)
From Coq Require Import FunctionalExtensionality Lra ClassicalEpsilon.
From Verif Require Import Prelude PreludeFacts FemModel FemFacts FemMatProofs SolverModel SolverSpec SolverProofs SolverLmProofs SolverAdProofs.
Open Scope R_scope.

(** ** An environment with exact linear solvers exists *)
Definition choose_solution (n : nat) (f : vector -> vector) (b : vector) : vector := epsilon (inhabits vzero) (fun x => same n (f x) b).
Definition exact_env : env :=
  mkEnv (fun n f b _ _ => choose_solution n f b) (fun n M b => choose_solution n (mat_vec n M) b) (fun n v => Fin (sqrt (dotN n v v))) (fun _ _ => true).
Lemma exact_env_ok : exact_solvers exact_env /\ exact_floats exact_env.
Proof.
  split; split; try reflexivity.
  - intros n f b x0 pc H. exact (epsilon_spec (inhabits vzero) (fun x => same n (f x) b) H).
  - intros n M b H. exact (epsilon_spec (inhabits vzero) (fun x => same n (mat_vec n M x) b) H).
Qed.
(** one whose iterative solver gives up at once *)
Definition lazy_env : env := mkEnv (fun _ _ _ _ _ => vzero) (fun _ _ _ => vzero) (fun n v => Fin (sqrt (dotN n v v))) (fun _ _ => true).
(** one in which every norm is not a number *)
Definition nan_env : env := mkEnv (fun _ _ _ _ _ => vzero) (fun _ _ _ => vzero) (fun _ _ => NaN) (fun _ _ => false).

(** ** Automatic differentiation of affine functions by differences *)
Definition dgrad (f : vector -> R) (x : vector) : vector := fun i => f (step x 1 (unit_vec i)) - f x.
Definition dvjp (n : nat) (f : vector -> vector) (x w : vector) : vector := fun j => sumN n (fun i => w i * (f (step x 1 (unit_vec j)) i - f x i)).
Definition djvp (f : vector -> vector) (x d : vector) : vector := fun i => f (step x 1 d) i - f x i.
Lemma dvjp_ok n m f x D : linear_map n m D -> (forall d i, (i < n)%nat -> f (step x 1 d) i - f x i = D d i) -> vjp_ok n m (dvjp n) f x D.
Proof.
  intros HD H w d. unfold dotN, dvjp.
  rewrite (sumN_ext m _ (fun j => sumN n (fun i => w i * (d j * D (unit_vec j) i)))).
  2:{ intros j _. rewrite <- sumN_scal_r. apply sumN_ext. intros i Hi. rewrite (H _ i Hi). ring. }
  rewrite sumN_swap. apply sumN_ext. intros i Hi. rewrite (linear_map_matrix n m D HD d i Hi), <- sumN_scal. reflexivity.
Qed.
Lemma djvp_ok n f x D : (forall d i, (i < n)%nat -> f (step x 1 d) i - f x i = D d i) -> jvp_ok n djvp f x D.
Proof. intros H d i Hi. exact (H d i Hi). Qed.
Lemma affine_differentiable n m c u p A B : (forall du dp i, (i < n)%nat -> c (fun j => u j + du j) (fun j => p j + dp j) i = c u p i + A du i + B dp i) ->
  differentiable n m c u p A B.
Proof.
  intros H i Hi e He. exists 1. split; [lra|]. intros du dp _. rewrite (H du dp i Hi).
  replace (c u p i + A du i + B dp i - c u p i - A du i - B dp i) with 0 by ring. rewrite Rabs_R0.
  apply Rmult_le_pos; [lra|]. apply Rplus_le_le_0_compat; apply sumN_nonneg; intros; apply Rabs_pos.
Qed.

(** ** A two-node bar: node 0 held (twice, the second value counts), a load p at node 1 *)
Definition bar_res (p : R) (u : nodal) : nodal := fun n k => match n with O => u 0%nat k - u 1%nat k | _ => u 1%nat k - u 0%nat k - p end.
Definition bar_ijv : IJV := ([0; 0; 1; 1]%nat, [0; 1; 0; 1]%nat, [1; -1; -1; 1]).
Definition bar (p : R) : problem :=
  mkProblem 2 1 [[0]; [0]]%nat [[0]; [0]]%nat [[1]; [3]] [] [] [] false None (fun u => Ok (bar_res p u, bar_ijv)) (fun n _ => match n with O => 0 | _ => p end).
Lemma bar_bc_ok p : bc_ok (bar p).
Proof.
  intros i Hi. cbn in Hi. destruct i as [|[|i]]; [| |lia]; cbn; repeat split; repeat constructor; intros [].
Qed.
Lemma bar_unknown p n k : unknown (bar p) n k -> (n = 0 \/ n = 1)%nat /\ k = 0%nat.
Proof. intros [H1 H2]. cbn in H1, H2. lia. Qed.
Lemma bar_prescribed p : prescribed (bar p) 0 0 = Some 3 /\ prescribed (bar p) 1 0 = None.
Proof. split; reflexivity. Qed.
Lemma bar_mul x : coo_mul 2 bar_ijv x 0 = x 0%nat - x 1%nat /\ coo_mul 2 bar_ijv x 1 = x 1%nat - x 0%nat.
Proof. unfold coo_mul, coo_entry, sumN. cbn. split; ring. Qed.
Lemma bar_ijv_ok : ijv_ok 2 bar_ijv.
Proof. unfold ijv_ok, bar_ijv. cbn. repeat split; repeat constructor. Qed.
Lemma bar_affine p : affine_problem (bar p).
Proof.
  intros u d. exists (bar_res p u), (bar_res p (fun n k => u n k + d n k)), bar_ijv, bar_ijv. split; [reflexivity|]. split; [reflexivity|].
  intros n k Hu. destruct (bar_unknown p n k Hu) as [[->| ->] ->]; change (num_total_dofs (bar p)) with 2%nat; [change (dof (bar p) 0 0) with 0%nat|change (dof (bar p) 1 0) with 1%nat].
  - rewrite (proj1 (bar_mul _)). unfold bar_res, ravel. cbn. ring.
  - rewrite (proj2 (bar_mul _)). unfold bar_res, ravel. cbn. ring.
Qed.
Definition bar_A (x : vector) : vector := fun i => match i with O => x 0%nat | _ => x 1%nat - x 0%nat end.
Lemma bar_operator p use_petsc x : same 2 (lop_apply 2 (get_A_fn (bar p) bar_ijv use_petsc) x) (bar_A x).
Proof.
  intros i Hi. destruct i as [|[|i]]; [| |lia].
  - exact (get_A_fn_spec (bar p) (bar_bc_ok p) bar_ijv use_petsc x 0 0 (conj (Nat.lt_0_succ _) (Nat.lt_0_succ _))).
  - etransitivity; [exact (get_A_fn_spec (bar p) (bar_bc_ok p) bar_ijv use_petsc x 1 0 (conj (Nat.lt_succ_diag_r 1) (Nat.lt_0_succ _)))|]. exact (proj2 (bar_mul x)).
Qed.
Lemma bar_solvable p use_petsc : solvable_problem (bar p) use_petsc.
Proof.
  intros u r ijv H b. cbn in H. injection H as <- <-. exists (fun i => match i with O => b 0%nat | _ => b 0%nat + b 1%nat end).
  intros i Hi. rewrite (bar_operator p use_petsc _ i Hi). change (num_total_dofs (bar p)) with 2%nat in Hi. destruct i as [|[|i]]; [| |lia]; cbn; ring.
Qed.
Lemma bar_invertible p use_petsc : invertible 2 (lop_apply 2 (get_A_fn (bar p) bar_ijv use_petsc)).
Proof.
  exists (fun i j => match i, j with O, O => 1 | O, _ => 0 | _, _ => 1 end). split; intros x i Hi.
  - rewrite (bar_operator p use_petsc _ i Hi). unfold mat_vec, sumN. destruct i as [|[|i]]; [| |lia]; cbn; ring.
  - unfold mat_vec, sumN. cbn [seq sumR]. rewrite !(bar_operator p use_petsc) by lia. destruct i as [|[|i]]; [| |lia]; cbn; ring.
Qed.
(** the parameter is the load *)
Definition bar_p (p : vector) : problem := bar (p 0%nat).
Definition bar_r (p : vector) (u : nodal) : nodal := bar_res (p 0%nat) u.
Definition bar_B (dp : vector) : vector := fun i => match i with O => 0 | _ => - dp 0%nat end.
Definition bar_sol (p : vector) : vector := fun i => match i with O => 3 | _ => 3 + p 0%nat end.
Lemma bar_constraint u p i : (i < 2)%nat -> constraint_fn bar_p bar_r u p i = match i with O => u 0%nat - 3 | _ => u 1%nat - u 0%nat - p 0%nat end.
Proof.
  intros Hi. unfold constraint_fn, apply_bc. destruct i as [|[|i]]; [| |lia].
  - exact (apply_bc_vec_spec (bar_p p) (bar_bc_ok _) _ u 0 0 (conj (Nat.lt_0_succ _) (Nat.lt_0_succ _))).
  - exact (apply_bc_vec_spec (bar_p p) (bar_bc_ok _) _ u 1 0 (conj (Nat.lt_succ_diag_r 1) (Nat.lt_0_succ _))).
Qed.
Lemma bar_B_linear : linear_map 2 1 bar_B.
Proof.
  unfold linear_map, bar_B. repeat split.
  - intros i x y _. destruct i; ring.
  - intros i c x _. destruct i; ring.
  - intros x y H i _. rewrite (H 0%nat ltac:(lia)). reflexivity.
Qed.
Lemma bar_ad_hypotheses p : let A := lop_apply 2 (get_A_fn (bar_p p) bar_ijv false) in
  newton_update (bar_p p) (reshape (bar_p p) (bar_sol p)) = Ok (bar_res (p 0%nat) (reshape (bar_p p) (bar_sol p)), bar_ijv) /\
  differentiable 2 1 (constraint_fn bar_p bar_r) (bar_sol p) p A bar_B /\ linear_map 2 1 bar_B /\ invertible 2 A /\
  vjp_ok 2 2 (dvjp 2) A (bar_sol p) A /\ vjp_ok 2 1 (dvjp 2) (constraint_fn bar_p bar_r (bar_sol p)) p bar_B /\
  jvp_ok 2 djvp (fun d => constraint_fn bar_p bar_r d p) (bar_sol p) A /\ jvp_ok 2 djvp (constraint_fn bar_p bar_r (bar_sol p)) p bar_B /\
  solution_path 2 (constraint_fn bar_p bar_r) (bar_sol p) p (unit_vec 0) (fun t => bar_sol (step p t (unit_vec 0))) (unit_vec 1).
Proof.
  intros A. assert (HAs : forall x i, (i < 2)%nat -> A x i = bar_A x i) by (intros x i Hi; exact (bar_operator (p 0%nat) false x i Hi)).
  assert (HA : linear_map 2 2 A) by exact (get_A_linear bar_p p (bar_bc_ok _) bar_ijv false).
  split; [reflexivity|]. split.
  { apply affine_differentiable. intros du dp i Hi. rewrite !bar_constraint, HAs by exact Hi. unfold bar_A, bar_B. destruct i as [|[|i]]; [| |lia]; ring. }
  split; [exact bar_B_linear|]. split; [exact (bar_invertible (p 0%nat) false)|]. split.
  { apply dvjp_ok; [exact HA|]. intros d i Hi. rewrite !HAs by exact Hi. unfold bar_A, step. destruct i as [|[|i]]; [| |lia]; ring. }
  split. { apply dvjp_ok; [exact bar_B_linear|]. intros d i Hi. rewrite !bar_constraint by exact Hi. unfold bar_B, step. destruct i as [|[|i]]; [| |lia]; ring. }
  split. { apply djvp_ok. intros d i Hi. rewrite !bar_constraint, HAs by exact Hi. unfold bar_A, step. destruct i as [|[|i]]; [| |lia]; ring. }
  split. { apply djvp_ok. intros d i Hi. rewrite !bar_constraint by exact Hi. unfold bar_B, step. destruct i as [|[|i]]; [| |lia]; ring. }
  split; [|split].
  - intros i. unfold bar_sol, step, unit_vec. destruct i; cbn; ring.
  - exists 1. split; [lra|]. intros t _ i Hi. rewrite bar_constraint by exact Hi. unfold bar_sol. destruct i as [|[|i]]; [| |lia]; ring.
  - intros i Hi. unfold bar_sol, step, unit_vec. destruct i as [|[|i]]; [| |lia]; cbn.
    + apply dl_const.
    + eapply dl_eq; [apply (dl_line (3 + p 0%nat) 1)| |reflexivity]. intros s. cbv beta. ring.
Qed.

(** ** Two nodes joined by a periodic condition, a spring to the ground at each, a load p at node 0 *)
Definition per_res (p : R) (u : nodal) : nodal := fun n k => match n with O => u 0%nat k - p | _ => u 1%nat k end.
Definition per_ijv : IJV := ([0; 1]%nat, [0; 1]%nat, [1; 1]).
Definition per (p : R) : problem :=
  mkProblem 2 1 [] [] [] [[0]]%nat [[1]]%nat [[0]]%nat true None (fun u => Ok (per_res p u, per_ijv)) (fun n _ => match n with O => p | _ => 0 end).
Lemma per_bc_ok p : bc_ok (per p).
Proof. intros i Hi. cbn in Hi. lia. Qed.
Lemma per_periodic_ok p : periodic_ok (per p).
Proof. repeat split; intros; cbn in *; destruct i as [|i]; try lia; cbn; repeat constructor. Qed.
Lemma per_mul x i : (i < 2)%nat -> coo_mul 2 per_ijv x i = x i.
Proof. intros Hi. unfold coo_mul, coo_entry, sumN. destruct i as [|[|i]]; [| |lia]; cbn; ring. Qed.
Lemma per_unknown p n k : unknown (per p) n k -> (n = 0 \/ n = 1)%nat /\ k = 0%nat.
Proof. intros [H1 H2]. cbn in H1, H2. lia. Qed.
Lemma per_affine p : affine_problem (per p).
Proof.
  intros u d. exists (per_res p u), (per_res p (fun n k => u n k + d n k)), per_ijv, per_ijv. split; [reflexivity|]. split; [reflexivity|].
  intros n k Hu. change (num_total_dofs (per p)) with 2%nat. destruct (per_unknown p n k Hu) as [[->| ->] ->]; [change (dof (per p) 0 0) with 0%nat|change (dof (per p) 1 0) with 1%nat];
    rewrite per_mul by lia; unfold per_res, ravel; cbn; ring.
Qed.
Lemma per_matrix_ok p : matrix_ok (per p).
Proof. intros u r ijv H. cbn in H. injection H as <- <-. unfold ijv_ok. cbn. repeat split; repeat constructor. Qed.
Lemma per_aug p x : coo_mul 3 (snd (aug_ijv (per p) per_ijv 1)) x 0 = x 0%nat + x 2%nat /\ coo_mul 3 (snd (aug_ijv (per p) per_ijv 1)) x 1 = x 1%nat - x 2%nat
  /\ coo_mul 3 (snd (aug_ijv (per p) per_ijv 1)) x 2 = x 0%nat - x 1%nat.
Proof. unfold coo_mul, coo_entry, sumN. cbn. repeat split; ring. Qed.
Lemma per_solvable p : solvable_augmented (per p) 1.
Proof.
  intros u r ijv H b. cbn in H. injection H as <- <-.
  exists (fun i => match i with O => (b 0%nat + b 1%nat + b 2%nat) / 2 | S O => (b 0%nat + b 1%nat - b 2%nat) / 2 | _ => (b 0%nat - b 1%nat - b 2%nat) / 2 end).
  intros i Hi. change (num_aug (per p)) with 3%nat in *. destruct (per_aug p (fun i => match i with O => (b 0%nat + b 1%nat + b 2%nat) / 2 | S O => (b 0%nat + b 1%nat - b 2%nat) / 2 | _ => (b 0%nat - b 1%nat - b 2%nat) / 2 end)) as (E0 & E1 & E2).
  destruct i as [|[|[|i]]]; [rewrite E0|rewrite E1|rewrite E2|lia]; field.
Qed.
Lemma per_grad p eps : is_grad (num_aug (per p)) (Lagrangian_fn (per p) eps) (dgrad (Lagrangian_fn (per p) eps)).
Proof. exact (difference_is_gradient (per p) (per_bc_ok p) (per_periodic_ok p) eps). Qed.
Definition per_p (p : vector) : problem := per (p 0%nat).
Definition per_r (p : vector) (u : nodal) : nodal := per_res (p 0%nat) u.
Definition per_sol (p : vector) : vector := fun _ => p 0%nat / 2.
Definition per_B (dp : vector) : vector := fun i => match i with O => - dp 0%nat | _ => 0 end.
(** what the solver returns *)
Lemma per_solution ev grad p fuel precond guess : exact_solvers ev -> (forall eps, is_grad (num_aug (per p)) (Lagrangian_fn (per p) eps) (grad (Lagrangian_fn (per p) eps))) ->
  exists u, solver ev (per p) grad fuel true precond guess false = Some (Ok u) /\ u 0%nat 0%nat = p / 2 /\ u 1%nat 0%nat = p / 2.
Proof.
  intros Hex Hg. destruct (linear_lm_solution (per p) (per_bc_ok p) (per_periodic_ok p) grad Hg ev (per_matrix_ok p) Hex (per_affine p) fuel) as (u & Hu & [_ Hp] & Heq).
  - cbn. lra.
  - exact (per_solvable p).
  - exists u. split; [exact Hu|]. specialize (Hp 0%nat 1%nat 0%nat (or_introl eq_refl)). destruct Heq as (r & ijv & lam & Hr & He). cbn in Hr. injection Hr as <- <-.
    pose proof (He 0%nat 0%nat (conj (Nat.lt_0_succ _) (Nat.lt_0_succ _))) as E0. pose proof (He 1%nat 0%nat (conj (Nat.lt_succ_diag_r 1) (Nat.lt_0_succ _))) as E1.
    unfold per_res, multiplier_force, sumN in E0, E1. cbn in E0, E1. lra.
Qed.
Lemma per_constraint u p i : (i < 2)%nat -> constraint_fn per_p per_r u p i = match i with O => u 0%nat - p 0%nat | _ => u 1%nat end.
Proof. intros Hi. unfold constraint_fn, apply_bc. destruct i as [|[|i]]; [reflexivity|reflexivity|lia]. Qed.
Lemma per_operator p use_petsc x i : (i < 2)%nat -> lop_apply 2 (get_A_fn (per_p p) per_ijv use_petsc) x i = x i.
Proof.
  intros Hi. destruct i as [|[|i]]; [| |lia].
  - etransitivity; [exact (get_A_fn_spec (per_p p) (per_bc_ok _) per_ijv use_petsc x 0 0 (conj (Nat.lt_0_succ _) (Nat.lt_0_succ _)))|]. exact (per_mul x 0 ltac:(lia)).
  - etransitivity; [exact (get_A_fn_spec (per_p p) (per_bc_ok _) per_ijv use_petsc x 1 0 (conj (Nat.lt_succ_diag_r 1) (Nat.lt_0_succ _)))|]. exact (per_mul x 1 ltac:(lia)).
Qed.
Lemma per_B_linear : linear_map 2 1 per_B.
Proof.
  unfold linear_map, per_B. repeat split.
  - intros i x y _. destruct i; ring.
  - intros i c x _. destruct i; ring.
  - intros x y H i _. rewrite (H 0%nat ltac:(lia)). reflexivity.
Qed.
(** what the reverse-mode rule returns at that solution *)
Lemma per_gradient ev p v use_petsc : exact_solvers ev ->
  exists g, implicit_vjp ev per_p per_r (dvjp 2) (per_sol p) p v use_petsc = Ok g /\ g 0%nat = v 0%nat.
Proof.
  intros Hex. pose proof (get_A_linear per_p p (per_bc_ok _) per_ijv use_petsc) as HA. change (num_total_dofs (per_p p)) with 2%nat in HA.
  destruct (implicit_vjp_adjoint ev per_p per_r 1 (per_sol p) p (per_bc_ok _) (dvjp 2) Hex per_ijv _ per_B v use_petsc eq_refl) as (g & w & Hg & Hw & Hd).
  - exists (fun i j => if Nat.eqb i j then 1 else 0). change (num_total_dofs (per_p p)) with 2%nat. split; intros x i Hi.
    + rewrite per_operator by exact Hi. unfold mat_vec, sumN. destruct i as [|[|i]]; [| |lia]; cbn; ring.
    + unfold mat_vec, sumN. cbn [seq sumR]. rewrite !per_operator by lia. destruct i as [|[|i]]; [| |lia]; cbn; ring.
  - apply dvjp_ok; [exact HA|]. intros d i Hi. rewrite !per_operator by exact Hi. unfold step. ring.
  - apply dvjp_ok; [exact per_B_linear|]. intros d i Hi. rewrite !per_constraint by exact Hi. unfold per_B, step. destruct i as [|[|i]]; [| |cbn in Hi; lia]; ring.
  - exists g. split; [exact Hg|]. change (num_total_dofs (per_p p)) with 2%nat in *.
    specialize (Hd (unit_vec 0)). specialize (Hw (unit_vec 0)). unfold dotN in Hd, Hw. rewrite (sumN_ext 2 _ (fun i => w i * unit_vec 0 i)) in Hw by (intros i Hi; rewrite per_operator by exact Hi; reflexivity).
    unfold sumN, unit_vec, per_B in Hd, Hw. cbn in Hd, Hw. lra.
Qed.
Close Scope R_scope.
