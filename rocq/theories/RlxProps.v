(** * Dynamic relaxation: theorems. *)
From Coq Require Import Lra Lia.
From Verif Require Import Prelude PreludeFacts FemModel FemFacts SolverModel SolverSpec SolverExamples RlxModel RlxSpec RlxProofs RlxTermProofs RlxExamples.
Open Scope R_scope.
Open Scope list_scope.

(** C165: a converged result keeps the boundary values and balances the forces to the tolerance *)
Theorem relaxation_result : forall N asm_R asm_K nKMat u fixed tol fuel q k,
  (forall q i, (i < N)%nat -> fixed i = true -> asm_R q i = 0) -> 0 <= tol < 1 ->
  DynamicRelaxSolve N asm_R asm_K tol nKMat fuel u = Some (Converged q k) ->
  (forall i, (i < N)%nat -> fixed i = true -> q i = u i) /\ (1 <= k)%nat /\ forall i, (i < N)%nat -> Rabs (asm_R q i) <= tol.
Proof. intros N asm_R asm_K nKMat u fixed tol fuel q k H1 H2 H3. destruct (solve_result N asm_R asm_K nKMat u fixed H1 tol fuel q k H3) as [H4 H5]. destruct (H5 H2). auto. Qed.
Print Assumptions relaxation_result.
(** from the solution of the chain the first pass moves nothing and ends *)
Example relaxation_result_case : exists q, DynamicRelaxSolve 3 (lin_R 3 wall chain_K chain_f) (lin_K wall chain_K) (/ 1000000) 1000 1 chain_s = Some (Converged q 1) /\
  q 1%nat = 1 /\ q 2%nat = 2 /\ forall i, (i < 3)%nat -> Rabs (lin_R 3 wall chain_K chain_f q i) <= / 1000000.
Proof.
  assert (HR : forall i, lin_R 3 wall chain_K chain_f chain_s i = 0 \/ (3 <= i)%nat) by (intros [|[|[|i]]]; [left|left|left|right; lia]; unfold lin_R, sumN; cbn; ring).
  unfold DynamicRelaxSolve. cbn [relax_loop]. change (rs_error (relax_init 3 (lin_R 3 wall chain_K chain_f) (lin_K wall chain_K) chain_s)) with 1. unfold Rltb at 1. destruct (Rlt_dec (/ 1000000) 1) as [_|H]; [|lra].
  assert (E : rs_qdot (relax_init 3 (lin_R 3 wall chain_K chain_f) (lin_K wall chain_K) chain_s) = Some (fun i => - hstep / 2 * lin_R 3 wall chain_K chain_f chain_s i / mass 3 (lin_K wall chain_K chain_s) i)).
  { cbn [relax_init rs_qdot]. rewrite (no_zero 3 wall chain_K chain_f _ _ (lin_ok _ _ _ _) chain_spd); [reflexivity|intros; reflexivity]. }
  rewrite E. set (v := fun i => - hstep / 2 * lin_R 3 wall chain_K chain_f chain_s i / mass 3 (lin_K wall chain_K chain_s) i).
  set (st := relax_step 3 (lin_R 3 wall chain_K chain_f) (lin_K wall chain_K) 1000 (relax_init 3 (lin_R 3 wall chain_K chain_f) (lin_K wall chain_K) chain_s) v).
  assert (Hv : forall i, (i < 3)%nat -> v i = 0) by (intros i Hi; destruct (HR i) as [E0|E0]; [unfold v; rewrite E0; unfold Rdiv; ring|lia]).
  assert (Hq : forall i, (i < 3)%nat -> rs_q st i = chain_s i) by (intros i Hi; unfold st; cbn [relax_step relax_init rs_q]; rewrite (Hv i Hi); ring).
  assert (Hr : forall i, (i < 3)%nat -> Rabs (lin_R 3 wall chain_K chain_f (rs_q st) i) <= 0).
  { intros i Hi. replace (lin_R 3 wall chain_K chain_f (rs_q st) i) with (lin_R 3 wall chain_K chain_f chain_s i) by (unfold lin_R; destruct (wall i); [reflexivity|]; f_equal; apply sumN_ext; intros j Hj; now rewrite Hq). destruct (HR i) as [E0|E0]; [rewrite E0, Rabs_R0; lra|lia]. }
  assert (He : rs_error st <= 0) by (apply (max_abs_le 3 _ 0 (Rle_refl 0)); exact Hr).
  unfold Rltb. destruct (Rlt_dec (/ 1000000) (rs_error st)) as [H|_]; [lra|]. exists (rs_q st). split; [reflexivity|]. rewrite !Hq by lia. repeat split. intros i Hi. specialize (Hr i Hi). lra.
Qed.
(** C165: not so for tolerances of one and above: the error starts at 1 by decree, and the guess comes back *)
Theorem relaxation_loose_tolerance_refuted :
  (forall N asm_R asm_K nKMat u tol fuel, 1 <= tol -> DynamicRelaxSolve N asm_R asm_K tol nKMat fuel u = Some (Converged u 0)) /\
  exists N asm_R asm_K nKMat u tol fuel i, DynamicRelaxSolve N asm_R asm_K tol nKMat fuel u = Some (Converged u 0) /\ (i < N)%nat /\ tol < Rabs (asm_R u i).
Proof.
  assert (H : forall N asm_R asm_K nKMat u tol fuel, 1 <= tol -> DynamicRelaxSolve N asm_R asm_K tol nKMat fuel u = Some (Converged u 0)).
  { intros N asm_R asm_K nKMat u tol fuel Ht. unfold DynamicRelaxSolve. destruct fuel; cbn [relax_loop]; change (rs_error (relax_init N asm_R asm_K u)) with 1; unfold Rltb; destruct (Rlt_dec tol 1) as [H0|_]; try lra; reflexivity. }
  split; [exact H|]. exists 3%nat, (lin_R 3 wall chain_K (fun i => 5 * chain_f i)), (lin_K wall chain_K), 1000%nat, vzero, 2, 0%nat, 2%nat. split; [apply H; lra|]. split; [lia|].
  replace (lin_R 3 wall chain_K (fun i => 5 * chain_f i) vzero 2%nat) with (-5) by (unfold lin_R, sumN, vzero; cbn; ring). rewrite Rabs_left by lra. lra.
Qed.
Print Assumptions relaxation_loose_tolerance_refuted.

(** C166: for linear symmetric positive definite forces no step gains energy: velocities and distance from
    equilibrium stay bounded by the start, for any number of steps *)
Theorem relaxation_stable : forall N fixed K f asm_R asm_K nKMat u s n st v,
  linear_forces N fixed K f asm_R asm_K -> free_spd N fixed K -> equilibrium N fixed asm_R u s ->
  reached N asm_R asm_K nKMat u n st -> rs_qdot st = Some v ->
  21 / 121 * weighted N (mass N (asm_K vzero)) v + form N K (fun i => rs_q st i + v i / 2 - s i) (fun i => rs_q st i + v i / 2 - s i) <= form N K (fun i => u i - s i) (fun i => u i - s i).
Proof. intros N fixed K f asm_R asm_K nKMat u s n st v H1 H2 H3. exact (stable N fixed K f asm_R asm_K nKMat H1 H2 u s H3 n st v). Qed.
Print Assumptions relaxation_stable.
Example relaxation_stable_case : linear_forces 3 wall chain_K chain_f (lin_R 3 wall chain_K chain_f) (lin_K wall chain_K) /\ free_spd 3 wall chain_K /\
  equilibrium 3 wall (lin_R 3 wall chain_K chain_f) vzero chain_s /\ form 3 chain_K (fun i => vzero i - chain_s i) (fun i => vzero i - chain_s i) = 2 /\
  exists v, rs_qdot (relax_init 3 (lin_R 3 wall chain_K chain_f) (lin_K wall chain_K) vzero) = Some v /\ v 2%nat = 100 / 121.
Proof.
  split; [apply lin_ok|]. split; [exact chain_spd|]. split; [exact chain_equilibrium|]. split; [unfold form, sumN, vzero; cbn; ring|]. eexists. split; [exact chain_first|]. unfold lin_R, mass, lin_K, sumN, hstep, h_tilde, vzero. cbn. replace (Rabs (-1)) with 1 by (rewrite Rabs_left; lra). rewrite ?Rabs_R0, ?Rabs_R1. field.
Qed.

(** C167: the loop ends for every tolerance, in balance, or with all velocities zero out of balance (a quotient 0/0) *)
Theorem relaxation_terminates : forall N fixed K f asm_R asm_K nKMat tol u,
  linear_forces N fixed K f asm_R asm_K -> free_spd N fixed K -> 0 < tol < 1 ->
  exists fuel out, (forall more, DynamicRelaxSolve N asm_R asm_K tol nKMat (fuel + more) u = Some out) /\
  match out with
  | Converged q n => (forall i, (i < N)%nat -> fixed i = true -> q i = u i) /\ (forall i, (i < N)%nat -> Rabs (asm_R q i) <= tol) /\ (1 <= n)%nat
  | Failed n => exists m st v, reached N asm_R asm_K nKMat u m st /\ rs_qdot st = Some v /\ (forall i, (i < N)%nat -> v i = 0) /\ exists i, (i < N)%nat /\ tol < Rabs (asm_R (rs_q st) i)
  end.
Proof. exact terminates. Qed.
Print Assumptions relaxation_terminates.
Example relaxation_terminates_case : exists fuel out, DynamicRelaxSolve 3 (lin_R 3 wall chain_K chain_f) (lin_K wall chain_K) (/ 1000000) 1000 fuel vzero = Some out.
Proof.
  destruct (relaxation_terminates 3 wall chain_K chain_f _ _ 1000 (/ 1000000) vzero (lin_ok _ _ _ _) chain_spd ltac:(lra)) as (fuel & out & H & _). exists (fuel + 0)%nat, out. apply H.
Qed.
(** C167: the second way out is real: this spring stops out of balance and the run fails *)
Theorem relaxation_converges_refuted : exists N fixed K f asm_R asm_K nKMat tol u fuel n,
  linear_forces N fixed K f asm_R asm_K /\ free_spd N fixed K /\ 0 < tol < 1 /\ DynamicRelaxSolve N asm_R asm_K tol nKMat fuel u = Some (Failed n).
Proof.
  exists 2%nat, wall, spring_K, vzero, (lin_R 2 wall spring_K vzero), (lin_K wall spring_K), 1000%nat, (/ 100), spring_u, 3%nat, 3%nat.
  split; [apply lin_ok|]. split; [exact spring_spd|]. split; [lra|]. exact spring_fails.
Qed.
Print Assumptions relaxation_converges_refuted.

(** C168: the copy in jax_am/fem/solver.py, given the guess it fails to bind, never moves it: it returns the guess
    when that is in balance already, and raises otherwise *)
Theorem solver_relaxation_refuted :
  (forall P cr tol dofs sol, 0 <= tol -> relax_rest P cr tol dofs = Ok sol -> sol = reshape P dofs /\ exists Rv, assemble_vec P cr dofs = Ok Rv /\ forall i, (i < num_total_dofs P)%nat -> Rabs (Rv i) <= tol) /\
  (forall P cr tol dofs Rv K, 0 <= tol -> assemble_vec P cr dofs = Ok Rv -> assemble_csr P dofs = Ok K -> (exists i, (i < num_total_dofs P)%nat /\ tol < Rabs (Rv i)) -> (forall d, exists r, cr d = Ok r) ->
    relax_rest P cr tol dofs = Err TypeError \/ (exists i, (i < num_total_dofs P)%nat /\ forall j, (j < num_total_dofs P)%nat -> K i j = 0) /\ relax_rest P cr tol dofs = Err AssertionError) /\
  relax_rest (bar 1) (fun u => Ok (bar_res 1 u)) (/ 1000) bar_dofs = Err TypeError.
Proof. split; [exact rest_result|]. split; [exact rest_raises|exact bar_rest]. Qed.
Print Assumptions solver_relaxation_refuted.
Close Scope R_scope.
