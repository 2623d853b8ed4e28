(** * Dynamic relaxation: a chain of two springs, a single spring that stops, the two-node bar. *)
From Coq Require Import Lra Lia FunctionalExtensionality.
From Verif Require Import Prelude PreludeFacts FemModel FemFacts SolverModel SolverSpec SolverAdProofs SolverExamples RlxModel RlxSpec RlxProofs RlxTermProofs.
Open Scope R_scope.
Open Scope list_scope.
Definition lin_R (N : nat) (fixed : nat -> bool) (K : mat) (f : vector) (q : vector) : vector := fun i => if fixed i then 0 else sumN N (fun j => K i j * q j) - f i.
Definition lin_K (fixed : nat -> bool) (K : mat) (_ : vector) : mat := fun i j => if fixed i then if Nat.eqb i j then 1 else 0 else K i j.
Lemma lin_ok N fixed K f : linear_forces N fixed K f (lin_R N fixed K f) (lin_K fixed K).
Proof. split; reflexivity. Qed.
Lemma pow2_gt_0 x : x <> 0 -> 0 < x ^ 2.
Proof. intros H. replace (x ^ 2) with (Rsqr x) by (unfold Rsqr; ring). exact (Rsqr_pos_lt x H). Qed.
(** a wall, two springs, a load on the end *)
Definition wall (i : nat) : bool := Nat.eqb i 0.
Definition chain_K : mat := fun i j => match i, j with 1%nat, 0%nat => -1 | 1%nat, 1%nat => 2 | 1%nat, 2%nat => -1 | 2%nat, 1%nat => -1 | 2%nat, 2%nat => 1 | _, _ => 0 end.
Definition chain_f : vector := fun i => match i with 2%nat => 1 | _ => 0 end.
Definition chain_s : vector := fun i => match i with 1%nat => 1 | 2%nat => 2 | _ => 0 end.
Lemma chain_spd : free_spd 3 wall chain_K.
Proof.
  split.
  - intros [|[|[|i]]] [|[|[|j]]] Hi Hj Fi Fj; try discriminate; try lia; reflexivity.
  - intros x Hx (i & Hi & Hn). pose proof (Hx 0%nat ltac:(lia) eq_refl) as H0. unfold form, sumN. cbn. rewrite H0.
    assert (H : 0 < x 1%nat ^ 2 + (x 1%nat - x 2%nat) ^ 2); [|nra].
    destruct i as [|[|[|i]]]; [destruct (Hn H0)| | |lia].
    + pose proof (pow2_ge_0 (x 1%nat - x 2%nat)). assert (0 < x 1%nat ^ 2) by (apply pow2_gt_0; exact Hn). lra.
    + destruct (Req_dec (x 1%nat) 0) as [->|E]; [assert (0 < x 2%nat ^ 2) by (apply pow2_gt_0; exact Hn); nra|]. assert (0 < x 1%nat ^ 2) by (apply pow2_gt_0; exact E). pose proof (pow2_ge_0 (x 1%nat - x 2%nat)). lra.
Qed.
Lemma chain_equilibrium : equilibrium 3 wall (lin_R 3 wall chain_K chain_f) vzero chain_s.
Proof.
  split; [intros [|i] _ H; [reflexivity|discriminate]|]. intros [|[|[|i]]] Hi; [| | |lia]; unfold lin_R, sumN; cbn; ring.
Qed.
Lemma chain_first : rs_qdot (relax_init 3 (lin_R 3 wall chain_K chain_f) (lin_K wall chain_K) vzero) = Some (fun i => - hstep / 2 * lin_R 3 wall chain_K chain_f vzero i / mass 3 (lin_K wall chain_K vzero) i).
Proof. cbn [relax_init rs_qdot]. rewrite (no_zero 3 wall chain_K chain_f _ _ (lin_ok _ _ _ _) chain_spd); [reflexivity|intros; reflexivity]. Qed.
(** a spring that stops out of balance: K/M is chosen so that the second velocities are zero *)
Definition wst : R := (sqrt 13 - 1) / 2.
Lemma wst_eq : wst * wst = 3 - wst.
Proof. unfold wst. pose proof (sqrt_sqrt 13 ltac:(lra)). nra. Qed.
Lemma wst_range : 13 / 10 < wst < 14 / 10.
Proof. unfold wst. pose proof (sqrt_sqrt 13 ltac:(lra)). pose proof (sqrt_pos 13). assert (36 / 10 < sqrt 13) by nra. assert (sqrt 13 < 37 / 10) by nra. lra. Qed.
Definition spring_K : mat := fun i j => match i, j with 1%nat, 0%nat => 1 - 400 / (121 * (wst * wst)) | 1%nat, 1%nat => 1 | _, _ => 0 end.
Definition spring_u : vector := fun i => match i with 1%nat => 1 | _ => 0 end.
Lemma spring_spd : free_spd 2 wall spring_K.
Proof.
  split.
  - intros [|[|i]] [|[|j]] Hi Hj Fi Fj; try discriminate; try lia; reflexivity.
  - intros x Hx (i & Hi & Hn). pose proof (Hx 0%nat ltac:(lia) eq_refl) as H0. unfold form, sumN. cbn. rewrite H0. destruct i as [|[|i]]; [destruct (Hn H0)| |lia]. assert (0 < x 1%nat ^ 2) by (apply pow2_gt_0; exact Hn). nra.
Qed.
Local Notation sR := (lin_R 2 wall spring_K vzero).
Local Notation sK := (lin_K wall spring_K).
Lemma spring_mass q : mass 2 (sK q) 0%nat = 121 / 400 /\ mass 2 (sK q) 1%nat = / (wst * wst).
Proof.
  pose proof wst_range as [H1 H2]. assert (Hq : 0 < wst * wst < 2) by nra. unfold mass, sumN, h_tilde, lin_K, spring_K. cbn. rewrite Rabs_R0, !Rabs_R1. split; [field|].
  assert (H : 1 < 400 / (121 * (wst * wst))). { apply Rmult_lt_reg_r with (121 * (wst * wst)); [lra|]. replace (400 / (121 * (wst * wst)) * (121 * (wst * wst))) with 400 by (field; lra). lra. }
  rewrite Rabs_left by lra. field. lra.
Qed.
Lemma spring_zero q : has_zero 2 (mass 2 (sK q)) = false.
Proof. exact (no_zero 2 wall spring_K vzero sR sK (lin_ok _ _ _ _) spring_spd _ (fun _ _ => eq_refl)). Qed.
Lemma spring_R q : sR q 0%nat = 0 /\ (q 0%nat = 0 -> sR q 1%nat = q 1%nat).
Proof. split; [reflexivity|]. intros H. unfold lin_R, sumN. cbn. rewrite H. unfold vzero. ring. Qed.
Lemma calC_sqrt t lo hi : 0 <= t -> lo <= 2 * sqrt t <= hi -> calC t lo hi = 2 * sqrt t.
Proof. intros H1 H2. rewrite calC_value; rewrite Rmax_left by lra; [reflexivity|exact H2]. Qed.
Definition spring_v0 : vector := fun i => - hstep / 2 * sR spring_u i / mass 2 (sK spring_u) i.
Lemma spring_v0_val : spring_v0 0%nat = 0 /\ spring_v0 1%nat = - (wst * wst) / 2.
Proof.
  pose proof wst_range. assert (0 < wst * wst) by nra. unfold spring_v0, hstep. rewrite (proj1 (spring_mass spring_u)), (proj2 (spring_mass spring_u)), (proj2 (spring_R spring_u) eq_refl), (proj1 (spring_R spring_u)). cbn [spring_u]. split; field. lra.
Qed.
Lemma spring_init : rs_qdot (relax_init 2 sR sK spring_u) = Some spring_v0.
Proof. cbn [relax_init rs_qdot]. rewrite (spring_zero spring_u). reflexivity. Qed.
Definition spring_st1 : rstate := relax_step 2 sR sK 1000 (relax_init 2 sR sK spring_u) spring_v0.
Lemma spring_stops : exists v1, rs_qdot spring_st1 = Some v1 /\ (forall i, (i < 2)%nat -> v1 i = 0) /\ / 10 < sR (rs_q spring_st1) 1%nat.
Proof.
  pose proof wst_range as Hw. pose proof wst_eq as He. destruct spring_v0_val as [V0 V1]. assert (Hp : 0 < wst * wst) by nra.
  set (q1 := rs_q spring_st1). assert (Q0 : q1 0%nat = 0) by (unfold q1, spring_st1; cbn [relax_step relax_init rs_q]; rewrite V0; cbn [spring_u]; ring).
  assert (Q1 : q1 1%nat = 1 - wst * wst / 2) by (unfold q1, spring_st1, hstep; cbn [relax_step relax_init rs_q]; rewrite V1; unfold hstep; cbn [spring_u]; field).
  assert (R1 : sR q1 1%nat = 1 - wst * wst / 2) by (rewrite (proj2 (spring_R q1) Q0), Q1; reflexivity). assert (R0 : sR q1 0%nat = 0) by exact (proj1 (spring_R q1)).
  assert (HR : / 10 < sR q1 1%nat) by (rewrite R1, He; lra).
  unfold spring_st1 at 1. cbn [relax_step rs_qdot]. cbn [relax_init rs_q rs_R rs_M rs_qdotdot rs_qdotdot_old rs_iKMat].
  change (fun i : nat => spring_u i + hstep * spring_v0 i) with q1.
  assert (Den : sumN 2 (fun i => spring_v0 i * mass 2 (sK spring_u) i * spring_v0 i) = wst * wst / 4).
  { unfold sumN. cbn [seq sumR]. rewrite V0, V1, (proj2 (spring_mass spring_u)). field. lra. }
  assert (S0 : sumN 2 (fun i => (sR q1 i - sR spring_u i) / hstep * spring_v0 i) = wst * wst * (wst * wst) / 4).
  { unfold sumN, hstep. cbn [seq sumR]. rewrite V0, V1, R1, (proj2 (spring_R spring_u) eq_refl). cbn [spring_u]. field. }
  rewrite Den, S0. replace (Reqb (wst * wst / 4) 0) with false by (symmetry; destruct (Reqb (wst * wst / 4) 0) eqn:E; [apply Reqb_true in E; lra|reflexivity]).
  replace (Nat.ltb 1000 1) with false by reflexivity. rewrite Bool.andb_false_r. rewrite (spring_zero spring_u). cbn [orb].
  eexists. split; [reflexivity|]. split; [|exact HR]. intros i Hi. cbv beta. replace (wst * wst * (wst * wst) / 4 / (wst * wst / 4)) with (wst * wst) by (field; lra).
  assert (Ec : calC (wst * wst) cmin cmax = 2 * wst) by (rewrite calC_sqrt; rewrite ?sqrt_square by lra; unfold cmin, cmax; lra). rewrite Ec. unfold hstep. destruct i as [|[|i]]; [| |lia].
  - rewrite V0, R0. unfold Rdiv. ring.
  - rewrite V1, R1, (proj2 (spring_mass spring_u)). assert (Hn : 2 + 2 * wst <> 0) by lra. apply Rmult_eq_reg_r with (2 + 2 * wst * 1); [|lra]. field_simplify; [|split; lra]. nra.
Qed.
Lemma spring_fails : DynamicRelaxSolve 2 sR sK (/ 100) 1000 3 spring_u = Some (Failed 3).
Proof.
  destruct spring_stops as (v1 & Hv1 & Hz & HR). destruct spring_v0_val as [V0 V1].
  unfold DynamicRelaxSolve. cbn [relax_loop]. change (rs_error (relax_init 2 sR sK spring_u)) with 1. unfold Rltb at 1. destruct (Rlt_dec (/ 100) 1) as [_|H]; [|lra]. rewrite spring_init. fold spring_st1.
  assert (H1 : / 100 < rs_error spring_st1).
  { change (rs_error spring_st1) with (max_abs 2 (sR (rs_q spring_st1))). apply Rlt_le_trans with (Rabs (sR (rs_q spring_st1) 1%nat)); [pose proof (Rle_abs (sR (rs_q spring_st1) 1%nat)); lra|]. apply (proj1 (max_abs_le 2 _ _ (max_abs_nonneg 2 _)) (Rle_refl _)). lia. }
  unfold Rltb at 1. destruct (Rlt_dec (/ 100) (rs_error spring_st1)) as [_|H]; [|lra]. rewrite Hv1.
  set (st2 := relax_step 2 sR sK 1000 spring_st1 v1). assert (Hq : rs_q st2 0%nat = rs_q spring_st1 0%nat /\ rs_q st2 1%nat = rs_q spring_st1 1%nat) by (unfold st2; cbn [relax_step rs_q]; rewrite !Hz by lia; split; unfold hstep; ring).
  assert (H2 : rs_error st2 = rs_error spring_st1).
  { change (rs_error spring_st1) with (max_abs 2 (sR (rs_q spring_st1))). change (rs_error st2) with (max_abs 2 (sR (rs_q st2))). unfold max_abs. cbn [seq fold_right]. unfold lin_R, sumN. cbn [seq sumR wall Nat.eqb]. rewrite (proj1 Hq), (proj2 Hq). reflexivity. }
  unfold Rltb at 1. rewrite H2. destruct (Rlt_dec (/ 100) (rs_error spring_st1)) as [_|H]; [|lra].
  assert (Hn : rs_qdot st2 = None).
  { unfold st2. cbn [relax_step rs_qdot]. replace (sumN 2 (fun i => v1 i * rs_M spring_st1 i * v1 i)) with 0 by (unfold sumN; cbn [seq sumR]; rewrite !Hz by lia; ring). replace (Reqb 0 0) with true by (symmetry; apply Reqb_true; reflexivity). reflexivity. }
  rewrite Hn. reflexivity.
Qed.
(** the bar of SolverExamples *)
Definition bar_dofs : vector := fun i => match i with O => 3 | _ => 0 end.
Lemma bar_vec : exists Rv, assemble_vec (bar 1) (fun u => Ok (bar_res 1 u)) bar_dofs = Ok Rv /\ Rv 0%nat = 0 /\ Rv 1%nat = -4.
Proof. eexists. split; [reflexivity|]. split; cbn; unfold ravel, reshape; cbn; lra. Qed.
Lemma bar_csr : exists K, assemble_csr (bar 1) bar_dofs = Ok K /\ K 0%nat 0%nat = 1 /\ K 1%nat 1%nat = 1 /\ K 1%nat 0%nat = -1 /\ K 0%nat 1%nat = 0.
Proof. eexists. split; [reflexivity|]. repeat split; cbn; lra. Qed.
Lemma bar_rest : relax_rest (bar 1) (fun u => Ok (bar_res 1 u)) (/ 1000) bar_dofs = Err TypeError.
Proof.
  destruct bar_vec as (Rv & H1 & H2 & H3). destruct bar_csr as (K & H4 & H5 & H6 & _).
  destruct (rest_raises (bar 1) (fun u => Ok (bar_res 1 u)) (/ 1000) bar_dofs Rv K ltac:(lra) H1 H4) as [H|[(i & Hi & Hz) _]].
  - exists 1%nat. split; [cbn; lia|]. rewrite H3, Rabs_left by lra. lra.
  - intros d. eauto.
  - exact H.
  - exfalso. change (num_total_dofs (bar 1)) with 2%nat in *. destruct i as [|[|i]]; [specialize (Hz 0%nat ltac:(lia)); lra|specialize (Hz 1%nat ltac:(lia)); lra|lia].
Qed.
Close Scope R_scope.
