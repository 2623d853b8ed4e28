(** * A window of two unit cells for the velocity update; an exact linear solver. *)
From Coq Require Import ClassicalEpsilon Lra Lia Psatz.
From Verif Require Import Prelude PreludeFacts GridFacts CfdMeshModel CfdMeshSpec CfdMeshProofs CfdModel CfdSpec CfdProofs CfdOpProofs CfdEqProofs CfdSolveProofs CfdRestProofs ProjSpec ProjProofs ProjPredProofs.
Open Scope R_scope.

(** a solver that meets the contract exists *)
Definition ideal_bicg (m : mesh3) (A : fld -> fld) (b : fld) : fld :=
  epsilon (inhabits (fun _ => 0)) (fun x => forall n, (n < cell_num m)%nat -> A x n = b n).
Lemma ideal_exact m : exact_bicg m (ideal_bicg m).
Proof. intros v b H. exact (epsilon_spec (inhabits (fun _ => 0)) _ H). Qed.

Definition am2 : amargs := mkAm (mkMesh3 2 1 1 2 1 1) (mkMesh3 2 1 1 2 1 1) 1 1 (0, 0, 0) 1 1 1 1 1 1600 1700 1 1 1 300 1 1 1 1 (fun _ => 1) (fun _ => 1) 0.
Notation l2 := (a_local am2).
Definition T2 : arr := fun _ _ _ => 300.
(** the first cell moves to the right *)
Definition v2 : nat -> arr := fun c i _ _ => if Nat.eqb c 0 then if Nat.eqb i 0 then 1 else 0 else 0.
Definition p2 : fld := fun n => if Nat.eqb n 0 then 0 else 1 / 2.
Lemma good2 : good_mesh l2. Proof. repeat split; cbn; try lia; lra. Qed.
Lemma dt2 : 0 < a_dt am2 /\ 0 < a_rho am2 /\ 0 < a_visco am2. Proof. cbn. lra. Qed.
Lemma widths2 : dXx l2 = 1 /\ dXy l2 = 1 /\ dXz l2 = 1.
Proof. unfold dXx, dXy, dXz. cbn. repeat split; field. Qed.
Lemma dV2 : dV l2 = 1. Proof. unfold dV. destruct widths2 as (-> & -> & ->). ring. Qed.
Lemma box2 i j k : in_box l2 i j k -> (i = 0%nat \/ i = 1%nat) /\ j = 0%nat /\ k = 0%nat.
Proof. intros (Hi & Hj & Hk). cbn in Hi, Hj, Hk. repeat split; lia. Qed.
Lemma in2 i : (i < 2)%nat -> in_box l2 i 0 0. Proof. intros H. repeat split; cbn; lia. Qed.
(** divergence: half the sum of the two velocities, with both signs *)
Lemma div2 T vel i : (i < 2)%nat -> divergence am2 T vel i 0%nat 0%nat = (if Nat.eqb i 0 then 1 else -1) * ((vel 0%nat 0%nat 0%nat 0%nat + vel 0%nat 1%nat 0%nat 0%nat) / 2).
Proof.
  intros Hi. rewrite (divergence_axes am2 T vel i 0 0 (in2 i Hi)). destruct widths2 as (-> & -> & ->).
  destruct i as [|[|i]]; [| |lia]; unfold dv, wall; cbn; field.
Qed.
Lemma compact2 p i : (i < 2)%nat -> compact am2 p i 0 0 = (if Nat.eqb i 0 then 1 else -1) * (p 1%nat - p 0%nat).
Proof. intros Hi. unfold compact, cmp, P3. destruct widths2 as (-> & -> & ->). destruct i as [|[|i]]; [| |lia]; cbn; field. Qed.
Lemma pressure2 T vel p : pressure_solution am2 T vel p <-> p 1%nat - p 0%nat = (vel 0%nat 0%nat 0%nat 0%nat + vel 0%nat 1%nat 0%nat 0%nat) / 2.
Proof.
  rewrite (pressure_iff am2 T good2). split.
  - intros H. specialize (H 0%nat 0%nat 0%nat (in2 0 ltac:(lia))). rewrite compact2, div2 in H by lia. cbn in H. lra.
  - intros H i j k Hb. apply box2 in Hb as (Hi & -> & ->). assert (i < 2)%nat by lia. rewrite compact2, div2, H by assumption. cbn [am2 a_dt a_rho]. field.
Qed.
Lemma corrected2 vel p i : (i < 2)%nat -> corrected am2 vel p 0%nat i 0%nat 0%nat = vel 0%nat i 0%nat 0%nat - (p 1%nat - p 0%nat) / 2.
Proof.
  intros Hi. rewrite (corrected_cell am2 good2 vel p 0 i 0 0 ltac:(lia) (in2 i Hi)). destruct widths2 as (-> & _ & _). unfold cen, P3. destruct i as [|[|i]]; [| |lia]; cbn; field.
Qed.
Lemma p2_solves : pressure_solution am2 T2 v2 p2.
Proof. apply pressure2. unfold p2, v2. cbn. field. Qed.
Lemma after2 : corrected am2 v2 p2 0%nat 0%nat 0%nat 0%nat = 3 / 4 /\ corrected am2 v2 p2 0%nat 1%nat 0%nat 0%nat = - 1 / 4 /\ divergence am2 T2 v2 0%nat 0%nat 0%nat = 1 / 2 /\ divergence am2 T2 (corrected am2 v2 p2) 0%nat 0%nat 0%nat = 1 / 4.
Proof. rewrite !div2, !corrected2 by lia. unfold v2, p2. cbn. repeat split; field. Qed.
Lemma kinetic2 vel : kinetic l2 vel = sumR (seq 0 3) (fun c => vel c 0%nat 0%nat 0%nat ^ 2 + vel c 1%nat 0%nat 0%nat ^ 2).
Proof. unfold kinetic. apply sumR_ext. intros c _. unfold box_of, box_sum. cbn [am2 a_local mNx mNy mNz seq sumR]. ring. Qed.
Lemma energy2 : kinetic l2 v2 = 1 /\ face_energy l2 p2 = 1 / 4.
Proof.
  split; [rewrite kinetic2; unfold v2; cbn; ring|]. unfold face_energy. destruct widths2 as (-> & -> & ->). unfold p2. cbn. field.
Qed.

(** ** a solid cell beside a liquid one *)
Definition liq2 : arr := fun i _ _ => if Nat.eqb i 0 then 1 else 0.
Definition none3 : nat -> arr := fun _ _ _ _ => 0.
Lemma liq2_range i j k : in_box l2 i j k -> 0 <= liq2 i j k <= 1. Proof. intros _. unfold liq2. destruct (Nat.eqb i 0); lra. Qed.
Lemma still_top c i j : marangoni_effect am2 (fun i j => T2 i j (mNz l2 - 1)%nat) c i j = 0.
Proof. unfold marangoni_effect, T2. destruct c as [|[|c]]; unfold Rdiv; ring. Qed.
Lemma predicted2 u : vel_solution am2 T2 0 (flat l2 (v2 0%nat)) (flat l2 (none3 0%nat)) (flat l2 (none3 0%nat)) (flat l2 liq2) u ->
  10 * u 0%nat - u 1%nat = 1 /\ (10 ^ 12 + 10) * u 1%nat = u 0%nat.
Proof.
  intros (e0 & r & He & Er & Hr).
  pose (e := mkEqn l2 PyFalse (Some (a_visco am2)) None (vel_src am2 (flat l2 (v2 0%nat)) (flat l2 (none3 0%nat)) (flat l2 (none3 0%nat)) (flat l2 liq2))).
  change (Ok e = Ok e0) in He. assert (Ee : e0 = e) by congruence. subst e0. clear He.
  assert (R : forall n, (n < 2)%nat -> r n = 0) by (intros n Hn; apply Hr; cbn; lia). clear Hr.
  pose proof (residual_form e _ u r (ok_mu_linear e _ eq_refl eq_refl) (vel_bc_good am2 T2 0) Er) as F. cbn [e_mesh e] in F. fold e in F.
  pose proof (lap_cell e good2 u 0 0 0 ltac:(cbn; lia) ltac:(cbn; lia) ltac:(cbn; lia)) as L0. pose proof (lap_cell e good2 u 1 0 0 ltac:(cbn; lia) ltac:(cbn; lia) ltac:(cbn; lia)) as L1.
  unfold wt, G, face_mu in L0, L1. cbn [e e_mesh e_mufn e_mu] in L0, L1. fold e in L0, L1. change (a_visco am2) with 1 in L0, L1. destruct widths2 as (Wx & Wy & Wz). rewrite Wx, Wy, Wz in L0, L1.
  repeat match type of L0 with context [u (cell_idx ?m ?i ?j ?k)] => let n := eval vm_compute in (cell_idx m i j k) in change (u (cell_idx m i j k)) with (u n) in L0 end.
  repeat match type of L1 with context [u (cell_idx ?m ?i ?j ?k)] => let n := eval vm_compute in (cell_idx m i j k) in change (u (cell_idx m i j k)) with (u n) in L1 end.
  change (cell_idx l2 0 0 0) with 0%nat in L0. change (cell_idx l2 1 0 0) with 1%nat in L1.
  assert (B : forall n, (n < 2)%nat -> sumR (faces_from l2 0 (vel_bc_scalar am2 T2 0)) (fun f => if Nat.eqb (fc f) n then face_flux e u f else 0) = - 8 * u n).
  { intros n Hn.
    pose proof (faces_sum e (vel_bc_scalar am2 T2 0) 0 (fun s ty v c => if Nat.eqb c n then face_flux e u (mkFace s ty v c) else 0)) as E. cbn [e_mesh e] in E. fold e in E.
    transitivity (sumR (faces_from l2 0 (vel_bc_scalar am2 T2 0)) (fun f => if Nat.eqb (fc f) n then face_flux e u (mkFace (fs f) (fty f) (fv f) (fc f)) else 0)); [apply sumR_ext; intros [? ? ? ?] _; reflexivity|].
    rewrite E. clear E.
    assert (S : side_of l2 0 = [0%nat] /\ side_of l2 1 = [1%nat] /\ side_of l2 2 = [0; 1]%nat /\ side_of l2 3 = [0; 1]%nat /\ side_of l2 4 = [0; 1]%nat /\ side_of l2 5 = [0; 1]%nat) by (repeat split; reflexivity).
    destruct S as (S0 & S1 & S2 & S3 & S4 & S5).
    unfold vel_bc_scalar. change (mNx l2) with 2%nat. change (mNy l2) with 1%nat. change (firstn 5 (surf_set_num l2)) with [1; 1; 2; 2; 2]%nat. cbn [map app length seq combine sumR fst snd repeat flat2 flat_map Nat.ltb Nat.leb].
    rewrite S0, S1, S2, S3, S4, S5. cbn [combine sumR fst snd]. rewrite !still_top.
    unfold face_flux, kappa_of. cbn [fty fv fc fs e e_mesh e_mufn e_mu nth D3 dS3]. rewrite Wx, Wy, Wz. change (a_visco am2) with 1.
    destruct n as [|[|n]]; [| |lia]; cbn [Nat.eqb]; field. }
  pose proof (R 0%nat ltac:(lia)) as R0. pose proof (R 1%nat ltac:(lia)) as R1. rewrite F, B in R0, R1 by lia. rewrite L0 in R0. rewrite L1 in R1.
  change (dV l2) with (dV l2) in *. rewrite dV2 in R0, R1. cbn [e_src e] in R0, R1. unfold vel_src, flat, v2, none3, liq2 in R0, R1. cbn in R0, R1. split; lra.
Qed.
Lemma solid_moves u : 10 * u 0%nat - u 1%nat = 1 -> (10 ^ 12 + 10) * u 1%nat = u 0%nat -> forall p, p 1%nat - p 0%nat = (u 0%nat + u 1%nat) / 2 -> u 1%nat - (p 1%nat - p 0%nat) / 2 < - 1 / 50.
Proof. intros H0 H1 p ->. simpl pow in H1. lra. Qed.
Lemma solid_after bicg : exact_bicg l2 bicg -> let '(vel, _, _) := vel_update am2 (vel_solve am2 bicg) (p_solve am2 bicg) v2 none3 none3 liq2 T2 in vel 0%nat 1%nat 0%nat 0%nat < - 1 / 50.
Proof.
  intros HX. unfold vel_update. set (vel := fun c => unflat l2 (vel_solve am2 bicg c _ _ _ _ _)). set (p := p_solve am2 bicg (flat l2 (div_vel am2 (vel_BCs am2 T2) vel))).
  change (correct_vel am2 vel (unflat l2 p)) with (corrected am2 vel p). rewrite corrected2 by lia.
  pose proof (press_solved am2 T2 vel good2 bicg HX) as Hp. apply pressure2 in Hp. fold p in Hp.
  destruct dt2 as (D1 & D2 & D3).
  assert (Hf : forall n, (n < cell_num l2)%nat -> 0 <= flat l2 liq2 n) by (intros n Hn; unfold flat, liq2; destruct (Nat.eqb _ 0); lra).
  pose proof (vel_solved am2 T2 0 (flat l2 (v2 0%nat)) (flat l2 (none3 0%nat)) (flat l2 (none3 0%nat)) (flat l2 liq2) good2 D1 D2 D3 Hf bicg HX) as Hu. apply predicted2 in Hu.
  exact (solid_moves _ (proj1 Hu) (proj2 Hu) p Hp).
Qed.
Close Scope R_scope.
