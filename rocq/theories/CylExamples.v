(** * The script's own initial state without noise, and small grids. *)
From Coq Require Import Lra Lia.
From Verif Require Import Prelude PreludeFacts FemModel FemFacts CylModel CylSpec CylProofs CylSymProofs.
Open Scope R_scope.
Open Scope list_scope.

Definition calm_noise : grid := fun _ _ _ => 0.
Definition script_start : grid := initial 400 100 calm_noise.
Lemma raw_rho y x : exists c, -1 <= c <= 1 /\ rho (raw 400 calm_noise) y x = 11 + 4 / 10 * c /\ (forall i, (i < 9)%nat -> raw 400 calm_noise y x i = if Nat.eqb i 3 then 3 + 4 / 10 * c else 1).
Proof.
  exists (cos (2 * PI * INR x / INR 400 * 4)). set (c := cos _). split; [apply COS_bound|]. assert (H : forall i, (i < 9)%nat -> raw 400 calm_noise y x i = if Nat.eqb i 3 then 3 + 4 / 10 * c else 1).
  { intros i Hi. unfold raw, calm_noise. fold c. destruct (Nat.eqb i 3); lra. }
  split; [|exact H]. unfold rho, sumN. cbn [seq sumR]. rewrite !H by lia. cbn [Nat.eqb]. lra.
Qed.
Lemma start_bounds y x i : (i < 9)%nat -> if Nat.eqb i 3 then 245 / 10 <= script_start y x i <= 299 / 10 else 877 / 100 <= script_start y x i <= 944 / 100.
Proof.
  intros Hi. destruct (raw_rho y x) as (c & Hc & Hr & H). unfold script_start, initial. rewrite Hr, (H i Hi). set (d := 11 + 4 / 10 * c). assert (Hd : 106 / 10 <= d <= 114 / 10) by (unfold d; lra).
  assert (Hi1 : / (114 / 10) <= / d) by (apply Rinv_le_contravar; lra). assert (Hi2 : / d <= / (106 / 10)) by (apply Rinv_le_contravar; lra). assert (E : d * / d = 1) by (field; lra).
  unfold Rdiv at 3 5. destruct (Nat.eqb i 3).
  - replace ((3 + 4 / 10 * c) * (100 * / d)) with (100 * (d * / d) - 800 * / d) by (unfold d; ring). rewrite E. lra.
  - lra.
Qed.
Lemma drift_bounds y x i : (i < 9)%nat -> if Nat.eqb i 3 then 245 / 10 <= drift 100 400 script_start y x i <= 299 / 10 else 877 / 100 <= drift 100 400 script_start y x i <= 944 / 100.
Proof. intros Hi. rewrite drift_at by exact Hi. now apply start_bounds. Qed.
Lemma start_nonneg : nonnegative 100 400 script_start.
Proof. intros y x i _ _ Hi. pose proof (start_bounds y x i Hi) as H. destruct (Nat.eqb i 3); lra. Qed.
Lemma far_corner : cylinder 100 400 0 0 = false.
Proof.
  unfold cylinder. apply Rltb_false. rewrite !INR_IZR_INZ. change (Z.of_nat 100) with 100%Z. change (Z.of_nat 400) with 400%Z. change (Z.of_nat 0) with 0%Z. lra.
Qed.
Lemma turns_negative : exists F', step 100 400 (6 / 10) (cylinder 100 400) script_start = Some F' /\ F' 0%nat 0%nat 6%nat < 0.
Proof.
  eexists. split.
  - apply some_step. intros y x _ _ _. unfold rho. assert (0 < sumN 9 (drift 100 400 script_start y x)); [|lra].
    pose proof (fun i => drift_bounds y x i) as H. unfold sumN. cbn [seq sumR].
    pose proof (H 0%nat ltac:(lia)). pose proof (H 1%nat ltac:(lia)). pose proof (H 2%nat ltac:(lia)). pose proof (H 3%nat ltac:(lia)). pose proof (H 4%nat ltac:(lia)). pose proof (H 5%nat ltac:(lia)). pose proof (H 6%nat ltac:(lia)). pose proof (H 7%nat ltac:(lia)). pose proof (H 8%nat ltac:(lia)). cbn [Nat.eqb] in *. lra.
  - cbv beta. rewrite far_corner.
    pose proof (fun i => drift_bounds 0%nat 0%nat i) as H.
    pose proof (H 0%nat ltac:(lia)) as H0. pose proof (H 1%nat ltac:(lia)) as H1. pose proof (H 2%nat ltac:(lia)) as H2. pose proof (H 3%nat ltac:(lia)) as H3. pose proof (H 4%nat ltac:(lia)) as H4. pose proof (H 5%nat ltac:(lia)) as H5. pose proof (H 6%nat ltac:(lia)) as H6. pose proof (H 7%nat ltac:(lia)) as H7. pose proof (H 8%nat ltac:(lia)) as H8. clear H. cbn [Nat.eqb] in *.
    set (D := drift 100 400 script_start) in *. unfold collide. set (r := rho D 0%nat 0%nat). set (u := ux D 0%nat 0%nat). set (v := uy D 0%nat 0%nat).
    assert (Hr : r = D 0%nat 0%nat 0%nat + D 0%nat 0%nat 1%nat + D 0%nat 0%nat 2%nat + D 0%nat 0%nat 3%nat + D 0%nat 0%nat 4%nat + D 0%nat 0%nat 5%nat + D 0%nat 0%nat 6%nat + D 0%nat 0%nat 7%nat + D 0%nat 0%nat 8%nat) by (unfold r, rho, sumN; cbn [seq sumR]; ring).
    assert (Hrp : 94 <= r <= 106) by lra.
    assert (Hu : r * u = D 0%nat 0%nat 2%nat + D 0%nat 0%nat 3%nat + D 0%nat 0%nat 4%nat - D 0%nat 0%nat 6%nat - D 0%nat 0%nat 7%nat - D 0%nat 0%nat 8%nat).
    { unfold u, ux. fold r. unfold sumN. cbn [seq sumR nth cxs]. field. lra. }
    assert (Hv : r * v = D 0%nat 0%nat 1%nat + D 0%nat 0%nat 2%nat + D 0%nat 0%nat 8%nat - D 0%nat 0%nat 4%nat - D 0%nat 0%nat 5%nat - D 0%nat 0%nat 6%nat).
    { unfold v, uy. fold r. unfold sumN. cbn [seq sumR nth cys]. field. lra. }
    assert (Hs : 11 <= r * (u + v) <= 25) by lra. assert (Hs0 : 0 <= u + v <= 1 / 2) by nra.
    assert (Hf : feq r u v 6 <= 106 / 36).
    { unfold feq. cbn [nth cxs cys weights9]. replace (-1 * u + -1 * v) with (- (u + v)) by ring. set (s := u + v) in *. assert (Hx : 1 + 3 * - s + 9 * (- s) ^ 2 / 2 - 3 * (u ^ 2 + v ^ 2) / 2 <= 1) by nra. assert (0 <= r * (1 / 36)) by lra. nra. }
    lra.
Qed.
Close Scope R_scope.
