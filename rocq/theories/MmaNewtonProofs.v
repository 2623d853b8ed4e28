(** * The direction computed by subsolv is the Newton direction of the optimality system. *)
From Coq Require Import FunctionalExtensionality Lra.
From Verif Require Import Prelude PreludeFacts FemModel FemFacts MmaModel MmaSpec MmaProofs.
Open Scope R_scope.

Lemma bordered_row k A u u2 w x i : (i < k)%nat ->
  sumN (S k) (fun j => bordered k A u u2 w i j * x j) = sumN k (fun j => A i j * x j) + u i * x k.
Proof.
  intros Hi. rewrite sumN_S. unfold bordered at 2. replace (Nat.ltb i k) with true by (symmetry; apply Nat.ltb_lt; exact Hi). rewrite Nat.ltb_irrefl. f_equal.
  apply sumN_ext. intros j Hj. unfold bordered. replace (Nat.ltb i k) with true by (symmetry; apply Nat.ltb_lt; exact Hi). replace (Nat.ltb j k) with true by (symmetry; apply Nat.ltb_lt; exact Hj). reflexivity.
Qed.
Lemma bordered_last k A u u2 w x :
  sumN (S k) (fun j => bordered k A u u2 w k j * x j) = sumN k (fun j => u2 j * x j) + w * x k.
Proof.
  rewrite sumN_S. unfold bordered at 2. rewrite !Nat.ltb_irrefl. f_equal.
  apply sumN_ext. intros j Hj. unfold bordered. rewrite Nat.ltb_irrefl. replace (Nat.ltb j k) with true by (symmetry; apply Nat.ltb_lt; exact Hj). reflexivity.
Qed.
Lemma diagonal_row k v x i : (i < k)%nat -> sumN k (fun j => diagonal v i j * x j) = v i * x i.
Proof.
  intros Hi. unfold diagonal. rewrite (sumN_ext k _ (fun j => if Nat.eqb i j then v i * x j else 0)).
  - rewrite (sumN_pick' k i (fun j => v i * x j) Hi). reflexivity.
  - intros j _. destruct (Nat.eqb i j); ring.
Qed.
Lemma sumN_pos_zero k f : (forall i, (i < k)%nat -> 0 <= f i) -> sumN k f = 0 -> forall i, (i < k)%nat -> f i = 0.
Proof.
  induction k as [|k IH]; intros Hp H0 i Hi; [lia|]. rewrite sumN_S in H0.
  assert (0 <= sumN k f) by (apply sumN_nonneg; intros; apply Hp; lia). assert (0 <= f k) by (apply Hp; lia).
  destruct (Nat.eq_dec i k) as [->|]; [lra|]. apply IH; [intros; apply Hp; lia|lra|lia].
Qed.

Section Newton.
Variable sp : subproblem.
Local Notation m := (sp_m sp).
Local Notation n := (sp_n sp).
Hypothesis Hwp : well_posed sp.
Variable epsi : R.
Variable it : iterate.
Hypothesis Hin : interior sp it.

Lemma ux_pos j : (j < n)%nat -> 0 < upp sp j - x_ it j.
Proof. intros Hj. destruct (wp_b sp Hwp j Hj) as (H1 & H2 & H3 & _). destruct (proj1 Hin j Hj) as ([H4 H5] & _). lra. Qed.
Lemma xl_pos j : (j < n)%nat -> 0 < x_ it j - low sp j.
Proof. intros Hj. destruct (wp_b sp Hwp j Hj) as (H1 & H2 & H3 & _). destruct (proj1 Hin j Hj) as ([H4 H5] & _). lra. Qed.
Lemma xa_pos j : (j < n)%nat -> 0 < x_ it j - alfa sp j.
Proof. intros Hj. destruct (proj1 Hin j Hj) as ([H4 H5] & _). lra. Qed.
Lemma bx_pos j : (j < n)%nat -> 0 < beta sp j - x_ it j.
Proof. intros Hj. destruct (proj1 Hin j Hj) as ([H4 H5] & _). lra. Qed.
Lemma y_pos i : (i < m)%nat -> 0 < y_ it i. Proof. intros Hi. exact (proj1 (proj1 (proj2 Hin) i Hi)). Qed.
Lemma lam_pos i : (i < m)%nat -> 0 < lam_ it i. Proof. intros Hi. exact (proj1 (proj2 (proj1 (proj2 Hin) i Hi))). Qed.
Lemma mu_pos i : (i < m)%nat -> 0 < mu_ it i. Proof. intros Hi. exact (proj1 (proj2 (proj2 (proj1 (proj2 Hin) i Hi)))). Qed.
Lemma s_pos i : (i < m)%nat -> 0 < s_ it i. Proof. intros Hi. exact (proj2 (proj2 (proj2 (proj1 (proj2 Hin) i Hi)))). Qed.
Lemma z_pos : 0 < z_ it. Proof. exact (proj1 (proj2 (proj2 Hin))). Qed.
Lemma zet_pos : 0 < zet_ it. Proof. exact (proj2 (proj2 (proj2 Hin))). Qed.
Lemma plam_pos j : (j < n)%nat -> 0 < plam sp it j.
Proof.
  intros Hj. unfold plam. destruct (wp_b sp Hwp j Hj) as (_ & _ & _ & H & _).
  assert (0 <= sumN m (fun i => PP sp i j * lam_ it i)). { apply sumN_nonneg. intros i Hi. apply Rmult_le_pos; [exact (proj1 (proj1 (proj2 (proj2 Hwp)) i j Hi Hj))|left; exact (lam_pos i Hi)]. } lra.
Qed.
Lemma qlam_pos j : (j < n)%nat -> 0 < qlam sp it j.
Proof.
  intros Hj. unfold qlam. destruct (wp_b sp Hwp j Hj) as (_ & _ & _ & _ & H).
  assert (0 <= sumN m (fun i => QQ sp i j * lam_ it i)). { apply sumN_nonneg. intros i Hi. apply Rmult_le_pos; [exact (proj2 (proj1 (proj2 (proj2 Hwp)) i j Hi Hj))|left; exact (lam_pos i Hi)]. } lra.
Qed.
Lemma diagx_pos j : (j < n)%nat -> 0 < diagx sp it j.
Proof.
  intros Hj. unfold diagx. pose proof (ux_pos j Hj) as H1. pose proof (xl_pos j Hj) as H2. destruct (proj1 Hin j Hj) as (_ & H3 & H4).
  assert (0 < plam sp it j / ((upp sp j - x_ it j) * ((upp sp j - x_ it j) * (upp sp j - x_ it j)))) by (apply Rdiv_lt_0_compat; [exact (plam_pos j Hj)|]; repeat apply Rmult_lt_0_compat; exact H1).
  assert (0 < qlam sp it j / ((x_ it j - low sp j) * ((x_ it j - low sp j) * (x_ it j - low sp j)))) by (apply Rdiv_lt_0_compat; [exact (qlam_pos j Hj)|]; repeat apply Rmult_lt_0_compat; exact H2).
  assert (0 < xsi_ it j / (x_ it j - alfa sp j)) by (apply Rdiv_lt_0_compat; [exact H3|exact (xa_pos j Hj)]).
  assert (0 < eta_ it j / (beta sp j - x_ it j)) by (apply Rdiv_lt_0_compat; [exact H4|exact (bx_pos j Hj)]). lra.
Qed.
Lemma diagy_pos i : (i < m)%nat -> 0 < diagy sp it i.
Proof.
  intros Hi. unfold diagy. pose proof (proj2 (proj2 (proj2 Hwp)) i Hi). assert (0 < mu_ it i / y_ it i) by (apply Rdiv_lt_0_compat; [exact (mu_pos i Hi)|exact (y_pos i Hi)]). lra.
Qed.
Lemma diaglamyi_pos i : (i < m)%nat -> 0 < diaglamyi sp it i.
Proof.
  intros Hi. unfold diaglamyi. assert (0 < s_ it i / lam_ it i) by (apply Rdiv_lt_0_compat; [exact (s_pos i Hi)|exact (lam_pos i Hi)]).
  assert (0 < 1 / diagy sp it i) by (apply Rdiv_lt_0_compat; [lra|exact (diagy_pos i Hi)]). lra.
Qed.

(** the reduced system *)
Definition reduced (dx : vct) (dz : R) (dlam : vct) : Prop :=
  (forall j, (j < n)%nat -> diagx sp it j * dx j + sumN m (fun i => GG sp it i j * dlam i) = - delx sp epsi it j) /\
  (forall i, (i < m)%nat -> sumN n (fun j => GG sp it i j * dx j) - aa sp i * dz - diaglamyi sp it i * dlam i = - (dellam sp epsi it i + dely sp epsi it i / diagy sp it i)) /\
  sumN m (fun i => aa sp i * dlam i) - zet_ it / z_ it * dz = delz sp epsi it.

Lemma direction_reduced solve dx dz dlam : sound_solver solve -> direction_xzl solve sp epsi it = Ok (dx, dz, dlam) -> reduced dx dz dlam.
Proof.
  intros [Hs _] H. unfold direction_xzl in H. destruct (Nat.ltb m n).
  - match type of H with bind (solve ?k ?A ?b) _ = _ => destruct (solve k A b) as [u|e] eqn:E; [|discriminate] end. cbn [bind] in H. injection H as <- <- <-. apply Hs in E. split; [|split].
    + intros j Hj. pose proof (diagx_pos j Hj). field. lra.
    + intros i Hi. pose proof (E i ltac:(lia)) as Ei. rewrite bordered_row in Ei by exact Hi. unfold appended in Ei. replace (Nat.ltb i m) with true in Ei by (symmetry; apply Nat.ltb_lt; exact Hi).
      rewrite (sumN_ext m _ (fun k => diagonal (diaglamyi sp it) i k * u k + sumN n (fun j => 1 / diagx sp it j * GG sp it i j * GG sp it k j) * u k)) in Ei by (intros k _; ring).
      rewrite sumN_add, diagonal_row in Ei by exact Hi.
      assert (E2 : sumN n (fun j => GG sp it i j * (- delx sp epsi it j / diagx sp it j - sumN m (fun i0 => GG sp it i0 j * u i0) / diagx sp it j))
        = - sumN n (fun j => GG sp it i j * (delx sp epsi it j / diagx sp it j)) - sumN m (fun k => sumN n (fun j => 1 / diagx sp it j * GG sp it i j * GG sp it k j) * u k)).
      { rewrite (sumN_ext m (fun k => sumN n _ * u k) (fun k => sumN n (fun j => 1 / diagx sp it j * GG sp it i j * GG sp it k j * u k))) by (intros k _; rewrite sumN_scal_r; reflexivity).
        rewrite sumN_swap, <- sumN_opp, <- sumN_sub. apply sumN_ext. intros j Hj.
        rewrite (sumN_ext m (fun i0 => 1 / diagx sp it j * GG sp it i j * GG sp it i0 j * u i0) (fun i0 => 1 / diagx sp it j * GG sp it i j * (GG sp it i0 j * u i0))) by (intros k _; ring).
        rewrite sumN_scal. pose proof (diagx_pos j Hj). field. lra. }
      rewrite E2. lra.
    + pose proof (E m ltac:(lia)) as Em. rewrite bordered_last in Em. unfold appended in Em. rewrite Nat.ltb_irrefl in Em. rewrite <- Em. unfold Rdiv. ring.
  - match type of H with bind (solve ?k ?A ?b) _ = _ => destruct (solve k A b) as [u|e] eqn:E; [|discriminate] end. cbn [bind] in H. injection H as <- <- <-. apply Hs in E.
    set (dl := fun i => sumN n (fun j => GG sp it i j * u j) / diaglamyi sp it i - u n * (aa sp i / diaglamyi sp it i) + (dellam sp epsi it i + dely sp epsi it i / diagy sp it i) / diaglamyi sp it i).
    split; [|split].
    + intros j Hj. pose proof (E j ltac:(lia)) as Ej. rewrite bordered_row in Ej by exact Hj. unfold appended in Ej. replace (Nat.ltb j n) with true in Ej by (symmetry; apply Nat.ltb_lt; exact Hj).
      rewrite (sumN_ext n _ (fun k => diagonal (diagx sp it) j k * u k + sumN m (fun i => 1 / diaglamyi sp it i * GG sp it i j * GG sp it i k) * u k)) in Ej by (intros k _; ring).
      rewrite sumN_add, diagonal_row in Ej by exact Hj.
      assert (E2 : sumN m (fun i => GG sp it i j * dl i) = sumN n (fun k => sumN m (fun i => 1 / diaglamyi sp it i * GG sp it i j * GG sp it i k) * u k)
         + sumN m (fun i => - GG sp it i j * (aa sp i / diaglamyi sp it i)) * u n + sumN m (fun i => GG sp it i j * ((dellam sp epsi it i + dely sp epsi it i / diagy sp it i) / diaglamyi sp it i))).
      { rewrite (sumN_ext n (fun k => sumN m _ * u k) (fun k => sumN m (fun i => 1 / diaglamyi sp it i * GG sp it i j * GG sp it i k * u k))) by (intros k _; rewrite sumN_scal_r; reflexivity).
        rewrite sumN_swap, <- sumN_scal_r, <- !sumN_add. apply sumN_ext. intros i Hi. unfold dl.
        rewrite (sumN_ext n (fun k => 1 / diaglamyi sp it i * GG sp it i j * GG sp it i k * u k) (fun k => 1 / diaglamyi sp it i * GG sp it i j * (GG sp it i k * u k))) by (intros k _; ring).
        rewrite sumN_scal. pose proof (diaglamyi_pos i Hi). pose proof (diagy_pos i Hi). field. split; lra. }
      fold dl. rewrite E2. lra.
    + intros i Hi. unfold dl. pose proof (diaglamyi_pos i Hi). pose proof (diagy_pos i Hi). field. split; lra.
    + pose proof (E n ltac:(lia)) as En. rewrite bordered_last in En. unfold appended in En. rewrite Nat.ltb_irrefl in En.
      assert (E2 : sumN m (fun i => aa sp i * dl i) = - sumN n (fun j => sumN m (fun i => - GG sp it i j * (aa sp i / diaglamyi sp it i)) * u j)
         - sumN m (fun i => aa sp i * (aa sp i / diaglamyi sp it i)) * u n + sumN m (fun i => aa sp i * ((dellam sp epsi it i + dely sp epsi it i / diagy sp it i) / diaglamyi sp it i))).
      { rewrite (sumN_ext n (fun j => sumN m _ * u j) (fun j => sumN m (fun i => - GG sp it i j * (aa sp i / diaglamyi sp it i) * u j))) by (intros k _; rewrite sumN_scal_r; reflexivity).
        rewrite sumN_swap, <- sumN_scal_r, <- sumN_opp, <- sumN_sub, <- !sumN_add. apply sumN_ext. intros i Hi. unfold dl.
        rewrite (sumN_ext n (fun j => - GG sp it i j * (aa sp i / diaglamyi sp it i) * u j) (fun j => - (aa sp i / diaglamyi sp it i) * (GG sp it i j * u j))) by (intros k _; ring).
        rewrite sumN_scal. pose proof (diaglamyi_pos i Hi). pose proof (diagy_pos i Hi). field. split; lra. }
      fold dl. rewrite E2. lra.
Qed.

(** ** the reduced matrices are never singular *)
Lemma direction_defined solve : sound_solver solve -> exists d, direction solve sp epsi it = Ok d.
Proof.
  intros [_ Hs]. unfold direction.
  enough (exists t, direction_xzl solve sp epsi it = Ok t) as ([[dx dz] dlam] & ->) by (cbn; eauto).
  pose proof z_pos as Hz. pose proof zet_pos as Hzt. assert (Hr : 0 < zet_ it / z_ it) by (apply Rdiv_lt_0_compat; assumption).
  unfold direction_xzl. destruct (Nat.ltb m n).
  - match goal with |- context [solve ?k ?A ?b] => destruct (solve k A b) as [u|e] eqn:E; [cbn; eauto|] end. exfalso. apply Hs in E as (v & (i0 & Hi0 & Hv0) & Hv).
    assert (Hrow : forall i, (i < m)%nat -> diaglamyi sp it i * v i + sumN n (fun j => 1 / diagx sp it j * GG sp it i j * sumN m (fun k => GG sp it k j * v k)) + aa sp i * v m = 0).
    { intros i Hi. pose proof (Hv i ltac:(lia)) as Ei. rewrite bordered_row in Ei by exact Hi.
      rewrite (sumN_ext m _ (fun k => diagonal (diaglamyi sp it) i k * v k + sumN n (fun j => 1 / diagx sp it j * GG sp it i j * GG sp it k j) * v k)) in Ei by (intros k _; ring).
      rewrite sumN_add, diagonal_row in Ei by exact Hi. rewrite <- Ei. f_equal. f_equal.
      rewrite (sumN_ext m (fun k => sumN n _ * v k) (fun k => sumN n (fun j => 1 / diagx sp it j * GG sp it i j * GG sp it k j * v k))) by (intros k _; rewrite sumN_scal_r; reflexivity).
      rewrite sumN_swap. apply sumN_ext. intros j _. rewrite <- sumN_scal. apply sumN_ext. intros k _. ring. }
    pose proof (Hv m ltac:(lia)) as Hl. rewrite bordered_last in Hl.
    (* v^T (row equations) *)
    assert (Q : sumN m (fun i => diaglamyi sp it i * (v i * v i)) + sumN n (fun j => 1 / diagx sp it j * (sumN m (fun k => GG sp it k j * v k) * sumN m (fun k => GG sp it k j * v k))) + zet_ it / z_ it * (v m * v m) = 0).
    { assert (Q0 : sumN m (fun i => v i * (diaglamyi sp it i * v i + sumN n (fun j => 1 / diagx sp it j * GG sp it i j * sumN m (fun k => GG sp it k j * v k)) + aa sp i * v m)) = 0)
        by (apply sumN_zero; intros i Hi; rewrite (Hrow i Hi); ring).
      rewrite (sumN_ext m _ (fun i => diaglamyi sp it i * (v i * v i) + (sumN n (fun j => v i * (1 / diagx sp it j * GG sp it i j * sumN m (fun k => GG sp it k j * v k))) + aa sp i * v i * v m))) in Q0
        by (intros i _; rewrite sumN_scal; ring).
      rewrite !sumN_add, sumN_swap, sumN_scal_r in Q0.
      rewrite (sumN_ext n (fun j => sumN m _) (fun j => 1 / diagx sp it j * (sumN m (fun k => GG sp it k j * v k) * sumN m (fun k => GG sp it k j * v k)))) in Q0.
      2:{ intros j _. rewrite (sumN_ext m _ (fun i => (1 / diagx sp it j * sumN m (fun k => GG sp it k j * v k)) * (GG sp it i j * v i))) by (intros i _; ring). rewrite sumN_scal. ring. }
      assert (sumN m (fun j => aa sp j * v j) = zet_ it / z_ it * v m) as Ea by (unfold Rdiv in *; lra). rewrite Ea in Q0. lra. }
    assert (N1 : forall i, (i < m)%nat -> 0 <= diaglamyi sp it i * (v i * v i)) by (intros i Hi; pose proof (diaglamyi_pos i Hi); apply Rmult_le_pos; [lra|nra]).
    assert (N2 : 0 <= sumN n (fun j => 1 / diagx sp it j * (sumN m (fun k => GG sp it k j * v k) * sumN m (fun k => GG sp it k j * v k)))).
    { apply sumN_nonneg. intros j Hj. pose proof (diagx_pos j Hj). apply Rmult_le_pos; [apply Rlt_le, Rdiv_lt_0_compat; lra|nra]. }
    assert (N3 : 0 <= zet_ it / z_ it * (v m * v m)) by (apply Rmult_le_pos; [lra|nra]). pose proof (sumN_nonneg m _ N1) as N4.
    destruct (Nat.eq_dec i0 m) as [->|Hne].
    + assert (0 < zet_ it / z_ it * (v m * v m)) by (apply Rmult_lt_0_compat; [lra|nra]). lra.
    + assert (Hi0' : (i0 < m)%nat) by lia. assert (Z : sumN m (fun i => diaglamyi sp it i * (v i * v i)) = 0) by lra.
      pose proof (sumN_pos_zero m _ N1 Z i0 Hi0') as Z0. pose proof (diaglamyi_pos i0 Hi0'). assert (0 < diaglamyi sp it i0 * (v i0 * v i0)) by (apply Rmult_lt_0_compat; [lra|nra]). lra.
  - match goal with |- context [solve ?k ?A ?b] => destruct (solve k A b) as [u|e] eqn:E; [cbn; eauto|] end. exfalso. apply Hs in E as (v & (i0 & Hi0 & Hv0) & Hv).
    set (D := diaglamyi sp it) in *. set (g := fun i => sumN n (fun k => GG sp it i k * v k)).
    assert (Hrow : forall j, (j < n)%nat -> diagx sp it j * v j + sumN m (fun i => 1 / D i * GG sp it i j * g i) - sumN m (fun i => GG sp it i j * (aa sp i / D i)) * v n = 0).
    { intros j Hj. pose proof (Hv j ltac:(lia)) as Ej. rewrite bordered_row in Ej by exact Hj.
      rewrite (sumN_ext n _ (fun k => diagonal (diagx sp it) j k * v k + sumN m (fun i => 1 / D i * GG sp it i j * GG sp it i k) * v k)) in Ej by (intros k _; ring).
      rewrite sumN_add, diagonal_row in Ej by exact Hj.
      rewrite (sumN_ext m (fun i => - GG sp it i j * (aa sp i / D i)) (fun i => - (GG sp it i j * (aa sp i / D i)))) in Ej by (intros; ring). rewrite sumN_opp in Ej. rewrite <- Ej.
      unfold Rminus. rewrite <- Ropp_mult_distr_l. f_equal. f_equal.
      rewrite (sumN_ext n (fun k => sumN m _ * v k) (fun k => sumN m (fun i => 1 / D i * GG sp it i j * GG sp it i k * v k))) by (intros k _; rewrite sumN_scal_r; reflexivity).
      rewrite sumN_swap. apply sumN_ext. intros i _. unfold g. rewrite <- sumN_scal. apply sumN_ext. intros k _. ring. }
    pose proof (Hv n ltac:(lia)) as Hl. rewrite bordered_last in Hl.
    assert (Hl2 : (zet_ it / z_ it + sumN m (fun i => aa sp i * (aa sp i / D i))) * v n = sumN m (fun i => (aa sp i / D i) * g i)).
    { assert (E2 : sumN n (fun j => sumN m (fun i => - GG sp it i j * (aa sp i / D i)) * v j) = - sumN m (fun i => (aa sp i / D i) * g i)).
      { rewrite (sumN_ext n _ (fun j => sumN m (fun i => - GG sp it i j * (aa sp i / D i) * v j))) by (intros k _; rewrite sumN_scal_r; reflexivity).
        rewrite sumN_swap, <- sumN_opp. apply sumN_ext. intros i _. unfold g. rewrite (sumN_ext n _ (fun j => - (aa sp i / D i) * (GG sp it i j * v j))) by (intros; ring). rewrite sumN_scal. ring. }
      rewrite E2 in Hl. lra. }
    assert (Q : sumN n (fun j => diagx sp it j * (v j * v j)) + sumN m (fun i => 1 / D i * ((g i - aa sp i * v n) * (g i - aa sp i * v n))) + zet_ it / z_ it * (v n * v n) = 0).
    { assert (Q0 : sumN n (fun j => v j * (diagx sp it j * v j + sumN m (fun i => 1 / D i * GG sp it i j * g i) - sumN m (fun i => GG sp it i j * (aa sp i / D i)) * v n)) = 0)
        by (apply sumN_zero; intros j Hj; rewrite (Hrow j Hj); ring).
      rewrite (sumN_ext n _ (fun j => diagx sp it j * (v j * v j) + (sumN m (fun i => 1 / D i * g i * (GG sp it i j * v j)) - sumN m (fun i => (aa sp i / D i) * (GG sp it i j * v j)) * v n))) in Q0.
      2:{ intros j _. rewrite (sumN_ext m (fun i => 1 / D i * g i * (GG sp it i j * v j)) (fun i => (1 / D i * GG sp it i j * g i) * v j)) by (intros; ring).
          rewrite (sumN_ext m (fun i => (aa sp i / D i) * (GG sp it i j * v j)) (fun i => GG sp it i j * (aa sp i / D i) * v j)) by (intros; ring). rewrite !sumN_scal_r. ring. }
      rewrite sumN_add, sumN_sub, sumN_scal_r, sumN_swap in Q0.
      rewrite (sumN_swap n m (fun j i => aa sp i / D i * (GG sp it i j * v j))) in Q0.
      rewrite (sumN_ext m (fun j => sumN n _) (fun i => 1 / D i * (g i * g i))) in Q0 by (intros i _; rewrite sumN_scal; unfold g; ring).
      rewrite (sumN_ext m (fun j => sumN n (fun i => aa sp j / D j * (GG sp it j i * v i))) (fun i => aa sp i / D i * g i)) in Q0 by (intros i _; rewrite sumN_scal; unfold g; ring).
      rewrite (sumN_ext m (fun i => 1 / D i * ((g i - aa sp i * v n) * (g i - aa sp i * v n))) (fun i => 1 / D i * (g i * g i) - 2 * v n * (aa sp i / D i * g i) + v n * v n * (aa sp i * (aa sp i / D i)))) by (intros; unfold Rdiv; ring).
      rewrite sumN_add, sumN_sub, !sumN_scal. rewrite <- Hl2 in *. lra. }
    assert (N1 : forall j, (j < n)%nat -> 0 <= diagx sp it j * (v j * v j)) by (intros j Hj; pose proof (diagx_pos j Hj); apply Rmult_le_pos; [lra|nra]).
    assert (N2 : 0 <= sumN m (fun i => 1 / D i * ((g i - aa sp i * v n) * (g i - aa sp i * v n)))).
    { apply sumN_nonneg. intros i Hi. pose proof (diaglamyi_pos i Hi). apply Rmult_le_pos; [apply Rlt_le, Rdiv_lt_0_compat; [lra|assumption]|apply Rle_0_sqr]. }
    assert (N3 : 0 <= zet_ it / z_ it * (v n * v n)) by (apply Rmult_le_pos; [lra|nra]). pose proof (sumN_nonneg n _ N1) as N4.
    destruct (Nat.eq_dec i0 n) as [->|Hne].
    + assert (0 < zet_ it / z_ it * (v n * v n)) by (apply Rmult_lt_0_compat; [lra|nra]). lra.
    + assert (Hi0' : (i0 < n)%nat) by lia. assert (Z : sumN n (fun i => diagx sp it i * (v i * v i)) = 0) by lra.
      pose proof (sumN_pos_zero n _ N1 Z i0 Hi0') as Z0. pose proof (diagx_pos i0 Hi0'). assert (0 < diagx sp it i0 * (v i0 * v i0)) by (apply Rmult_lt_0_compat; [lra|nra]). lra.
Qed.

(** ** every residual decreases at its own rate along the direction *)
Definition dlist (F : R -> list R) (G : list R) : Prop :=
  (forall t, length (F t) = length G) /\ forall k, (k < length G)%nat -> derivable_pt_lim (fun t => nth k (F t) 0) 0 (nth k G 0).
Lemma dlist_app F1 G1 F2 G2 : dlist F1 G1 -> dlist F2 G2 -> dlist (fun t => F1 t ++ F2 t) (G1 ++ G2).
Proof.
  intros [L1 D1] [L2 D2]. split; [intros t; rewrite !app_length, L1, L2; reflexivity|]. intros k Hk. rewrite app_length in Hk.
  destruct (Nat.lt_ge_cases k (length G1)) as [H|H].
  - rewrite app_nth1 by exact H. apply (dl_ext (fun t => nth k (F1 t) 0)); [|exact (D1 k H)]. intros t. rewrite app_nth1 by (rewrite L1; exact H). reflexivity.
  - rewrite app_nth2 by exact H. apply (dl_ext (fun t => nth (k - length G1) (F2 t) 0)); [|apply D2; lia]. intros t. rewrite app_nth2 by (rewrite L1; exact H). rewrite L1. reflexivity.
Qed.
Lemma dlist_entries k (v : R -> vct) w : (forall j, (j < k)%nat -> derivable_pt_lim (fun t => v t j) 0 (w j)) -> dlist (fun t => entries k (v t)) (entries k w).
Proof.
  intros H. split; [intros t; rewrite !entries_length; reflexivity|]. intros j Hj. rewrite entries_length in Hj. rewrite nth_entries by exact Hj.
  apply (dl_ext (fun t => v t j)); [|exact (H j Hj)]. intros t. rewrite nth_entries by exact Hj. reflexivity.
Qed.
Lemma dlist_one f a : derivable_pt_lim f 0 a -> dlist (fun t => [f t]) [a].
Proof. intros H. split; [reflexivity|]. intros k Hk. cbn in Hk. replace k with 0%nat by lia. exact H. Qed.
Lemma dl_div f g a b : derivable_pt_lim f 0 a -> derivable_pt_lim g 0 b -> g 0 <> 0 -> derivable_pt_lim (fun t => f t / g t) 0 ((a * g 0 - b * f 0) / (g 0 * g 0)).
Proof. intros H1 H2 H3. pose proof (derivable_pt_lim_div f g 0 a b H1 H2 H3) as H. unfold div_fct, Rsqr in H. exact H. Qed.

Section Deriv.
Variable d : iterate.
Lemma d_plam j : derivable_pt_lim (fun t => plam sp (moved it t d) j) 0 (sumN m (fun i => PP sp i j * lam_ d i)).
Proof.
  unfold plam. apply (dl_eq (fun t => p0 sp j + sumN m (fun i => PP sp i j * (lam_ it i + t * lam_ d i))) _ 0 (0 + sumN m (fun i => PP sp i j * lam_ d i))); [|reflexivity|ring].
  apply dl_add; [apply dl_const|]. apply dl_sumN. intros i _. apply dl_scal. apply dl_line.
Qed.
Lemma d_qlam j : derivable_pt_lim (fun t => qlam sp (moved it t d) j) 0 (sumN m (fun i => QQ sp i j * lam_ d i)).
Proof.
  unfold qlam. apply (dl_eq (fun t => q0 sp j + sumN m (fun i => QQ sp i j * (lam_ it i + t * lam_ d i))) _ 0 (0 + sumN m (fun i => QQ sp i j * lam_ d i))); [|reflexivity|ring].
  apply dl_add; [apply dl_const|]. apply dl_sumN. intros i _. apply dl_scal. apply dl_line.
Qed.
Lemma d_ux j : derivable_pt_lim (fun t => upp sp j - x_ (moved it t d) j) 0 (- x_ d j).
Proof. apply (dl_eq (fun t => (upp sp j - x_ it j) + t * (- x_ d j)) _ 0 (- x_ d j)); [apply dl_line| |reflexivity]. intros t. cbn. ring. Qed.
Lemma d_xl j : derivable_pt_lim (fun t => x_ (moved it t d) j - low sp j) 0 (x_ d j).
Proof. apply (dl_eq (fun t => (x_ it j - low sp j) + t * x_ d j) _ 0 (x_ d j)); [apply dl_line| |reflexivity]. intros t. cbn. ring. Qed.
Lemma moved_0_x j : x_ (moved it 0 d) j = x_ it j. Proof. cbn. ring. Qed.
Lemma plam_0 j : plam sp (moved it 0 d) j = plam sp it j.
Proof. unfold plam. f_equal. apply sumN_ext. intros i _. cbn. ring. Qed.
Lemma qlam_0 j : qlam sp (moved it 0 d) j = qlam sp it j.
Proof. unfold qlam. f_equal. apply sumN_ext. intros i _. cbn. ring. Qed.
Lemma d_dpsidx j : (j < n)%nat -> derivable_pt_lim (fun t => dpsidx sp (moved it t d) j) 0
  (sumN m (fun i => GG sp it i j * lam_ d i) + (diagx sp it j - xsi_ it j / (x_ it j - alfa sp j) - eta_ it j / (beta sp j - x_ it j)) * x_ d j).
Proof.
  intros Hj. pose proof (ux_pos j Hj) as Hu. pose proof (xl_pos j Hj) as Hl. unfold dpsidx.
  eapply dl_eq; [apply dl_sub; [apply dl_div; [apply d_plam|apply dl_mul; apply d_ux|]|apply dl_div; [apply d_qlam|apply dl_mul; apply d_xl|]]|reflexivity|].
  - cbv beta. rewrite moved_0_x. nra.
  - cbv beta. rewrite moved_0_x. nra.
  - cbv beta. rewrite moved_0_x, plam_0, qlam_0. unfold GG, diagx.
    rewrite (sumN_ext m (fun i => (1 / ((upp sp j - x_ it j) * (upp sp j - x_ it j)) * PP sp i j - 1 / ((x_ it j - low sp j) * (x_ it j - low sp j)) * QQ sp i j) * lam_ d i)
      (fun i => 1 / ((upp sp j - x_ it j) * (upp sp j - x_ it j)) * (PP sp i j * lam_ d i) - 1 / ((x_ it j - low sp j) * (x_ it j - low sp j)) * (QQ sp i j * lam_ d i))) by (intros; ring).
    rewrite sumN_sub, !sumN_scal. pose proof (xa_pos j Hj). pose proof (bx_pos j Hj). field. repeat split; lra.
Qed.
Lemma d_gvec i : derivable_pt_lim (fun t => gvec sp (moved it t d) i) 0 (sumN n (fun j => GG sp it i j * x_ d j)).
Proof.
  unfold gvec. eapply dl_eq; [apply dl_add; apply dl_sumN; intros j Hj; apply dl_scal|reflexivity|].
  - apply dl_div; [apply dl_const|apply d_ux|]. cbv beta. rewrite moved_0_x. pose proof (ux_pos j Hj). lra.
  - apply dl_div; [apply dl_const|apply d_xl|]. cbv beta. rewrite moved_0_x. pose proof (xl_pos j Hj). lra.
  - cbv beta. rewrite <- sumN_add. apply sumN_ext. intros j Hj. rewrite moved_0_x. unfold GG. pose proof (ux_pos j Hj). pose proof (xl_pos j Hj). field. split; lra.
Qed.
End Deriv.

Lemma newton_direction_exact solve d : sound_solver solve -> direction solve sp epsi it = Ok d -> newton_direction sp epsi it d.
Proof.
  intros Hs H. unfold direction in H. destruct (direction_xzl solve sp epsi it) as [[[dx dz] dlam]|e] eqn:E; [|discriminate]. cbn [bind] in H.
  apply (direction_reduced solve dx dz dlam Hs) in E as (EX & EL & EZ).
  match type of H with Ok ?D = Ok _ => assert (Hd : d = D) by congruence end. clear H.
  pose proof z_pos as Hz.
  enough (D : dlist (fun t => residu sp epsi (moved it t d))
    (entries n (fun j => - rex sp it j) ++ entries m (fun i => - rey sp it i) ++ [- rez sp it] ++ entries m (fun i => - relam sp it i) ++ entries n (fun j => - rexsi sp epsi it j)
     ++ entries n (fun j => - reeta sp epsi it j) ++ entries m (fun i => - remu epsi it i) ++ [- rezet epsi it] ++ entries m (fun i => - res_ epsi it i))).
  { assert (EG : entries n (fun j => - rex sp it j) ++ entries m (fun i => - rey sp it i) ++ [- rez sp it] ++ entries m (fun i => - relam sp it i) ++ entries n (fun j => - rexsi sp epsi it j)
     ++ entries n (fun j => - reeta sp epsi it j) ++ entries m (fun i => - remu epsi it i) ++ [- rezet epsi it] ++ entries m (fun i => - res_ epsi it i) = map Ropp (residu sp epsi it)).
    { unfold residu, entries. rewrite !map_app, !map_map. reflexivity. }
    rewrite EG in D. destruct D as [_ D]. intros k Hk. specialize (D k). rewrite map_length in D. specialize (D Hk).
    rewrite (nth_indep (map Ropp _) 0 (Ropp 0)) in D by (rewrite map_length; exact Hk). rewrite (map_nth Ropp) in D. exact D. }
  unfold residu. repeat apply dlist_app; first [apply dlist_entries; intros k Hk|apply dlist_one].
  - (* rex *) unfold rex. eapply dl_eq; [apply dl_add; [apply dl_sub; [apply (d_dpsidx d k Hk)|apply (dl_line (xsi_ it k) (xsi_ d k))]|apply (dl_line (eta_ it k) (eta_ d k))]|reflexivity|].
    pose proof (EX k Hk) as H. rewrite Hd. cbn [x_ xsi_ eta_ lam_]. unfold delx in H. pose proof (xa_pos k Hk) as Ha. pose proof (bx_pos k Hk) as Hb.
    assert (H' : sumN m (fun i => GG sp it i k * dlam i) = - (dpsidx sp it k - epsi / (x_ it k - alfa sp k) + epsi / (beta sp k - x_ it k)) - diagx sp it k * dx k) by lra.
    rewrite H'. field. split; lra.
  - (* rey *) unfold rey. eapply dl_eq; [apply dl_sub; [apply dl_sub; [apply dl_add; [apply dl_const|apply dl_scal; apply (dl_line (y_ it k) (y_ d k))]|apply (dl_line (mu_ it k) (mu_ d k))]|apply (dl_line (lam_ it k) (lam_ d k))]|reflexivity|].
    rewrite Hd. cbn [y_ mu_ lam_]. unfold dely. pose proof (diagy_pos k Hk) as Hp. pose proof (y_pos k Hk) as Hy. unfold diagy in *.
    assert (dd sp k * y_ it k + mu_ it k <> 0). { intros Z. assert (E0 : (dd sp k + mu_ it k / y_ it k) * y_ it k = 0) by (rewrite <- Z; field; lra). assert (0 < (dd sp k + mu_ it k / y_ it k) * y_ it k) by (apply Rmult_lt_0_compat; lra). lra. }
    field. split; [lra|assumption].
  - (* rez *) unfold rez. eapply dl_eq; [apply dl_sub; [apply dl_sub; [apply dl_const|apply (dl_line (zet_ it) (zet_ d))]|apply dl_sumN; intros i Hi; apply dl_scal; apply (dl_line (lam_ it i) (lam_ d i))]|reflexivity|].
    rewrite Hd. cbn [zet_ lam_]. unfold delz in EZ. assert (H' : sumN m (fun i => aa sp i * dlam i) = a0 sp - sumN m (fun i => aa sp i * lam_ it i) - epsi / z_ it + zet_ it / z_ it * dz) by lra.
    rewrite H'. field. lra.
  - (* relam *) unfold relam. eapply dl_eq; [apply dl_sub; [apply dl_add; [apply dl_sub; [apply dl_sub; [apply d_gvec|apply dl_scal; apply (dl_line (z_ it) (z_ d))]|apply (dl_line (y_ it k) (y_ d k))]|apply (dl_line (s_ it k) (s_ d k))]|apply dl_const]|reflexivity|].
    pose proof (EL k Hk) as H. rewrite Hd. cbn [x_ z_ y_ s_]. unfold dellam, diaglamyi in H. pose proof (lam_pos k Hk) as Hl. pose proof (diagy_pos k Hk) as Hp.
    match type of H with ?S - _ - _ = ?r => assert (H' : S = r + aa sp k * dz + (s_ it k / lam_ it k + 1 / diagy sp it k) * dlam k) by lra end.
    rewrite H'. field. split; lra.
  - (* rexsi *) unfold rexsi. eapply dl_eq; [apply dl_sub; [apply dl_mul; [apply (dl_line (xsi_ it k) (xsi_ d k))|apply dl_sub; [apply (dl_line (x_ it k) (x_ d k))|apply dl_const]]|apply dl_const]|reflexivity|].
    rewrite Hd. cbn [x_ xsi_]. pose proof (xa_pos k Hk). field. lra.
  - (* reeta *) unfold reeta. eapply dl_eq; [apply dl_sub; [apply dl_mul; [apply (dl_line (eta_ it k) (eta_ d k))|apply dl_sub; [apply dl_const|apply (dl_line (x_ it k) (x_ d k))]]|apply dl_const]|reflexivity|].
    rewrite Hd. cbn [x_ eta_]. pose proof (bx_pos k Hk). field. lra.
  - (* remu *) unfold remu. eapply dl_eq; [apply dl_sub; [apply dl_mul; [apply (dl_line (mu_ it k) (mu_ d k))|apply (dl_line (y_ it k) (y_ d k))]|apply dl_const]|reflexivity|].
    rewrite Hd. cbn [y_ mu_]. pose proof (y_pos k Hk). pose proof (diagy_pos k Hk). field. repeat split; lra.
  - (* rezet *) unfold rezet. eapply dl_eq; [apply dl_sub; [apply dl_mul; [apply (dl_line (zet_ it) (zet_ d))|apply (dl_line (z_ it) (z_ d))]|apply dl_const]|reflexivity|].
    rewrite Hd. cbn [z_ zet_]. field. lra.
  - (* res *) unfold res_. eapply dl_eq; [apply dl_sub; [apply dl_mul; [apply (dl_line (lam_ it k) (lam_ d k))|apply (dl_line (s_ it k) (s_ d k))]|apply dl_const]|reflexivity|].
    rewrite Hd. cbn [lam_ s_]. pose proof (lam_pos k Hk). field. lra.
Qed.
End Newton.
Close Scope R_scope.
