(** * Proofs about the return mapping and about load histories. *)
From Coq Require Import Lra Lia.
From Verif Require Import Prelude PreludeFacts FemModel FemFacts FemSpec MatModel MatSpec MatProofs.
Open Scope R_scope.

Definition shrink (sig0 S : R) : R := if Rltb sig0 S then (S - sig0) / S else 0.
Lemma Rltb_true x y : Rltb x y = true <-> x < y.
Proof. unfold Rltb. destruct (Rlt_dec x y); split; intros; (reflexivity || discriminate || assumption || contradiction). Qed.
Lemma Rltb_false x y : Rltb x y = false <-> y <= x.
Proof. unfold Rltb. destruct (Rlt_dec x y); split; intros; (reflexivity || discriminate || lra). Qed.
Lemma shrink_range sig0 S : 0 <= sig0 -> 0 <= S -> 0 <= shrink sig0 S <= 1 /\ (1 - shrink sig0 S) * S = Rmin S sig0 /\ (0 < sig0 -> shrink sig0 S < 1)
  /\ (S <= sig0 -> shrink sig0 S = 0).
Proof.
  intros H0 HS. unfold shrink. destruct (Rltb sig0 S) eqn:E.
  - apply Rltb_true in E. assert (0 < S) by lra.
    assert (Hq : (S - sig0) / S * S = S - sig0) by (field; lra). set (q := (S - sig0) / S) in *.
    assert (0 <= q) by (assert (0 < / S) by (apply Rinv_0_lt_compat; lra); unfold q, Rdiv; nra).
    repeat split; try nra. unfold Rmin. destruct (Rle_dec S sig0); lra.
  - apply Rltb_false in E. repeat split; try lra. unfold Rmin. destruct (Rle_dec S sig0); lra.
Qed.
Lemma model_dev d T i j : T i j - 1 / INR d * trace d T * eye i j = dev d T i j.
Proof. unfold dev, pressure, eye, identity, trace, Rdiv. ring. Qed.
Lemma model_norm d T : safe_sqrt (3 / 2 * ddot d (fun i j => T i j - 1 / INR d * trace d T * eye i j) (fun i j => T i j - 1 / INR d * trace d T * eye i j))
  = von_mises d T.
Proof.
  rewrite (ddot_ext d _ (dev d T) _ (dev d T)) by (intros i j _ _; apply model_dev). unfold safe_sqrt, von_mises.
  destruct (Rltb 0 _) eqn:E; [reflexivity|]. apply Rltb_false in E. pose proof (ddot_nonneg d (dev d T)).
  replace (3 / 2 * ddot d (dev d T) (dev d T)) with 0 by lra. now rewrite sqrt_0.
Qed.
Lemma radial_form d sig0 T : 0 <= sig0 ->
  (forall i j, fst (radial_return d sig0 T) i j = T i j - shrink sig0 (von_mises d T) * dev d T i j)
  /\ snd (radial_return d sig0 T) = Rmax 0 (von_mises d T - sig0).
Proof.
  intros H0. pose proof (von_mises_nonneg d T) as HS. unfold radial_return. rewrite model_norm. cbn [fst snd]. set (S := von_mises d T) in *. split.
  - intros i j. rewrite model_dev. f_equal. unfold shrink, safe_divide, Reqb. destruct (Req_EM_T S 0) as [E|E].
    + destruct (Rltb sig0 S) eqn:L; [apply Rltb_true in L; lra|]. ring.
    + destruct (Rltb sig0 S) eqn:L.
      * apply Rltb_true in L. replace (Rltb 0 (S - sig0)) with true by (symmetry; apply Rltb_true; lra). field. exact E.
      * apply Rltb_false in L. replace (Rltb 0 (S - sig0)) with false by (symmetry; apply Rltb_false; lra). field. exact E.
  - unfold Rmax. destruct (Rltb 0 (S - sig0)) eqn:L; [apply Rltb_true in L|apply Rltb_false in L]; destruct (Rle_dec 0 (S - sig0)); lra.
Qed.

Section Return.
Variables (d : nat) (sig0 : R) (T : mat).
Hypothesis Hd : (0 < d)%nat.
Hypothesis H0 : 0 <= sig0.
Let Z := fst (radial_return d sig0 T).
Let b := shrink sig0 (von_mises d T).
Lemma ret_form i j : Z i j = T i j - b * dev d T i j.
Proof. exact (proj1 (radial_form d sig0 T H0) i j). Qed.
Lemma ret_pressure : pressure d Z = pressure d T.
Proof.
  rewrite !pressure_trace. f_equal. rewrite (trace_ext d Z (fun i j => T i j - b * dev d T i j)) by (intros i j _ _; apply ret_form).
  rewrite (trace_sub d T (fun i j => b * dev d T i j)), trace_scal, trace_dev by exact Hd. ring.
Qed.
Lemma ret_dev i j : dev d Z i j = (1 - b) * dev d T i j.
Proof. unfold dev at 1. rewrite ret_pressure, ret_form. unfold dev. ring. Qed.
Lemma ret_von_mises : von_mises d Z = Rmin (von_mises d T) sig0.
Proof.
  destruct (shrink_range sig0 (von_mises d T) H0 (von_mises_nonneg d T)) as (Hb & Hm & _).
  rewrite <- Hm. apply von_mises_scal_dev; [fold b; unfold b; lra|]. intros i j _ _. apply ret_dev.
Qed.
Lemma ret_elastic : von_mises d T <= sig0 -> forall i j, Z i j = T i j.
Proof.
  intros H i j. rewrite ret_form. destruct (shrink_range sig0 (von_mises d T) H0 (von_mises_nonneg d T)) as (_ & _ & _ & Hz).
  unfold b. rewrite Hz by exact H. ring.
Qed.
Lemma ret_sym : msym d T -> msym d Z.
Proof.
  intros H i j Hi Hj. rewrite !ret_form. unfold dev, identity. rewrite (H i j) by assumption. now rewrite Nat.eqb_sym.
Qed.
(** dev-norm bound of an admissible stress *)
Lemma admissible_norm A : von_mises d A <= sig0 -> ddot d (dev d A) (dev d A) <= 2 / 3 * (sig0 * sig0).
Proof. intros H. pose proof (von_mises_sqr d A) as E. pose proof (von_mises_nonneg d A). nra. Qed.
(** maximum dissipation: the overstress makes an obtuse angle with every admissible stress change *)
Lemma ret_variational A : von_mises d A <= sig0 -> ddot d (msub T Z) (msub A Z) <= 0.
Proof.
  intros HA. destruct (shrink_range sig0 (von_mises d T) H0 (von_mises_nonneg d T)) as (Hb & Hm & _ & Hz). fold b in Hb, Hm, Hz.
  set (S := von_mises d T) in *.
  assert (E : ddot d (msub T Z) (msub A Z) = b * (ddot d (dev d T) (dev d A) - (1 - b) * ddot d (dev d T) (dev d T))).
  { rewrite ddot_split by exact Hd.
    assert (P0 : pressure d (msub T Z) = 0). { rewrite pressure_trace. unfold msub. rewrite trace_sub. pose proof ret_pressure as E. rewrite !pressure_trace in E.
      unfold Rdiv in *. rewrite Rmult_minus_distr_r. lra. }
    rewrite P0.
    rewrite (ddot_ext d _ (fun i j => b * dev d T i j) _ (fun i j => dev d A i j - (1 - b) * dev d T i j)).
    - rewrite ddot_scal_l, ddot_comm, (ddot_sub_l d (dev d A) (fun i j => (1 - b) * dev d T i j)), ddot_scal_l, (ddot_comm d (dev d A)). ring.
    - intros i j _ _. unfold msub. rewrite dev_sub, ret_dev. ring.
    - intros i j _ _. unfold msub. rewrite dev_sub, ret_dev. ring. }
  rewrite E. destruct (Rle_dec S sig0) as [HS|HS].
  - rewrite Hz by exact HS. lra.
  - assert (Hmin : (1 - b) * S = sig0) by (rewrite Hm; unfold Rmin; destruct (Rle_dec S sig0); lra).
    pose proof (ddot_cauchy d (dev d T) (dev d A)) as HC. pose proof (von_mises_sqr d T) as HT. fold S in HT.
    pose proof (admissible_norm A HA) as HN. pose proof (ddot_nonneg d (dev d A)). pose proof (ddot_nonneg d (dev d T)).
    set (x := ddot d (dev d T) (dev d A)) in *. set (tt := ddot d (dev d T) (dev d T)) in *. set (aa := ddot d (dev d A) (dev d A)) in *.
    assert (Hx : x <= 2 / 3 * (S * sig0)).
    { apply le_of_sq; [nra|]. assert (tt = 2 / 3 * (S * S)) by lra. nra. }
    assert ((1 - b) * tt = 2 / 3 * (S * sig0)) by (replace tt with (2 / 3 * (S * S)) by lra; nra). nra.
Qed.
End Return.

(** the two return maps of two trial stresses: monotone and non-expansive *)
Lemma return_monotone d sig0 T1 T2 : (0 < d)%nat -> 0 <= sig0 ->
  let Z1 := fst (radial_return d sig0 T1) in let Z2 := fst (radial_return d sig0 T2) in
  ddot d (msub Z1 Z2) (msub Z1 Z2) <= ddot d (msub T1 T2) (msub Z1 Z2).
Proof.
  intros Hd H0 Z1 Z2.
  assert (A1 : von_mises d Z1 <= sig0) by (unfold Z1; rewrite ret_von_mises by assumption; apply Rmin_r).
  assert (A2 : von_mises d Z2 <= sig0) by (unfold Z2; rewrite ret_von_mises by assumption; apply Rmin_r).
  pose proof (ret_variational d sig0 T1 Hd H0 Z2 A2) as V1. pose proof (ret_variational d sig0 T2 Hd H0 Z1 A1) as V2. fold Z1 in V1. fold Z2 in V2.
  unfold msub in *. rewrite !ddot_sub_l in *.
  rewrite (ddot_comm d T1), (ddot_comm d Z1), (ddot_sub_l d Z2 Z1) in V1. rewrite (ddot_sub_l d Z2 Z1) in V1.
  rewrite (ddot_comm d T2), (ddot_comm d Z2), (ddot_sub_l d Z1 Z2), (ddot_sub_l d Z1 Z2) in V2.
  rewrite (ddot_comm d Z1 (fun i j => Z1 i j - Z2 i j)), (ddot_comm d Z2 (fun i j => Z1 i j - Z2 i j)), (ddot_comm d T1 (fun i j => Z1 i j - Z2 i j)), (ddot_comm d T2 (fun i j => Z1 i j - Z2 i j)).
  rewrite !ddot_sub_l. rewrite (ddot_comm d Z2 Z1) in *. lra.
Qed.
Lemma return_nonexpansive d sig0 T1 T2 : (0 < d)%nat -> 0 <= sig0 ->
  let Z1 := fst (radial_return d sig0 T1) in let Z2 := fst (radial_return d sig0 T2) in
  ddot d (msub Z1 Z2) (msub Z1 Z2) <= ddot d (msub T1 T2) (msub T1 T2).
Proof.
  intros Hd H0 Z1 Z2. pose proof (return_monotone d sig0 T1 T2 Hd H0) as M. cbv zeta in M. fold Z1 Z2 in M.
  pose proof (ddot_cauchy d (msub T1 T2) (msub Z1 Z2)) as C. pose proof (ddot_nonneg d (msub Z1 Z2)) as P. pose proof (ddot_nonneg d (msub T1 T2)) as Q.
  set (z := ddot d (msub Z1 Z2) (msub Z1 Z2)) in *. set (t := ddot d (msub T1 T2) (msub T1 T2)) in *. set (x := ddot d (msub T1 T2) (msub Z1 Z2)) in *.
  destruct (Rle_dec z t); [assumption|]. exfalso. assert (z * z <= x * x) by nra. nra.
Qed.
(** strain-driven form: stress increments do non-negative work on strain increments *)
Lemma return_strain_monotone d sig0 E C1 C2 D1 D2 : (0 < d)%nat -> 0 <= sig0 -> 0 < E ->
  let Z1 := fst (radial_return d sig0 C1) in let Z2 := fst (radial_return d sig0 C2) in
  (forall i j, C1 i j - C2 i j = iso_stress d E (fun i j => D1 i j - D2 i j) i j) ->
  0 <= ddot d (msub Z1 Z2) (msub D1 D2).
Proof.
  intros Hd H0 HE Z1 Z2 HC. rewrite ddot_split by exact Hd. pose proof (INR_pos d Hd) as Hd'.
  pose proof (lmbda_pos E HE) as HL. pose proof (mu_pos E HE) as HM.
  assert (HCp : pressure d (msub C1 C2) = (INR d * lmbda_of E + 2 * mu_of E) * pressure d (msub D1 D2)).
  { rewrite !pressure_trace. rewrite (trace_ext d (msub C1 C2) (iso_stress d E (fun i j => D1 i j - D2 i j))) by (intros i j _ _; apply HC).
    unfold iso_stress. rewrite (trace_add d (fun i j => lmbda_of E * trace d (fun i0 j0 => D1 i0 j0 - D2 i0 j0) * eye i j)), !trace_scal.
    replace (trace d eye) with (INR d) by (symmetry; apply trace_identity). unfold msub. field. lra. }
  assert (HZp : pressure d (msub Z1 Z2) = pressure d (msub C1 C2)).
  { rewrite !pressure_trace. unfold msub. rewrite !trace_sub. pose proof (ret_pressure d sig0 C1 Hd H0) as P1. pose proof (ret_pressure d sig0 C2 Hd H0) as P2.
    fold Z1 in P1. fold Z2 in P2. rewrite !pressure_trace in P1, P2. unfold Rdiv in *. rewrite !Rmult_minus_distr_r. lra. }
  assert (Hdev : meq d (dev d (msub C1 C2)) (fun i j => 2 * mu_of E * dev d (msub D1 D2) i j)).
  { intros i j _ _. unfold dev at 1. rewrite HCp. unfold msub at 1. rewrite HC. unfold dev, iso_stress.
    replace (trace d (fun i0 j0 => D1 i0 j0 - D2 i0 j0)) with (INR d * pressure d (msub D1 D2)) by (rewrite pressure_trace; unfold msub; field; lra).
    rewrite eye_identity. unfold msub. ring. }
  assert (Hmono : 0 <= ddot d (dev d (msub Z1 Z2)) (dev d (msub C1 C2))).
  { pose proof (return_monotone d sig0 C1 C2 Hd H0) as M. cbv zeta in M. fold Z1 Z2 in M.
    rewrite (ddot_split d (msub C1 C2)), (ddot_split d (msub Z1 Z2)) in M by exact Hd.
    rewrite HZp in M. rewrite (ddot_comm d (dev d (msub C1 C2))) in M. pose proof (ddot_nonneg d (dev d (msub Z1 Z2))). lra. }
  rewrite HZp, HCp. rewrite (ddot_ext d _ _ _ _ (fun i j _ _ => eq_refl) Hdev) in Hmono. rewrite ddot_comm, ddot_scal_l, ddot_comm in Hmono.
  assert (0 <= ddot d (dev d (msub Z1 Z2)) (dev d (msub D1 D2))) by nra.
  apply Rplus_le_le_0_compat; [assumption|].
  replace (INR d * ((INR d * lmbda_of E + 2 * mu_of E) * pressure d (msub D1 D2)) * pressure d (msub D1 D2))
    with (INR d * (INR d * lmbda_of E + 2 * mu_of E) * (pressure d (msub D1 D2) * pressure d (msub D1 D2))) by ring.
  apply Rmult_le_pos; [|nra]. assert (0 < INR d * lmbda_of E) by nra. nra.
Qed.

(** ** stress_return_map *)
Definition trial (d : nat) (u_grad sigma_old epsilon_old : mat) : mat :=
  fun i j => iso_stress d 70000 (fun i j => strain u_grad i j - epsilon_old i j) i j + sigma_old i j.
Lemma srm_form d G s e : stress_return_map d G s e = fst (radial_return d 250 (trial d G s e)).
Proof. reflexivity. Qed.
Lemma trial_sym d G s e : msym d s -> msym d e -> msym d (trial d G s e).
Proof.
  intros Hs He i j Hi Hj. unfold trial. rewrite (Hs i j), (iso_sym d 70000 (fun i j => strain G i j - e i j)) by
   (assumption || (intros k l Hk Hl; rewrite (strain_sym G k l), (He k l) by assumption; reflexivity)). reflexivity.
Qed.

(** ** histories *)
Section Hist.
Context {V : Type}.
Variable F : fem V.
Hypothesis Hd : (0 < dim F)%nat.
Lemma run_app sols sol : plastic_run F (sols ++ [sol]) = update_stress_strain F sol (plastic_run F sols).
Proof. unfold plastic_run. now rewrite fold_left_app. Qed.
Lemma von_mises_zero d : (0 < d)%nat -> von_mises d (fun _ _ => 0) = 0.
Proof.
  intros H. unfold von_mises. rewrite (ddot_ext d _ mzero _ mzero).
  - unfold ddot, mzero. rewrite sumN_zero by (intros; apply sumN_zero; intros; ring). replace (3 / 2 * 0) with 0 by ring. apply sqrt_0.
  - intros i j _ _. unfold dev, pressure, mzero. rewrite sumN_zero by reflexivity. unfold Rdiv. ring.
  - intros i j _ _. unfold dev, pressure, mzero. rewrite sumN_zero by reflexivity. unfold Rdiv. ring.
Qed.
Lemma run_invariant sols c q :
  von_mises (dim F) (sigmas_old (plastic_run F sols) c q) <= 250
  /\ msym (dim F) (sigmas_old (plastic_run F sols) c q) /\ msym (dim F) (epsilons_old (plastic_run F sols) c q).
Proof.
  induction sols as [|sol sols IH] using rev_ind.
  - cbn. rewrite von_mises_zero by exact Hd. repeat split; try lra; intros i j _ _; reflexivity.
  - rewrite run_app. cbn [update_stress_strain sigmas_old epsilons_old]. rewrite srm_form. destruct IH as (_ & Hs & He). repeat split.
    + rewrite ret_von_mises by (exact Hd || lra). apply Rmin_r.
    + apply ret_sym; [lra|]. now apply trial_sym.
    + intros i j _ _. apply strain_sym.
Qed.
Lemma update_idempotent sols sol c q :
  let s := plastic_run F (sols ++ [sol]) in let s' := update_stress_strain F sol s in
  meq (dim F) (sigmas_old s' c q) (sigmas_old s c q) /\ epsilons_old s' c q = epsilons_old s c q.
Proof.
  intros s s'. split.
  - destruct (run_invariant (sols ++ [sol]) c q) as (Hv & _ & _). fold s in Hv.
    assert (Et : meq (dim F) (trial (dim F) (sol_to_grad F sol c q) (sigmas_old s c q) (epsilons_old s c q)) (sigmas_old s c q)).
    { intros i j Hi Hj. unfold trial. rewrite (iso_zero (dim F) 70000 _); try assumption; [unfold mzero; ring|].
      intros k l _ _. unfold s. rewrite run_app. cbn [update_stress_strain epsilons_old]. unfold mzero. ring. }
    intros i j Hi Hj. unfold s'. cbn [update_stress_strain sigmas_old]. rewrite srm_form. rewrite ret_elastic; [now apply Et|lra|].
    rewrite (von_mises_ext _ _ _ Et). exact Hv.
  - unfold s', s. rewrite run_app. reflexivity.
Qed.
Lemma run_last sols sol c q i j : epsilons_old (plastic_run F (sols ++ [sol])) c q i j = / 2 * (sol_to_grad F sol c q i j + sol_to_grad F sol c q j i).
Proof. rewrite run_app. reflexivity. Qed.
End Hist.
Close Scope R_scope.
