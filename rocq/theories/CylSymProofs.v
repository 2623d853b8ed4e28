(** * Flow past a cylinder: rest states, mirror symmetry, signs of the populations. *)
From Coq Require Import FunctionalExtensionality Lra Lia.
From Verif Require Import Prelude PreludeFacts FemModel FemFacts CylModel CylSpec CylProofs.
Open Scope R_scope.
Open Scope list_scope.

Section Cyl.
Variables (Ny Nx : nat).
Hypothesis HNy : (0 < Ny)%nat.
Hypothesis HNx : (0 < Nx)%nat.
Variable tau : R.
Variable mask : nat -> nat -> bool.
(** ** only the cells of the grid count *)
Lemma drift_congr F G : same_grid Ny Nx F G -> same_grid Ny Nx (drift Ny Nx F) (drift Ny Nx G).
Proof. intros H y x i Hy Hx Hi. rewrite !drift_at by exact Hi. apply H; [now apply moved_lt|now apply moved_lt|exact Hi]. Qed.
Lemma local_congr F G y x y' x' : (forall i, (i < 9)%nat -> F y x i = G y' x' i) -> rho F y x = rho G y' x' /\ ux F y x = ux G y' x' /\ uy F y x = uy G y' x'.
Proof.
  intros H. assert (Hr : rho F y x = rho G y' x') by (unfold rho; apply sumN_ext; exact H). split; [exact Hr|]. unfold ux, uy. rewrite Hr.
  split; f_equal; apply sumN_ext; intros i Hi; now rewrite H.
Qed.
Lemma step_congr F G F' : same_grid Ny Nx F G -> step Ny Nx tau mask F = Some F' -> exists G', step Ny Nx tau mask G = Some G' /\ same_grid Ny Nx F' G'.
Proof.
  intros H E. apply step_some in E as [-> Hr]. pose proof (drift_congr F G H) as Hd. eexists. split.
  - apply some_step. intros y x Hy Hx Hm. destruct (local_congr (drift Ny Nx F) (drift Ny Nx G) y x y x (fun i => Hd y x i Hy Hx)) as (E & _). rewrite <- E. now apply Hr.
  - intros y x i Hy Hx Hi. cbv beta. destruct (mask y x).
    + unfold reflected. apply Hd; [exact Hy|exact Hx|]. now apply rev9_lt.
    + unfold collide. destruct (local_congr (drift Ny Nx F) (drift Ny Nx G) y x y x (fun i => Hd y x i Hy Hx)) as (-> & -> & ->). now rewrite (Hd y x i Hy Hx Hi).
Qed.
Lemma same_sym F G : same_grid Ny Nx F G -> same_grid Ny Nx G F.
Proof. intros H y x i Hy Hx Hi. symmetry. now apply H. Qed.
Lemma same_trans F G K : same_grid Ny Nx F G -> same_grid Ny Nx G K -> same_grid Ny Nx F K.
Proof. intros H1 H2 y x i Hy Hx Hi. rewrite H1 by assumption. now apply H2. Qed.

(** ** uniform equilibria *)
Definition uniform (r u v : R) : grid := fun _ _ => feq r u v.
Lemma uniform_drift r u v y x i : (i < 9)%nat -> drift Ny Nx (uniform r u v) y x i = feq r u v i.
Proof. intros Hi. now rewrite drift_at. Qed.
Lemma uniform_local r u v y x : r <> 0 -> rho (drift Ny Nx (uniform r u v)) y x = r /\ ux (drift Ny Nx (uniform r u v)) y x = u /\ uy (drift Ny Nx (uniform r u v)) y x = v.
Proof.
  intros Hr. destruct (local_congr (drift Ny Nx (uniform r u v)) (uniform r u v) y x y x (fun i Hi => uniform_drift r u v y x i Hi)) as (-> & -> & ->).
  assert (E : rho (uniform r u v) y x = r) by (exact (feq_mass r u v)). split; [exact E|]. unfold ux, uy. rewrite E. unfold uniform. rewrite feq_px, feq_py. split; now field.
Qed.
Lemma uniform_step r u v F : r <> 0 -> (forall y x, (y < Ny)%nat -> (x < Nx)%nat -> mask y x = true -> u = 0 /\ v = 0) -> same_grid Ny Nx F (uniform r u v) ->
  exists F', step Ny Nx tau mask F = Some F' /\ same_grid Ny Nx F' (uniform r u v).
Proof.
  intros Hr Hm HF. assert (E : step Ny Nx tau mask (uniform r u v) = Some (fun y x i => if mask y x then reflected (drift Ny Nx (uniform r u v)) y x i else collide tau (drift Ny Nx (uniform r u v)) y x i)).
  { apply some_step. intros y x _ _ _. now rewrite (proj1 (uniform_local r u v y x Hr)). }
  destruct (step_congr _ _ _ (same_sym _ _ HF) E) as (F' & HF' & Hs). exists F'. split; [exact HF'|]. apply same_sym in Hs. refine (same_trans _ _ _ Hs _).
  intros y x i Hy Hx Hi. cbv beta. destruct (mask y x) eqn:Em.
  - destruct (Hm y x Hy Hx Em) as [-> ->]. unfold reflected. rewrite uniform_drift by now apply rev9_lt. unfold uniform, feq. clear -Hi. nine i; cbn [nth rev9 cxs cys weights9]; field.
  - unfold collide. destruct (uniform_local r u v y x Hr) as (-> & -> & ->). rewrite uniform_drift by exact Hi. unfold uniform. ring.
Qed.
Lemma uniform_run r u v : r <> 0 -> (forall y x, (y < Ny)%nat -> (x < Nx)%nat -> mask y x = true -> u = 0 /\ v = 0) ->
  forall n F, same_grid Ny Nx F (uniform r u v) -> exists F', run Ny Nx tau mask n F = Some F' /\ same_grid Ny Nx F' (uniform r u v).
Proof.
  intros Hr Hm. induction n as [|n IH]; intros F HF; cbn [run]; [exists F; now split|]. destruct (uniform_step r u v F Hr Hm HF) as (F1 & -> & H1). now apply IH.
Qed.

(** ** upside down *)
Lemma turned9_ok i : (i < 9)%nat -> (nth i turned9 0 < 9)%nat /\ nth (nth i turned9 0%nat) turned9 0%nat = i /\ nth (nth i turned9 0%nat) cxs 0%Z = nth i cxs 0%Z /\ nth (nth i turned9 0%nat) cys 0%Z = (- nth i cys 0)%Z /\
  nth (nth i turned9 0%nat) rev9 0%nat = nth (nth i rev9 0%nat) turned9 0%nat.
Proof. intros Hi. nine i; repeat split; cbn; lia. Qed.
Lemma drift_mirrored F : same_grid Ny Nx (drift Ny Nx (mirrored Ny F)) (mirrored Ny (drift Ny Nx F)).
Proof.
  intros y x i Hy Hx Hi. destruct (turned9_ok i Hi) as (H1 & H2 & H3 & H4 & _). rewrite drift_at by exact Hi. unfold mirrored. rewrite drift_at by exact H1. rewrite H3, H4.
  destruct (upside_moved Ny y (- nth i cys 0%Z) HNy) as [E|E]; [|lia]. now rewrite E.
Qed.
Lemma local_mirrored F y x : rho (mirrored Ny F) y x = rho F (upside Ny y) x /\ ux (mirrored Ny F) y x = ux F (upside Ny y) x /\ uy (mirrored Ny F) y x = - uy F (upside Ny y) x.
Proof.
  assert (E : rho (mirrored Ny F) y x = rho F (upside Ny y) x) by (unfold rho, mirrored, sumN; cbn [seq sumR nth turned9]; ring). split; [exact E|].
  unfold ux, uy. rewrite E. unfold Rdiv. rewrite <- Ropp_mult_distr_l_reverse. unfold mirrored, sumN. cbn [seq sumR nth turned9 cxs cys]. split; f_equal; ring.
Qed.
Lemma feq_turned r u v i : (i < 9)%nat -> feq r u (- v) i = feq r u v (nth i turned9 0%nat).
Proof. intros Hi. unfold feq. nine i; cbn [nth turned9 cxs cys weights9]; field. Qed.
Lemma step_mirrored F F' : mirror_mask Ny Nx mask -> step Ny Nx tau mask F = Some F' -> exists G, step Ny Nx tau mask (mirrored Ny F) = Some G /\ same_grid Ny Nx G (mirrored Ny F').
Proof.
  intros Hm E. apply step_some in E as [-> Hr]. pose proof (drift_mirrored F) as Hd.
  assert (Hl : forall y x, (y < Ny)%nat -> (x < Nx)%nat -> rho (drift Ny Nx (mirrored Ny F)) y x = rho (drift Ny Nx F) (upside Ny y) x /\ ux (drift Ny Nx (mirrored Ny F)) y x = ux (drift Ny Nx F) (upside Ny y) x /\ uy (drift Ny Nx (mirrored Ny F)) y x = - uy (drift Ny Nx F) (upside Ny y) x).
  { intros y x Hy Hx. destruct (local_congr _ _ y x y x (fun i => Hd y x i Hy Hx)) as (-> & -> & ->). apply local_mirrored. }
  eexists. split.
  - apply some_step. intros y x Hy Hx Em. destruct (Hl y x Hy Hx) as (-> & _). apply Hr; [now apply upside_lt|exact Hx|]. now rewrite Hm.
  - intros y x i Hy Hx Hi. destruct (turned9_ok i Hi) as (H1 & H2 & H3 & H4 & H5). destruct (rev9_lt i Hi) as (R1 & _). unfold mirrored at 3. cbv beta. rewrite (Hm y x Hy Hx). destruct (mask y x).
    + unfold reflected. rewrite Hd by assumption. unfold mirrored. now rewrite H5.
    + unfold collide. destruct (Hl y x Hy Hx) as (-> & -> & ->). rewrite feq_turned by exact Hi. rewrite Hd by assumption. reflexivity.
Qed.
Lemma run_congr n : forall F G F', same_grid Ny Nx F G -> run Ny Nx tau mask n F = Some F' -> exists G', run Ny Nx tau mask n G = Some G' /\ same_grid Ny Nx F' G'.
Proof.
  induction n as [|n IH]; intros F G F' H; cbn [run]; [intros E; injection E as <-; exists G; now split|]. destruct (step Ny Nx tau mask F) as [F1|] eqn:E; [|discriminate]. intros E1. destruct (step_congr F G F1 H E) as (G1 & -> & HG). now apply (IH F1).
Qed.
Lemma run_mirrored n : mirror_mask Ny Nx mask -> forall F F', run Ny Nx tau mask n F = Some F' -> exists G, run Ny Nx tau mask n (mirrored Ny F) = Some G /\ same_grid Ny Nx G (mirrored Ny F').
Proof.
  intros Hm. induction n as [|n IH]; intros F F'; cbn [run]; [intros E; injection E as <-; exists (mirrored Ny F); split; [reflexivity|intros y x i _ _ _; reflexivity]|].
  destruct (step Ny Nx tau mask F) as [F1|] eqn:E; [|discriminate]. intros E1. destruct (step_mirrored F F1 Hm E) as (G1 & -> & HG). destruct (IH F1 F' E1) as (G & H1 & H2).
  destruct (run_congr n (mirrored Ny F1) G1 G (same_sym _ _ HG) H1) as (G' & H3 & H4). exists G'. split; [exact H3|]. exact (same_trans _ _ _ (same_sym _ _ H4) H2).
Qed.
Lemma stays_symmetric n F F' : mirror_mask Ny Nx mask -> same_grid Ny Nx F (mirrored Ny F) -> run Ny Nx tau mask n F = Some F' -> same_grid Ny Nx F' (mirrored Ny F').
Proof.
  intros Hm Hs E. destruct (run_mirrored n Hm F F' E) as (G & H1 & H2). destruct (run_congr n F (mirrored Ny F) F' Hs E) as (G' & H3 & H4). rewrite H1 in H3. injection H3 as <-. exact (same_trans _ _ _ H4 H2).
Qed.
Lemma symmetric_axis F y x : same_grid Ny Nx F (mirrored Ny F) -> (y < Ny)%nat -> (x < Nx)%nat -> uy F (upside Ny y) x = - uy F y x.
Proof.
  intros Hs Hy Hx. destruct (local_congr F (mirrored Ny F) y x y x (fun i => Hs y x i Hy Hx)) as (_ & _ & E). rewrite E. destruct (local_mirrored F y x) as (_ & _ & ->). ring.
Qed.
Lemma cylinder_mirror : mirror_mask Ny Nx (cylinder Ny Nx).
Proof.
  intros y x Hy Hx. unfold upside. destruct (Nat.eq_dec y 0) as [->|H0]; [now rewrite Nat.sub_0_r, Nat.mod_same by lia|]. rewrite Nat.mod_small by lia. unfold cylinder. f_equal. rewrite minus_INR by lia. field.
Qed.
Lemma initial_mirror rho0 noise : same_grid Ny Nx noise (mirrored Ny noise) -> same_grid Ny Nx (initial Nx rho0 noise) (mirrored Ny (initial Nx rho0 noise)).
Proof.
  intros H. assert (Hr : same_grid Ny Nx (raw Nx noise) (mirrored Ny (raw Nx noise))).
  { intros y x i Hy Hx Hi. unfold mirrored, raw. rewrite (H y x i Hy Hx Hi). unfold mirrored. f_equal. nine i; reflexivity. }
  intros y x i Hy Hx Hi. unfold initial at 1. rewrite (Hr y x i Hy Hx Hi). destruct (local_congr _ _ y x y x (fun i => Hr y x i Hy Hx)) as (-> & _). rewrite (proj1 (local_mirrored _ y x)). reflexivity.
Qed.

(** ** signs *)
Lemma feq_nonneg r u v i : 0 <= r -> u ^ 2 + v ^ 2 <= 1 / 3 -> (i < 9)%nat -> 0 <= feq r u v i.
Proof.
  intros Hr Hu Hi. unfold feq. cbv zeta. set (c := IZR (nth i cxs 0%Z) * u + IZR (nth i cys 0%Z) * v). apply Rmult_le_pos; [apply Rmult_le_pos; [exact Hr|]|].
  - clear - Hi. nine i; cbn; lra.
  - pose proof (pow2_ge_0 (c + 1 / 3)). nra.
Qed.
Lemma step_nonneg F F' : 1 <= tau -> nonnegative Ny Nx F -> (forall y x, (y < Ny)%nat -> (x < Nx)%nat -> mask y x = false -> ux (drift Ny Nx F) y x ^ 2 + uy (drift Ny Nx F) y x ^ 2 <= 1 / 3) ->
  step Ny Nx tau mask F = Some F' -> nonnegative Ny Nx F'.
Proof.
  intros Ht HF Hu E. apply step_some in E as [-> _]. assert (Hd : nonnegative Ny Nx (drift Ny Nx F)) by (intros y x i Hy Hx Hi; rewrite drift_at by exact Hi; apply HF; [now apply moved_lt|now apply moved_lt|exact Hi]).
  intros y x i Hy Hx Hi. cbv beta. destruct (mask y x) eqn:Em; [unfold reflected; apply Hd; [exact Hy|exact Hx|now apply rev9_lt]|].
  unfold collide. set (f := feq _ _ _ i). assert (Hf : 0 <= f) by (apply feq_nonneg; [unfold rho; apply sumN_nonneg; intros j Hj; now apply Hd|now apply Hu|exact Hi]).
  specialize (Hd y x i Hy Hx Hi). set (a := drift Ny Nx F y x i) in *. assert (Hi1 : 0 < 1 / tau <= 1). { split; [apply Rdiv_lt_0_compat; lra|]. apply (Rmult_le_reg_r tau); [lra|]. field_simplify; lra. }
  replace (a + - (1 / tau) * (a - f)) with ((1 - 1 / tau) * a + 1 / tau * f) by ring. assert (0 <= (1 - 1 / tau) * a) by (apply Rmult_le_pos; lra). assert (0 <= 1 / tau * f) by (apply Rmult_le_pos; lra). lra.
Qed.
End Cyl.
Close Scope R_scope.
