(** * The subproblem built by mmasub, and the optimisation loop. *)
From Coq Require Import FunctionalExtensionality Lra.
From Verif Require Import Prelude PreludeFacts FemModel FemFacts MmaModel MmaSpec MmaProofs MmaNewtonProofs MmaOptProofs.
Open Scope R_scope.

Lemma Rmax_or a b : (Rmax a b = a /\ b <= a) \/ (Rmax a b = b /\ a <= b).
Proof. unfold Rmax. destruct (Rle_dec a b); [right|left]; split; lra. Qed.
Lemma Rmin_or a b : (Rmin a b = a /\ a <= b) \/ (Rmin a b = b /\ b <= a).
Proof. unfold Rmin. destruct (Rle_dec a b); [left|right]; split; lra. Qed.
Ltac atomic a := lazymatch a with context [Rmax] => fail | context [Rmin] => fail | _ => idtac end.
Ltac mm := repeat match goal with
  | |- context [Rmax ?a ?b] => atomic a; atomic b; let E := fresh in destruct (Rmax_or a b) as [[E ?]|[E ?]]; rewrite E in *; clear E
  | |- context [Rmin ?a ?b] => atomic a; atomic b; let E := fresh in destruct (Rmin_or a b) as [[E ?]|[E ?]]; rewrite E in *; clear E
  end; try lra.

Lemma build_low M xval : low (build M xval) = fst (asymptotes M xval).
Proof. unfold build. destruct (asymptotes M xval). reflexivity. Qed.
Lemma build_upp M xval : upp (build M xval) = snd (asymptotes M xval).
Proof. unfold build. destruct (asymptotes M xval). reflexivity. Qed.
Lemma build_alfa M xval : alfa (build M xval) = bound_low M xval (low (build M xval)).
Proof. unfold build. destruct (asymptotes M xval). reflexivity. Qed.
Lemma build_beta M xval : beta (build M xval) = bound_upp M xval (upp (build M xval)).
Proof. unfold build. destruct (asymptotes M xval). reflexivity. Qed.
Lemma build_m M xval : sp_m (build M xval) = numConstraints M.
Proof. unfold build. destruct (asymptotes M xval). reflexivity. Qed.
Lemma build_n M xval : sp_n (build M xval) = numDesignVariables M.
Proof. unfold build. destruct (asymptotes M xval). reflexivity. Qed.
Lemma build_dd M xval : dd (build M xval) = yquadscale M.
Proof. unfold build. destruct (asymptotes M xval). reflexivity. Qed.

Section Step.
Variable M : mma.
Variable xval : vct.
Hypothesis Hb : box_ok M xval.
Local Notation n := (numDesignVariables M).
Local Notation sp := (build M xval).
Local Notation rng j := (xmax M j - xmin M j).

Lemma asymptote_distance j : (j < n)%nat ->
  0.01 * rng j <= xval j - low sp j <= 10 * rng j /\ 0.01 * rng j <= upp sp j - xval j <= 10 * rng j.
Proof.
  intros Hj. destruct Hb as [_ H]. specialize (H j Hj). rewrite build_low, build_upp. unfold asymptotes. destruct (Nat.leb (epoch M) 2); cbn [fst snd]; [lra|].
  set (lo := xval j - _ * (xold1 M j - lowAsymp M j)). set (up := xval j + _ * (upAsymp M j - xold1 M j)). clearbody lo up. mm.
Qed.
Lemma bounds_ok j : (j < n)%nat ->
  low sp j < alfa sp j /\ alfa sp j <= xval j <= beta sp j /\ beta sp j < upp sp j /\ alfa sp j < beta sp j /\
  xmin M j <= alfa sp j /\ beta sp j <= xmax M j /\
  xval j - moveLimit M * rng j <= alfa sp j /\ beta sp j <= xval j + moveLimit M * rng j.
Proof.
  intros Hj. pose proof (asymptote_distance j Hj) as [A1 A2]. destruct Hb as [Hm H]. specialize (H j Hj). rewrite build_alfa, build_beta. unfold bound_low, bound_upp.
  assert (0 < moveLimit M * rng j) by (apply Rmult_lt_0_compat; lra). set (mv := moveLimit M * rng j) in *. clearbody mv. set (lo := low sp j) in *. set (up := upp sp j) in *. clearbody lo up. mm.
Qed.
Lemma ux_pos_b j : (j < n)%nat -> 0 < upp sp j - xval j.
Proof. intros Hj. pose proof (asymptote_distance j Hj) as [A1 A2]. destruct Hb as [_ H]. specialize (H j Hj). lra. Qed.
Lemma xl_pos_b j : (j < n)%nat -> 0 < xval j - low sp j.
Proof. intros Hj. pose proof (asymptote_distance j Hj) as [A1 A2]. destruct Hb as [_ H]. specialize (H j Hj). lra. Qed.

Definition pq (g : R) (j : nat) : R := 0.001 * (Rmax g 0 + Rmax (- g) 0) + raa0 * (1 / Rmax (xmax M j - xmin M j) 0.00001).
Lemma pq_pos g j : 0 < pq g j.
Proof.
  unfold pq, raa0. assert (0 < 1 / Rmax (xmax M j - xmin M j) 0.00001). { apply Rdiv_lt_0_compat; [lra|]. apply Rlt_le_trans with 0.00001; [lra|apply Rmax_r]. }
  pose proof (Rmax_r g 0). pose proof (Rmax_r (- g) 0). lra.
Qed.
Definition pcoef g j := (Rmax g 0 + pq g j) * ((upp sp j - xval j) * (upp sp j - xval j)).
Definition qcoef g j := (Rmax (- g) 0 + pq g j) * ((xval j - low sp j) * (xval j - low sp j)).
Lemma build_p0 j : p0 sp j = pcoef (objectiveGradient M j) j.
Proof. unfold pcoef, pq. rewrite build_upp. unfold build. destruct (asymptotes M xval). reflexivity. Qed.
Lemma build_q0 j : q0 sp j = qcoef (objectiveGradient M j) j.
Proof. unfold qcoef, pq. rewrite build_low. unfold build. destruct (asymptotes M xval). reflexivity. Qed.
Lemma build_P i j : PP sp i j = pcoef (consGrad M i j) j.
Proof. unfold pcoef, pq. rewrite build_upp. unfold build. destruct (asymptotes M xval). reflexivity. Qed.
Lemma build_Q i j : QQ sp i j = qcoef (consGrad M i j) j.
Proof. unfold qcoef, pq. rewrite build_low. unfold build. destruct (asymptotes M xval). reflexivity. Qed.
Lemma build_b i : bb sp i = sumN n (fun j => PP sp i j * (1 / (upp sp j - xval j))) + sumN n (fun j => QQ sp i j * (1 / (xval j - low sp j))) - constraint M i.
Proof. unfold build. destruct (asymptotes M xval). reflexivity. Qed.
Lemma pcoef_pos g j : (j < n)%nat -> 0 < pcoef g j.
Proof. intros Hj. unfold pcoef. pose proof (ux_pos_b j Hj). pose proof (pq_pos g j). pose proof (Rmax_r g 0). repeat apply Rmult_lt_0_compat; lra. Qed.
Lemma qcoef_pos g j : (j < n)%nat -> 0 < qcoef g j.
Proof. intros Hj. unfold qcoef. pose proof (xl_pos_b j Hj). pose proof (pq_pos g j). pose proof (Rmax_r (- g) 0). repeat apply Rmult_lt_0_compat; lra. Qed.

Lemma build_well_posed : (0 < n)%nat -> (forall i, (i < numConstraints M)%nat -> 0 <= yquadscale M i) -> well_posed sp.
Proof.
  intros Hn Hd. repeat split; rewrite ?build_n in *; rewrite ?build_m in *; try (destruct (bounds_ok j H) as (B1 & B2 & B3 & B4 & B5 & B6); assumption).
  - exact Hn.
  - rewrite build_p0. apply pcoef_pos. exact H.
  - rewrite build_q0. apply qcoef_pos. exact H.
  - rewrite build_P. apply Rlt_le, pcoef_pos. exact H0.
  - rewrite build_Q. apply Rlt_le, qcoef_pos. exact H0.
  - rewrite build_dd. exact Hd.
Qed.
Lemma coef_gradient g j : (j < n)%nat ->
  pcoef g j / ((upp sp j - xval j) * (upp sp j - xval j)) - qcoef g j / ((xval j - low sp j) * (xval j - low sp j)) = g.
Proof.
  intros Hj. pose proof (ux_pos_b j Hj). pose proof (xl_pos_b j Hj). unfold pcoef, qcoef. transitivity (Rmax g 0 - Rmax (- g) 0); [field; lra|]. mm.
Qed.
Lemma consistent_objective j : (j < n)%nat -> derivable_pt_lim (fun t => f_approx sp (set_var xval j t)) (xval j) (objectiveGradient M j).
Proof.
  intros Hj. pose proof (ux_pos_b j Hj). pose proof (xl_pos_b j Hj). unfold f_approx. eapply dl_eq; [apply (approx_derivative sp (p0 sp) (q0 sp) (low sp) (upp sp) xval j); [rewrite build_n; exact Hj|lra]|reflexivity|].
  rewrite build_p0, build_q0. apply coef_gradient. exact Hj.
Qed.
Lemma consistent_constraint i j : (j < n)%nat -> derivable_pt_lim (fun t => g_approx sp i (set_var xval j t) - bb sp i) (xval j) (consGrad M i j).
Proof.
  intros Hj. pose proof (ux_pos_b j Hj). pose proof (xl_pos_b j Hj). unfold g_approx. eapply dl_eq; [apply dl_sub; [apply (approx_derivative sp (PP sp i) (QQ sp i) (low sp) (upp sp) xval j); [rewrite build_n; exact Hj|lra]|apply dl_const]|reflexivity|].
  rewrite build_P, build_Q. rewrite coef_gradient by exact Hj. ring.
Qed.
Lemma consistent_value i : g_approx sp i xval - bb sp i = constraint M i.
Proof.
  rewrite build_b. unfold g_approx, approx. rewrite build_n, sumN_add. unfold Rdiv.
  rewrite (sumN_ext n (fun j => PP sp i j * (1 * / (upp sp j - xval j))) (fun j => PP sp i j * / (upp sp j - xval j))) by (intros; ring).
  rewrite (sumN_ext n (fun j => QQ sp i j * (1 * / (xval j - low sp j))) (fun j => QQ sp i j * / (xval j - low sp j))) by (intros; ring). ring.
Qed.

Hypothesis Hn : (0 < n)%nat.
Hypothesis Hd : forall i, (i < numConstraints M)%nat -> 0 <= yquadscale M i.
Lemma mmasub_box solve fuel x lo up : mmasub solve fuel M xval = Some (Ok (x, lo, up)) ->
  forall j, (j < n)%nat -> xmin M j < x j < xmax M j /\ Rabs (x j - xval j) <= moveLimit M * rng j.
Proof.
  unfold mmasub. destruct (subsolv solve sp fuel epsimin) as [[it|e]|] eqn:E; [|discriminate|discriminate]. intros H. injection H as <- <- <-. intros j Hj.
  pose proof (subsolv_interior sp (build_well_posed Hn Hd) solve fuel epsimin it E) as [Hi _]. rewrite build_n in Hi. specialize (Hi j Hj). pose proof (bounds_ok j Hj).
  split; [lra|]. apply Rabs_le. lra.
Qed.
Lemma mmasub_runs solve fuel : sound_solver solve -> (7 <= fuel)%nat -> exists x lo up, mmasub solve fuel M xval = Some (Ok (x, lo, up)).
Proof.
  intros Hs Hf. destruct (subsolv_runs sp (build_well_posed Hn Hd) solve Hs fuel Hf) as (i1 & i2 & p & H & _). unfold mmasub. rewrite H. eauto.
Qed.
End Step.

(** ** optimize *)
Section Opt.
Variable solve : nat -> mtx -> vct -> res vct.
Variables fuel ncell kcol m : nat.
Variable H : mtx.
Variable Hs : vct.
Variable objectiveHandle : vct -> R * vct.
Variable consHandle : vct -> nat -> vct * mtx.
Variable movelimit : R.
Hypothesis Hml : 0 < movelimit.
Hypothesis Hn : (0 < ncell * kcol)%nat.
Local Notation N := (ncell * kcol)%nat.
Local Notation oloop := (optimize_loop solve fuel ncell kcol m H Hs objectiveHandle consHandle movelimit).
Lemma mma_at_box loop x x1 x2 lo up dJ vc dvc : in_unit_box N x -> box_ok (mma_at ncell kcol m movelimit loop x x1 x2 lo up dJ vc dvc) x.
Proof. intros Hx. split; [exact Hml|]. cbn. intros j Hj. specialize (Hx j Hj). lra. Qed.
Lemma mma_at_dd loop x x1 x2 lo up dJ vc dvc : let M := mma_at ncell kcol m movelimit loop x x1 x2 lo up dJ vc dvc in
  forall i, (i < numConstraints M)%nat -> 0 <= yquadscale M i.
Proof. cbn. intros. lra. Qed.
(** consecutive designs move by at most the limit *)
Definition moves_little (l : list vct) : Prop := forall i j, (S i < length l)%nat -> (j < N)%nat ->
  Rabs (nth (S i) l (fun _ => 0) j - nth i l (fun _ => 0) j) <= movelimit.
Lemma optimize_loop_inv passes : forall loop x x1 x2 lo up seen rho hist,
  (forall d, In d seen -> in_unit_box N d) -> in_unit_box N x -> moves_little (seen ++ [x]) ->
  oloop passes loop x x1 x2 lo up seen = Some (Ok (rho, hist)) ->
  length hist = (length seen + passes)%nat /\ (forall d, In d hist -> in_unit_box N d) /\ in_unit_box N rho /\ moves_little (hist ++ [rho]) /\ (exists l, hist ++ [rho] = seen ++ x :: l).
Proof.
  induction passes as [|p IH]; intros loop x x1 x2 lo up seen rho hist Hseen Hx Hmv; cbn [optimize_loop].
  - intros E. injection E as <- <-. split; [lia|]. split; [exact Hseen|]. split; [exact Hx|]. split; [exact Hmv|]. exists []. reflexivity.
  - destruct (objectiveHandle x) as [J dJ] eqn:EJ. destruct (consHandle x (S loop)) as [vc dvc] eqn:EC.
    match goal with |- match mmasub _ _ ?M0 _ with _ => _ end = _ -> _ => set (M := M0) end.
    pose proof (mma_at_box (S loop) x x1 x2 lo up (filter_flat ncell kcol H Hs x dJ) vc (fun i => filter_flat ncell kcol H Hs x (dvc i)) Hx) as HB. fold M in HB.
    pose proof (mma_at_dd (S loop) x x1 x2 lo up (filter_flat ncell kcol H Hs x dJ) vc (fun i => filter_flat ncell kcol H Hs x (dvc i))) as HD. cbn zeta in HD. fold M in HD.
    destruct (mmasub solve fuel M x) as [[[[x' lo'] up']|e]|] eqn:E; [|discriminate|discriminate].
    pose proof (mmasub_box M x HB Hn HD solve fuel x' lo' up' E) as Hx'. cbn in Hx'.
    intros E2. destruct (IH (S loop) x' x x1 lo' up' (seen ++ [x]) rho hist) as (R1 & R2 & R3 & R4 & (l & R5)).
    + intros d Hd. apply in_app_iff in Hd as [Hd|[<-|[]]]; [apply Hseen; exact Hd|exact Hx].
    + intros j Hj. specialize (Hx' j Hj). lra.
    + intros i j Hi Hj. rewrite !app_length in Hi. cbn [length] in Hi. destruct (Nat.eq_dec (S i) (length (seen ++ [x]))) as [Ei|Ei].
      * rewrite Ei. rewrite app_nth2 by lia. rewrite Nat.sub_diag. cbn [nth]. rewrite app_length in Ei. cbn [length] in Ei. rewrite (app_nth1 (seen ++ [x]) [x']) by (rewrite app_length; cbn; lia).
        rewrite app_nth2 by lia. replace (i - length seen)%nat with 0%nat by lia. cbn [nth]. destruct (Hx' j Hj) as [_ B]. lra.
      * rewrite app_length in Ei. cbn [length] in Ei. rewrite !(app_nth1 (seen ++ [x]) [x']) by (rewrite app_length; cbn; lia). apply Hmv; [rewrite app_length; cbn; lia|exact Hj].
    + exact E2.
    + rewrite app_length in R1. cbn in R1. split; [lia|]. split; [exact R2|]. split; [exact R3|]. split; [exact R4|]. exists (x' :: l). rewrite R5, <- app_assoc. reflexivity.
Qed.
(** what each pass does *)
Definition prev1 (x1 : vct) (X : nat -> vct) (i : nat) : vct := match i with O => x1 | S i => X i end.
Definition prev2 (x1 x2 : vct) (X : nat -> vct) (i : nat) : vct := match i with O => x2 | S O => x1 | S (S i) => X i end.
Lemma optimize_loop_passes passes : forall loop x x1 x2 lo up seen rho hist,
  oloop passes loop x x1 x2 lo up seen = Some (Ok (rho, hist)) ->
  exists X LO UP : nat -> vct, X 0%nat = x /\ LO 0%nat = lo /\ UP 0%nat = up /\ hist = seen ++ map X (seq 0 passes) /\ rho = X passes /\
  forall i, (i < passes)%nat ->
    mmasub solve fuel (mma_at ncell kcol m movelimit (S (loop + i)) (X i) (prev1 x1 X i) (prev2 x1 x2 X i) (LO i) (UP i)
      (filter_flat ncell kcol H Hs (X i) (snd (objectiveHandle (X i)))) (fst (consHandle (X i) (S (loop + i))))
      (fun c => filter_flat ncell kcol H Hs (X i) (snd (consHandle (X i) (S (loop + i))) c))) (X i) = Some (Ok (X (S i), LO (S i), UP (S i))).
Proof.
  clear Hml Hn.
  induction passes as [|p IH]; intros loop x x1 x2 lo up seen rho hist; cbn [optimize_loop].
  - intros E. injection E as <- <-. exists (fun _ => x), (fun _ => lo), (fun _ => up). cbn [seq map]. rewrite app_nil_r. repeat split. intros i Hi. lia.
  - destruct (objectiveHandle x) as [J dJ] eqn:EJ. destruct (consHandle x (S loop)) as [vc dvc] eqn:EC.
    match goal with |- match mmasub _ _ ?M0 _ with _ => _ end = _ -> _ => set (M := M0) end.
    destruct (mmasub solve fuel M x) as [[[[x' lo'] up']|e]|] eqn:E; [|discriminate|discriminate]. intros E2.
    destruct (IH (S loop) x' x x1 lo' up' (seen ++ [x]) rho hist E2) as (X & LO & UP & X0 & L0 & U0 & Eh & Er & HX).
    exists (fun i => match i with O => x | S i => X i end), (fun i => match i with O => lo | S i => LO i end), (fun i => match i with O => up | S i => UP i end).
    split; [reflexivity|]. split; [reflexivity|]. split; [reflexivity|]. split; [|split].
    + rewrite Eh, <- app_assoc. cbn [seq map app]. rewrite <- seq_shift, map_map. reflexivity.
    + exact Er.
    + intros [|i] Hi.
      * rewrite Nat.add_0_r, EJ, EC. cbn [fst snd prev1 prev2]. rewrite X0, L0, U0. exact E.
      * specialize (HX i ltac:(lia)). replace (S loop + i)%nat with (loop + S i)%nat in HX by lia. destruct i as [|i]; [exact HX|]. destruct i as [|i]; exact HX.
Qed.
Lemma filter_flat_at rho g c k : (k < kcol)%nat -> filter_flat ncell kcol H Hs rho g (c * kcol + k)%nat
  = sumN ncell (fun c' => H c c' * (rho (c' * kcol + k)%nat * g (c' * kcol + k)%nat / Rmax 0.001 (rho (c' * kcol + k)%nat) / Hs c')).
Proof.
  clear Hml Hn. intros Hk. unfold filter_flat, apply_filter. replace ((c * kcol + k) mod kcol)%nat with k by (rewrite Nat.add_comm, Nat.mod_add, Nat.mod_small by lia; reflexivity).
  replace ((c * kcol + k) / kcol)%nat with c by (rewrite Nat.add_comm, Nat.div_add, Nat.div_small by lia; reflexivity). reflexivity.
Qed.
Lemma optimize_with_box maxIters rho_ini rho hist : in_unit_box N rho_ini ->
  optimize_with solve fuel ncell kcol m H Hs objectiveHandle consHandle movelimit maxIters rho_ini = Some (Ok (rho, hist)) ->
  length hist = maxIters /\ (forall d, In d hist -> in_unit_box N d) /\ in_unit_box N rho /\ moves_little (hist ++ [rho]) /\ hd rho (hist ++ [rho]) = rho_ini.
Proof.
  intros Hr E. destruct (optimize_loop_inv maxIters 0 rho_ini rho_ini rho_ini (fun _ => 1) (fun _ => 1) [] rho hist) as (R1 & R2 & R3 & R4 & (l & R5)).
  - intros d [].
  - exact Hr.
  - intros i j Hi. cbn in Hi. lia.
  - exact E.
  - split; [exact R1|]. split; [exact R2|]. split; [exact R3|]. split; [exact R4|]. rewrite R5. reflexivity.
Qed.
Lemma optimize_loop_runs passes : sound_solver solve -> (7 <= fuel)%nat -> forall loop x x1 x2 lo up seen, in_unit_box N x ->
  exists rho hist, oloop passes loop x x1 x2 lo up seen = Some (Ok (rho, hist)).
Proof.
  intros Hso Hf. induction passes as [|p IH]; intros loop x x1 x2 lo up seen Hx; cbn [optimize_loop]; [eauto|].
  destruct (objectiveHandle x) as [J dJ] eqn:EJ. destruct (consHandle x (S loop)) as [vc dvc] eqn:EC.
  match goal with |- context [mmasub _ _ ?M0 _] => set (M := M0) end.
  pose proof (mma_at_box (S loop) x x1 x2 lo up (filter_flat ncell kcol H Hs x dJ) vc (fun i => filter_flat ncell kcol H Hs x (dvc i)) Hx) as HB. fold M in HB.
  pose proof (mma_at_dd (S loop) x x1 x2 lo up (filter_flat ncell kcol H Hs x dJ) vc (fun i => filter_flat ncell kcol H Hs x (dvc i))) as HD. cbn zeta in HD. fold M in HD.
  destruct (mmasub_runs M x HB Hn HD solve fuel Hso Hf) as (x' & lo' & up' & E). rewrite E. apply IH.
  pose proof (mmasub_box M x HB Hn HD solve fuel x' lo' up' E) as Hx'. cbn in Hx'. intros j Hj. specialize (Hx' j Hj). lra.
Qed.
End Opt.
Close Scope R_scope.
