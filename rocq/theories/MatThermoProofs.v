(** * Proofs about the thermo-mechanical demo. *)
From Coq Require Import Lra Lia.
From Verif Require Import Prelude PreludeFacts FemModel FemFacts FemSpec FemProofs FemAsmProofs FemGeoProofs MatModel MatSpec MatProofs MatPlasticProofs MatFemProofs.
Open Scope R_scope.

Section Thermo.
Context {V : Type}.
Variable F : fem V.
Local Notation E := (f_ele F).
Lemma thermo_app T0 h x : thermo_run F T0 (h ++ [x]) = thermo_step F (thermo_run F T0 h) x.
Proof. unfold thermo_run. now rewrite fold_left_app. Qed.
Lemma phase_step s T dT c q :
  t_phase (update_dT_and_phase F dT T s) c q
  = if Nat.eqb (t_phase s c q) LIQUID && Rltb (at_quad F T c q 0%nat) Tl then SOLID
    else if Nat.eqb (t_phase s c q) POWDER && Rltb Tl (at_quad F T c q 0%nat) then LIQUID else t_phase s c q.
Proof. reflexivity. Qed.
Lemma run_phase T0 h Tu c q :
  t_phase (fst (thermo_run F T0 (h ++ [Tu]))) c q = t_phase (update_dT_and_phase F (fun n k => fst Tu n k - snd (thermo_run F T0 h) n k) (fst Tu) (fst (thermo_run F T0 h))) c q.
Proof. rewrite thermo_app. unfold thermo_step. destruct (thermo_run F T0 h) as (s, To), Tu as (T, u). reflexivity. Qed.
Lemma run_T T0 h Tu : snd (thermo_run F T0 (h ++ [Tu])) = fst Tu.
Proof. rewrite thermo_app. unfold thermo_step. now destruct (thermo_run F T0 h) as (s, To), Tu as (T, u). Qed.
Lemma run_dT T0 h Tu c q : t_dT (fst (thermo_run F T0 (h ++ [Tu]))) c q = at_quad F (fst Tu) c q 0%nat - at_quad F (last (map fst h) T0) c q 0%nat.
Proof.
  assert (E0 : snd (thermo_run F T0 h) = last (map fst h) T0).
  { destruct h as [|x h _] using rev_ind; [reflexivity|]. rewrite run_T, map_app. cbn [map]. now rewrite last_last. }
  rewrite thermo_app. unfold thermo_step. rewrite <- E0. destruct (thermo_run F T0 h) as (s, To), Tu as (T, u). cbn [fst snd].
  cbn [thermo_update_stress_strain fst t_dT update_dT_and_phase]. unfold at_quad, convert_from_dof_to_quad. rewrite <- sumN_sub. apply sumN_ext. intros; ring.
Qed.
Lemma temps_app h Tu c q : temps F (h ++ [Tu]) c q = temps F h c q ++ [at_quad F (fst Tu) c q 0%nat].
Proof. unfold temps. now rewrite map_app. Qed.
Lemma molten_app l x : was_molten (l ++ [x]) <-> was_molten l \/ 1623 < x.
Proof.
  split.
  - intros (y & Hy & Hl). apply in_app_iff in Hy. destruct Hy as [Hy|[<-|[]]]; [left; exists y; auto|now right].
  - intros [(y & Hy & Hl)|H]; [exists y|exists x]; rewrite in_app_iff; cbn; auto.
Qed.
Lemma solid_app l x : has_solidified (l ++ [x]) <-> has_solidified l \/ (was_molten l /\ x < 1623).
Proof.
  split.
  - intros (i & j & a & b & Hij & Hi & Hj & Ha & Hb). destruct (Nat.lt_ge_cases j (length l)) as [Hjl|Hjl].
    + left. exists i, j, a, b. rewrite nth_error_app1 in Hi, Hj by lia. auto.
    + assert (j = length l) as -> by (apply nth_error_some_length in Hj || (assert (Hs : nth_error (l ++ [x]) j <> None) by congruence; apply nth_error_Some in Hs; rewrite app_length in Hs; cbn in Hs; lia)).
      right. rewrite nth_error_app2, Nat.sub_diag in Hj by lia. cbn in Hj. injection Hj as <-.
      split; [|exact Hb]. rewrite nth_error_app1 in Hi by lia. exists a. split; [now apply nth_error_In in Hi|exact Ha].
  - intros [(i & j & a & b & Hij & Hi & Hj & Ha & Hb)|((a & Ha & Hla) & Hx)].
    + exists i, j, a, b. assert (nth_error l j <> None) as Hs by congruence. apply nth_error_Some in Hs.
      rewrite !nth_error_app1 by lia. auto.
    + apply In_nth_error in Ha as (i & Hi). exists i, (length l), a, x. assert (nth_error l i <> None) as Hs by congruence. apply nth_error_Some in Hs.
      rewrite nth_error_app1, nth_error_app2, Nat.sub_diag by lia. auto.
Qed.
Lemma solid_molten l : has_solidified l -> was_molten l.
Proof. intros (i & j & a & b & _ & Hi & _ & Ha & _). exists a. split; [now apply nth_error_In in Hi|exact Ha]. Qed.
Lemma phase_history T0 h c q :
  (t_phase (fst (thermo_run F T0 h)) c q = POWDER /\ ~ was_molten (temps F h c q))
  \/ (t_phase (fst (thermo_run F T0 h)) c q = LIQUID /\ was_molten (temps F h c q) /\ ~ has_solidified (temps F h c q))
  \/ (t_phase (fst (thermo_run F T0 h)) c q = SOLID /\ has_solidified (temps F h c q)).
Proof.
  induction h as [|Tu h IH] using rev_ind.
  - left. split; [reflexivity|]. now intros (x & [] & _).
  - rewrite temps_app, molten_app, solid_app, run_phase, phase_step. set (x := at_quad F (fst Tu) c q 0%nat). unfold Tl.
    destruct IH as [(-> & Hm)|[(-> & Hm & Hs)|(-> & Hs)]]; cbn [Nat.eqb andb POWDER LIQUID SOLID].
    + destruct (Rltb 1623 x) eqn:Ex.
      * apply Rltb_true in Ex. right. left. split; [reflexivity|]. split; [now right|]. intros [H|(H & _)]; [apply Hm; now apply solid_molten|tauto].
      * apply Rltb_false in Ex. left. split; [reflexivity|]. intros [H|H]; [tauto|lra].
    + destruct (Rltb x 1623) eqn:Ex.
      * apply Rltb_true in Ex. right. right. split; [reflexivity|]. right. auto.
      * apply Rltb_false in Ex. right. left. split; [reflexivity|]. split; [now left|]. intros [H|(_ & H)]; [tauto|lra].
    + right. right. split; [reflexivity|]. now left.
Qed.
Lemma phase_only s T dT c q : (t_phase s c q <= 2)%nat ->
  let s' := update_dT_and_phase F dT T s in
  (t_phase s' c q = t_phase s c q
   \/ (t_phase s c q = POWDER /\ t_phase s' c q = LIQUID /\ 1623 < at_quad F T c q 0%nat)
   \/ (t_phase s c q = LIQUID /\ t_phase s' c q = SOLID /\ at_quad F T c q 0%nat < 1623))
  /\ (t_phase s c q = POWDER -> 1623 < at_quad F T c q 0%nat -> t_phase s' c q = LIQUID)
  /\ (t_phase s c q = LIQUID -> at_quad F T c q 0%nat < 1623 -> t_phase s' c q = SOLID)
  /\ (t_phase s c q <= t_phase s' c q <= 2)%nat /\ t_sigmas s' = t_sigmas s /\ t_epsilons s' = t_epsilons s.
Proof.
  intros Hs. cbv zeta. rewrite phase_step. unfold Tl. set (x := at_quad F T c q 0%nat).
  destruct (Rltb x 1623) eqn:E1, (Rltb 1623 x) eqn:E2; (apply Rltb_true in E1 || apply Rltb_false in E1); (apply Rltb_true in E2 || apply Rltb_false in E2); try lra;
    destruct (t_phase s c q) as [|[|[|]]]; try lia; cbn [Nat.eqb andb POWDER LIQUID SOLID];
    unfold POWDER, LIQUID, SOLID; (split; [|split; [|split; [|split; [lia|split; reflexivity]]]]); auto; intros; try discriminate; try lra.
Qed.

(** ** stresses *)
Definition thermo_trial (d : nat) (G so eo : mat) (dT : R) (phase : nat) : mat :=
  let Ey := if Nat.eqb phase 2 then 70 * 10 ^ 9 else / 10 ^ 2 * (70 * 10 ^ 9) in
  let al := if Nat.eqb phase 2 then / 10 ^ 5 else 0 in
  fun i j => iso_stress d Ey (fun i j => strain G i j - eo i j - al * dT * identity i j) i j + so i j.
Lemma thermo_map d G so eo dT ph : fst (stress_return_maps d G so eo dT ph) = fst (radial_return d (250 * 10 ^ 6) (thermo_trial d G so eo dT ph)).
Proof. reflexivity. Qed.
Lemma thermo_info d G so eo dT ph : snd (stress_return_maps d G so eo dT ph)
  = (snd (radial_return d (250 * 10 ^ 6) (thermo_trial d G so eo dT ph)), fst (stress_return_maps d G so eo dT ph) 0%nat 0%nat).
Proof. reflexivity. Qed.
Lemma thermo_trial_sym d G so eo dT ph : msym d so -> msym d eo -> msym d (thermo_trial d G so eo dT ph).
Proof.
  intros Hs He i j Hi Hj. unfold thermo_trial. rewrite (Hs i j) by assumption. f_equal. apply iso_sym; try assumption.
  intros k l Hk Hl. rewrite (strain_sym G k l), (He k l) by assumption. unfold identity. now rewrite (Nat.eqb_sym k l).
Qed.
Lemma thermo_law d G so eo dT ph : (0 < d)%nat ->
  let Z := fst (stress_return_maps d G so eo dT ph) in let T := thermo_trial d G so eo dT ph in
  von_mises d Z = Rmin (von_mises d T) (250 * 10 ^ 6) /\ pressure d Z = pressure d T
  /\ (von_mises d T <= 250 * 10 ^ 6 -> forall i j, Z i j = T i j)
  /\ snd (stress_return_maps d G so eo dT ph) = (Rmax 0 (von_mises d T - 250 * 10 ^ 6), Z 0%nat 0%nat).
Proof.
  intros Hd. cbv zeta. rewrite thermo_info, !thermo_map. assert (H0 : 0 <= 250 * 10 ^ 6) by lra. repeat split.
  - now apply ret_von_mises.
  - now apply ret_pressure.
  - intros H. now apply ret_elastic.
  - f_equal. exact (proj2 (radial_form d _ _ H0)).
Qed.
Hypothesis Hd : (0 < dim F)%nat.
Lemma thermo_invariant T0 h c q :
  von_mises (dim F) (t_sigmas (fst (thermo_run F T0 h)) c q) <= 250 * 10 ^ 6
  /\ msym (dim F) (t_sigmas (fst (thermo_run F T0 h)) c q) /\ msym (dim F) (t_epsilons (fst (thermo_run F T0 h)) c q).
Proof.
  induction h as [|(T, u) h IH] using rev_ind.
  - cbn. rewrite von_mises_zero by exact Hd. repeat split; try lra; intros i j _ _; reflexivity.
  - rewrite thermo_app. unfold thermo_step. destruct (thermo_run F T0 h) as (s, To). cbn [fst] in *. destruct IH as (_ & Hs & He).
    cbn [fst thermo_update_stress_strain t_sigmas t_epsilons update_dT_and_phase]. rewrite thermo_map. split; [|split].
    + rewrite ret_von_mises by (exact Hd || lra). apply Rmin_r.
    + apply ret_sym; [lra|]. now apply thermo_trial_sym.
    + intros i j _ _. apply strain_sym.
Qed.
(** thermal expansion without constraint leaves the stress as it is *)
Lemma free_expansion T0 h T u c q :
  let s := fst (thermo_run F T0 h) in let s' := fst (thermo_run F T0 (h ++ [(T, u)])) in
  t_phase s' c q = SOLID ->
  meq (dim F) (strain (sol_to_grad F u c q)) (fun i j => t_epsilons s c q i j + / 10 ^ 5 * t_dT s' c q * identity i j) ->
  meq (dim F) (t_sigmas s' c q) (t_sigmas s c q).
Proof.
  cbv zeta. pose proof (proj1 (thermo_invariant T0 h c q)) as Hvm. rewrite thermo_app. unfold thermo_step.
  destruct (thermo_run F T0 h) as (s, To). cbn [fst] in *.
  set (s1 := update_dT_and_phase F (fun n k => T n k - To n k) T s).
  change (t_phase (fst (thermo_update_stress_strain F u s1)) c q) with (t_phase s1 c q).
  change (t_dT (fst (thermo_update_stress_strain F u s1)) c q) with (t_dT s1 c q).
  change (t_sigmas (fst (thermo_update_stress_strain F u s1)) c q)
    with (fst (stress_return_maps (dim F) (sol_to_grad F u c q) (t_sigmas s c q) (t_epsilons s c q) (t_dT s1 c q) (t_phase s1 c q))).
  intros Hp He. rewrite Hp, thermo_map.
  assert (ET : meq (dim F) (thermo_trial (dim F) (sol_to_grad F u c q) (t_sigmas s c q) (t_epsilons s c q) (t_dT s1 c q) SOLID) (t_sigmas s c q)).
  { intros i j Hi Hj. unfold thermo_trial. cbn [Nat.eqb SOLID]. rewrite (iso_zero (dim F) (70 * 10 ^ 9) (fun i j => strain (sol_to_grad F u c q) i j - t_epsilons s c q i j - / 10 ^ 5 * t_dT s1 c q * identity i j)); try assumption.
    - unfold mzero. ring.
    - intros k l Hk Hl. rewrite He by assumption. unfold mzero. ring. }
  intros i j Hi Hj. rewrite ret_elastic; [now apply ET|lra|]. now rewrite (von_mises_ext _ _ _ ET).
Qed.
End Thermo.

(** ** heat balance *)
Section Heat.
Variable F : fem (nat -> R).
Local Notation E := (f_ele F).
Variables (dt : R) (T_old : nat -> nat -> nat -> R).
Hypothesis Hwf : wf_mesh F.
Hypothesis Hc : (0 < num_cells F)%nat.
Hypothesis Hv : vec F = 1%nat.
Hypothesis Hm : mass_map F = Some (thermal_mass_map dt).
Hypothesis Hsrc : source_info F = None.
Hypothesis Hca : cauchy_bc_info F = None.
Definition thermal_vars (nv : nat -> list (nat -> nat -> nat -> R)) : internal_vars (nat -> R) := mkIv [map T_old (seq 0 (num_cells F))] [] None nv.
Lemma thermal_sized nv : iv_sized F (thermal_vars nv).
Proof. split; [|constructor]. unfold sized, thermal_vars. cbn [iv_mass]. repeat constructor; now rewrite map_length, seq_length. Qed.
Lemma thermal_reaction nv sol c q k : (c < num_cells F)%nat ->
  reaction F (thermal_vars nv) sol c q k = 8440 * 588 * (at_quad F sol c q k - T_old c q k) / dt.
Proof.
  intros Hcc. unfold reaction. rewrite Hm. unfold vars_at, thermal_vars. cbn [iv_mass flat_map].
  rewrite nth_error_map, (nth_error_nth' (seq 0 (num_cells F)) 0%nat) by (now rewrite seq_length). cbn [option_map app map]. rewrite seq_nth by assumption. reflexivity.
Qed.
Lemma heat_balance inds nv sol : grads_sum_zero F -> vals_sum_one F -> face_vals_sum_one F -> neumann_ok F inds -> (forall sel, In sel inds -> faces_ok F sel) -> dt <> 0 ->
  exists r, compute_residual_vars F inds sol (thermal_vars nv) = Ok r /\
  sumN (num_cells F) (fun c => sumN (num_quads E) (fun q => JxW F c q * (8440 * 588 * (at_quad F sol c q 0%nat - T_old c q 0%nat))))
  = dt * (sumN (num_total_nodes F) (fun n => r n 0%nat)
          + sumR (indexed inds) (fun isel => sumR (indexed (snd isel)) (fun js => sumN (num_face_quads E) (fun p =>
              nanson_scale F (snd js) p * traction F (thermal_vars nv) (fst isel) (fst js) (snd js) p 0%nat)))).
Proof.
  intros Hg Hvs Hfv Hn Hs Hdt. destruct (resultant F Hwf inds sol (thermal_vars nv) 0%nat Hg Hvs Hfv ltac:(rewrite Hv; lia) (thermal_sized nv) Hc Hn Hs) as (r & Hr & He).
  exists r. split; [exact Hr|]. rewrite He. unfold cauchy_faces. rewrite Hca. cbn [sumR].
  rewrite (sumN_ext (num_cells F) (fun c => sumN (num_quads E) (fun q => JxW F c q * (reaction F (thermal_vars nv) sol c q 0%nat - _)))
     (fun c => / dt * sumN (num_quads E) (fun q => JxW F c q * (8440 * 588 * (at_quad F sol c q 0%nat - T_old c q 0%nat))))).
  - rewrite sumN_scal. field. exact Hdt.
  - intros c Hcc. rewrite <- sumN_scal. apply sumN_ext. intros q _. rewrite thermal_reaction by exact Hcc. unfold body_load. cbn [iv_body thermal_vars]. rewrite Hsrc. field. exact Hdt.
Qed.
End Heat.
(** ** fluxes *)
Lemma wall_flux_form x T : neumann_walls x [T] 0%nat = (300 - T 0%nat) * (100 + 567 / 10 ^ 10 * (3 / 10) * ((300 + T 0%nat) * (300 ^ 2 + T 0%nat ^ 2))).
Proof. unfold neumann_walls, T0. ring. Qed.
Lemma wall_flux x T : 0 <= T 0%nat -> (neumann_walls x [T] 0%nat = 0 <-> T 0%nat = 300) /\ (0 < neumann_walls x [T] 0%nat <-> T 0%nat < 300) /\ (neumann_walls x [T] 0%nat < 0 <-> 300 < T 0%nat).
Proof.
  intros HT. rewrite wall_flux_form. set (t := T 0%nat) in *.
  assert (Hk : 0 < 100 + 567 / 10 ^ 10 * (3 / 10) * ((300 + t) * (300 ^ 2 + t ^ 2))).
  { assert (0 <= (300 + t) * (300 ^ 2 + t ^ 2)); [|lra]. apply Rmult_le_pos; [lra|]. pose proof (pow2_ge_0 t). lra. }
  set (k := 100 + _) in *. repeat split; intros; nra.
Qed.
Lemma wall_flux_decreasing x T T' : 0 <= T 0%nat -> T 0%nat < T' 0%nat -> neumann_walls x [T'] 0%nat < neumann_walls x [T] 0%nat.
Proof.
  intros H0 H. unfold neumann_walls, T0. set (a := T 0%nat) in *. set (b := T' 0%nat) in *.
  assert (a ^ 4 <= b ^ 4) by (apply pow_incr; lra). lra.
Qed.
Lemma top_flux lc sw x T : 0 <= sw <= 1 ->
  neumann_walls x [T] 0%nat <= neumann_top lc sw x [T] 0%nat <= neumann_walls x [T] 0%nat + 2 * (25 / 100) * 50 / (PI * (5 / 10 ^ 5) ^ 2)
  /\ (x 0%nat = lc 0%nat -> x 1%nat = lc 1%nat -> neumann_top lc 1 x [T] 0%nat = neumann_walls x [T] 0%nat + 2 * (25 / 100) * 50 / (PI * (5 / 10 ^ 5) ^ 2))
  /\ neumann_top lc 0 x [T] 0%nat = neumann_walls x [T] 0%nat.
Proof.
  intros Hsw. unfold neumann_top, neumann_walls. set (A := 100 * _ + _).
  assert (Hc : 0 < 2 * (25 / 100) * 50 / (PI * (5 / 10 ^ 5) ^ 2)).
  { apply Rdiv_lt_0_compat; [lra|]. apply Rmult_lt_0_compat; [apply PI_RGT_0|]. apply pow_lt. lra. }
  set (C := 2 * (25 / 100) * 50 / (PI * (5 / 10 ^ 5) ^ 2)) in *. set (d2 := (x 0%nat - lc 0%nat) ^ 2 + (x 1%nat - lc 1%nat) ^ 2).
  assert (Hd : 0 <= d2) by (unfold d2; pose proof (pow2_ge_0 (x 0%nat - lc 0%nat)); pose proof (pow2_ge_0 (x 1%nat - lc 1%nat)); lra).
  assert (He0 : 0 < exp (- 2 * d2 / (5 / 10 ^ 5) ^ 2)) by apply exp_pos.
  assert (He1 : exp (- 2 * d2 / (5 / 10 ^ 5) ^ 2) <= 1).
  { rewrite <- exp_0. assert (Hr : 0 < / (5 / 10 ^ 5) ^ 2) by (apply Rinv_0_lt_compat; apply pow_lt; lra).
    assert (Hle : - 2 * d2 / (5 / 10 ^ 5) ^ 2 <= 0) by (unfold Rdiv; nra). destruct Hle as [Hlt|Heq]; [left; now apply exp_increasing|right; now rewrite Heq]. }
  set (e := exp _) in *. repeat split.
  - assert (0 <= C * e * sw) by (apply Rmult_le_pos; [nra|lra]). lra.
  - assert (C * e * sw <= C * 1); [|lra]. rewrite Rmult_assoc. apply Rmult_le_compat_l; [lra|]. nra.
  - intros Hx Hy. unfold e, d2. rewrite Hx, Hy. replace (- 2 * ((lc 0%nat - lc 0%nat) ^ 2 + (lc 1%nat - lc 1%nat) ^ 2) / (5 / 10 ^ 5) ^ 2) with 0 by (unfold Rdiv; ring).
    rewrite exp_0. ring.
  - ring.
Qed.
Close Scope R_scope.
