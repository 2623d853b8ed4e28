From Verif Require Import Prelude PreludeFacts LbmModel LbmAuxModel LbmSpec LbmAuxSpec LbmProofs LbmMassProofs LbmPhaseProofs.
From Coq Require Import Lra Psatz ZifyBool ZifyNat.
Open Scope R_scope.

(** ** Enthalpy streaming *)
Lemma enthalpy_streaming p d h u phase : closed d phase ->
  system_enthalpy d phase (update_h p d h u phase) =
  system_enthalpy d phase h +
  sumR (grid d) (fun c => if fluid (phase c) then
     sumR (seq 0 19) (fun q => if phase_eqb (phase (neighbour c q)) WALL
                               then weight q * heat_capacity p * T0 - h c q else 0) else 0).
Proof.
  intros Hcl. unfold system_enthalpy. apply Rminus_diag_uniq.
  rewrite <- sumR_add, <- sumR_sub.
  etransitivity; [| apply (exchange_zero d phase (fun c q => if fluid (phase (nb d c q)) then h (nb d c q) (rev q) - h c q else 0) Hcl)].
  - apply sumR_ext. intros c Hc. apply in_grid_iff in Hc. cbv beta. destruct (fluid (phase c)) eqn:Ef; [|ring].
    assert (Hw : phase c <> WALL) by (intros E; rewrite E in Ef; discriminate).
    unfold density. change (sumR (seq 0 19)) with sumQ. rewrite <- sumQ_rev.
    unfold sumQ. rewrite <- sumR_add, <- sumR_sub. apply sumR_ext. intros q Hq. apply in_dirs in Hq.
    destruct (interior_nb d phase c q Hcl Hc Hw Hq) as [En Gn].
    replace (neighbour c q) with (nb d c q) by (rewrite En; reflexivity).
    unfold update_h. rewrite local0 by exact Hc.
    assert (Eg : is_gas_or_wall (phase c) = false) by (destruct (phase c); try discriminate; reflexivity).
    rewrite Eg. unfold extract_local, extract_self, extract_income. rewrite !rev_rev by exact Hq.
    destruct (phase (nb d c q)) eqn:Ep; cbn [fluid phase_eqb]; try ring.
    (* wall link *)
    unfold equilibrium_h. destruct (Nat.eqb (rev q) 0) eqn:E0.
    + apply Nat.eqb_eq in E0. assert (q = 0%nat) by (rewrite <- (rev_rev q Hq), E0; reflexivity). subst q.
      rewrite nb0 in Ep by exact Hc. congruence.
    + rewrite weight_rev by exact Hq. unfold dot, velR, cs_sq, T0. field.
  - intros c q Hc Hf Hq Hn. rewrite Hn. reflexivity.
  - intros c q Hc Hf Hq Hn. rewrite Hn.
    assert (Hw : phase c <> WALL) by (intros E; rewrite E in Hf; discriminate).
    assert (Hw' : phase (nb d c q) <> WALL) by (intros E; rewrite E in Hn; discriminate).
    destruct (interior_nb d phase c q Hcl Hc Hw Hq) as [E G].
    destruct (interior_nb d phase (nb d c q) (rev q) Hcl G Hw' (rev_lt q Hq)) as [E' _].
    assert (Eb : nb d (nb d c q) (rev q) = c) by (rewrite E', E; apply cadd_vel_rev; exact Hq).
    rewrite Eb, rev_rev, Hf by exact Hq. ring.
Qed.

(** ** Sources *)
Lemma norm3_zero : norm3 (0, 0, 0) = 0.
Proof. unfold norm3, dot. replace (0*0+0*0+0*0) with 0 by ring. apply sqrt_0. Qed.

Lemma f_source_bulk a rho vof k T Tg : f_source a rho vof (0,0,0) k T Tg = (0, 0, - (rho * gravity a)).
Proof.
  unfold f_source, marangoni, recoil. rewrite norm3_zero.
  destruct Tg as [[t1 t2] t3]. unfold normal_of. rewrite norm3_zero, (proj2 (Reqb_true 0 0) eq_refl).
  cbn [dot vadd vscale]. repeat apply (f_equal2 (@pair _ _)); ring.
Qed.

Lemma norm3_sq v : norm3 v * norm3 v = dot v v.
Proof.
  unfold norm3. apply sqrt_sqrt. destruct v as [[a b] c]. cbn.
  assert (H1 := Rle_0_sqr a). assert (H2 := Rle_0_sqr b). assert (H3 := Rle_0_sqr c). unfold Rsqr in *. lra.
Qed.

Lemma marangoni_tangent a vof phi Tg : dot (marangoni a vof phi Tg) phi = 0.
Proof.
  unfold marangoni, normal_of. assert (Hs := norm3_sq phi).
  destruct (Reqb (norm3 phi) 0) eqn:E.
  - apply Reqb_true in E. rewrite E. destruct phi as [[p1 p2] p3], Tg as [[t1 t2] t3]. cbn. ring.
  - apply Reqb_false in E. set (N := norm3 phi) in *. clearbody N.
    destruct phi as [[p1 p2] p3], Tg as [[t1 t2] t3]. cbn in *.
    transitivity (2 * vof * st_grad_coeff a / N * ((p1*t1 + p2*t2 + p3*t3) * (N * N - (p1*p1+p2*p2+p3*p3)))).
    + field. exact E.
    + rewrite Hs. ring.
Qed.

Lemma q_laser_nonneg a sw x y lx ly : 0 <= sw -> 0 <= laser_power a -> 0 <= absorbed_fraction a -> beam_size a <> 0 ->
  0 <= q_laser a sw x y lx ly.
Proof.
  intros Hs Hl Ha Hb. unfold q_laser. apply Rmult_le_pos; [|left; apply exp_pos].
  apply Rmult_le_pos.
  - apply Rmult_le_pos; [apply Rmult_le_pos; [lra|exact Hl]|exact Ha].
  - left. apply Rinv_0_lt_compat. apply Rmult_lt_0_compat; [apply PI_RGT_0|].
    assert (0 < Rsqr (beam_size a)) by (apply Rsqr_pos_lt; exact Hb). unfold Rsqr in *. lra.
Qed.

Lemma h_source_facts a T vof phi x y lx ly sw :
  (phi = (0,0,0) -> h_source a T vof phi x y lx ly sw = 0) /\
  (0 <= snd phi -> h_source a T vof phi x y lx ly sw =
     norm3 phi * (h_conv a * (T0 - T) + SB_const a * emissivity a * (T0^4 - T^4)) * 2 * vof) /\
  (0 <= sw -> 0 <= laser_power a -> 0 <= absorbed_fraction a -> beam_size a <> 0 -> 0 <= vof -> T = T0 ->
     0 <= h_source a T vof phi x y lx ly sw).
Proof.
  unfold h_source. destruct phi as [[p1 p2] p3]. cbn [snd].
  split; [|split].
  - intros E. inversion E; subst. rewrite norm3_zero. rewrite (proj2 (Rltb_false 0 (- 0 * 1))) by lra. ring.
  - intros Hp. rewrite (proj2 (Rltb_false 0 (- p3 * 1))) by lra. ring.
  - intros Hs Hl Ha Hb Hv ->. assert (Hq := q_laser_nonneg a sw x y lx ly Hs Hl Ha Hb).
    replace (norm3 (p1, p2, p3) * (h_conv a * (T0 - T0) + SB_const a * emissivity a * (T0 ^ 4 - T0 ^ 4)) * 2 * vof) with 0 by ring.
    rewrite Rplus_0_r. apply Rmult_le_pos; [|exact Hv]. apply Rmult_le_pos; [|lra]. apply Rmult_le_pos; [|exact Hq].
    destruct (Rltb 0 (- p3 * 1)) eqn:E; [apply Rltb_true in E; lra | lra].
Qed.

(** a flat horizontal interface (any profile in z) has no curvature *)
Lemma mod_ext (g : Z -> R) (d : dims) (vof : field R) c :
  (forall c', vof c' = g (snd c')) -> forall i j k, at_off d vof c i j k = g ((snd c + k) mod NZ d)%Z.
Proof. intros H i j k. unfold at_off. rewrite H. destruct c as [[x y] z]. reflexivity. Qed.

Lemma curvature_const H : (forall a b a' b', H a b = H a' b') -> curvature H = 0.
Proof.
  intros E. unfold curvature. rewrite (E 1%Z 0%Z 0%Z 0%Z), (E (-1)%Z 0%Z 0%Z 0%Z), (E 0%Z 1%Z 0%Z 0%Z), (E 0%Z (-1)%Z 0%Z 0%Z),
   (E 1%Z 1%Z 0%Z 0%Z), (E (-1)%Z 1%Z 0%Z 0%Z), (E 1%Z (-1)%Z 0%Z 0%Z), (E (-1)%Z (-1)%Z 0%Z 0%Z).
  set (h := H 0%Z 0%Z).
  replace (h - h) with 0 by ring. replace (h - 2 * h + h) with 0 by ring. replace (0 - h + h) with 0 by ring.
  unfold Rdiv. rewrite !Rmult_0_l. ring.
Qed.

Lemma flat_interface a d vof c (g : Z -> R) rho T Tg :
  (forall c', vof c' = g (snd c')) ->
  let phi := get_phi d vof c in
  phi = (0, 0, comp AZ phi) /\
  (comp AZ phi <> 0 -> kappa d vof c = 0 /\
     comp AX (f_source a rho (vof c) phi (kappa d vof c) T Tg) =
       comp AX (marangoni a (vof c) phi Tg) /\
     dot (marangoni a (vof c) phi Tg) (0,0,1) = 0).
Proof.
  intros Hg phi. assert (M := mod_ext g d vof c Hg).
  assert (Ep : phi = (0, 0, comp AZ phi)).
  { unfold phi, get_phi. rewrite !M. cbn [comp]. repeat apply (f_equal2 (@pair _ _)); field. }
  split; [exact Ep|]. intros Hz.
  assert (Ek : kappa d vof c = 0).
  { unfold kappa. fold phi. rewrite Ep. rewrite Rabs_R0.
    assert (Rabs (comp AZ phi) > 0) by (apply Rabs_pos_lt; exact Hz).
    rewrite (proj2 (Rleb_false (Rabs (comp AZ phi)) 0)) by lra. rewrite !andb_false_r.
    apply curvature_const. intros. unfold hf_z. apply sumR_ext. intros t _. rewrite !M. reflexivity. }
  split; [exact Ek|]. split.
  - rewrite Ek. unfold f_source, recoil. rewrite Ep.
    destruct (marangoni a (vof c) (0, 0, comp AZ phi) Tg) as [[m1 m2] m3]. cbn. ring.
  - assert (Ht := marangoni_tangent a (vof c) phi Tg).
    destruct (marangoni a (vof c) phi Tg) as [[m1 m2] m3]. rewrite Ep in Ht. cbn [dot] in *.
    assert (H : comp AZ phi * m3 = 0) by lra. apply Rmult_integral in H as [H|H]; [contradiction|]. rewrite H. ring.
Qed.

(** The temperature gradient never reads gas or wall cells. *)
Lemma T_grad_adiabatic d T T' phase c :
  (forall n, is_gas_or_wall (phase n) = false -> T n = T' n) ->
  T (wrap d c (0,0,0)%Z) = T' (wrap d c (0,0,0)%Z) ->
  T_grad d T phase c = T_grad d T' phase c.
Proof.
  intros H H0. unfold T_grad.
  assert (E : forall i j k, T_masked d T phase c i j k = T_masked d T' phase c i j k).
  { intros i j k. unfold T_masked, at_off. destruct (is_gas_or_wall _) eqn:E; [exact H0 | apply H; exact E]. }
  rewrite !E. reflexivity.
Qed.

(** ** Units *)
Definition physical (a : lbm_args) : Prop := 0 < a_h a /\ 0 < a_dt a /\ 0 < a_rho0 a /\ 0 < a_T0 a.

Lemma unit_conversion a : physical a ->
  let p := derive_params a in
  (tau_nu p - 1/2) / 3 * (a_h a ^ 2 / a_dt a) = a_mu a / a_rho0 a /\
  (tau_l p - 1/2) / 3 * (a_h a ^ 2 / a_dt a) = a_diff_l a /\
  (tau_s p - 1/2) / 3 * (a_h a ^ 2 / a_dt a) = a_diff_s a /\
  T_solidus p * a_T0 a = a_Ts a /\ T_liquidus p * a_T0 a = a_Tl a /\
  (heat_capacity p * T_solidus p = enthalpy_s p <-> a_cp a * a_Ts a = a_es a) /\
  (enthalpy_l p - enthalpy_s p) / heat_capacity p * (a_cp a) = (if Reqb (a_cp a) 0 then 0 else (a_el a - a_es a) / a_T0 a).
Proof.
  intros (Hh & Ht & Hr & HT). unfold derive_params. cbn [tau_nu tau_l tau_s T_solidus T_liquidus heat_capacity enthalpy_s enthalpy_l].
  unfold viscosity_nu, viscosity_mu, diffusivity_l, diffusivity_s, heat_cap, C_energy, C_force, C_mass, C_density, C_temperature,
    C_length, C_time, cs_sq, dt, rho0, T0.
  assert (Hne : a_h a <> 0 /\ a_dt a <> 0 /\ a_rho0 a <> 0 /\ a_T0 a <> 0) by (repeat split; lra).
  destruct Hne as (N1 & N2 & N3 & N4).
  repeat split; try (field; auto).
  - intros E. 
    assert (E2 : a_cp a * a_Ts a * (a_dt a ^ 2 / a_h a ^ 2) = a_es a * (a_dt a ^ 2 / a_h a ^ 2)).
    { transitivity (a_cp a /
    (a_rho0 a / 1 * (a_h a / 1) ^ 3 * (a_h a / 1) / (a_dt a / 1) ^ 2 *
     (a_h a / 1) / (a_rho0 a / 1 * (a_h a / 1) ^ 3 * (a_T0 a / 1))) *
    (a_Ts a / (a_T0 a / 1))); [field; auto|]. rewrite E. field; auto. }
    apply Rmult_eq_reg_r in E2; [exact E2|].
    apply Rmult_integral_contrapositive_currified; [apply pow_nonzero; exact N2 | apply Rinv_neq_0_compat, pow_nonzero; exact N1].
  - intros E. rewrite <- E. field; auto.
  - destruct (Reqb (a_cp a) 0) eqn:Ec.
    + apply Reqb_true in Ec. rewrite Ec. ring.
    + apply Reqb_false in Ec. field. auto.
Qed.

(** The shipped Inconel parameters (applications/lbm/pbf/lbm_params.json:112-176). *)
Definition inconel_like (a : lbm_args) : Prop :=
  physical a /\ a_cp a = 58823/100 /\ a_Ts a = 1563 /\ a_Tl a = 1623 /\ a_es a = 919403 /\ a_el a = 1210397.

Lemma inconel_jump a : inconel_like a ->
  let p := derive_params a in
  exists eps, 0 < eps /\ forall e, e < enthalpy_s p ->
    compute_T1 p (enthalpy_s p) - compute_T1 p e >= eps.
Proof.
  intros ((Hh & Ht & Hr & HT) & Ecp & Es & El & Ees & Eel) p.
  set (K := a_h a ^ 2 / a_dt a ^ 2).
  assert (HK : 0 < K) by (unfold K; apply Rdiv_lt_0_compat; apply pow_lt; assumption).
  assert (N : a_h a <> 0 /\ a_dt a <> 0 /\ a_rho0 a <> 0 /\ a_T0 a <> 0) by (repeat split; lra).
  destruct N as (N1 & N2 & N3 & N4).
  assert (E1 : heat_capacity p = a_cp a * a_T0 a / K).
  { unfold p, derive_params, K; cbn [heat_capacity].
    unfold heat_cap, C_energy, C_force, C_mass, C_density, C_temperature, C_length, C_time, dt, rho0, T0. field; auto. }
  assert (E2 : enthalpy_s p = a_es a / K).
  { unfold p, derive_params, K; cbn [enthalpy_s].
    unfold C_energy, C_force, C_mass, C_density, C_temperature, C_length, C_time, dt, rho0, T0. field; auto. }
  assert (E3 : enthalpy_l p = a_el a / K).
  { unfold p, derive_params, K; cbn [enthalpy_l].
    unfold C_energy, C_force, C_mass, C_density, C_temperature, C_length, C_time, dt, rho0, T0. field; auto. }
  assert (E4 : T_solidus p = a_Ts a / a_T0 a).
  { unfold p, derive_params; cbn [T_solidus]. unfold C_temperature, T0. field; auto. }
  assert (iK : 0 < / K) by (apply Rinv_0_lt_compat; exact HK).
  assert (iT : 0 < / a_T0 a) by (apply Rinv_0_lt_compat; exact HT).
  assert (Hsl : enthalpy_s p < enthalpy_l p).
  { rewrite E2, E3, Ees, Eel. unfold Rdiv. apply Rmult_lt_compat_r; lra. }
  assert (Hcp : 0 < heat_capacity p).
  { rewrite E1, Ecp. unfold Rdiv. repeat apply Rmult_lt_0_compat; lra. }
  exists ((1563 - 919403 / (58823/100)) / a_T0 a). split.
  - unfold Rdiv at 1. apply Rmult_lt_0_compat; [|exact iT]. lra.
  - intros e He. unfold compute_T1.
    rewrite (proj2 (Rltb_false (enthalpy_s p) (enthalpy_s p))) by lra.
    rewrite (proj2 (Rltb_true _ _) Hsl), (proj2 (Rltb_true _ _) He).
    replace ((enthalpy_s p - enthalpy_s p) / (enthalpy_l p - enthalpy_s p) * (T_liquidus p - T_solidus p)) with 0
      by (unfold Rdiv; rewrite Rminus_diag_eq by reflexivity; ring).
    assert (Hb : e / heat_capacity p < enthalpy_s p / heat_capacity p).
    { unfold Rdiv. apply Rmult_lt_compat_r; [apply Rinv_0_lt_compat; exact Hcp | exact He]. }
    assert (Hv : enthalpy_s p / heat_capacity p = 919403 / (58823/100) / a_T0 a).
    { rewrite E1, E2, Ecp, Ees. field. lra. }
    rewrite E4, Es. rewrite Hv in Hb.
    replace ((1563 - 919403 / (58823 / 100)) / a_T0 a) with (1563 / a_T0 a - 919403 / (58823 / 100) / a_T0 a) by (field; lra).
    lra.
Qed.

(** ** Laser path *)
Lemma ceilR_spec x : x <= IZR (ceilR x) < x + 1.
Proof. unfold ceilR. destruct (archimed (- x)) as [A B]. rewrite minus_IZR. lra. Qed.

Lemma arange_len_ceil a b s : 0 < s -> a <= b -> is_ceil ((b - a) / s) (arange_len a b s).
Proof.
  intros Hs Hab. unfold arange_len, is_ceil. destruct (ceilR_spec ((b - a) / s)) as [A B].
  assert (0 <= (b - a) / s) by (apply Rle_mult_inv_pos; lra).
  assert (Hc : (0 <= ceilR ((b - a) / s))%Z) by (apply le_IZR; lra).
  rewrite INR_IZR_INZ, Z2Nat.id by exact Hc. split; [exact A|exact B].
Qed.

Lemma linspace_length a b n : length (linspace a b n) = n.
Proof. unfold linspace. rewrite map_length, seq_length. reflexivity. Qed.
Lemma arange_length a b s : length (arange a b s) = arange_len a b s.
Proof. unfold arange. rewrite map_length, seq_length. reflexivity. Qed.

Lemma nth_error_linspace a b n j : (j < n)%nat -> nth_error (linspace a b n) j = Some (sample a b n j).
Proof.
  intros Hj. unfold linspace. rewrite (map_nth_error _ j (seq 0 n) (d := j)) by (apply nth_error_seq0; exact Hj).
  f_equal. unfold sample. destruct (Nat.leb_spec n 1) as [Hn|Hn].
  - assert (j = 0%nat) by lia. subst j. cbn. ring.
  - field. apply not_0_INR. lia.
Qed.
Lemma nth_error_arange a b s j : (j < arange_len a b s)%nat -> nth_error (arange a b s) j = Some (a + INR j * s).
Proof.
  intros Hj. unfold arange. rewrite (map_nth_error _ j (seq 0 _) (d := j)) by (apply nth_error_seq0; exact Hj). reflexivity.
Qed.

Lemma sample_const a n j : sample a a n j = a.
Proof. unfold sample. destruct (Nat.leb n 1); ring. Qed.

Section Path.
Variables (xc yc pc : list R) (vel dtv : R).
Hypothesis Hv : 0 < vel.
Hypothesis Hd : 0 < dtv.

Definition seg_ok (t0 : R) (i : nat) (k : nat) : Prop := is_ceil ((seg_time xc yc vel i + 1/10000000000) / dtv) k.

Lemma seg_time_nonneg i : 0 <= seg_time xc yc vel i.
Proof. unfold seg_time, dist2. apply Rle_mult_inv_pos; [apply sqrt_pos | exact Hv]. Qed.

Lemma path_loop_ok n : forall i t, 
  (i + n < length xc)%nat -> (i + n < length yc)%nat -> (i + n <= length pc)%nat ->
  exists ts xs ys ps ks, path_loop xc yc pc vel dtv n i t = Ok (ts, xs, ys, ps) /\
    length ks = n /\
    length ts = list_sum ks /\ length xs = list_sum ks /\ length ys = list_sum ks /\ length ps = list_sum ks /\
    forall m k, nth_error ks m = Some k ->
      seg_ok t (i + m) k /\
      forall j, (j < k)%nat ->
        nth_error ts (offset ks m + j) = Some (t + sumR (seq i m) (seg_time xc yc vel) + INR j * dtv) /\
        nth_error xs (offset ks m + j) = Some (sample (nth (i + m) xc 0) (nth (S (i + m)) xc 0) k j) /\
        nth_error ys (offset ks m + j) = Some (sample (nth (i + m) yc 0) (nth (S (i + m)) yc 0) k j) /\
        nth_error ps (offset ks m + j) = Some (nth (i + m) pc 0).
Proof.
  induction n as [|n IH]; intros i t Hx Hy Hp.
  { exists [], [], [], [], []. repeat split; try reflexivity; destruct m; discriminate. }
  cbn [path_loop]. unfold segment.
  rewrite (nth_error_nth' xc 0) by lia. rewrite (nth_error_nth' xc 0 (n := i + 1)) by lia.
  rewrite (nth_error_nth' yc 0) by lia. rewrite (nth_error_nth' yc 0 (n := i + 1)) by lia.
  rewrite (nth_error_nth' pc 0) by lia. cbn [bind].
  replace (sqrt ((nth (i + 1) xc 0 - nth i xc 0) ^ 2 + (nth (i + 1) yc 0 - nth i yc 0) ^ 2) / vel) with (seg_time xc yc vel i)
    by (unfold seg_time, dist2; replace (S i) with (i + 1)%nat by lia; reflexivity).
  set (tt := seg_time xc yc vel i).
  destruct (IH (i + 1)%nat (t + tt)) as (ts & xs & ys & ps & ks & E & Lk & Lt & Lx & Ly & Lp & H); try lia.
  rewrite E. cbn [bind]. rewrite arange_length. set (k := arange_len t (t + tt + 1 / 10000000000) dtv).
  do 4 eexists. exists (k :: ks). split; [reflexivity|].
  cbn [length list_sum fold_right]. 
  split; [lia|]. rewrite !app_length, arange_length, !linspace_length. fold k.
  change (fold_right Nat.add 0%nat ks) with (list_sum ks).
  do 4 (split; [lia|]).
  intros m k' Hm. destruct m as [|m].
  - cbn in Hm. injection Hm as <-. split.
    + unfold seg_ok. replace (i + 0)%nat with i by lia. fold tt. unfold k.
      replace (tt + 1 / 10000000000) with (t + tt + 1 / 10000000000 - t) by ring.
      apply arange_len_ceil; [exact Hd|]. assert (0 <= tt) by apply seg_time_nonneg. lra.
    + intros j Hj. unfold offset. cbn [firstn list_sum fold_right]. rewrite !Nat.add_0_l.
      replace (i + 0)%nat with i by lia. replace (S i) with (i + 1)%nat by lia.
      rewrite !nth_error_app1 by (rewrite ?arange_length, ?linspace_length; exact Hj).
      cbn [seq sumR]. rewrite nth_error_arange by exact Hj. rewrite !nth_error_linspace by exact Hj. rewrite sample_const.
      rewrite Rplus_0_r. auto.
  - cbn in Hm. destruct (H m k' Hm) as [Hs Hj]. replace (i + S m)%nat with (i + 1 + m)%nat by lia.
    split; [exact Hs|]. intros j Hjk. destruct (Hj j Hjk) as (A & B & C & D).
    unfold offset in *. cbn [firstn list_sum fold_right]. change (fold_right Nat.add 0%nat (firstn m ks)) with (list_sum (firstn m ks)).
    rewrite !nth_error_app2 by (rewrite ?arange_length, ?linspace_length; fold k; lia).
    rewrite arange_length, !linspace_length. fold k.
    replace (k + list_sum (firstn m ks) + j - k)%nat with (list_sum (firstn m ks) + j)%nat by lia.
    split; [|split; [exact B|split; [exact C|exact D]]].
    rewrite A. f_equal. cbn [seq sumR]. fold tt. replace (S i) with (i + 1)%nat by lia. ring.
Qed.
End Path.

Lemma nth_removelast {A} (l : list A) i d : (S i < length l)%nat -> nth i (removelast l) d = nth i l d.
Proof.
  revert i; induction l as [|x l IH]; intros i Hi; [cbn in Hi; lia|].
  destruct l as [|y l]; [cbn in Hi; lia|]. change (removelast (x :: y :: l)) with (x :: removelast (y :: l)).
  destruct i as [|i]; [reflexivity|]. cbn [nth]. apply IH. cbn in *; lia.
Qed.
Lemma length_removelast {A} (l : list A) : length (removelast l) = (length l - 1)%nat.
Proof.
  induction l as [|x l IH]; [reflexivity|]. destruct l as [|y l]; [reflexivity|].
  change (removelast (x :: y :: l)) with (x :: removelast (y :: l)). cbn [length] in *. lia.
Qed.

Lemma read_path_ok xc yc sw vel dtv : 0 < vel -> 0 < dtv ->
  (2 <= length xc)%nat -> (length xc <= length yc)%nat -> (length xc <= length sw)%nat ->
  exists ts xs ys ps ks, read_path xc yc sw vel dtv = Ok (ts, xs, ys, ps) /\
    length ks = (length xc - 1)%nat /\
    length ts = list_sum ks /\ length xs = list_sum ks /\ length ys = list_sum ks /\ length ps = list_sum ks /\
    forall i k, nth_error ks i = Some k ->
      is_ceil ((seg_time xc yc vel i + 1/10000000000) / dtv) k /\
      forall j, (j < k)%nat ->
        nth_error ts (offset ks i + j) = Some (arrival xc yc vel i + INR j * dtv) /\
        nth_error xs (offset ks i + j) = Some (sample (nth i xc 0) (nth (S i) xc 0) k j) /\
        nth_error ys (offset ks i + j) = Some (sample (nth i yc 0) (nth (S i) yc 0) k j) /\
        nth_error ps (offset ks i + j) = Some (nth i sw 0).
Proof.
  intros Hv Hd Hx Hy Hs. unfold read_path.
  destruct (path_loop_ok xc yc (removelast sw) vel dtv Hv Hd (length xc - 1) 0 0) as (ts & xs & ys & ps & ks & E & Lk & Lt & Lx & Ly & Lp & H);
    try (rewrite ?length_removelast; lia).
  exists ts, xs, ys, ps, ks. split.
  { destruct (length xc - 1)%nat eqn:El; [lia|]. exact E. }
  do 5 (split; [assumption|]). intros i k Hk. destruct (H i k Hk) as [A B]. split; [exact A|].
  intros j Hj. destruct (B j Hj) as (T & X & Y & P). rewrite Nat.add_0_l in *.
  rewrite T, X, Y, P. unfold arrival. rewrite Rplus_0_l.
  assert (i < length ks)%nat by (apply nth_error_Some; congruence).
  rewrite nth_removelast by lia. auto.
Qed.

Lemma read_path_too_short xc yc sw vel dtv : (length xc < 2)%nat -> read_path xc yc sw vel dtv = Err ValueError.
Proof. intros H. unfold read_path. destruct (length xc - 1)%nat eqn:E; [reflexivity|lia]. Qed.

(** number of time steps when each segment takes a whole number of time steps *)
Lemma is_ceil_unique x k k' : is_ceil x k -> is_ceil x k' -> k = k'.
Proof.
  unfold is_ceil. intros [A B] [C D].
  assert (INR k < INR k' + 1) by lra. assert (INR k' < INR k + 1) by lra.
  rewrite <- S_INR in *. apply INR_lt in H, H0. lia.
Qed.

Lemma path_step_count xc yc sw vel dtv (N : nat -> nat) : 0 < vel -> 1/10000000000 <= dtv ->
  (2 <= length xc)%nat -> (length xc <= length yc)%nat -> (length xc <= length sw)%nat ->
  (forall i, (i < length xc - 1)%nat -> seg_time xc yc vel i = INR (N i) * dtv) ->
  exists r, read_path xc yc sw vel dtv = Ok r /\
    total_time_steps r = (list_sum (map N (seq 0 (length xc - 1))) + (length xc - 2))%nat.
Proof.
  intros Hv Hd Hx Hy Hs HN.
  destruct (read_path_ok xc yc sw vel dtv Hv ltac:(lra) Hx Hy Hs) as (ts & xs & ys & ps & ks & E & Lk & Lt & _ & _ & _ & H).
  exists (ts, xs, ys, ps). split; [exact E|]. cbn [total_time_steps]. rewrite Lt.
  assert (Ek : forall i k, nth_error ks i = Some k -> k = S (N i)).
  { intros i k Hk. destruct (H i k Hk) as [Hc _]. assert (i < length ks)%nat by (apply nth_error_Some; congruence).
    rewrite HN in Hc by lia. eapply is_ceil_unique; [exact Hc|]. unfold is_ceil. rewrite S_INR.
    replace ((INR (N i) * dtv + 1 / 10000000000) / dtv) with (INR (N i) + 1 / 10000000000 / dtv) by (field; lra).
    assert (0 < 1 / 10000000000 / dtv) by (apply Rdiv_lt_0_compat; lra).
    assert (1 / 10000000000 / dtv <= 1) by (apply (Rmult_le_reg_r dtv); [lra|]; unfold Rdiv at 1; rewrite Rmult_assoc, Rinv_l; lra). lra. }
  rewrite <- Lk. assert (Hl : list_sum ks = (list_sum (map N (seq 0 (length ks))) + length ks)%nat).
  { clear - Ek. revert N Ek. induction ks as [|k ks IH]; intros N Ek; [reflexivity|].
    cbn [length seq map]. cbn [list_sum fold_right]. rewrite <- seq_shift, map_map.
    change (fold_right Nat.add 0%nat ks) with (list_sum ks).
    rewrite (IH (fun i => N (S i))) by (intros i k' Hk; apply (Ek (S i)); exact Hk).
    rewrite (Ek 0%nat k eq_refl). change (fold_right Nat.add 0%nat) with list_sum. lia. }
  rewrite Hl. lia.
Qed.

(** ** Output numbering *)
Lemma filter_multiples itv n : (0 < itv)%nat ->
  map (fun i => (i + 1, (i + 1) / itv))%nat (filter (fun i => Nat.eqb ((i + 1) mod itv) 0) (seq 0 n)) =
  map (fun k => (k * itv, k))%nat (seq 1 (n / itv)).
Proof.
  intros Hi. induction n as [|n IH]; [rewrite Nat.div_0_l by lia; reflexivity|].
  rewrite seq_S, filter_app, map_app, IH. cbn [filter Nat.add].
  assert (E := Nat.div_mod (n + 1) itv ltac:(lia)). assert (E' := Nat.div_mod n itv ltac:(lia)).
  assert (B := Nat.mod_upper_bound (n + 1) itv ltac:(lia)). assert (B' := Nat.mod_upper_bound n itv ltac:(lia)).
  replace (S n) with (n + 1)%nat by lia.
  set (Q := ((n + 1) / itv)%nat) in *. set (r1 := ((n + 1) mod itv)%nat) in *. set (q := (n / itv)%nat) in *. set (r := (n mod itv)%nat) in *.
  clearbody Q r1 q r.
  destruct (Nat.eqb_spec r1 0) as [Em|Em].
  - assert (q < Q)%nat by nia. assert (Q < q + 2)%nat by nia. assert (Ed : Q = S q) by lia.
    rewrite Ed, seq_S, map_app. f_equal. cbn [map]. f_equal. f_equal; nia.
  - assert (Q <= q)%nat by nia. assert (q <= Q)%nat by nia. assert (Ed : Q = q) by lia. rewrite Ed. cbn [map]. apply app_nil_r.
Qed.

Lemma outputs_ok steps itv : (0 < itv)%nat ->
  lbm_outputs steps itv = Ok (map (fun k => (k * itv, k))%nat (seq 0 (steps / itv + 1))) /\
  driver_outputs steps itv = Ok (map (fun k => (k * itv, k))%nat (seq 0 (steps / itv + 1))).
Proof.
  intros Hi. unfold lbm_outputs, driver_outputs, write_sols_number.
  rewrite (proj2 (Nat.eqb_neq itv 0)) by lia. rewrite Nat.div_0_l by lia. rewrite filter_multiples by exact Hi.
  rewrite Nat.add_1_r. split; reflexivity.
Qed.
Close Scope R_scope.
