(** * The boundary lists of the driver, and ambient equilibrium (C80). *)
From Verif Require Import Prelude PreludeFacts GridFacts CfdMeshModel CfdMeshSpec CfdMeshProofs CfdModel CfdSpec
  CfdProofs CfdOpProofs CfdEqProofs CfdSolveProofs.
From Coq Require Import Lra Psatz ZifyBool ZifyNat.
Open Scope R_scope.

Lemma energy_bc_good a t Ttop : good_bc (a_mesh a) (energy_bc a t Ttop).
Proof.
  unfold energy_bc. split; [reflexivity|]. intros s ty vals H.
  do 5 (destruct s as [|s]; [cbn [nth_error app map firstn surf_set_num] in *; inversion H; subst; rewrite repeat_length; split; [lia|f_equal; lia]|]).
  destruct s as [|s]; [|destruct s; discriminate].
  cbn [nth_error app map firstn surf_set_num] in *. inversion H; subst. rewrite flat2_length. split; [lia|f_equal; lia].
Qed.
Lemma energy_bc_flux a t Ttop ty vals : In (ty, vals) (energy_bc a t Ttop) -> ty = 1%nat.
Proof. cbn [energy_bc In app map firstn surf_set_num]. intuition congruence. Qed.
Lemma vel_bc_good a T c : good_bc (a_local a) (vel_bc_scalar a T c).
Proof.
  unfold vel_bc_scalar. split; [reflexivity|]. intros s ty vals H.
  do 5 (destruct s as [|s]; [cbn [nth_error app map firstn surf_set_num] in *; inversion H; subst; rewrite repeat_length; split; [lia|f_equal; lia]|]).
  destruct s as [|s]; [|destruct s; discriminate].
  cbn [nth_error app map firstn surf_set_num] in *. inversion H; subst. rewrite flat2_length. split; [destruct (Nat.ltb c 2); lia|f_equal; lia].
Qed.

(** Every solve of the driver builds its residual and its matrix without an exception. *)
Lemma energy_defined a t Ttop T0 conv Q dk ds T : exists e r v,
  energy_eqn a T0 conv Q = Ok e /\ energy_residual a T0 conv Q (energy_bc a t Ttop) T = Ok r /\
  newton_values e dk ds (Some (energy_bc a t Ttop)) T = Ok v.
Proof.
  set (bc := energy_bc a t Ttop). pose proof (energy_bc_good a t Ttop) as G. fold bc in G.
  unfold energy_residual. rewrite energy_eqn_ok. cbn [bind].
  set (e := mkEqn _ _ _ _ _).
  assert (N : forall ty vals, In (ty, vals) bc -> ty = 0%nat -> forall v, exists mu, bc_mu e v = Ok mu).
  { intros ty vals I Z. apply energy_bc_flux in I. congruence. }
  destruct (residual_defined e bc T G N) as (r & Er). destruct (newton_defined e dk ds bc T G N) as (v & Ev).
  exists e, r, v. auto.
Qed.
Lemma vel_defined a u0 conv gradp fl T c dk ds U : exists e r v,
  vel_eqn a u0 conv gradp fl = Ok e /\ compute_residual e (Some (vel_bc_scalar a T c)) U = Ok r /\
  newton_values e dk ds (Some (vel_bc_scalar a T c)) U = Ok v.
Proof.
  set (bc := vel_bc_scalar a T c). pose proof (vel_bc_good a T c) as G. fold bc in G.
  unfold vel_eqn, mk_poisson. cbn [eq_false].
  set (e := mkEqn _ _ _ _ _).
  assert (N : forall ty vals, In (ty, vals) bc -> ty = 0%nat -> forall v, exists mu, bc_mu e v = Ok mu).
  { intros. exists (a_visco a). reflexivity. }
  destruct (residual_defined e bc U G N) as (r & Er). destruct (newton_defined e dk ds bc U G N) as (v & Ev).
  exists e, r, v. auto.
Qed.

Lemma faces_value m i bc (P : R -> Prop) : (forall ty vals v, In (ty, vals) bc -> In v vals -> P v) ->
  forall f, In f (faces_from m i bc) -> P (fv f).
Proof.
  revert i. induction bc as [|[ty vals] r IH]; intros i H f Hf; [destruct Hf|]. cbn [faces_from] in Hf.
  apply in_app_iff in Hf as [Hf|Hf].
  - apply in_map_iff in Hf as ([v c] & <- & Hv). cbn [fv fst]. apply in_combine_l in Hv. apply (H ty vals); [now left|assumption].
  - apply (IH (S i)); [|assumption]. intros ty' vals' v I. apply (H ty' vals'). now right.
Qed.

Lemma faces_flux_only a t Ttop f : In f (faces_from (a_mesh a) 0 (energy_bc a t Ttop)) -> fty f = 1%nat.
Proof.
  unfold energy_bc. cbn [app map firstn surf_set_num faces_from]. intros Hf.
  repeat (apply in_app_iff in Hf as [Hf|Hf]; [apply in_map_iff in Hf as (? & <- & _); reflexivity|]). destruct Hf.
Qed.

Section Rest.
Variables (a : amargs) (bicg : (fld -> fld) -> fld -> fld) (dk : R -> R).
Hypothesis W : good_mesh (a_mesh a).
Hypothesis Hh : a_heat_source a <> 1%nat.
Hypothesis Hd : 0 <= a_dt a.
Hypothesis Hoff : a_P a = 0 \/ a_tOFF a <= 0.
Hypothesis Hb : forall A b, (forall n, b n = 0) -> forall n, bicg A b n = 0.

Lemma off t : 0 <= t -> a_P a * b2R (Rltb t (a_tOFF a)) = 0.
Proof.
  intros Ht. destruct Hoff as [-> |H]; [ring|]. replace (Rltb t (a_tOFF a)) with false by (symmetry; apply Rltb_false; lra).
  cbn. ring.
Qed.
Lemma top_flux_zero t T xc yc : 0 <= t -> T = a_Tref a -> top_flux a t T xc yc = 0.
Proof.
  intros Ht ->. unfold top_flux, toolpath. destruct (a_X0 a) as [[x y] z]. rewrite (off t Ht).
  destruct (Nat.eqb _ _); unfold Rdiv; ring.
Qed.
Lemma energy_bc_zero t Ttop : 0 <= t -> (forall i j, Ttop i j = a_Tref a) ->
  forall ty vals v, In (ty, vals) (energy_bc a t Ttop) -> In v vals -> v = 0.
Proof.
  intros Ht HT ty vals v I Hv. cbn [energy_bc In app map firstn surf_set_num] in I.
  destruct I as [I|[I|[I|[I|[I|[I|[]]]]]]]; inversion I; subst; try (now apply repeat_spec in Hv).
  apply in_flat2 in Hv as (i & j & _ & _ & ->). now apply top_flux_zero.
Qed.

Lemma rest_energy T0 conv Q t : 0 <= t -> (forall i j k, T0 i j k = a_Tref a) -> (forall i j k, conv i j k = 0) ->
  (forall i j k, Q i j k = 0) -> forall i j k, energy_update a bicg dk T0 conv Q t i j k = a_Tref a.
Proof.
  intros Ht HT HC HQ i j k. unfold energy_update. set (m := a_mesh a).
  set (bc := energy_bc a t (fun i j => T0 i j (mNz m - 1)%nat)).
  rewrite (nonlinear_converged (cell_num m) _ _ _ _ 50 (Some (flat m T0))).
  - cbn [fst start]. unfold unflat, flat. apply HT.
  - intros n Hn. cbn [start].
    destruct (energy_defined a t (fun i j => T0 i j (mNz m - 1)%nat) (flat m T0) (flat m conv) (flat m Q) dk (fun _ _ => 0) (flat m T0))
      as (e & r & v & Ee & Er & _). fold bc in Er. rewrite Er. cbn [ok_or].
    unfold energy_residual in Er. rewrite Ee in Er. cbn [bind] in Er. rewrite energy_eqn_ok in Ee. inversion Ee; subst e. clear Ee.
    match type of Er with compute_residual ?x _ _ = _ => set (e := x) in * end.
    rewrite (residual_form e bc _ r (ok_mu_nonlinear e (a_k a) eq_refl eq_refl) (energy_bc_good _ _ _) Er n).
    rewrite (lap_const_zero e W (flat m T0) (a_Tref a)) by (try assumption; intros; unfold flat; apply HT).
    cbn [e e_src e_mesh]. unfold energy_src, flat. rewrite HC, HQ, HT. rewrite sumR_zero.
    + unfold Rdiv. ring.
    + intros f Hf. destruct (Nat.eqb (fc f) n); [|reflexivity]. 
      assert (Hv : fv f = 0) by (revert f Hf; apply (faces_value _ 0 bc (fun x => x = 0)); apply energy_bc_zero; [assumption|intros; apply HT]).
      assert (Hty : fty f = 1%nat) by (revert Hf; apply faces_flux_only).
      unfold face_flux. rewrite Hty, Hv. ring.
Qed.

Lemma laplace_zero e n : laplace e (fun _ => 0) n = 0.
Proof. unfold laplace, laplace_kernel. apply sumR_zero. intros. unfold Rdiv. ring. Qed.
Lemma solver_linear_zero m v r : (forall n, r n = 0) -> forall n, solver_linear bicg m v r n = 0.
Proof. intros H n. unfold solver_linear. rewrite Hb; [ring|]. intros. rewrite H. ring. Qed.

Lemma marangoni_zero Ttop c i j : (forall i j, Ttop i j = a_Tref a) -> marangoni_effect a Ttop c i j = 0.
Proof. intros H. unfold marangoni_effect. destruct c as [|[|c]]; rewrite ?H; unfold Rdiv; ring. Qed.

Lemma rest_vel c u0 conv gradp fl T : (forall n, u0 n = 0) -> (forall n, conv n = 0) -> (forall n, gradp n = 0) ->
  (forall i j k, T i j k = a_Tref a) -> forall n, vel_solve a bicg c u0 conv gradp fl (vel_bc_scalar a T c) n = 0.
Proof.
  intros Hu Hc Hg HT. unfold vel_solve.
  destruct (vel_defined a u0 conv gradp fl T c (fun _ => 0) (fun n _ => - a_rho a / a_dt a - 10 ^ 7 * a_rho a * (1 - fl n) ^ 2 / (fl n ^ 3 + 1 / 10 ^ 5)) (fun _ => 0))
    as (e & r & v & Ee & Er & Ev). rewrite Ee, Er, Ev.
  unfold vel_eqn, mk_poisson in Ee. cbn [eq_false] in Ee. inversion Ee; subst e. clear Ee Ev.
  apply solver_linear_zero. intros n.
  match type of Er with compute_residual ?x _ _ = _ => set (e := x) in * end.
  rewrite (residual_form e _ _ r (ok_mu_linear e (a_visco a) eq_refl eq_refl) (vel_bc_good a T c) Er n).
  rewrite laplace_zero. cbn [e e_src e_mesh]. unfold vel_src. rewrite Hu, Hc, Hg, sumR_zero.
  - unfold Rdiv. ring.
  - intros f Hf. destruct (Nat.eqb (fc f) n); [|reflexivity].
    assert (Hv : fv f = 0).
    { revert f Hf. apply (faces_value _ 0 _ (fun x => x = 0)). intros ty vals w I Hw. cbn [vel_bc_scalar In app map firstn surf_set_num] in I.
      destruct I as [I|[I|[I|[I|[I|[I|[]]]]]]]; inversion I; subst; try (now apply repeat_spec in Hw).
      apply in_flat2 in Hw as (i & j & _ & _ & ->). rewrite marangoni_zero by (intros; apply HT). ring. }
    unfold face_flux. rewrite Hv. destruct (fty f); unfold Rdiv; ring.
Qed.
Lemma rest_p div_v : (forall n, div_v n = 0) -> forall n, p_solve a bicg div_v n = 0.
Proof.
  intros H. unfold p_solve, pressure_eqn, mk_poisson. cbn [eq_false compute_residual apply_BC_to_residual newton_values e_mesh e_src].
  apply solver_linear_zero. intros n. rewrite laplace_zero, H. ring.
Qed.

Lemma ext1_zero n g0 f g1 p : g0 = 0 -> g1 = 0 -> (forall i, f i = 0) -> ext1 n g0 f g1 p = 0.
Proof. intros -> -> H. unfold ext1. destruct (Nat.ltb p 1), (Nat.ltb p (n + 1)); auto. Qed.
Lemma face_vel_zero g T vel i j k : (forall i j k, T i j k = a_Tref a) -> (forall c i j k, vel c i j k = 0) ->
  face_u g (vel_BCs a T) vel i j k = 0 /\ face_v g (vel_BCs a T) vel i j k = 0 /\ face_w g (vel_BCs a T) vel i j k = 0.
Proof.
  intros HT HV. unfold face_u, face_v, face_w, face_avg.
  assert (G : forall s c p q, (s < 5)%nat \/ c = 2%nat -> (s < 6)%nat -> get_GC g (vel_BCs a T) c (vel c) s p q = 0).
  { intros s c p q Hs H6. do 5 (destruct s as [|s]; [cbn; rewrite HV; ring|]). destruct s as [|s]; [|lia].
    destruct Hs as [Hs| ->]; [lia|]. cbn. rewrite HV. ring. }
  repeat split; rewrite !ext1_zero; try (intros; apply HV); try (apply G; lia); field.
Qed.
Lemma grad_zero g p c i j k : (forall i j k, p i j k = 0) -> gradient g None p c i j k = 0.
Proof.
  intros H. unfold gradient, diff_app, diff_pre, get_GC, ghost_cell. cbn [bkind bval default_BCs].
  destruct c as [|[|c]]; rewrite !H, !Rmult_0_r;
    repeat match goal with |- context [if ?b then _ else _] => destruct b end; unfold Rdiv; ring.
Qed.

Definition at_rest (s : state) : Prop :=
  0 <= s_t s /\ (forall i j k, s_T s i j k = a_Tref a) /\ (forall c i j k, s_vel s c i j k = 0) /\
  (forall c i j k, s_gradp s c i j k = 0) /\ (forall c i j k, s_conv s c i j k = 0) /\ (forall i j k, s_convT s i j k = 0).

Lemma rest_step s : at_rest s -> exists s', time_integration a (energy_update a bicg dk) (vel_solve a bicg) (p_solve a bicg) s = Ok s' /\ at_rest s'.
Proof.
  intros (Ht & HT & HV & HG & HC & HCT). unfold time_integration.
  rewrite (proj2 (Nat.eqb_neq _ _) Hh). cbn [bind].
  set (T := energy_update a bicg dk (s_T s) (s_convT s) (fun i j k => s_T s i j k * 0) (s_t s)).
  assert (HT' : forall i j k, T i j k = a_Tref a) by (intros; apply rest_energy; auto; intros; ring).
  set (w := window_at a (s_t s)).
  assert (Hcut : forall f c, (forall i j k, f i j k = c) -> forall i j k, cut w f i j k = c) by (intros; destruct w as [[x y] z]; cbn; auto).
  assert (Hpaste : forall f v c, (forall i j k, f i j k = c) -> (forall i j k, v i j k = c) -> forall i j k, paste w f v i j k = c).
  { intros. destruct w as [[x y] z]. cbn. destruct (inb x i && inb y j && inb z k); auto. }
  assert (Hfv : forall v : nat -> arr, (forall c i j k, v c i j k = 0) ->
    (forall g i j k, face_u g (vel_BCs a (cut w T)) v i j k = 0) /\
    (forall g i j k, face_v g (vel_BCs a (cut w T)) v i j k = 0) /\
    (forall g i j k, face_w g (vel_BCs a (cut w T)) v i j k = 0)).
  { intros v Hv. repeat split; intros g i j k; now destruct (face_vel_zero g (cut w T) v i j k (Hcut T _ HT') Hv) as (? & ? & ?). }
  unfold vel_update.
  set (vel := fun c => unflat (a_local a) _).
  assert (Hvel : forall c i j k, vel c i j k = 0).
  { intros. unfold vel, unflat. apply rest_vel; intros; unfold flat; try (apply Hcut; intros); auto. }
  set (p := unflat (a_local a) _).
  assert (Hp : forall i j k, p i j k = 0).
  { intros. unfold p, unflat. apply rest_p. intros n. unfold flat, div_vel.
    destruct (Hfv vel Hvel) as (F1 & F2 & F3). rewrite !F1, !F2, !F3.
    unfold Rdiv. ring. }
  assert (Hcv : forall c i j k, correct_vel a vel p c i j k = 0).
  { intros. unfold correct_vel. rewrite Hvel, (grad_zero _ p c i j k Hp). unfold Rdiv. ring. }
  unfold update_convective_terms.
  eexists. split; [reflexivity|]. unfold at_rest. cbn [s_t s_T s_vel s_gradp s_conv s_convT].
  assert (Hdiv : forall f i j k, div (conv_grid a) (1 / 8) default_BCs f
      (face_u (conv_grid a) (vel_BCs a (cut w T)) (correct_vel a vel p))
      (face_v (conv_grid a) (vel_BCs a (cut w T)) (correct_vel a vel p))
      (face_w (conv_grid a) (vel_BCs a (cut w T)) (correct_vel a vel p)) i j k = 0).
  { intros. unfold div. cbv beta zeta.
    destruct (Hfv _ Hcv) as (F1 & F2 & F3). rewrite !F1, !F2, !F3.
    unfold Rdiv. ring. }
  repeat split; intros.
  - lra.
  - apply HT'.
  - apply Hpaste; auto.
  - apply Hpaste; auto. intros. unfold correct_gradp. rewrite (Hcut _ _ (HG c)), (grad_zero _ p c _ _ _ Hp). ring.
  - apply Hpaste; auto.
  - apply Hpaste; auto.
Qed.

Lemma rest_run n : exists s, cfd_run a bicg dk n = Ok s /\ at_rest s.
Proof.
  unfold cfd_run. induction n as [|n (s & E & Hs)].
  - eexists. split; [reflexivity|]. unfold at_rest, init_state. cbn. repeat split; intros; try lra.
  - cbn [run]. rewrite E. cbn [bind]. now apply rest_step.
Qed.
End Rest.
