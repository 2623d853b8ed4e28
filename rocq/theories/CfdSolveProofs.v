(** * Proofs about the solvers, the energy equation and the driver (C31-C33, C35, C36, C76-C80). *)
From Verif Require Import Prelude PreludeFacts GridFacts CfdMeshModel CfdMeshSpec CfdMeshProofs CfdModel CfdSpec
  CfdProofs CfdOpProofs CfdEqProofs.
From Coq Require Import Lra Psatz ZifyBool ZifyNat.
Open Scope R_scope.

(** ** Linear equations (C33) *)
Section Linear.
Variables (e : eqn) (dk : R -> R) (s0 s1 : nat -> R).
Notation m := (e_mesh e).
Hypothesis W : good_mesh m.
Hypothesis L : e_mufn e = None.
Hypothesis A : forall n u, e_src e n u = s0 n + s1 n * u.

Lemma lap_lin U n : (n < cell_num m)%nat ->
  - laplace e U n - e_src e n (U n) * dV m =
  - s0 n * dV m + sumR (seq 0 7) (fun l => kernel_grad e dk (fun n _ => s1 n) n (fun _ => 0) l * U (nb m n l)).
Proof.
  intros Hn. rewrite A. unfold laplace, laplace_kernel. change (seq 0 7) with (0%nat :: seq 1 6). cbn [sumR].
  rewrite (sumR_seq_shift 6 1). cbn [Nat.add kernel_grad]. rewrite (nb0 e n Hn).
  assert (D : forall a b, dface_p e dk a b = 0 /\ dface_n e dk a b = 0) by (intros; unfold dface_p, dface_n; rewrite L; auto).
  assert (F : forall a b, face_mu e a b = face_mu e 0 0) by (intros; unfold face_mu; rewrite L; reflexivity).
  rewrite Rmult_minus_distr_r, <- (sumR_scal_r (seq 0 6) (U n)).
  match goal with |- - ?x - ?y = ?z + (?a - ?b + ?c) => enough (H : x = - (a + c)) by (rewrite H; ring) end.
  rewrite <- sumR_add, <- sumR_opp. apply sumR_ext. intros l _.
  destruct (D 0 0) as (-> & ->). rewrite (F (U n)). unfold Rdiv. ring.
Qed.

Lemma residual_affine bc U r0 r v : ok_mu e -> (forall l, bc = Some l -> good_bc m l) ->
  compute_residual e bc (fun _ => 0) = Ok r0 -> compute_residual e bc U = Ok r ->
  newton_values e dk (fun n _ => s1 n) bc (fun _ => 0) = Ok v ->
  forall n, (n < cell_num m)%nat -> r n = r0 n + linearized_residual m v U n.
Proof.
  intros M GB E0 E Ev n Hn. unfold linearized_residual. destruct bc as [bc|].
  - specialize (GB bc eq_refl).
    rewrite (residual_form e bc _ _ M GB E0 n), (residual_form e bc _ _ M GB E n), !(lap_lin _ n Hn).
    set (C := fun f => if Nat.eqb (fc f) n && Nat.eqb (fty f) 0
       then kappa_of e (fv f) * 2 / nth (fs f) (D3 m) 0 * nth (fs f) (dS3 m) 0 else 0).
    rewrite (sumR_ext (seq 0 7) (fun l => v n l * U (nb m n l)) (fun l => kernel_grad e dk (fun n _ => s1 n) n (fun _ => 0) l * U (nb m n l)
         + (if Nat.eqb l 0 then sumR (faces_from m 0 bc) C * U (nb m n l) else 0))).
    2:{ intros l _. rewrite (newton_form e dk _ bc _ v M GB Ev n l). unfold C. destruct (Nat.eqb l 0); ring. }
    rewrite sumR_add. rewrite (sumR_single (seq 0 7) 0%nat (fun l => if Nat.eqb l 0 then _ else 0)).
    2:apply seq_NoDup. 2:apply in_seq; lia. 2:{ intros x _ Hx. destruct (Nat.eqb_spec x 0); [contradiction|reflexivity]. }
    cbn [Nat.eqb]. rewrite (nb0 e n Hn).
    rewrite (sumR_zero (seq 0 7) (fun l => _ * 0)) by (intros; ring).
    rewrite <- (sumR_scal_r (faces_from m 0 bc) (U n)).
    match goal with |- _ + ?a - ?x = _ + 0 - ?y + (?a' + ?z) => enough (H : x + z = y) by (rewrite <- H; ring) end.
    rewrite <- sumR_add. apply sumR_ext. intros f Hf. destruct (faces_shape e bc GB f Hf) as (_ & Ht). unfold C, face_flux.
    destruct (Nat.eqb_spec (fc f) n) as [<- |]; cbn [andb]; [|ring].
    destruct (fty f) as [|[|ty]]; [| |lia]; cbn [Nat.eqb]; unfold Rdiv; ring.
  - unfold newton_values in Ev. inversion Ev; subst v. rewrite residual_none in E0, E. inversion E0; subst r0. inversion E; subst r.
    rewrite !(lap_lin _ n Hn). rewrite (sumR_zero (seq 0 7) (fun l => _ * 0)) by (intros; ring). ring.
Qed.

Lemma linear_solve_exact bc bicg r0 v : ok_mu e -> (forall l, bc = Some l -> good_bc m l) ->
  compute_residual e bc (fun _ => 0) = Ok r0 -> newton_values e dk (fun n _ => s1 n) bc (fun _ => 0) = Ok v ->
  (forall n, (n < cell_num m)%nat ->
     linearized_residual m v (bicg (linearized_residual m v) (fun n => - r0 n)) n = - r0 n) ->
  exists r, compute_residual e bc (solver_linear bicg m v r0) = Ok r /\ forall n, (n < cell_num m)%nat -> r n = 0.
Proof.
  intros M GB E0 Ev Hb.
  destruct (residual_total e bc (fun _ => 0) (solver_linear bicg m v r0) r0 E0) as (r & E). exists r. split; [assumption|].
  intros n Hn. rewrite (residual_affine bc _ r0 r v M GB E0 E Ev n Hn). unfold solver_linear.
  transitivity (r0 n + linearized_residual m v (bicg (linearized_residual m v) (fun n => - r0 n)) n).
  - f_equal. unfold linearized_residual. apply sumR_ext. intros l _. ring.
  - rewrite (Hb n Hn). ring.
Qed.
End Linear.

(** ** solver_nonlinear (C35) *)
Section Nl.
Variables (N : nat) (residual : fld -> fld) (step : fld -> fld -> fld) (tol relaxation : R) (max_it : nat).
Notation loop := (nl_loop N residual step tol relaxation max_it).

Lemma nl_loop_inv fuel : forall r0 dofs b it d b' it', (it <= max_it)%nat -> (max_it - it < fuel)%nat ->
  loop fuel r0 dofs b it = (d, b', it') -> (forall n, b n = - residual dofs n) ->
  (it <= it' <= max_it)%nat /\ (forall n, b' n = - residual d n) /\
  (it' = max_it \/ ratio_gt (norm2 N b') (Rabs r0) tol = false).
Proof.
  induction fuel as [|fuel IH]; intros r0 dofs b it d b' it' Hle Hf E Hb; [lia|]. cbn [nl_loop] in E.
  destruct (ratio_gt (norm2 N b) (Rabs r0) tol) eqn:Er; cbn [andb] in E.
  - destruct (Nat.ltb_spec it max_it).
    + apply IH in E; [|lia|lia|reflexivity]. destruct E as (? & ? & ?). split; [lia|]. auto.
    + inversion E; subst. split; [lia|]. split; [assumption|]. left. lia.
  - inversion E; subst. split; [lia|]. auto.
Qed.

Lemma norm2_nonneg b : 0 <= norm2 N b.
Proof. apply sqrt_pos. Qed.
Lemma norm2_ext b c : (forall n, (n < N)%nat -> b n = c n) -> norm2 N b = norm2 N c.
Proof. intros H. unfold norm2. f_equal. apply sumR_ext. intros n Hn. apply in_seq in Hn. rewrite H by lia. reflexivity. Qed.
Lemma norm2_opp b : norm2 N (fun n => - b n) = norm2 N b.
Proof. unfold norm2. f_equal. apply sumR_ext. intros. ring. Qed.
Lemma norm2_zero b : (forall n, (n < N)%nat -> b n = 0) -> norm2 N b = 0.
Proof.
  intros H. unfold norm2. rewrite sumR_zero; [apply sqrt_0|]. intros n Hn. apply in_seq in Hn. rewrite H by lia. ring.
Qed.
Lemma ratio_false x y : 0 <= x -> 0 <= y -> ratio_gt x y tol = false -> x <= tol * y \/ x = 0.
Proof.
  intros Hx Hy. unfold ratio_gt. destruct (Reqb y 0) eqn:E.
  - intros H. apply Rltb_false in H. right. lra.
  - intros H. apply Rltb_false in H. apply Reqb_false in E. left.
    apply (Rmult_le_compat_r y) in H; [|assumption]. unfold Rdiv in H. rewrite Rmult_assoc, Rinv_l in H by lra. lra.
Qed.


Lemma nonlinear_spec init d it : solver_nonlinear N residual step tol relaxation max_it init = (d, it) ->
  (it <= max_it)%nat /\
  ((it < max_it)%nat ->
     norm2 N (residual d) <= tol * norm2 N (residual (start init)) \/ norm2 N (residual d) = 0).
Proof.
  unfold solver_nonlinear. fold (start init). set (b := fun n => - residual (start init) n).
  destruct (loop (S max_it) (norm2 N b) (start init) b 0) as [[d' b'] it'] eqn:E. intros H; inversion H; subst d' it'.
  apply nl_loop_inv in E; [|lia|lia|reflexivity]. destruct E as (Hi & Hb & Hx). split; [lia|]. intros Hlt.
  destruct Hx as [->|Hx]; [lia|]. rewrite (Rabs_pos_eq _ (norm2_nonneg b)) in Hx.
  rewrite (norm2_ext b' (fun n => - residual d n)), norm2_opp in Hx by auto. unfold b in Hx. rewrite norm2_opp in Hx.
  apply ratio_false; auto using norm2_nonneg.
Qed.
Lemma nonlinear_converged init : 
  (forall n, (n < N)%nat -> residual (start init) n = 0) ->
  solver_nonlinear N residual step tol relaxation max_it init = (start init, 0%nat).
Proof.
  intros H. unfold solver_nonlinear. fold (start init). cbn [nl_loop].
  rewrite (norm2_zero (fun n => - residual (start init) n)) by (intros; rewrite H by assumption; ring).
  rewrite Rabs_R0. unfold ratio_gt. rewrite (proj2 (Reqb_true 0 0) eq_refl).
  replace (Rltb 0 0) with false by (symmetry; apply Rltb_false; lra). reflexivity.
Qed.
End Nl.

(** ** When the residual is defined; the energy equation (C36) *)
Lemma fluxes_len e U i bc : aligned (e_mesh e) i bc ->
  (forall ty vals, In (ty, vals) bc -> ty = 0%nat -> forall v, exists mu, bc_mu e v = Ok mu) ->
  exists x, fluxes e U i bc = Ok x /\ length x = length (faces_from (e_mesh e) i bc).
Proof.
  revert i. induction bc as [|[ty vals] r IH]; intros i A H; cbn [fluxes flux_side bind]; [exists []; auto|].
  destruct (IH (S i)) as (y & Ey & Ly); [now apply aligned_tail in A|intros; eapply H; [right; eassumption|assumption]|].
  destruct (A 0%nat ty vals eq_refl) as (Ht & Hl). rewrite Nat.add_0_r in Hl. rewrite Ey.
  cbn [faces_from]. rewrite app_length, map_length, combine_length, Hl, Nat.min_id.
  destruct ty as [|[|ty]]; [| |lia].
  - rewrite Nat.eqb_refl. specialize (H 0%nat vals (or_introl eq_refl) eq_refl).
    destruct vals as [|v0 vals0].
    + destruct (H 0) as (mu & ->). cbn [bind]. exists y. rewrite <- Hl. auto.
    + assert (K : exists x, mapM (fun vc => bind (bc_mu e (fst vc)) (fun mu =>
          Ok (mu * 2 * (fst vc - U (snd vc)) / nth i (D3 (e_mesh e)) 0 * nth i (dS3 (e_mesh e)) 0)))
          (combine (v0 :: vals0) (side_of (e_mesh e) i)) = Ok x /\ length x = length (combine (v0 :: vals0) (side_of (e_mesh e) i))).
      { generalize (combine (v0 :: vals0) (side_of (e_mesh e) i)). induction l as [|vc l IHl]; [exists []; auto|].
        destruct IHl as (x & Ex & Lx). cbn [mapM]. destruct (H (fst vc)) as (mu & ->). cbn [bind]. rewrite Ex. cbn [bind].
        eexists. split; [reflexivity|]. cbn. congruence. }
      destruct K as (x & -> & Lx). cbn [bind]. exists (x ++ y). split; [reflexivity|].
      rewrite app_length, Lx, combine_length, Hl, Nat.min_id. congruence.
  - cbn [bind]. eexists. split; [reflexivity|]. rewrite app_length, map_length. congruence.
Qed.
Lemma residual_defined e bc U : good_bc (e_mesh e) bc ->
  (forall ty vals, In (ty, vals) bc -> ty = 0%nat -> forall v, exists mu, bc_mu e v = Ok mu) ->
  exists r, compute_residual e (Some bc) U = Ok r.
Proof.
  intros G H. unfold compute_residual, apply_BC_to_residual.
  destruct (fluxes_len e U 0 bc (good_aligned _ _ G) H) as (x & -> & L). cbn [bind].
  rewrite L, <- (faces_cells _ _ G), map_length, Nat.eqb_refl. eauto.
Qed.
Lemma newton_defined e dk ds bc U : good_bc (e_mesh e) bc ->
  (forall ty vals, In (ty, vals) bc -> ty = 0%nat -> forall v, exists mu, bc_mu e v = Ok mu) ->
  exists v, newton_values e dk ds (Some bc) U = Ok v.
Proof.
  intros G H. unfold newton_values.
  enough (K : forall i, aligned (e_mesh e) i bc -> exists x, dirichlet_entries e i bc = Ok x)
    by (destruct (K 0%nat (good_aligned _ _ G)) as (x & ->); cbn [bind]; eauto).
  clear G. induction bc as [|[ty vals] r IH]; intros i A; cbn [dirichlet_entries]; [eauto|].
  destruct (IH (fun ty v I => H ty v (or_intror I)) (S i)) as (y & ->); [now apply aligned_tail in A|].
  destruct (A 0%nat ty vals eq_refl) as (Ht & Hl). rewrite Nat.add_0_r in Hl.
  destruct ty as [|ty]; [|cbn [bind]; eauto].
  rewrite Hl, Nat.eqb_refl. specialize (H 0%nat vals (or_introl eq_refl) eq_refl).
  destruct vals as [|v0 vals0]; [destruct (H 0) as (mu & ->); cbn [bind]; eauto|].
  assert (K : exists x, mapM (fun vc => bind (bc_mu e (fst vc)) (fun mu =>
      Ok (snd vc, mu * 2 / nth i (D3 (e_mesh e)) 0 * nth i (dS3 (e_mesh e)) 0)))
      (combine (v0 :: vals0) (side_of (e_mesh e) i)) = Ok x).
  { generalize (combine (v0 :: vals0) (side_of (e_mesh e) i)). induction l as [|vc l IHl]; [exists []; reflexivity|].
    destruct IHl as (x & Ex). cbn [mapM]. destruct (H (fst vc)) as (mu & ->). cbn [bind]. rewrite Ex. cbn [bind]. eauto. }
  destruct K as (x & ->). cbn [bind]. eauto.
Qed.

Lemma energy_eqn_ok a T0 conv Q : energy_eqn a T0 conv Q = Ok (mkEqn (a_mesh a) PyStr None (Some (a_k a)) (energy_src a T0 conv Q)).
Proof. reflexivity. Qed.

(** Any Dirichlet side of full length makes the energy equation fail. *)
Lemma fluxes_dirichlet e U i bc : bc_mu e = (fun _ => Err AttributeError) -> aligned (e_mesh e) i bc ->
  (exists vals, In (0%nat, vals) bc) -> fluxes e U i bc = Err AttributeError.
Proof.
  intros Hm. revert i. induction bc as [|[ty vals] r IH]; intros i A (w & I); [destruct I|]. cbn [fluxes flux_side].
  destruct (A 0%nat ty vals eq_refl) as (Ht & Hl). rewrite Nat.add_0_r in Hl.
  destruct ty as [|[|ty]]; [| |lia].
  - rewrite Hl, Nat.eqb_refl. destruct vals as [|v0 vals0]; [now rewrite Hm|].
    destruct (side_of (e_mesh e) i); [discriminate|]. cbn [combine mapM]. now rewrite Hm.
  - cbn [bind]. rewrite (IH (S i)); [reflexivity|now apply aligned_tail in A|]. exists w. destruct I as [I|I]; [inversion I|assumption].
Qed.
Lemma energy_dirichlet a T0 conv Q bc T : good_bc (a_mesh a) bc -> (exists vals, In (0%nat, vals) bc) ->
  energy_residual a T0 conv Q bc T = Err AttributeError.
Proof.
  intros G D. unfold energy_residual. rewrite energy_eqn_ok. cbn [bind]. unfold compute_residual, apply_BC_to_residual.
  rewrite fluxes_dirichlet; [reflexivity|reflexivity| |assumption]. cbn [e_mesh]. now apply good_aligned.
Qed.

(** ** Maximum principle (C78) *)
Section Max.
Variables (a : amargs) (T0 Q : fld) (bc : bclist) (T r : fld).
Hypothesis W : good_mesh (a_mesh a).
Hypothesis Pk : forall x, 0 < a_k a x.
Hypothesis Pc : forall x, 0 < cp_fn a x.
Hypothesis Pr : 0 < a_rho a.
Hypothesis Pd : 0 < a_dt a.
Hypothesis GB : good_bc (a_mesh a) bc.
Hypothesis Er : energy_residual a T0 (fun _ => 0) Q bc T = Ok r.
Hypothesis Zr : forall n, (n < cell_num (a_mesh a))%nat -> r n = 0.
Let e := mkEqn (a_mesh a) PyStr None (Some (a_k a)) (energy_src a T0 (fun _ => 0) Q).

Lemma energy_face_mu p q : 0 <= face_mu e p q.
Proof.
  unfold face_mu, harmonic. cbn [e_mufn e]. pose proof (Pk p). pose proof (Pk q).
  apply Rlt_le, Rdiv_lt_0_compat; [|lra]. apply Rmult_lt_0_compat; [lra|assumption].
Qed.
Lemma flux_sum_sign n (P : R -> Prop) : all_flux P bc -> (P = Rle 0 \/ P = (fun v => v <= 0)) ->
  P (sumR (faces_from (a_mesh a) 0 bc) (fun f => if Nat.eqb (fc f) n then face_flux e T f else 0)).
Proof.
  intros AF HP.
  assert (K : forall f, In f (faces_from (a_mesh a) 0 bc) -> P (if Nat.eqb (fc f) n then face_flux e T f else 0)).
  { intros f Hf.
    assert (Q' : forall i l, (forall ty vals, In (ty, vals) l -> ty = 1%nat /\ forall v, In v vals -> P v) ->
       In f (faces_from (a_mesh a) i l) -> fty f = 1%nat /\ P (fv f)).
    { intros i l; revert i; induction l as [|[ty vals] l IH]; intros i AL Hl; [destruct Hl|]. cbn [faces_from] in Hl.
      apply in_app_iff in Hl as [Hl|Hl].
      - apply in_map_iff in Hl as ([v c] & <- & Hv). cbn [fty fv fst snd]. apply in_combine_l in Hv.
        destruct (AL ty vals (or_introl eq_refl)) as (-> & Hp). auto.
      - apply (IH (S i)); [|assumption]. intros ty' v' I. apply (AL ty' v'). now right. }
    destruct (Q' 0%nat bc AF Hf) as (Ht & Hv). unfold face_flux. rewrite Ht.
    pose proof (Rabs_pos (nth (fs f) (dS3 (e_mesh e)) 0)).
    destruct (Nat.eqb (fc f) n); destruct HP as [-> | ->]; try lra; cbn beta in *; nra. }
  destruct HP as [-> | ->].
  - apply sumR_nonneg. exact K.
  - apply Rle_trans with (sumR (faces_from (a_mesh a) 0 bc) (fun _ => 0)); [apply sumR_le; exact K|].
    rewrite sumR_zero by reflexivity. lra.
Qed.
Lemma energy_cell n : (n < cell_num (a_mesh a))%nat ->
  a_rho a * (T n - T0 n) * cp_fn a (T0 n) / a_dt a * dV (a_mesh a) =
  laplace e T n + Q n * dV (a_mesh a) +
  sumR (faces_from (a_mesh a) 0 bc) (fun f => if Nat.eqb (fc f) n then face_flux e T f else 0).
Proof.
  intros Hn. unfold energy_residual in Er. rewrite energy_eqn_ok in Er. cbn [bind] in Er. fold e in Er.
  pose proof (residual_form e bc T r (ok_mu_nonlinear e (a_k a) eq_refl eq_refl) GB Er n) as F.
  rewrite (Zr n Hn) in F. cbn [e_src e_mesh e] in F. fold e in F. unfold energy_src in F. lra.
Qed.
Lemma energy_max M : all_flux (fun v => v <= 0) bc -> (forall n, (n < cell_num (a_mesh a))%nat -> Q n <= 0) ->
  (forall n, (n < cell_num (a_mesh a))%nat -> T0 n <= M) -> forall n, (n < cell_num (a_mesh a))%nat -> T n <= M.
Proof.
  intros AF HQ HM n Hn. destruct (argmax_ex (cell_num (a_mesh a)) T) as (p & Hp & Hmax); [lia|].
  apply Rle_trans with (T p); [now apply Hmax|].
  apply Rle_trans with (T0 p); [|now apply HM].
  pose proof (energy_cell p Hp) as E. pose proof (lap_at_max e W T p Hp energy_face_mu Hmax) as L.
  pose proof (flux_sum_sign p _ AF (or_intror eq_refl)) as S. cbn beta in S.
  pose proof (dV_pos e W) as V. cbn [e_mesh e] in V. specialize (HQ p Hp). specialize (Pc (T0 p)).
  destruct (Rle_or_lt (T p) (T0 p)) as [|Hgt]; [assumption|exfalso].
  assert (0 < a_rho a * (T p - T0 p) * cp_fn a (T0 p) / a_dt a * dV (a_mesh a)).
  { apply Rmult_lt_0_compat; [|assumption]. apply Rdiv_lt_0_compat; [|assumption].
    apply Rmult_lt_0_compat; [|assumption]. apply Rmult_lt_0_compat; lra. }
  assert (Q p * dV (a_mesh a) <= 0) by nra. lra.
Qed.
Lemma energy_min M : all_flux (Rle 0) bc -> (forall n, (n < cell_num (a_mesh a))%nat -> 0 <= Q n) ->
  (forall n, (n < cell_num (a_mesh a))%nat -> M <= T0 n) -> forall n, (n < cell_num (a_mesh a))%nat -> M <= T n.
Proof.
  intros AF HQ HM n Hn. destruct (argmax_ex (cell_num (a_mesh a)) (fun i => - T i)) as (p & Hp & Hmax); [lia|].
  apply Rle_trans with (T p); [|specialize (Hmax n Hn); lra].
  apply Rle_trans with (T0 p); [now apply HM|].
  assert (Hmin : forall i, (i < cell_num (a_mesh a))%nat -> T p <= T i) by (intros i Hi; specialize (Hmax i Hi); lra).
  pose proof (energy_cell p Hp) as E. pose proof (lap_at_min e W T p Hp energy_face_mu Hmin) as L.
  pose proof (flux_sum_sign p _ AF (or_introl eq_refl)) as S. cbn beta in S.
  pose proof (dV_pos e W) as V. cbn [e_mesh e] in V. specialize (HQ p Hp). specialize (Pc (T0 p)).
  destruct (Rle_or_lt (T0 p) (T p)) as [|Hgt]; [assumption|exfalso].
  assert (0 < a_rho a * (T0 p - T p) * cp_fn a (T0 p) / a_dt a * dV (a_mesh a)).
  { apply Rmult_lt_0_compat; [|assumption]. apply Rdiv_lt_0_compat; [|assumption].
    apply Rmult_lt_0_compat; [|assumption]. apply Rmult_lt_0_compat; lra. }
  assert (0 <= Q p * dV (a_mesh a)) by nra.
  assert (a_rho a * (T0 p - T p) * cp_fn a (T0 p) / a_dt a * dV (a_mesh a) = - (a_rho a * (T p - T0 p) * cp_fn a (T0 p) / a_dt a * dV (a_mesh a)))
    by (unfold Rdiv; ring). lra.
Qed.
End Max.

(** ** The moving window (C31) *)
Lemma Int_part_cell x c : IZR c <= x < IZR c + 1 -> Int_part x = c.
Proof.
  intros (H1 & H2). pose proof (base_Int_part x) as (B1 & B2).
  assert (IZR (Int_part x) < IZR (c + 1)) by (rewrite plus_IZR; lra).
  assert (IZR c < IZR (Int_part x + 1)) by (rewrite plus_IZR; lra).
  apply lt_IZR in H. apply lt_IZR in H0. lia.
Qed.
Lemma py_round_range x : (Int_part x <= py_round x <= Int_part x + 1)%Z.
Proof. unfold py_round. destruct (Rltb (x - _) _); [lia|]. destruct (Rltb _ (x - _)); [lia|]. destruct (Z.even _); lia. Qed.
Lemma py_round_half n : (2 <= n)%nat -> (1 <= py_round (INR n / 2) <= Z.of_nat n - 1)%Z.
Proof.
  intros Hn. set (q := (n / 2)%nat). assert (Hq : n = (2 * q + n mod 2)%nat) by (apply Nat.div_mod; lia).
  assert (Hm : (n mod 2 < 2)%nat) by (apply Nat.mod_upper_bound; lia).
  set (b := (n mod 2)%nat) in *. clearbody q b. subst n.
  rewrite plus_INR, mult_INR. change (INR 2) with 2.
  assert (C : Int_part ((2 * INR q + INR b) / 2) = Z.of_nat q).
  { apply Int_part_cell. rewrite <- INR_IZR_INZ. assert (0 <= INR b) by apply pos_INR.
    assert (INR b <= 1) by (change 1 with (INR 1); apply le_INR; lia). lra. }
  destruct b as [|[|b]]; [| |lia].
  - unfold py_round. rewrite C, <- INR_IZR_INZ. cbn [INR].
    replace ((2 * INR q + 0) / 2 - INR q) with 0 by field.
    rewrite (proj2 (Rltb_true 0 (1 / 2))) by lra. lia.
  - pose proof (py_round_range ((2 * INR q + INR 1) / 2)) as R. rewrite C in R. lia.
Qed.

Lemma box_axis_size x dx n nloc : (nloc <= n)%nat -> let '(lo, hi) := box_axis x dx n nloc in
  (hi - lo = Z.of_nat nloc /\ 0 <= lo /\ hi <= Z.of_nat n)%Z.
Proof. intros H. unfold box_axis, clipZ. lia. Qed.
Lemma box_axis_contains x dx n nloc c : 0 < dx -> (2 <= nloc <= n)%nat -> (c < n)%nat ->
  INR c * dx <= x < (INR c + 1) * dx -> let '(lo, hi) := box_axis x dx n nloc in
  (lo <= Z.of_nat c < hi)%Z.
Proof.
  intros Hdx Hn Hc (H1 & H2). unfold box_axis.
  assert (C : Int_part (x / dx) = Z.of_nat c).
  { apply Int_part_cell. rewrite <- INR_IZR_INZ. split.
    - apply (Rmult_le_reg_r dx); [assumption|]. unfold Rdiv. rewrite Rmult_assoc, Rinv_l by lra. lra.
    - apply (Rmult_lt_reg_r dx); [assumption|]. unfold Rdiv. rewrite Rmult_assoc, Rinv_l by lra. lra. }
  pose proof (py_round_range (x / dx)) as R. rewrite C in R. pose proof (py_round_half nloc ltac:(lia)) as Hh.
  unfold clipZ. lia.
Qed.
Lemma box_axis_one_misses : exists x, let '(lo, hi) := box_axis x 1 3 1 in
  0 <= x < 1 /\ (lo = 1 /\ hi = 2)%Z.
Proof.
  exists (3 / 4). unfold box_axis.
  assert (C : Int_part (3 / 4 / 1) = 0%Z) by (apply Int_part_cell; cbn; lra).
  assert (C' : Int_part (INR 1 / 2) = 0%Z) by (apply Int_part_cell; cbn; lra).
  assert (R1 : py_round (3 / 4 / 1) = 1%Z).
  { unfold py_round. rewrite C. replace (3 / 4 / 1 - 0) with (3 / 4) by field.
    rewrite (proj2 (Rltb_false (3 / 4) (1 / 2))), (proj2 (Rltb_true (1 / 2) (3 / 4))) by lra. reflexivity. }
  assert (R2 : py_round (INR 1 / 2) = 0%Z).
  { unfold py_round. rewrite C'. cbn [INR]. replace (1 / 2 - 0) with (1 / 2) by field.
    rewrite !(proj2 (Rltb_false (1 / 2) (1 / 2))) by lra. reflexivity. }
  rewrite R1, R2. cbn. split; [lra|]. lia.
Qed.

(** ** Frame, clock and melted fraction (C32, C79) *)
Lemma clip_bounds lo hi x : lo <= hi -> lo <= clipR x lo hi <= hi.
Proof.
  intros H. unfold clipR. split; [|apply Rmin_r]. apply Rmin_glb; [apply Rmax_r|assumption].
Qed.
Lemma fluid_frac_range a T : a_Ts a < a_Tl a -> 0 <= fluid_frac a T <= 1.
Proof.
  intros H. unfold fluid_frac. pose proof (clip_bounds (a_Ts a) (a_Tl a) T ltac:(lra)) as (H1 & H2).
  assert (0 < / (a_Tl a - a_Ts a)) by (apply Rinv_0_lt_compat; lra). unfold Rdiv. split; [nra|].
  apply (Rmult_le_reg_r (a_Tl a - a_Ts a)); [lra|]. rewrite Rmult_assoc, Rinv_l by lra. lra.
Qed.
Lemma paste_outside w f v i j k : outside w i j k -> paste w f v i j k = f i j k.
Proof.
  destruct w as [[x y] z]. unfold outside, paste, inb. intros H.
  destruct (Nat.leb_spec (fst x) i), (Nat.ltb_spec i (snd x)), (Nat.leb_spec (fst y) j), (Nat.ltb_spec j (snd y)),
    (Nat.leb_spec (fst z) k), (Nat.ltb_spec k (snd z)); cbn [andb]; try reflexivity. exfalso. apply H. lia.
Qed.
Lemma paste_inside w f v i j k : ~ outside w i j k ->
  paste w f v i j k = let '(x, y, z) := w in v (i - fst x)%nat (j - fst y)%nat (k - fst z)%nat.
Proof.
  destruct w as [[x y] z]. unfold outside, paste, inb. intros H.
  destruct (Nat.leb_spec (fst x) i), (Nat.ltb_spec i (snd x)), (Nat.leb_spec (fst y) j), (Nat.ltb_spec j (snd y)),
    (Nat.leb_spec (fst z) k), (Nat.ltb_spec k (snd z)); cbn [andb]; try reflexivity; exfalso; apply H; lia.
Qed.

Section Drive.
Variables (a : amargs) (update_T : arr -> arr -> arr -> R -> arr)
  (solve_v : nat -> fld -> fld -> fld -> fld -> bclist -> fld) (solve_p : fld -> fld).
Notation step := (time_integration a update_T solve_v solve_p).
Notation runs := (run a update_T solve_v solve_p).

Lemma step_spec s s' : step s = Ok s' ->
  s_t s' = s_t s + a_dt a /\
  (forall i j k, s_solidID s' i j k = Rmax (s_solidID s i j k) (fluid_frac a (s_T s' i j k))) /\
  (forall i j k, outside (window_at a (s_t s)) i j k ->
     (forall c, s_vel s' c i j k = s_vel s c i j k) /\ (forall c, s_gradp s' c i j k = s_gradp s c i j k) /\
     (forall c, s_conv s' c i j k = s_conv s c i j k) /\ s_convT s' i j k = s_convT s i j k).
Proof.
  unfold time_integration. destruct (if Nat.eqb (a_heat_source a) 1 then _ else _) as [Q|]; cbn [bind]; [|discriminate].
  set (w := window_at a (s_t s)). destruct (vel_update _ _ _ _ _ _ _ _) as [[vel B] gradp].
  destruct (update_convective_terms _ _ _ _) as [convT conv]. intros E. inversion E; subst s'. cbn.
  split; [reflexivity|]. split; [reflexivity|]. intros i j k Ho. repeat split; intros; now rewrite paste_outside.
Qed.

Lemma run_clock n : forall s s', runs n s = Ok s' -> s_t s' = s_t s + INR n * a_dt a.
Proof.
  induction n as [|n IH]; intros s s' E.
  - inversion E. cbn. ring.
  - cbn [run] in E. destruct (runs n s) as [s1|] eqn:E1; cbn [bind] in E; [|discriminate].
    destruct (step_spec _ _ E) as (-> & _). rewrite (IH _ _ E1), S_INR. ring.
Qed.
Lemma run_S n s s' : runs (S n) s = Ok s' -> exists s1, runs n s = Ok s1 /\ step s1 = Ok s'.
Proof. cbn [run]. destruct (runs n s) as [s1|]; cbn [bind]; [eauto|discriminate]. Qed.

(** The melted fraction after n steps is the largest fraction seen. *)
Lemma run_solid n : forall s s', runs n s = Ok s' -> forall i j k,
  s_solidID s i j k <= s_solidID s' i j k /\
  (forall p sp, (1 <= p <= n)%nat -> runs p s = Ok sp -> fluid_frac a (s_T sp i j k) <= s_solidID s' i j k) /\
  (s_solidID s' i j k = s_solidID s i j k \/
   exists p sp, (1 <= p <= n)%nat /\ runs p s = Ok sp /\ s_solidID s' i j k = fluid_frac a (s_T sp i j k)).
Proof.
  induction n as [|n IH]; intros s s' E i j k.
  - inversion E; subst. split; [lra|]. split; [intros; lia|]. now left.
  - destruct (run_S _ _ _ E) as (s1 & E1 & E2). destruct (step_spec _ _ E2) as (_ & Hs & _).
    destruct (IH _ _ E1 i j k) as (H1 & H2 & H3). rewrite Hs. split; [eapply Rle_trans; [exact H1|apply Rmax_l]|]. split.
    + intros p sp Hp Ep. destruct (Nat.eq_dec p (S n)) as [->|Hne].
      * rewrite E in Ep. inversion Ep; subst. apply Rmax_r.
      * eapply Rle_trans; [apply (H2 p sp); [lia|exact Ep]|apply Rmax_l].
    + destruct (Rle_or_lt (fluid_frac a (s_T s' i j k)) (s_solidID s1 i j k)) as [Hle|Hgt].
      * rewrite Rmax_left by assumption. destruct H3 as [H3|(p & sp & Hp & Ep & H3)]; [now left|].
        right. exists p, sp. split; [lia|]. auto.
      * rewrite Rmax_right by lra. right. exists (S n), s'. split; [lia|]. auto.
Qed.

Lemma run_frozen n : forall s s', runs n s = Ok s' -> forall i j k,
  (forall p, (p < n)%nat -> outside (window_at a (s_t s + INR p * a_dt a)) i j k) ->
  (forall c, s_vel s' c i j k = s_vel s c i j k) /\ (forall c, s_gradp s' c i j k = s_gradp s c i j k) /\
  (forall c, s_conv s' c i j k = s_conv s c i j k) /\ s_convT s' i j k = s_convT s i j k.
Proof.
  induction n as [|n IH]; intros s s' E i j k Ho.
  - inversion E; subst. auto.
  - destruct (run_S _ _ _ E) as (s1 & E1 & E2). destruct (step_spec _ _ E2) as (_ & _ & Hf).
    destruct (IH _ _ E1 i j k) as (H1 & H2 & H3 & H4); [intros; apply Ho; lia|].
    specialize (Hf i j k). rewrite (run_clock _ _ _ E1) in Hf. destruct (Hf (Ho n ltac:(lia))) as (F1 & F2 & F3 & F4).
    split; [|split; [|split]]; intros; congruence.
Qed.

(** ** The body heat source with the laser off (C76) *)
Lemma body_off s : a_heat_source a = 1%nat -> a_tOFF a <= s_t s -> step s = Err ZeroDivisionError.
Proof.
  intros Hh Ht. unfold time_integration. rewrite Hh. cbn [Nat.eqb]. unfold body_heat_source, toolpath.
  destruct (a_X0 a) as [[x y] z].
  replace (Rltb (s_t s) (a_tOFF a)) with false by (symmetry; apply Rltb_false; lra). cbn [b2R].
  destruct (Reqb (a_speed a) 0) eqn:E1; [reflexivity|]. destruct (Reqb (a_rb a ^ 2) 0) eqn:E2; [reflexivity|].
  assert (Z : a_phi a * (a_P a * 0) / a_speed a / a_rb a ^ 2 = 0) by (unfold Rdiv; ring). rewrite Z.
  rewrite (proj2 (Reqb_true 0 0) eq_refl). reflexivity.
Qed.
Lemma run_body_off n s : a_heat_source a = 1%nat -> a_tOFF a <= s_t s + INR n * a_dt a ->
  forall s', runs (S n) s <> Ok s'.
Proof.
  intros Hh Ht s' E. destruct (run_S _ _ _ E) as (s1 & E1 & E2).
  rewrite body_off in E2; [discriminate|assumption|]. now rewrite (run_clock _ _ _ E1).
Qed.
End Drive.
