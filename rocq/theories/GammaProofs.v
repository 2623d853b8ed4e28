(** * Proofs about the finite-difference heat solver *)
From Verif Require Import Prelude PreludeFacts GammaModel GammaSpec.
From Coq Require Import Lra Psatz ZifyBool ZifyNat.
Open Scope R_scope.

Lemma inner_true n i : inner n i = true <-> (1 <= i < n - 1)%nat.
Proof. unfold inner. rewrite andb_true_iff, !Nat.leb_le. lia. Qed.

Lemma clip_bounds x lo hi : lo <= hi -> lo <= clipR x lo hi <= hi.
Proof. intros. unfold clipR, Rmin, Rmax. destruct (Rle_dec x lo); destruct (Rle_dec _ hi); lra. Qed.

Lemma fl_unit a T : g_Ts a < g_Tl a -> 0 <= mat_fl a T <= 1.
Proof.
  intros H. unfold mat_fl. pose proof (clip_bounds T (g_Ts a) (g_Tl a) ltac:(lra)) as B.
  split.
  - apply Rmult_le_pos; [lra|]. left. apply Rinv_0_lt_compat. lra.
  - apply Rmult_le_reg_r with (g_Tl a - g_Ts a); [lra|]. field_simplify; lra.
Qed.

Lemma k_bounds a T : gphys a -> k_min <= mat_k a T <= k_max a.
Proof.
  intros G. unfold mat_k, k_min, k_max. pose proof (clip_bounds T 300 (g_Tl a) (gp_Tl a G)). lra.
Qed.
Lemma k_min_pos : 0 < k_min. Proof. unfold k_min. lra. Qed.
Lemma cp_min_pos : 0 < cp_min. Proof. unfold cp_min. lra. Qed.

Lemma cp_lower a T : gphys a -> cp_min <= mat_cp a T.
Proof.
  intros G. unfold mat_cp, cp_min. pose proof (clip_bounds T 300 (g_Tl a) (gp_Tl a G)).
  assert (0 <= b2R (Rltb 0 (mat_fl a T)) * b2R (Rltb (mat_fl a T) 1) * g_L a).
  { apply Rmult_le_pos; [|apply (gp_L a G)].
    destruct (Rltb 0 (mat_fl a T)); destruct (Rltb (mat_fl a T) 1); cbn; lra. }
  lra.
Qed.

(** ** The values written by BC_thermal *)
Section BC.
Variables (a : gargs) (n1 n2 n3 : nat) (dx dy dz : R) (xs ys : nat -> nat -> R) (xl yl P : R) (T k : garr).
Notation BC := (BC_thermal a n1 n2 n3 dx dy dz xs ys xl yl P T k).

Lemma bc_interior i j l : interior n1 n2 n3 i j l -> BC i j l = T i j l.
Proof.
  intros (Hi & Hj & Hl). unfold BC_thermal.
  repeat (match goal with |- context [if ?b then _ else _] => destruct b eqn:?E end;
    [exfalso; rewrite ?andb_true_iff, ?inner_true, ?Nat.eqb_eq in *; lia|]).
  reflexivity.
Qed.

Lemma bc_other i j l : in_range n1 n2 n3 i j l -> ~ interior n1 n2 n3 i j l -> ~ on_face n1 n2 n3 i j l -> BC i j l = T i j l.
Proof.
  intros (Hi & Hj & Hl) NI NF. unfold BC_thermal, interior, on_face, in_range in *.
  repeat (match goal with |- context [if ?b then _ else _] => destruct b eqn:?E end;
    [exfalso; rewrite ?andb_true_iff, ?inner_true, ?Nat.eqb_eq in *; lia|]).
  reflexivity.
Qed.

Ltac kill := exfalso; rewrite ?andb_true_iff, ?inner_true, ?Nat.eqb_eq in *; lia.
Ltac hit := match goal with |- context [if ?b then _ else _] =>
  first [ replace b with true by (symmetry; rewrite ?andb_true_iff, ?inner_true, ?Nat.eqb_eq; lia)
        | replace b with false by (symmetry; rewrite ?andb_false_iff, <- ?not_true_iff_false, ?inner_true, ?Nat.eqb_eq; lia) ] end.

Lemma inner_false n i : ~ (1 <= i < n - 1)%nat -> inner n i = false.
Proof. intros H. apply not_true_iff_false. now rewrite inner_true. Qed.
Lemma inner_t n i : (1 <= i < n - 1)%nat -> inner n i = true.
Proof. apply inner_true. Qed.
Lemma eqb_f u v : u <> v -> Nat.eqb u v = false. Proof. apply Nat.eqb_neq. Qed.
Lemma eqb_t u v : u = v -> Nat.eqb u v = true. Proof. apply Nat.eqb_eq. Qed.

Ltac simp := unfold BC_thermal;
  repeat first [ rewrite (inner_t _ _) by lia | rewrite (inner_false _ _) by lia
               | rewrite (eqb_f _ _) by lia | rewrite (eqb_t _ _) by lia
               | progress cbn [andb] ].

Lemma bc_x0 j l : (3 <= n1)%nat -> (1 <= j < n2 - 1)%nat -> (1 <= l < n3 - 1)%nat ->
  BC 0%nat j l = T 1%nat j l + q_neg a ((T 1%nat j l + T 0%nat j l) / 2) / k 1%nat j l * dx.
Proof. intros. simp. reflexivity. Qed.
Lemma bc_x1 j l : (3 <= n1)%nat -> (1 <= j < n2 - 1)%nat -> (1 <= l < n3 - 1)%nat ->
  BC (n1 - 1)%nat j l = T (n1 - 2)%nat j l - loss a ((T (n1 - 2)%nat j l + T (n1 - 1)%nat j l) / 2) / k (n1 - 2)%nat j l * dx.
Proof. intros. simp. reflexivity. Qed.
Lemma bc_y0 i l : (3 <= n2)%nat -> (1 <= i < n1 - 1)%nat -> (1 <= l < n3 - 1)%nat ->
  BC i 0%nat l = T i 1%nat l + q_neg a ((T i 1%nat l + T i 0%nat l) / 2) / k i 1%nat l * dy.
Proof. intros. simp. reflexivity. Qed.
Lemma bc_y1 i l : (3 <= n2)%nat -> (1 <= i < n1 - 1)%nat -> (1 <= l < n3 - 1)%nat ->
  BC i (n2 - 1)%nat l = T i (n2 - 2)%nat l - loss a ((T i (n2 - 2)%nat l + T i (n2 - 1)%nat l) / 2) / k i (n2 - 2)%nat l * dy.
Proof. intros. simp. reflexivity. Qed.
Lemma bc_z0 i j : (3 <= n3)%nat -> (1 <= i < n1 - 1)%nat -> (1 <= j < n2 - 1)%nat ->
  BC i j 0%nat = T i j 1%nat + q_neg a ((T i j 1%nat + T i j 0%nat) / 2) / k i j 1%nat * dz.
Proof. intros. simp. reflexivity. Qed.
Lemma bc_z1 i j : (3 <= n3)%nat -> (1 <= i < n1 - 1)%nat -> (1 <= j < n2 - 1)%nat ->
  BC i j (n3 - 1)%nat = T i j (n3 - 2)%nat
    - (loss a ((T i j (n3 - 2)%nat + T i j (n3 - 1)%nat) / 2) - laser a P xl yl (xs (i - 1)%nat (j - 1)%nat) (ys (i - 1)%nat (j - 1)%nat))
      / k i j (n3 - 2)%nat * dz.
Proof. intros. simp. reflexivity. Qed.
End BC.

(** ** Ambient equilibrium *)
Section Upd.
Variables (a : gargs) (n1 n2 n3 : nat) (dx dy dz dt : R) (xs ys : nat -> nat -> R).

Lemma loss_ambient : loss a ((g_T0 a + g_T0 a) / 2) = 0.
Proof. unfold loss. replace ((g_T0 a + g_T0 a) / 2) with (g_T0 a) by field. ring. Qed.
Lemma qneg_ambient : q_neg a ((g_T0 a + g_T0 a) / 2) = 0.
Proof. unfold q_neg. replace ((g_T0 a + g_T0 a) / 2) with (g_T0 a) by field. ring. Qed.
Lemma laser_off xl yl x y : laser a 0 xl yl x y = 0.
Proof. unfold laser, Rdiv. ring. Qed.


Hypothesis N1 : (3 <= n1)%nat.
Hypothesis N2 : (3 <= n2)%nat.
Hypothesis N3 : (3 <= n3)%nat.

(** A predicate on values holds of the whole field after BC_thermal. *)
Lemma bc_ind xl yl P T k (Q : R -> Prop) :
  (forall i j l, in_range n1 n2 n3 i j l -> Q (T i j l)) ->
  (forall j l, (1 <= j < n2 - 1)%nat -> (1 <= l < n3 - 1)%nat ->
     Q (T 1%nat j l + q_neg a ((T 1%nat j l + T 0%nat j l) / 2) / k 1%nat j l * dx)) ->
  (forall j l, (1 <= j < n2 - 1)%nat -> (1 <= l < n3 - 1)%nat ->
     Q (T (n1 - 2)%nat j l - loss a ((T (n1 - 2)%nat j l + T (n1 - 1)%nat j l) / 2) / k (n1 - 2)%nat j l * dx)) ->
  (forall i l, (1 <= i < n1 - 1)%nat -> (1 <= l < n3 - 1)%nat ->
     Q (T i 1%nat l + q_neg a ((T i 1%nat l + T i 0%nat l) / 2) / k i 1%nat l * dy)) ->
  (forall i l, (1 <= i < n1 - 1)%nat -> (1 <= l < n3 - 1)%nat ->
     Q (T i (n2 - 2)%nat l - loss a ((T i (n2 - 2)%nat l + T i (n2 - 1)%nat l) / 2) / k i (n2 - 2)%nat l * dy)) ->
  (forall i j, (1 <= i < n1 - 1)%nat -> (1 <= j < n2 - 1)%nat ->
     Q (T i j 1%nat + q_neg a ((T i j 1%nat + T i j 0%nat) / 2) / k i j 1%nat * dz)) ->
  (forall i j, (1 <= i < n1 - 1)%nat -> (1 <= j < n2 - 1)%nat ->
     Q (T i j (n3 - 2)%nat
        - (loss a ((T i j (n3 - 2)%nat + T i j (n3 - 1)%nat) / 2) - laser a P xl yl (xs (i - 1)%nat (j - 1)%nat) (ys (i - 1)%nat (j - 1)%nat))
          / k i j (n3 - 2)%nat * dz)) ->
  forall i j l, in_range n1 n2 n3 i j l -> Q (BC_thermal a n1 n2 n3 dx dy dz xs ys xl yl P T k i j l).
Proof.
  intros H0 H1 H2 H3 H4 H5 H6 i j l I. pose proof I as (Hi & Hj & Hl).
  assert (D : (i = 0 \/ i = n1 - 1 \/ 1 <= i < n1 - 1)%nat) by lia.
  assert (E : (j = 0 \/ j = n2 - 1 \/ 1 <= j < n2 - 1)%nat) by lia.
  assert (F : (l = 0 \/ l = n3 - 1 \/ 1 <= l < n3 - 1)%nat) by lia.
  assert (O : ~ on_face n1 n2 n3 i j l -> Q (BC_thermal a n1 n2 n3 dx dy dz xs ys xl yl P T k i j l)).
  { intros NF. destruct (Nat.eq_dec 0 0); [|lia].
    destruct (inner n1 i && inner n2 j && inner n3 l) eqn:B.
    - rewrite !andb_true_iff, !inner_true in B. rewrite bc_interior by (unfold interior; tauto). auto.
    - rewrite bc_other; auto. unfold interior. rewrite <- !inner_true. intros (B1 & B2 & B3). now rewrite B1, B2, B3 in B. }
  destruct D as [-> | [-> | D]]; destruct E as [-> | [-> | E]]; destruct F as [-> | [-> | F]];
    first [ rewrite bc_x0 by lia; now auto | rewrite bc_x1 by lia; now auto
          | rewrite bc_y0 by lia; now auto | rewrite bc_y1 by lia; now auto
          | rewrite bc_z0 by lia; now auto | rewrite bc_z1 by lia; now auto
          | apply O; unfold on_face; lia ].
Qed.

Lemma ambient_step xl yl T : (forall i j l, in_range n1 n2 n3 i j l -> T i j l = g_T0 a) ->
  forall i j l, in_range n1 n2 n3 i j l -> update_T a n1 n2 n3 dx dy dz dt xs ys xl yl 0 T i j l = g_T0 a.
Proof.
  intros H.
  assert (B : forall i j l, in_range n1 n2 n3 i j l ->
    BC_thermal a n1 n2 n3 dx dy dz xs ys xl yl 0 T (fun i j k => mat_k a (T i j k)) i j l = g_T0 a).
  { apply (bc_ind xl yl 0 T _ (fun x => x = g_T0 a)); auto; intros;
      rewrite !H by (unfold in_range; lia); rewrite ?qneg_ambient, ?loss_ambient, ?laser_off; unfold Rdiv; ring. }
  intros i j l I. unfold update_T, update_mat.
  destruct (inner n1 i && inner n2 j && inner n3 l) eqn:E; [|auto].
  rewrite !andb_true_iff, !inner_true in E. destruct I as (Hi & Hj & Hl).
  unfold laplace, second. rewrite !B by (unfold in_range; lia). unfold Rdiv. ring.
Qed.

Lemma ambient_run path T : (forall s, In s path -> snd s = 0) ->
  (forall i j l, in_range n1 n2 n3 i j l -> T i j l = g_T0 a) ->
  forall i j l, in_range n1 n2 n3 i j l -> gamma_run a n1 n2 n3 dx dy dz dt xs ys path T i j l = g_T0 a.
Proof.
  revert T. induction path as [|[[x y] P] r IH]; intros T HP H; cbn [gamma_run]; [exact H|].
  apply IH; [intros s Hs; apply HP; now right|]. pose proof (HP (x, y, P) (or_introl eq_refl)) as E. cbn in E. subst P. now apply ambient_step.
Qed.

(** ** Maximum principle *)
Hypothesis G : gphys a.
Hypothesis ST : stable_step a dx dy dz dt.

Definition coef (T : garr) i j l : R := dt * (mat_k a (T i j l) / g_rho a / mat_cp a (T i j l)).
Lemma coef_bound T i j l : 0 <= coef T i j l /\ coef T i j l * (2 / dx ^ 2 + 2 / dy ^ 2 + 2 / dz ^ 2) <= 1.
Proof.
  destruct ST as (X & Y & Z & Dt & B). unfold coef.
  pose proof (k_bounds a (T i j l) G) as K. pose proof (cp_lower a (T i j l) G) as Cp.
  pose proof k_min_pos. pose proof cp_min_pos. pose proof (gp_rho a G).
  assert (W : 0 < 2 / dx ^ 2 + 2 / dy ^ 2 + 2 / dz ^ 2).
  { assert (forall d, 0 < d -> 0 < 2 / d ^ 2). { intros. apply Rdiv_lt_0_compat; [lra|]. apply pow_lt; lra. }
    pose proof (H2 _ X). pose proof (H2 _ Y). pose proof (H2 _ Z). lra. }
  assert (Q : 0 <= mat_k a (T i j l) / g_rho a / mat_cp a (T i j l) <= k_max a / (g_rho a * cp_min)).
  { replace (mat_k a (T i j l) / g_rho a / mat_cp a (T i j l)) with (mat_k a (T i j l) / (g_rho a * mat_cp a (T i j l))) by (field; lra).
    split.
    - left. apply Rdiv_lt_0_compat; [lra|]. apply Rmult_lt_0_compat; lra.
    - apply Rmult_le_compat; [lra| |lra|].
      + left. apply Rinv_0_lt_compat. apply Rmult_lt_0_compat; lra.
      + apply Rinv_le_contravar; [apply Rmult_lt_0_compat; lra|]. apply Rmult_le_compat_l; lra. }
  split; [apply Rmult_le_pos; lra|].
  eapply Rle_trans; [|exact B]. apply Rmult_le_compat_r; [lra|]. apply Rmult_le_compat_l; lra.
Qed.

Lemma seven_avg c hx hy hz u0 u1 u2 u3 u4 u5 u6 lo hi :
  0 <= c -> 0 <= hx -> 0 <= hy -> 0 <= hz -> c * (2 * hx + 2 * hy + 2 * hz) <= 1 ->
  lo <= u0 <= hi -> lo <= u1 <= hi -> lo <= u2 <= hi -> lo <= u3 <= hi -> lo <= u4 <= hi -> lo <= u5 <= hi -> lo <= u6 <= hi ->
  lo <= u0 + c * ((u1 - 2 * u0 + u2) * hx + (u3 - 2 * u0 + u4) * hy + (u5 - 2 * u0 + u6) * hz) <= hi.
Proof.
  intros Hc Hx Hy Hz B U0 U1 U2 U3 U4 U5 U6.
  assert (Cx : 0 <= c * hx) by now apply Rmult_le_pos.
  assert (Cy : 0 <= c * hy) by now apply Rmult_le_pos.
  assert (Cz : 0 <= c * hz) by now apply Rmult_le_pos.
  replace (u0 + _) with ((1 - c * (2 * hx + 2 * hy + 2 * hz)) * u0 + c * hx * u1 + c * hx * u2 + c * hy * u3 + c * hy * u4 + c * hz * u5 + c * hz * u6) by ring.
  set (w0 := 1 - c * (2 * hx + 2 * hy + 2 * hz)) in *. assert (W0 : 0 <= w0) by (unfold w0; lra).
  assert (S1 : w0 + c * hx + c * hx + c * hy + c * hy + c * hz + c * hz = 1) by (unfold w0; ring).
  set (p := c * hx) in *. set (q := c * hy) in *. set (r := c * hz) in *.
  split.
  - replace lo with ((w0 + p + p + q + q + r + r) * lo) by (rewrite S1; ring). nra.
  - replace hi with ((w0 + p + p + q + q + r + r) * hi) by (rewrite S1; ring). nra.
Qed.

Lemma update_interior xl yl P T i j l lo hi : interior n1 n2 n3 i j l ->
  let T1 := BC_thermal a n1 n2 n3 dx dy dz xs ys xl yl P T (fun i j k => mat_k a (T i j k)) in
  (forall p q r, In (p, q, r) (star i j l) -> lo <= T1 p q r <= hi) ->
  lo <= update_T a n1 n2 n3 dx dy dz dt xs ys xl yl P T i j l <= hi.
Proof.
  intros (Hi & Hj & Hl) T1 H. unfold update_T, update_mat.
  rewrite (proj2 (inner_true _ _) Hi), (proj2 (inner_true _ _) Hj), (proj2 (inner_true _ _) Hl). cbn [andb].
  fold T1. unfold laplace, second. rewrite <- Rmult_assoc. fold (coef T i j l).
  destruct (coef_bound T i j l) as (C0 & C1). destruct ST as (X & Y & Z & _).
  assert (I2 : forall d, 0 < d -> 0 <= / d ^ 2). { intros. left. apply Rinv_0_lt_compat. apply pow_lt; lra. }
  unfold Rdiv in *.
  apply seven_avg; auto; try lra; apply H; unfold star; cbn; tauto.
Qed.

(** ** Sup-norm stability with the laser off *)
Lemma loss_factor Tf : loss a Tf = (g_h a + g_SB a * g_eps a * (Tf ^ 2 + g_T0 a ^ 2) * (Tf + g_T0 a)) * (Tf - g_T0 a).
Proof. unfold loss. ring. Qed.
Lemma qneg_loss Tf : q_neg a Tf = - loss a Tf.
Proof. unfold q_neg, loss. ring. Qed.


Definition within (M x : R) : Prop := g_T0 a - M <= x <= g_T0 a + M.

Lemma slope_bound M d Tf : resolved_losses a M d -> 0 < d -> 0 <= M -> M <= 2 * g_T0 a -> within M Tf ->
  0 <= d * (g_h a + g_SB a * g_eps a * (Tf ^ 2 + g_T0 a ^ 2) * (Tf + g_T0 a)) <= 2 * k_min.
Proof.
  intros RL Hd HM HT H. unfold resolved_losses, within in *.
  pose proof (gp_T0 a G) as T0. pose proof (gp_h a G) as Hh. pose proof (gp_SB a G) as Sb. pose proof (gp_eps a G) as Ep.
  assert (SE : 0 <= g_SB a * g_eps a) by now apply Rmult_le_pos.
  assert (Q : 0 <= Tf ^ 2 <= (g_T0 a + M) ^ 2) by nra.
  assert (Q0 : 0 <= g_T0 a ^ 2) by nra.
  assert (A : 0 <= g_SB a * g_eps a * (Tf ^ 2 + g_T0 a ^ 2) * (Tf + g_T0 a)
              <= g_SB a * g_eps a * ((g_T0 a + M) ^ 2 + g_T0 a ^ 2) * (2 * g_T0 a + M)).
  { split.
    - repeat apply Rmult_le_pos; lra.
    - apply Rmult_le_compat; try lra; [apply Rmult_le_pos; lra|]. apply Rmult_le_compat_l; lra. }
  split; [apply Rmult_le_pos; lra|].
  eapply Rle_trans; [|exact RL]. apply Rmult_le_compat_l; lra.
Qed.

Lemma ghost_within M d u g k : resolved_losses a M d -> 0 < d -> 0 <= M -> M <= 2 * g_T0 a ->
  within M u -> within M g -> k_min <= k ->
  within M (u - loss a ((u + g) / 2) / k * d).
Proof.
  intros RL Hd HM HT Hu Hg Hk. pose proof k_min_pos as KP.
  assert (Hf : within M ((u + g) / 2)) by (unfold within in *; lra).
  destruct (slope_bound M d _ RL Hd HM HT Hf) as (S0 & S1).
  rewrite loss_factor. set (S := g_h a + _) in *.
  replace (u - S * ((u + g) / 2 - g_T0 a) / k * d) with (g_T0 a + ((1 - d * S / k / 2) * (u - g_T0 a) - d * S / k / 2 * (g - g_T0 a))) by (field; lra).
  assert (B : 0 <= d * S / k <= 2).
  { split.
    - apply Rmult_le_pos; [lra|]. left. apply Rinv_0_lt_compat. lra.
    - apply Rmult_le_reg_r with k; [lra|]. replace (d * S / k * k) with (d * S) by (field; lra). lra. }
  set (s := d * S / k / 2) in *. assert (Bs : 0 <= s <= 1) by (unfold s; lra).
  unfold within in *. nra.
Qed.

Lemma step_within M xl yl T : resolved_losses a M dx -> resolved_losses a M dy -> resolved_losses a M dz ->
  0 <= M -> M <= 2 * g_T0 a ->
  (forall i j l, in_range n1 n2 n3 i j l -> within M (T i j l)) ->
  forall i j l, in_range n1 n2 n3 i j l -> within M (update_T a n1 n2 n3 dx dy dz dt xs ys xl yl 0 T i j l).
Proof.
  intros Rx Ry Rz HM HT H. pose proof ST as (X & Y & Z & _).
  assert (B : forall i j l, in_range n1 n2 n3 i j l ->
    within M (BC_thermal a n1 n2 n3 dx dy dz xs ys xl yl 0 T (fun i j k => mat_k a (T i j k)) i j l)).
  { apply (bc_ind xl yl 0 T _ (within M)); auto; intros;
      rewrite ?qneg_loss, ?laser_off, ?Rminus_0_r;
      try (match goal with |- within M (?u + - ?q / ?k * ?d) => replace (u + - q / k * d) with (u - q / k * d) by (unfold Rdiv; ring) end);
      apply ghost_within; auto; try (apply H; unfold in_range; lia); apply k_bounds; exact G. }
  intros i j l I.
  destruct (inner n1 i && inner n2 j && inner n3 l) eqn:E.
  - rewrite !andb_true_iff, !inner_true in E. destruct E as ((E1 & E2) & E3). destruct I as (Hi & Hj & Hl).
    unfold within. apply update_interior; [unfold interior; tauto|].
    intros p q r S. apply B. unfold star in S. cbn in S. unfold in_range.
    repeat (destruct S as [S | S]; [inversion S; subst; lia|]). contradiction.
  - unfold update_T, update_mat. rewrite E. auto.
Qed.

Lemma run_within M path T : resolved_losses a M dx -> resolved_losses a M dy -> resolved_losses a M dz ->
  0 <= M -> M <= 2 * g_T0 a -> (forall s, In s path -> snd s = 0) ->
  (forall i j l, in_range n1 n2 n3 i j l -> g_T0 a - M <= T i j l <= g_T0 a + M) ->
  forall i j l, in_range n1 n2 n3 i j l ->
  g_T0 a - M <= gamma_run a n1 n2 n3 dx dy dz dt xs ys path T i j l <= g_T0 a + M.
Proof.
  intros Rx Ry Rz HM HT. revert T. induction path as [|[[x y] P] r IH]; intros T HP H; cbn [gamma_run]; [exact H|].
  apply IH; [intros s Hs; apply HP; now right|]. pose proof (HP (x, y, P) (or_introl eq_refl)) as E. cbn in E. subst P. now apply step_within.
Qed.

(** ** The laser only heats *)
Lemma laser_pos P xl yl x y : 0 <= P -> 0 <= laser a P xl yl x y.
Proof.
  intros HP. unfold laser. pose proof (gp_eta a G). pose proof (gp_r a G). pose proof PI_RGT_0.
  apply Rmult_le_pos; [|left; apply exp_pos].
  apply Rmult_le_pos; [|left; apply Rinv_0_lt_compat, pow_lt; lra].
  apply Rmult_le_pos; [|left; apply Rinv_0_lt_compat; lra]. apply Rmult_le_pos; [lra|auto].
Qed.

Lemma bc_mono P xl yl T i j l : 0 <= P -> in_range n1 n2 n3 i j l ->
  BC_thermal a n1 n2 n3 dx dy dz xs ys xl yl 0 T (fun i j k => mat_k a (T i j k)) i j l
  <= BC_thermal a n1 n2 n3 dx dy dz xs ys xl yl P T (fun i j k => mat_k a (T i j k)) i j l.
Proof.
  intros HP (Hi & Hj & Hl).
  destruct (inner n1 i && inner n2 j && Nat.eqb l (n3 - 1)) eqn:E.
  - rewrite !andb_true_iff, !inner_true, Nat.eqb_eq in E. destruct E as ((E1 & E2) & ->).
    rewrite !bc_z1 by lia. rewrite laser_off, Rminus_0_r.
    pose proof (laser_pos P xl yl (xs (i - 1)%nat (j - 1)%nat) (ys (i - 1)%nat (j - 1)%nat) HP) as LP.
    pose proof (k_bounds a (T i j (n3 - 2)%nat) G) as (K & _). pose proof k_min_pos. destruct ST as (_ & _ & Z & _).
    set (L := laser _ _ _ _ _ _) in *. set (k := mat_k _ _) in *. set (q := loss _ _).
    assert (0 <= L / k * dz) by (apply Rmult_le_pos; [|lra]; apply Rmult_le_pos; [lra|]; left; apply Rinv_0_lt_compat; lra).
    replace ((q - L) / k * dz) with (q / k * dz - L / k * dz) by (unfold Rdiv; ring). lra.
  - unfold BC_thermal. rewrite !E. apply Rle_refl.
Qed.

Lemma laser_heats P xl yl T i j l : 0 <= P -> in_range n1 n2 n3 i j l ->
  update_T a n1 n2 n3 dx dy dz dt xs ys xl yl 0 T i j l <= update_T a n1 n2 n3 dx dy dz dt xs ys xl yl P T i j l.
Proof.
  intros HP I. unfold update_T, update_mat.
  destruct (inner n1 i && inner n2 j && inner n3 l) eqn:E; [|now apply bc_mono].
  rewrite !andb_true_iff, !inner_true in E. destruct E as ((E1 & E2) & E3). destruct I as (Hi & Hj & Hl).
  pose proof (bc_mono P xl yl T) as M. set (U := BC_thermal _ _ _ _ _ _ _ _ _ _ _ 0 _ _) in *. set (V := BC_thermal _ _ _ _ _ _ _ _ _ _ _ P _ _) in *.
  rewrite <- !Rmult_assoc. fold (coef T i j l).
  assert (C0 : U i j l = V i j l). { unfold U, V. rewrite !bc_interior by (unfold interior; lia). reflexivity. }
  unfold laplace, second. rewrite C0.
  destruct (coef_bound T i j l) as (Cp & _). destruct ST as (X & Y & Z & _).
  apply Rplus_le_compat_l, Rmult_le_compat_l; [exact Cp|].
  assert (I2 : forall d p q, 0 < d -> p <= q -> p / d ^ 2 <= q / d ^ 2).
  { intros. apply Rmult_le_compat_r; [|assumption]. left. apply Rinv_0_lt_compat, pow_lt. lra. }
  repeat apply Rplus_le_compat; apply I2; auto.
  - pose proof (M (i - 1)%nat j l HP ltac:(unfold in_range; lia)). pose proof (M (i + 1)%nat j l HP ltac:(unfold in_range; lia)). lra.
  - pose proof (M i (j - 1)%nat l HP ltac:(unfold in_range; lia)). pose proof (M i (j + 1)%nat l HP ltac:(unfold in_range; lia)). lra.
  - pose proof (M i j (l - 1)%nat HP ltac:(unfold in_range; lia)). pose proof (M i j (l + 1)%nat HP ltac:(unfold in_range; lia)). lra.
Qed.
End Upd.

(** ** Heat balance *)
Lemma second_sum n (f : nat -> R) : (3 <= n)%nat ->
  sum_inner n (fun i => f (i - 1)%nat - 2 * f i + f (i + 1)%nat) = (f 0%nat - f 1%nat) + (f (n - 1)%nat - f (n - 2)%nat).
Proof.
  intros H. unfold sum_inner. rewrite sumR_seq_shift.
  rewrite (sumR_ext _ _ (fun i => (f (i + 2)%nat - f (i + 1)%nat) - (f (i + 1)%nat - f i))).
  2:{ intros i _. replace (1 + i - 1)%nat with i by lia. replace (1 + i + 1)%nat with (i + 2)%nat by lia.
      replace (1 + i)%nat with (i + 1)%nat by lia. ring. }
  replace (n - 1)%nat with (n - 2 + 1)%nat by lia. generalize (n - 2)%nat as m.
  assert (H0 : forall m, sumR (seq 0 m) (fun i => f (i + 2)%nat - f (i + 1)%nat - (f (i + 1)%nat - f i)) = f 0%nat - f 1%nat + (f (m + 1)%nat - f m)).
  { induction m as [|m IH]; [cbn [seq sumR Nat.add]; ring|].
    rewrite sumR_seq_S, IH. replace (m + 2)%nat with (S m + 1)%nat by lia. replace (S m) with (m + 1)%nat by lia. ring. }
  exact H0.
Qed.

Lemma sum_inner_ext n f g : (forall i, (1 <= i < n - 1)%nat -> f i = g i) -> sum_inner n f = sum_inner n g.
Proof. intros H. apply sumR_ext. intros i Hi. apply in_seq in Hi. apply H. lia. Qed.
Lemma sum_inner_add n f g : sum_inner n (fun i => f i + g i) = sum_inner n f + sum_inner n g.
Proof. apply sumR_add. Qed.
Lemma sum_inner_scal n c f : sum_inner n (fun i => c * f i) = c * sum_inner n f.
Proof. apply sumR_scal. Qed.
Lemma sum_inner_swap n m f : sum_inner n (fun i => sum_inner m (fun j => f i j)) = sum_inner m (fun j => sum_inner n (fun i => f i j)).
Proof. apply sumR_swap. Qed.

Lemma loss_heat a Tf : loss a Tf = - surface_heat a Tf.
Proof. unfold loss, surface_heat. ring. Qed.
Lemma qneg_heat a Tf : q_neg a Tf = surface_heat a Tf.
Proof. unfold q_neg, surface_heat. ring. Qed.
Lemma laser_is_heat a P xl yl x y : g_r a <> 0 -> laser a P xl yl x y = laser_heat a P ((x - xl) ^ 2 + (y - yl) ^ 2).
Proof.
  intros H. unfold laser, laser_heat. pose proof PI_RGT_0. f_equal; [field; split; [exact H|lra]|].
  f_equal. field. exact H.
Qed.

Section Balance.
Variables (a : gargs) (n1 n2 n3 : nat) (dx dy dz dt : R) (xs ys : nat -> nat -> R) (xl yl P : R) (T : garr).
Hypothesis N1 : (3 <= n1)%nat.
Hypothesis N2 : (3 <= n2)%nat.
Hypothesis N3 : (3 <= n3)%nat.
Hypothesis G : gphys a.
Hypothesis X : 0 < dx.
Hypothesis Y : 0 < dy.
Hypothesis Z : 0 < dz.
Notation k := (fun i j l => mat_k a (T i j l)).
Notation B := (BC_thermal a n1 n2 n3 dx dy dz xs ys xl yl P T k).

Lemma laplace_sum (f : garr) :
  sum_inner n1 (fun i => sum_inner n2 (fun j => sum_inner n3 (fun l => laplace dx dy dz f i j l)))
  = sum_inner n2 (fun j => sum_inner n3 (fun l => (f 0%nat j l - f 1%nat j l + (f (n1 - 1)%nat j l - f (n1 - 2)%nat j l)) / dx ^ 2))
  + sum_inner n1 (fun i => sum_inner n3 (fun l => (f i 0%nat l - f i 1%nat l + (f i (n2 - 1)%nat l - f i (n2 - 2)%nat l)) / dy ^ 2))
  + sum_inner n1 (fun i => sum_inner n2 (fun j => (f i j 0%nat - f i j 1%nat + (f i j (n3 - 1)%nat - f i j (n3 - 2)%nat)) / dz ^ 2)).
Proof.
  assert (S : forall n g d, (3 <= n)%nat -> sum_inner n (fun i => second g d i) = (g 0%nat - g 1%nat + (g (n - 1)%nat - g (n - 2)%nat)) / d ^ 2).
  { intros n g d Hn. rewrite <- second_sum by exact Hn. unfold Rdiv. rewrite Rmult_comm, <- sum_inner_scal.
    apply sum_inner_ext. intros. unfold second, Rdiv. ring. }
  unfold laplace.
  rewrite (sum_inner_ext n1 _ (fun i => sum_inner n2 (fun j => sum_inner n3 (fun l => second (fun i => f i j l) dx i))
     + sum_inner n2 (fun j => sum_inner n3 (fun l => second (fun j => f i j l) dy j))
     + sum_inner n2 (fun j => sum_inner n3 (fun l => second (fun l => f i j l) dz l)))).
  2:{ intros. rewrite <- !sum_inner_add. apply sum_inner_ext. intros. now rewrite <- !sum_inner_add. }
  rewrite !sum_inner_add. f_equal; [f_equal|].
  - rewrite sum_inner_swap. apply sum_inner_ext. intros j _. rewrite sum_inner_swap. apply sum_inner_ext. intros l _.
    now rewrite (S n1 (fun i => f i j l)).
  - apply sum_inner_ext. intros i _. rewrite sum_inner_swap. apply sum_inner_ext. intros l _.
    now rewrite (S n2 (fun j => f i j l)).
  - apply sum_inner_ext. intros i _. apply sum_inner_ext. intros j _. now rewrite (S n3 (fun l => f i j l)).
Qed.

Lemma heat_balance :
  heat_gain a n1 n2 n3 dx dy dz T (update_T a n1 n2 n3 dx dy dz dt xs ys xl yl P T) (fun i j l => / mat_k a (T i j l))
  = dt * boundary_sum a n1 n2 n3 dx dy dz xs ys xl yl P T (fun i j l => / mat_k a (T i j l)).
Proof.
  assert (Kp : forall t, 0 < mat_k a t). { intros t. pose proof (k_bounds a t G). pose proof k_min_pos. lra. }
  assert (Cp : forall t, 0 < mat_cp a t). { intros t. pose proof (cp_lower a t G). pose proof cp_min_pos. lra. }
  pose proof (gp_rho a G) as Rh.
  unfold heat_gain.
  rewrite (sum_inner_ext n1 _ (fun i => dt * (dx * dy * dz) * sum_inner n2 (fun j => sum_inner n3 (fun l => laplace dx dy dz B i j l)))).
  2:{ intros i Hi. rewrite <- sum_inner_scal. apply sum_inner_ext. intros j Hj. rewrite <- sum_inner_scal. apply sum_inner_ext. intros l Hl.
      unfold update_T, update_mat.
      rewrite (proj2 (inner_true _ _) Hi), (proj2 (inner_true _ _) Hj), (proj2 (inner_true _ _) Hl). cbn [andb].
      rewrite bc_interior by (unfold interior; lia). pose proof (Kp (T i j l)). pose proof (Cp (T i j l)). field. lra. }
  rewrite sum_inner_scal, laplace_sum, Rmult_assoc, (Rmult_comm (dx * dy * dz)). f_equal.
  unfold boundary_sum. rewrite !Rmult_plus_distr_r. f_equal; [f_equal|].
  - rewrite Rmult_comm, <- sum_inner_scal. apply sum_inner_ext. intros j Hj. rewrite <- sum_inner_scal. apply sum_inner_ext. intros l Hl.
    rewrite bc_x0, bc_x1, !bc_interior by (unfold interior; lia). rewrite qneg_heat, loss_heat.
    rewrite (Rplus_comm (T 1%nat j l) (T 0%nat j l)). pose proof (Kp (T 1%nat j l)). pose proof (Kp (T (n1 - 2)%nat j l)). field. lra.
  - rewrite Rmult_comm, <- sum_inner_scal. apply sum_inner_ext. intros i Hi. rewrite <- sum_inner_scal. apply sum_inner_ext. intros l Hl.
    rewrite bc_y0, bc_y1, !bc_interior by (unfold interior; lia). rewrite qneg_heat, loss_heat.
    rewrite (Rplus_comm (T i 1%nat l) (T i 0%nat l)). pose proof (Kp (T i 1%nat l)). pose proof (Kp (T i (n2 - 2)%nat l)). field. lra.
  - rewrite Rmult_comm, <- sum_inner_scal. apply sum_inner_ext. intros i Hi. rewrite <- sum_inner_scal. apply sum_inner_ext. intros j Hj.
    rewrite bc_z0, bc_z1, !bc_interior by (unfold interior; lia). rewrite qneg_heat, loss_heat, laser_is_heat by (pose proof (gp_r a G); lra).
    rewrite (Rplus_comm (T i j 1%nat) (T i j 0%nat)). pose proof (Kp (T i j 1%nat)). pose proof (Kp (T i j (n3 - 2)%nat)). field. lra.
Qed.

Lemma heat_balance_uniform kappa :
  (forall i j l, interior n1 n2 n3 i j l -> mat_k a (T i j l) = kappa) ->
  heat_gain a n1 n2 n3 dx dy dz T (update_T a n1 n2 n3 dx dy dz dt xs ys xl yl P T) (fun _ _ _ => 1)
  = dt * boundary_sum a n1 n2 n3 dx dy dz xs ys xl yl P T (fun _ _ _ => 1).
Proof.
  intros U.
  assert (K0 : 0 < kappa).
  { rewrite <- (U 1%nat 1%nat 1%nat) by (unfold interior; lia). pose proof (k_bounds a (T 1%nat 1%nat 1%nat) G). pose proof k_min_pos. lra. }
  pose proof heat_balance as H.
  assert (L : forall T', heat_gain a n1 n2 n3 dx dy dz T T' (fun _ _ _ => 1) = kappa * heat_gain a n1 n2 n3 dx dy dz T T' (fun i j l => / mat_k a (T i j l))).
  { intros T'. unfold heat_gain. rewrite <- sum_inner_scal. apply sum_inner_ext. intros i Hi. rewrite <- sum_inner_scal. apply sum_inner_ext. intros j Hj.
    rewrite <- sum_inner_scal. apply sum_inner_ext. intros l Hl. rewrite U by (unfold interior; lia). field. lra. }
  assert (M : boundary_sum a n1 n2 n3 dx dy dz xs ys xl yl P T (fun _ _ _ => 1)
            = kappa * boundary_sum a n1 n2 n3 dx dy dz xs ys xl yl P T (fun i j l => / mat_k a (T i j l))).
  { unfold boundary_sum. rewrite !Rmult_plus_distr_l. f_equal; [f_equal|];
      rewrite <- sum_inner_scal; apply sum_inner_ext; intros i Hi; rewrite <- sum_inner_scal; apply sum_inner_ext; intros j Hj;
      rewrite !U by (unfold interior; lia); field; lra. }
  rewrite L, M, H. ring.
Qed.
End Balance.

(** ** Temperature-dependent conductivity: heat is not conserved *)
Definition g_insulated : gargs := mkGargs 1500 1600 0 0 300 0 0 0 1 1.
Definition T_jump : garr := fun i _ _ => if Nat.leb i 1 then 300 else 400.
Lemma g_insulated_phys : gphys g_insulated.
Proof. constructor; cbn; lra. Qed.
Lemma clip_mid x lo hi : lo <= x <= hi -> clipR x lo hi = x.
Proof. intros. unfold clipR, Rmin, Rmax. destruct (Rle_dec x lo); destruct (Rle_dec _ hi); lra. Qed.
Lemma insulated_k x : 300 <= x <= 1600 -> mat_k g_insulated x = 163 / 10000 * x + 45847 / 10000.
Proof. intros. unfold mat_k. cbn [g_Tl g_insulated]. now rewrite clip_mid. Qed.
Lemma heat_not_conserved :
  boundary_sum g_insulated 4 3 3 1 1 1 (fun _ _ => 0) (fun _ _ => 0) 0 0 0 T_jump (fun _ _ _ => 1) = 0 /\
  heat_gain g_insulated 4 3 3 1 1 1 T_jump (update_T g_insulated 4 3 3 1 1 1 1 (fun _ _ => 0) (fun _ _ => 0) 0 0 0 T_jump) (fun _ _ _ => 1) <> 0.
Proof.
  split.
  - unfold boundary_sum, sum_inner. cbn [seq sumR Nat.sub]. unfold surface_heat, laser_heat.
    cbn [g_h g_SB g_eps g_T0 g_eta g_r g_insulated]. unfold Rdiv. ring.
  - assert (L : forall x, loss g_insulated x = 0) by (intros; unfold loss; cbn [g_h g_SB g_eps g_T0 g_insulated]; ring).
    assert (Q : forall x, q_neg g_insulated x = 0) by (intros; unfold q_neg; cbn [g_h g_SB g_eps g_T0 g_insulated]; ring).
    assert (Z : forall x y u v, laser g_insulated 0 x y u v = 0) by (intros; apply laser_off).
    assert (Cp : forall x, 0 < mat_cp g_insulated x).
    { intros x. pose proof (cp_lower g_insulated x g_insulated_phys). pose proof cp_min_pos. lra. }
    unfold heat_gain, sum_inner. cbn [seq sumR Nat.sub].
    unfold update_T, update_mat, inner. cbn [Nat.leb andb Nat.sub]. unfold laplace, second. cbn [Nat.add Nat.sub].
    assert (B : forall i j l, (i <= 3 /\ j <= 2 /\ l <= 2)%nat ->
      BC_thermal g_insulated 4 3 3 1 1 1 (fun _ _ => 0) (fun _ _ => 0) 0 0 0 T_jump (fun i j k => mat_k g_insulated (T_jump i j k)) i j l = T_jump i j l).
    { intros i j l H. unfold BC_thermal. rewrite !Z. cbn [Nat.sub].
      destruct i as [|[|[|[|i]]]]; destruct j as [|[|[|j]]]; destruct l as [|[|[|l]]]; try lia;
      cbn [inner Nat.leb Nat.eqb andb Nat.sub]; rewrite ?L, ?Q; unfold T_jump; cbn [Nat.leb]; unfold Rdiv; ring. }
    rewrite !B by lia. unfold T_jump. cbn [Nat.leb g_rho g_insulated]. rewrite !insulated_k by lra.
    pose proof (Cp 300). pose proof (Cp 400). intros E.
    match type of E with ?x = 0 => assert (F : x = - 163) by (field; lra) end. lra.
Qed.

(** ** Scan directions *)
Lemma axis_direction_unit x0 y0 x1 y1 : (x0, y0) <> (x1, y1) -> x0 = x1 \/ y0 = y1 ->
  exists u v, scan_direction (x0, y0) (x1, y1) = Some (u, v) /\ u ^ 2 + v ^ 2 = 1 /\ u * (y1 - y0) = v * (x1 - x0).
Proof.
  intros N [E | E]; unfold scan_direction; subst; cbn [fst snd].
  - assert (Hy : y1 - y0 <> 0) by (intros E; apply N; f_equal; lra).
    replace (x1 - x1) with 0 by ring.
    assert (P : 0 < 0 ^ 2 + (y1 - y0) ^ 2) by (simpl; nra).
    assert (S : sqrt (0 ^ 2 + (y1 - y0) ^ 2) <> 0) by (apply Rgt_not_eq, sqrt_lt_R0; exact P).
    rewrite (proj2 (Reqb_false _ _) S). replace (0 / _) with 0 by (field; exact S).
    rewrite (proj2 (Reqb_false _ _) S). eexists _, _. split; [reflexivity|]. split; [|ring].
    replace ((_ / _) ^ 2) with ((y1 - y0) ^ 2 / (sqrt (0 ^ 2 + (y1 - y0) ^ 2) * sqrt (0 ^ 2 + (y1 - y0) ^ 2))) by (field; exact S).
    rewrite sqrt_sqrt by lra. field. lra.
  - assert (Hx : x1 - x0 <> 0) by (intros E; apply N; f_equal; lra).
    replace (y1 - y1) with 0 by ring.
    assert (P : 0 < (x1 - x0) ^ 2 + 0 ^ 2) by (simpl; nra).
    assert (S : sqrt ((x1 - x0) ^ 2 + 0 ^ 2) <> 0) by (apply Rgt_not_eq, sqrt_lt_R0; exact P).
    rewrite (proj2 (Reqb_false _ _) S). set (u := (x1 - x0) / _).
    assert (U : u ^ 2 = 1).
    { unfold u. replace ((_ / _) ^ 2) with ((x1 - x0) ^ 2 / (sqrt ((x1 - x0) ^ 2 + 0 ^ 2) * sqrt ((x1 - x0) ^ 2 + 0 ^ 2))) by (field; exact S).
      rewrite sqrt_sqrt by lra. field. lra. }
    replace (u ^ 2 + 0 ^ 2) with 1 by (rewrite U; ring). rewrite sqrt_1.
    rewrite (proj2 (Reqb_false 1 0)) by lra. eexists _, _. split; [reflexivity|]. split; [rewrite U; field|field].
Qed.

Lemma oblique_direction_not_unit :
  exists u v, scan_direction (0, 0) (3, 4) = Some (u, v) /\ u ^ 2 + v ^ 2 <> 1 /\ u * 4 <> v * 3.
Proof.
  unfold scan_direction. cbn [fst snd].
  replace (sqrt ((3 - 0) ^ 2 + (4 - 0) ^ 2)) with 5.
  2:{ replace ((3 - 0) ^ 2 + (4 - 0) ^ 2) with (5 * 5) by ring. rewrite sqrt_square; lra. }
  rewrite (proj2 (Reqb_false 5 0)) by lra.
  set (w := ((3 - 0) / 5) ^ 2 + (4 - 0) ^ 2). assert (W : w = 409 / 25) by (unfold w; field).
  assert (P : 0 < sqrt w) by (apply sqrt_lt_R0; lra). assert (Q : sqrt w * sqrt w = w) by (apply sqrt_sqrt; lra).
  rewrite (proj2 (Reqb_false _ _) (Rgt_not_eq _ _ P)). eexists _, _. split; [reflexivity|]. split.
  - replace (((4 - 0) / sqrt w) ^ 2) with (16 / (sqrt w * sqrt w)) by (field; lra). rewrite Q, W. lra.
  - intros E. assert (F : sqrt w = 5).
    { apply (Rmult_eq_reg_r ((3 - 0) / 5 * 4)); [|lra]. rewrite E at 1. field. lra. }
    rewrite F in Q. lra.
Qed.
Lemma stand_still_direction x y : scan_direction (x, y) (x, y) = None.
Proof.
  unfold scan_direction. cbn [fst snd]. replace (x - x) with 0 by ring. replace (y - y) with 0 by ring.
  replace (0 ^ 2 + 0 ^ 2) with 0 by ring. rewrite sqrt_0, (proj2 (Reqb_true 0 0)); auto.
Qed.
