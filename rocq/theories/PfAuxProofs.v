(** * Proofs about the integrators and the CFD coupling (C23, C25, C26). *)
From Verif Require Import Prelude PreludeFacts PfModel PfSpec PfProofs.
From Coq Require Import Lra Psatz ZifyBool ZifyNat.
Open Scope R_scope.

Lemma euler_time f s t : snd (explicit_euler f s t) = t.
Proof. now destruct s. Qed.
Lemma rk4_time f s t : snd (rk4 f s t) = t.
Proof. now destruct s. Qed.

Lemma euler_linear lam y t0 t n o :
  fst (explicit_euler (fun y _ => f_scal lam y) (y, t0) t) n o = exp_taylor 1 (lam * (t - t0)) * y n o.
Proof. unfold exp_taylor, explicit_euler, f_add, f_scal. cbn. field. Qed.
Lemma rk4_linear lam y t0 t n o :
  fst (rk4 (fun y _ => f_scal lam y) (y, t0) t) n o = exp_taylor 4 (lam * (t - t0)) * y n o.
Proof. unfold exp_taylor, rk4, f_add, f_scal. cbn. field. Qed.

Lemma euler_quadrature (c : nat -> nat -> nat -> R) y t0 t n o :
  fst (explicit_euler (fun _ s n o => poly (c n o) 0 s) (y, t0) t) n o = y n o + poly_integral (c n o) 0 t0 t.
Proof. unfold poly, poly_integral, explicit_euler, f_add, f_scal. cbn. field. Qed.
Lemma rk4_quadrature (c : nat -> nat -> nat -> R) y t0 t n o :
  fst (rk4 (fun _ s n o => poly (c n o) 3 s) (y, t0) t) n o = y n o + poly_integral (c n o) 3 t0 t.
Proof. unfold poly, poly_integral, rk4, f_add, f_scal. cbn. field. Qed.

(** ** Coupling *)
Lemma convert_ok nx ny nz T x y z : (x < nx)%nat -> (y < ny)%nat -> (z < nz)%nat ->
  nth_error (convert_temperature nx ny nz T) (at_cell nx ny x y z) = Some (T x y z).
Proof.
  intros Hx Hy Hz. unfold convert_temperature, at_cell.
  replace (x + nx * (y + ny * z))%nat with (z * (ny * nx) + y * nx + x)%nat by lia.
  now rewrite nth_error_flat3.
Qed.
Lemma convert_length nx ny nz T : length (convert_temperature nx ny nz T) = (nx * ny * nz)%nat.
Proof. unfold convert_temperature. rewrite flat3_length. lia. Qed.

Lemma interpolate_between dt t_cfd t_pf p f : 0 < dt -> t_cfd - dt <= t_pf <= t_cfd ->
  between (interpolate_T dt t_cfd t_pf p f) p f.
Proof.
  intros Hd Ht. unfold interpolate_T. set (r := (t_cfd - t_pf) / dt).
  assert (Hr : 0 <= r <= 1).
  { unfold r, Rdiv. split.
    - apply Rmult_le_pos; [lra|]. left. now apply Rinv_0_lt_compat.
    - apply (Rmult_le_reg_r dt); [lra|]. rewrite Rmult_assoc, Rinv_l by lra. lra. }
  clearbody r. unfold between, Rmin, Rmax. destruct (Rle_dec p f); nra.
Qed.
Lemma interpolate_ends dt t_cfd p f : dt <> 0 ->
  interpolate_T dt t_cfd (t_cfd - dt) p f = p /\ interpolate_T dt t_cfd t_cfd p f = f.
Proof. intros H. unfold interpolate_T. split; field; exact H. Qed.


Lemma loop_ok dt snap ts : 0 < dt -> forall m t_cfd t0,
  (1 <= m)%nat -> t_cfd = INR m * dt -> (t_cfd < t0 \/ m = 1%nat) -> t0 <= t_cfd + dt -> times_ok dt t0 ts ->
  forall t m' v, In (t, m', v) (coupled_loop dt snap m t_cfd ts) ->
    (1 <= m')%nat /\ v = interpolate_T dt (INR m' * dt) t (snap (m' - 1)%nat) (snap m') /\
    t <= INR m' * dt + dt /\ (INR m' * dt < t \/ (m' = 1%nat /\ t <= dt)).
Proof.
  intros Hd. induction ts as [|t ts IH]; intros m t_cfd t0 Hm Et Hlt Hle Hts t' m' v Hin; [destruct Hin|].
  cbn [coupled_loop] in Hin. destruct Hts as [Ht Hts].
  destruct (Rltb (t_cfd + dt) t) eqn:E.
  - apply Rltb_true in E.
    assert (Et' : t_cfd + dt = INR (S m) * dt) by (rewrite S_INR, Et; ring).
    destruct Hin as [Hin|Hin].
    + inversion Hin; subst t' m' v. rewrite <- Et'. repeat split; [lia| |].
      * lra.
      * left. lra.
    + eapply (IH (S m) (t_cfd + dt) t); eauto; try lia; lra.
  - apply Rltb_false in E. destruct Hin as [Hin|Hin].
    + inversion Hin; subst t' m' v. rewrite <- Et. repeat split; [lia|lra|].
      destruct Hlt as [Hlt|Hlt]; [left; lra|].
      destruct (Rle_dec t dt); [right; auto|left]. subst m. cbn in Et. lra.
    + eapply (IH m t_cfd t); eauto; try lra. destruct Hlt; [left; lra|now right].
Qed.

Theorem coupled_ok dt snap ts : 0 < dt -> times_ok dt 0 ts ->
  forall t m v, In (t, m, v) (coupled_run dt snap ts) ->
    (t <= dt -> m = 1%nat /\ v = snap 0%nat + (snap 1%nat - snap 0%nat) * (t / dt)) /\
    (dt < t -> (1 <= m)%nat /\ INR m * dt < t <= INR m * dt + dt /\
       v = snap m + (snap m - snap (m - 1)%nat) * ((t - INR m * dt) / dt)).
Proof.
  intros Hd Hts t m v [Hin|Hin].
  - inversion Hin; subst. split; [|intros; lra]. intros _. split; [reflexivity|].
    unfold interpolate_T. field. lra.
  - destruct (loop_ok dt snap ts Hd 1%nat dt 0 (le_n 1) ltac:(cbn; lra) (or_intror eq_refl) ltac:(lra) Hts t m v Hin)
      as (H1 & H2 & H3 & H4).
    split; intros Ht.
    + assert (Em : m = 1%nat).
      { destruct H4 as [H4|[H4 _]]; [|exact H4]. exfalso.
        assert (1 <= INR m) by (replace 1 with (INR 1) by reflexivity; now apply le_INR). nra. }
      subst m. split; [reflexivity|]. rewrite H2. cbn [Nat.sub INR]. unfold interpolate_T. field. lra.
    + destruct H4 as [H4|[_ H4]]; [|lra]. repeat split; auto; try lra. rewrite H2. unfold interpolate_T. field. lra.
Qed.

(** Beyond the first interval the value leaves the range of the two snapshots whenever they differ. *)
Theorem coupled_not_between : exists dt snap ts t m v, 0 < dt /\ times_ok dt 0 ts /\
  In (t, m, v) (coupled_run dt snap ts) /\ dt < t /\
  ~ between v (snap (m - 1)%nat) (snap m) /\
  (forall m', ~ between v (snap m') (snap (S m'))).
Proof.
  exists 1, (fun m => match m with 0%nat => 0 | _ => 1 end), [1; 2], 2, 1%nat, 2.
  split; [lra|]. split; [cbn; repeat split; lra|].
  assert (E : Rltb (1 + 1) 1 = false) by (apply Rltb_false; lra).
  assert (E2 : Rltb (1 + 1) 2 = false) by (apply Rltb_false; lra).
  split; [|split; [lra|split]].
  - unfold coupled_run. cbn [coupled_loop]. rewrite E. cbn [coupled_loop]. rewrite E2. right. right. left.
    unfold interpolate_T. cbn. repeat f_equal. field.
  - cbn. unfold between, Rmin, Rmax. destruct (Rle_dec 0 1); lra.
  - intros [|m']; unfold between, Rmin, Rmax; [destruct (Rle_dec 0 1)|destruct (Rle_dec 1 1)]; lra.
Qed.

(** ** The written orientation *)
Lemma argmax_from_ok l : forall i best v, (best < i)%nat ->
  let b := argmax_from l i best v in
  (b < i + length l)%nat /\
  (forall d, b = best \/ ((i <= b)%nat /\ v < nth (b - i) l d)) /\
  (b = best -> forall x, In x l -> x <= v) /\
  ((i <= b)%nat -> forall x d, In x l -> x <= nth (b - i) l d).
Proof.
  induction l as [|x l IH]; intros i best v Hb; cbn [argmax_from].
  - cbn. split; [lia|]. split; [now left|]. split; [intros _ ? []|intros _ ? ? []].
  - destruct (Rltb v x) eqn:E; [apply Rltb_true in E|apply Rltb_false in E].
    + destruct (IH (S i) i x ltac:(lia)) as (H1 & H2 & H3 & H4).
      set (b := argmax_from l (S i) i x) in *. cbn [length].
      split; [lia|].
      destruct (H2 0) as [Eb|[Hge Hlt]].
      * rewrite Eb. rewrite Nat.sub_diag. split; [right; split; [lia|exact E]|]. split; [lia|].
        intros _ y d [<-|Hy]; cbn; [lra|]. now apply H3.
      * assert (Ed : forall d, nth (b - i) (x :: l) d = nth (b - S i) l d).
        { intros d. replace (b - i)%nat with (S (b - S i)) by lia. reflexivity. }
        split; [intros d; right; split; [lia|rewrite Ed; destruct (H2 d) as [?|[_ ?]]; [lia|lra]]|]. split; [lia|].
        intros _ y d [<-|Hy]; rewrite Ed; [destruct (H2 d) as [?|[_ ?]]; [lia|lra]|]. apply H4; [lia|exact Hy].
    + destruct (IH (S i) best v ltac:(lia)) as (H1 & H2 & H3 & H4).
      set (b := argmax_from l (S i) best v) in *. cbn [length].
      split; [lia|].
      assert (Ed : (S i <= b)%nat -> forall d, nth (b - i) (x :: l) d = nth (b - S i) l d).
      { intros Hge d. replace (b - i)%nat with (S (b - S i)) by lia. reflexivity. }
      split; [intros d; destruct (H2 d) as [?|[Hge ?]]; [now left|right; split; [lia|rewrite Ed; auto]]|].
      split.
      * intros Eb y [<-|Hy]; [exact E|now apply H3].
      * intros Hge y d Hy. destruct (H2 d) as [?|[Hge' ?]]; [lia|]. rewrite Ed by exact Hge'.
        destruct Hy as [<-|Hy]; [lra|now apply H4].
Qed.

Lemma argmax_ok l d : l <> [] -> (argmax l < length l)%nat /\ forall x, In x l -> x <= nth (argmax l) l d.
Proof.
  destruct l as [|x l]; [contradiction|]. intros _. unfold argmax.
  destruct (argmax_from_ok l 1 0 x ltac:(lia)) as (H1 & H2 & H3 & H4).
  set (b := argmax_from l 1 0 x) in *. split; [cbn; lia|].
  destruct (H2 d) as [Eb|[Hge Hlt]].
  - rewrite Eb. intros y [<-|Hy]; cbn; [lra|now apply H3].
  - replace b with (S (b - 1)) by lia. cbn [nth]. intros y [<-|Hy]; [lra|]. now apply H4.
Qed.

Lemma written_ori_ok a eta n : (0 < num_oris a)%nat ->
  (written_ori a eta n < num_oris a)%nat /\
  forall o, (o < num_oris a)%nat -> eta n o <= eta n (written_ori a eta n).
Proof.
  intros H. unfold written_ori. set (l := map (eta n) (seq 0 (num_oris a))).
  assert (Ll : length l = num_oris a) by (unfold l; now rewrite map_length, seq_length).
  assert (Hne : l <> []) by (intros E; rewrite E in Ll; cbn in Ll; lia).
  destruct (argmax_ok l (eta n 0%nat) Hne) as [H1 H2]. rewrite Ll in H1. split; [exact H1|].
  intros o Ho. specialize (H2 (eta n o)).
  replace (nth (argmax l) l (eta n 0%nat)) with (eta n (argmax l)) in H2.
  - apply H2. apply in_map_iff. exists o. split; [reflexivity|apply in_seq; lia].
  - unfold l. rewrite map_nth. f_equal. symmetry. rewrite seq_nth; [reflexivity|exact H1].
Qed.
Close Scope R_scope.
