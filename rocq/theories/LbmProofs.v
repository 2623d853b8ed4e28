From Verif Require Import Prelude PreludeFacts LbmModel LbmSpec.
From Coq Require Import Lra Psatz ZifyBool ZifyNat.
Open Scope R_scope.

(** ** Lattice facts *)
Lemma sumQ_expand (f : nat -> R) :
  sumQ f = f 0%nat + f 1%nat + f 2%nat + f 3%nat + f 4%nat + f 5%nat + f 6%nat + f 7%nat + f 8%nat
   + f 9%nat + f 10%nat + f 11%nat + f 12%nat + f 13%nat + f 14%nat + f 15%nat + f 16%nat + f 17%nat + f 18%nat.
Proof. unfold sumQ, dirs, Ns. cbn [seq sumR]. ring. Qed.

Ltac lat := rewrite ?sumQ_expand; cbv [vx vy vz weight velR rev nth vels_x vels_y vels_z weights_tab rev_tab].

Lemma in_dirs q : In q dirs <-> (q < 19)%nat.
Proof. unfold dirs, Ns. rewrite in_seq. lia. Qed.
Lemma in_nbdirs q : In q nbdirs <-> (1 <= q < 19)%nat.
Proof. unfold nbdirs, Ns. rewrite in_seq. lia. Qed.

Ltac dirsplit q H :=
  let H' := fresh in
  assert (H' := H); 
  destruct q as [|[|[|[|[|[|[|[|[|[|[|[|[|[|[|[|[|[|[|q]]]]]]]]]]]]]]]]]]]; [..|exfalso; lia]; clear H'.

Lemma rev_lt q : (q < 19)%nat -> (rev q < 19)%nat.
Proof. intros H. dirsplit q H; cbv; lia. Qed.
Lemma rev_rev q : (q < 19)%nat -> rev (rev q) = q.
Proof. intros H. dirsplit q H; reflexivity. Qed.
Lemma rev_inj a b : (a < 19)%nat -> (b < 19)%nat -> rev a = rev b -> a = b.
Proof. intros Ha Hb H. rewrite <- (rev_rev a Ha), <- (rev_rev b Hb), H. reflexivity. Qed.
Lemma vel_rev q : (q < 19)%nat -> vx (rev q) = (- vx q)%Z /\ vy (rev q) = (- vy q)%Z /\ vz (rev q) = (- vz q)%Z.
Proof. intros H. dirsplit q H; cbv; auto. Qed.
Lemma weight_rev q : (q < 19)%nat -> weight (rev q) = weight q.
Proof. intros H. dirsplit q H; reflexivity. Qed.
Lemma weight_pos q : (q < 19)%nat -> 0 < weight q.
Proof. intros H. dirsplit q H; cbv [weight nth weights_tab]; lra. Qed.

Definition vel (q : nat) : cell := (vx q, vy q, vz q).
Lemma vel_bound q : (q < 19)%nat -> d3q19_offset (vel q).
Proof. intros H. dirsplit q H; cbv; repeat split; discriminate. Qed.

Lemma vel_complete e : d3q19_offset e -> exists q, (q < 19)%nat /\ vel q = e.
Proof.
  destruct e as [[x y] z]. cbn. intros (Hx & Hy & Hz & Hs).
  assert (Ex : x = (-1)%Z \/ x = 0%Z \/ x = 1%Z) by lia.
  assert (Ey : y = (-1)%Z \/ y = 0%Z \/ y = 1%Z) by lia.
  assert (Ez : z = (-1)%Z \/ z = 0%Z \/ z = 1%Z) by lia.
  destruct Ex as [->|[->| ->]], Ey as [->|[->| ->]], Ez as [->|[->| ->]]; try (exfalso; cbn in Hs; lia);
  first [ exists 0%nat; split; [lia|reflexivity] | exists 1%nat; split; [lia|reflexivity]
        | exists 2%nat; split; [lia|reflexivity] | exists 3%nat; split; [lia|reflexivity]
        | exists 4%nat; split; [lia|reflexivity] | exists 5%nat; split; [lia|reflexivity]
        | exists 6%nat; split; [lia|reflexivity] | exists 7%nat; split; [lia|reflexivity]
        | exists 8%nat; split; [lia|reflexivity] | exists 9%nat; split; [lia|reflexivity]
        | exists 10%nat; split; [lia|reflexivity] | exists 11%nat; split; [lia|reflexivity]
        | exists 12%nat; split; [lia|reflexivity] | exists 13%nat; split; [lia|reflexivity]
        | exists 14%nat; split; [lia|reflexivity] | exists 15%nat; split; [lia|reflexivity]
        | exists 16%nat; split; [lia|reflexivity] | exists 17%nat; split; [lia|reflexivity]
        | exists 18%nat; split; [lia|reflexivity] ].
Qed.

Lemma vels_NoDup : NoDup (map vel dirs).
Proof.
  assert (H : forallb (fun n => negb (existsb (fun m => negb (Nat.eqb n m) &&
     (let '(a,b,c) := vel n in let '(a',b',c') := vel m in Z.eqb a a' && Z.eqb b b' && Z.eqb c c')%bool) dirs)) dirs = true)
    by (vm_compute; reflexivity).
  rewrite forallb_forall in H.
  assert (Hinj : forall a b, In a dirs -> In b dirs -> vel a = vel b -> a = b).
  { intros a b Ha Hb E. specialize (H a Ha). apply negb_true_iff in H.
    destruct (Nat.eq_dec a b) as [|Hn]; [assumption|exfalso].
    assert (Hx : existsb (fun m => negb (Nat.eqb a m) &&
     (let '(a0,b0,c0) := vel a in let '(a',b',c') := vel m in Z.eqb a0 a' && Z.eqb b0 b' && Z.eqb c0 c')%bool) dirs = true).
    { apply existsb_exists. exists b. split; [exact Hb|]. rewrite E.
      destruct (vel b) as [[p q] r]. rewrite !Z.eqb_refl.
      apply Nat.eqb_neq in Hn. rewrite Hn. reflexivity. }
    congruence. }
  assert (G : forall l, (forall x, In x l -> In x dirs) -> NoDup l -> NoDup (map vel l)).
  { induction l as [|x l IH]; intros Hl Hnd; cbn [map]; [constructor|].
    inversion Hnd; subst. constructor.
    - intros Hin. apply in_map_iff in Hin as (y & Ey & Hy).
      assert (x = y) by (apply Hinj; [apply Hl; left; reflexivity | apply Hl; right; exact Hy | congruence]).
      subst; contradiction.
    - apply IH; [intros; apply Hl; right; assumption | assumption]. }
  apply G; [auto|apply seq_NoDup].
Qed.

Lemma sumQ_rev (f : nat -> R) : sumQ (fun q => f (rev q)) = sumQ f.
Proof. rewrite !sumQ_expand. cbv [rev nth rev_tab]. ring. Qed.

Lemma sumQ_ext f g : (forall q, (q < 19)%nat -> f q = g q) -> sumQ f = sumQ g.
Proof. intros H. apply sumR_ext. intros q Hq. apply H. apply in_dirs; exact Hq. Qed.

Lemma d3q19_tables :
  NoDup (map vel dirs) /\
  (forall e, (exists q, (q < 19)%nat /\ vel q = e) <-> d3q19_offset e) /\
  (forall q, (q < 19)%nat -> (rev q < 19)%nat /\ rev (rev q) = q /\
     velR (rev q) = vneg (velR q) /\ 0 < weight q /\ weight (rev q) = weight q) /\
  vel 0 = (0, 0, 0)%Z.
Proof.
  split; [apply vels_NoDup|]. split; [|split; [|reflexivity]].
  - intros e; split; [intros (q & Hq & <-); apply vel_bound; exact Hq | apply vel_complete].
  - intros q Hq. split; [apply rev_lt; exact Hq|]. split; [apply rev_rev; exact Hq|].
    split; [|split; [apply weight_pos; exact Hq | apply weight_rev; exact Hq]].
    unfold velR. destruct (vel_rev q Hq) as (-> & -> & ->). rewrite !opp_IZR. reflexivity.
Qed.

Lemma d3q19_moments :
  sumQ weight = 1 /\
  (forall g : vec3 -> R, (forall e, g (vneg e) = - g e) -> sumQ (fun q => weight q * g (velR q)) = 0) /\
  (forall a b, sumQ (fun q => weight q * (comp a (velR q) * comp b (velR q))) = 1/3 * delta a b) /\
  (forall a b c e, sumQ (fun q => weight q * (comp a (velR q) * comp b (velR q) * comp c (velR q) * comp e (velR q)))
     = 1/9 * (delta a b * delta c e + delta a c * delta b e + delta a e * delta b c)).
Proof.
  split; [lat; lra|]. split; [|split].
  - intros g Hg.
    assert (H : sumQ (fun q => weight q * g (velR q)) = - sumQ (fun q => weight q * g (velR q))).
    { rewrite <- (sumQ_rev (fun q => weight q * g (velR q))) at 1.
      unfold sumQ at 2. rewrite <- sumR_opp. apply sumQ_ext. intros q Hq.
      rewrite weight_rev by exact Hq.
      destruct d3q19_tables as (_ & _ & Ht & _). destruct (Ht q Hq) as (_ & _ & -> & _).
      rewrite Hg. ring. }
    lra.
  - intros a b. destruct a, b; lat; cbv [comp delta]; lra.
  - intros a b c e. destruct a, b, c, e; lat; cbv [comp delta]; lra.
Qed.

(** ** Moments of the equilibria *)
Lemma equilibrium_f_moments_L rho u :
  sumQ (fun q => equilibrium_f q rho u) = rho /\
  (forall a, sumQ (fun q => equilibrium_f q rho u * comp a (velR q)) = rho * comp a u) /\
  (forall a b, sumQ (fun q => equilibrium_f q rho u * (comp a (velR q) * comp b (velR q)))
     = rho * (1/3 * delta a b + comp a u * comp b u)).
Proof.
  destruct u as [[u1 u2] u3]. unfold equilibrium_f, cs_sq, dot.
  split; [lat; field|]. split.
  - intros []; lat; cbv [comp]; field.
  - intros [] []; lat; cbv [comp delta]; field.
Qed.

Lemma equilibrium_h_moments_L p e T u :
  sumQ (fun q => equilibrium_h p q e T u) = e /\
  (forall a, sumQ (fun q => equilibrium_h p q e T u * comp a (velR q)) = heat_capacity p * T * comp a u).
Proof.
  destruct u as [[u1 u2] u3]. unfold equilibrium_h, cs_sq, dot.
  split; [lat; cbn [Nat.eqb]; field|].
  intros []; lat; cbn [Nat.eqb]; cbv [comp]; field.
Qed.

(** ** Collision *)
Lemma f_forcing_moments p u F :
  sumQ (fun q => f_forcing p q u F) = 0 /\
  (forall a, sumQ (fun q => f_forcing p q u F * comp a (velR q)) = (1 - 1 / (2 * tau_nu p)) * comp a F).
Proof.
  destruct u as [[u1 u2] u3], F as [[f1 f2] f3]. unfold f_forcing.
  set (k := 1 - 1 / (2 * tau_nu p)). clearbody k.
  unfold cs_sq, dot, vadd, vscale. split; [lat; field|].
  intros []; lat; cbv [comp]; field.
Qed.

Lemma momentum_comp f a : comp a (momentum f) = sumQ (fun q => f q * comp a (velR q)).
Proof. destruct a; reflexivity. Qed.

Lemma sumQ_lin3 (A B C : nat -> R) k :
  sumQ (fun q => k * (A q - B q) + B q + C q * dt) = k * (sumQ A - sumQ B) + sumQ B + sumQ C.
Proof. rewrite !sumQ_expand. unfold dt. ring. Qed.

Lemma nb0 d c : in_grid d c -> nb d c 0 = c.
Proof.
  destruct c as [[x y] z]. cbn. intros (Hx & Hy & Hz).
  change (vx 0) with 0%Z; change (vy 0) with 0%Z; change (vz 0) with 0%Z.
  rewrite !jax_index_in by lia. reflexivity.
Qed.

Lemma compute_u1_liquid p f rho T src a : rho <> 0 -> T_solidus p <= T ->
  rho * comp a (compute_u1 p f rho T src) = comp a (momentum f) + comp a src / 2.
Proof.
  intros Hr HT. unfold compute_u1.
  rewrite (proj2 (Reqb_false rho 0) Hr), (proj2 (Rltb_false T _) HT).
  destruct (momentum f) as [[m1 m2] m3], src as [[s1 s2] s3].
  unfold dt, m_half. destruct a; cbn; field; exact Hr.
Qed.

Lemma weights_sum : sumQ weight = 1.
Proof. apply d3q19_moments. Qed.

Lemma collide_f_gas p d f rho T u phase src c : in_grid d c ->
  phase c = GAS \/ phase c = WALL -> forall q, collide_f p d f rho T u phase src c q = 0.
Proof.
  intros Hc Hp q. unfold collide_f, extract_local. rewrite nb0 by exact Hc.
  destruct Hp as [-> | ->]; reflexivity.
Qed.

Lemma collide_f_balance p d f T src phase c : in_grid d c -> tau_nu p <> 0 ->
  phase c = LIQUID \/ phase c = LG ->
  let rho := compute_rho f in
  let u := compute_u p f rho T src in
  let f' := collide_f p d f rho T u phase src c in
  density f' = density (f c) /\
  (T_solidus p <= T c -> density (f c) <> 0 -> forall a,
     sumR (seq 0 19) (fun q => f' q * comp a (velR q))
     = sumR (seq 0 19) (fun q => f c q * comp a (velR q)) + comp a (src c)) /\
  (T c < T_solidus p -> forall a, sumR (seq 0 19) (fun q => f' q * comp a (velR q)) = 0).
Proof.
  intros Hc Htau Hp rho u f'. change (seq 0 19) with dirs. unfold density.
  assert (Eg : is_gas_or_wall (extract_local d phase c 0) = false).
  { unfold extract_local. rewrite nb0 by exact Hc. destruct Hp as [-> | ->]; reflexivity. }
  unfold f', collide_f. rewrite Eg. unfold extract_self.
  destruct (Rltb (T c) (T_solidus p)) eqn:ET.
  - apply Rltb_true in ET. split; [|split].
    + fold (sumQ (fun q => weight q * rho c)). unfold rho, compute_rho.
      unfold sumQ at 1. rewrite sumR_scal_r. transitivity (1 * sumQ (f c)); [f_equal; exact weights_sum | apply Rmult_1_l].
    + intros; lra.
    + intros _ a. fold (sumQ (fun q => weight q * rho c * comp a (velR q))).
      transitivity (rho c * sumQ (fun q => weight q * comp a (velR q))).
      { unfold sumQ; rewrite <- sumR_scal. apply sumR_ext; intros; ring. }
      destruct d3q19_moments as (_ & Ho & _). rewrite Ho; [ring|].
      intros [[x y] z]; destruct a; reflexivity.
  - apply Rltb_false in ET. fold (sumQ (f c)).
    destruct (equilibrium_f_moments_L (rho c) (u c)) as (E0 & E1 & _).
    destruct (f_forcing_moments p (u c) (src c)) as (F0 & F1).
    split; [|split].
    + change (seq 0 19) with dirs.
      fold (sumQ (fun q => 1 / tau_nu p * (equilibrium_f q (rho c) (u c) - f c q) + f c q + f_forcing p q (u c) (src c) * dt)).
      rewrite sumQ_lin3, E0, F0. unfold rho at 1, compute_rho. unfold sumQ, dirs, Ns. ring.
    + intros _ Hrho a. change (sumR (seq 0 19) (f c)) with (rho c) in Hrho.
      transitivity (sumQ (fun q => 1 / tau_nu p * (equilibrium_f q (rho c) (u c) * comp a (velR q) - f c q * comp a (velR q))
              + f c q * comp a (velR q) + f_forcing p q (u c) (src c) * comp a (velR q) * dt)).
      { apply sumQ_ext. intros q _. ring. }
      rewrite sumQ_lin3, E1, F1. unfold u, compute_u.
      rewrite compute_u1_liquid by assumption.
      rewrite momentum_comp. unfold sumQ. field. exact Htau.
    + intros; lra.
Qed.

Lemma collide_h_gas p d h e T rho u phase src c : in_grid d c ->
  phase c = GAS \/ phase c = WALL -> forall q, collide_h p d h e T rho u phase src c q = 0.
Proof.
  intros Hc Hp q. unfold collide_h, extract_local. rewrite nb0 by exact Hc.
  destruct Hp as [-> | ->]; reflexivity.
Qed.

Lemma collide_h_balance p d h T rho u phase src c : in_grid d c ->
  phase c = LIQUID \/ phase c = LG -> rho c <> 0 ->
  let h' := collide_h p d h (compute_enthalpy h) T rho u phase src c in
  density h' = density (h c) + src c / rho c.
Proof.
  intros Hc Hp Hr h'. unfold density. change (seq 0 19) with dirs.
  assert (Eg : is_gas_or_wall (extract_local d phase c 0) = false).
  { unfold extract_local. rewrite nb0 by exact Hc. destruct Hp as [-> | ->]; reflexivity. }
  unfold h', collide_h. rewrite Eg. unfold extract_self.
  set (tau := if Rltb (T c) (T_solidus p) then tau_s p else tau_l p). clearbody tau.
  fold (sumQ (fun q => 1 / tau * (equilibrium_h p q (compute_enthalpy h c) (T c) (u c) - h c q) + h c q + h_forcing (src c) (rho c) q * dt)).
  rewrite sumQ_lin3.
  destruct (equilibrium_h_moments_L p (compute_enthalpy h c) (T c) (u c)) as (E0 & _). rewrite E0.
  unfold compute_enthalpy, h_forcing.
  assert (EF : sumQ (fun q => src c / rho c * weight q) = src c / rho c).
  { unfold sumQ. rewrite sumR_scal. transitivity (src c / rho c * 1); [f_equal; exact weights_sum | apply Rmult_1_r]. }
  rewrite EF. unfold sumQ. ring.
Qed.
Close Scope R_scope.
