From Verif Require Import Prelude PreludeFacts LbmModel LbmSpec LbmProofs LbmMassProofs.
From Coq Require Import Lra Psatz ZifyBool ZifyNat.
Open Scope R_scope.

Lemma local0 {A} d (v : field A) c : in_grid d c -> extract_local d v c 0%nat = v c.
Proof. intros H. unfold extract_local. rewrite nb0 by exact H. reflexivity. Qed.

Lemma phase_dec (a b : phase_t) : {a = b} + {a <> b}.
Proof. decide equality. Qed.

(** stage 2 *)
Lemma gas_to_lg_phase p d s rho u e T c : in_grid d c ->
  lphase (reini_gas_to_lg p d s rho u e T) c =
  if gas_to_lg_flag d (lphase s) c then LG else lphase s c.
Proof. intros H. cbn. rewrite local0 by exact H. reflexivity. Qed.

Lemma gas_to_lg_flag_spec d phase c : closed d phase -> in_grid d c ->
  gas_to_lg_flag d phase c = true <-> phase c = GAS /\ exists n, adjacent c n /\ phase n = LIQUID.
Proof.
  intros Hcl Hc. unfold gas_to_lg_flag. rewrite local0 by exact Hc. rewrite andb_true_iff, phase_eqb_spec.
  split; intros [E H]; (split; [exact E|]); apply (existsb_adjacent d phase c LIQUID); try assumption; congruence.
Qed.

Lemma gas_to_lg_flag_gas d phase c : in_grid d c -> gas_to_lg_flag d phase c = true -> phase c = GAS.
Proof. intros Hc. unfold gas_to_lg_flag. rewrite local0, andb_true_iff, phase_eqb_spec by exact Hc. tauto. Qed.

(** stage 3 *)
Lemma lg_to_gas_spec s c :
  (emptied s c -> reini_lg_to_gas (lf s) (lphase s) (lmass s) c = GAS) /\
  (~ emptied s c -> reini_lg_to_gas (lf s) (lphase s) (lmass s) c = lphase s c).
Proof.
  unfold reini_lg_to_gas, emptied, density. change (sumR (seq 0 19) (lf s c)) with (sumQ (lf s c)). unfold theta.
  destruct (phase_dec (lphase s c) LG) as [E|E].
  - rewrite E. cbn [phase_eqb andb]. destruct (Rltb _ _) eqn:Er.
    + apply Rltb_true in Er. split; [reflexivity|]. intros H; exfalso; apply H. split; [reflexivity|lra].
    + apply Rltb_false in Er. split; [|reflexivity]. intros [_ H]; exfalso; lra.
  - assert (Ef : phase_eqb (lphase s c) LG = false) by (destruct (lphase s c); congruence || reflexivity).
    rewrite Ef. cbn [andb]. split; [tauto|reflexivity].
Qed.

Lemma emptied_dec s c : {emptied s c} + {~ emptied s c}.
Proof.
  unfold emptied. destruct (phase_dec (lphase s c) LG); [|right; tauto].
  destruct (Rlt_dec (lmass s c) (- (1/1000) * density (lf s c))); [left; auto | right; tauto].
Qed.
Lemma filled_dec s c : {filled s c} + {~ filled s c}.
Proof.
  unfold filled. destruct (phase_dec (lphase s c) LG); [|right; tauto].
  destruct (Rlt_dec ((1 + 1/1000) * density (lf s c)) (lmass s c)); [left; auto | right; tauto].
Qed.

(** stage 4 *)
Lemma liquid_to_lg_flag_spec d phase c : closed d phase -> in_grid d c ->
  liquid_to_lg_flag d phase c = true <-> phase c = LIQUID /\ exists n, adjacent c n /\ phase n = GAS.
Proof.
  intros Hcl Hc. unfold liquid_to_lg_flag. rewrite local0 by exact Hc. rewrite andb_true_iff, phase_eqb_spec.
  split; intros [E H]; (split; [exact E|]); apply (existsb_adjacent d phase c GAS); try assumption; congruence.
Qed.
Lemma liquid_to_lg_flag_liquid d phase c : in_grid d c -> liquid_to_lg_flag d phase c = true -> phase c = LIQUID.
Proof. intros Hc. unfold liquid_to_lg_flag. rewrite local0, andb_true_iff, phase_eqb_spec by exact Hc. tauto. Qed.

Lemma liquid_to_lg_phase d f phase mass c : in_grid d c ->
  fst (reini_liquid_to_lg d f phase mass) c = if liquid_to_lg_flag d phase c then LG else phase c.
Proof. intros H. cbn. rewrite local0 by exact H. reflexivity. Qed.

(** C12, first half *)
Lemma liquid_to_lg_separates d f phase mass : closed d phase ->
  no_liquid_gas_contact d (fst (reini_liquid_to_lg d f phase mass)).
Proof.
  intros Hcl c n Hc Hn Ha. rewrite !liquid_to_lg_phase by assumption.
  destruct (liquid_to_lg_flag d phase c) eqn:Ef; [discriminate|]. intros El.
  destruct (liquid_to_lg_flag d phase n) eqn:En; [discriminate|]. intros Eg.
  assert (liquid_to_lg_flag d phase c = true); [|congruence].
  apply liquid_to_lg_flag_spec; [assumption..|]. split; [exact El|]. exists n; auto.
Qed.

(** stage 5 *)
Lemma adhoc_spec d phase c : closed d phase -> in_grid d c ->
  (phase c <> LG -> adhoc_step d phase c = phase c) /\
  (phase c = LG ->
     ((forall n, adjacent c n -> phase n <> LIQUID) -> adhoc_step d phase c = GAS) /\
     ((exists n, adjacent c n /\ phase n = LIQUID) ->
        ((forall n, adjacent c n -> phase n <> GAS) -> adhoc_step d phase c = LIQUID) /\
        ((exists n, adjacent c n /\ phase n = GAS) -> adhoc_step d phase c = LG))).
Proof.
  intros Hcl Hc. unfold adhoc_step. rewrite local0 by exact Hc.
  split.
  { intros E. assert (Ef : phase_eqb (phase c) LG = false) by (destruct (phase c); congruence || reflexivity).
    rewrite Ef. reflexivity. }
  intros E. assert (Hw : phase c <> WALL) by congruence. rewrite E. cbn [phase_eqb andb].
  set (G := forallb _ nbdirs). set (L := forallb _ nbdirs).
  assert (HG : G = true <-> forall n, adjacent c n -> phase n <> LIQUID).
  { unfold G. rewrite forallb_forall. split.
    - intros H n Ha. apply (adjacent_nb d phase) in Ha as (q & Hq & ->); try assumption.
      specialize (H q (proj2 (in_nbdirs q) Hq)). unfold extract_local in H.
      intros En; rewrite En in H; discriminate.
    - intros H q Hq. apply in_nbdirs in Hq. unfold extract_local.
      assert (Hx : phase (nb d c q) <> LIQUID).
      { apply H. apply (adjacent_nb d phase); try assumption. exists q; auto. }
      destruct (phase (nb d c q)); try reflexivity. contradiction. }
  assert (HL : L = true <-> forall n, adjacent c n -> phase n <> GAS).
  { unfold L. rewrite forallb_forall. split.
    - intros H n Ha. apply (adjacent_nb d phase) in Ha as (q & Hq & ->); try assumption.
      specialize (H q (proj2 (in_nbdirs q) Hq)). unfold extract_local in H.
      intros En; rewrite En in H; discriminate.
    - intros H q Hq. apply in_nbdirs in Hq. unfold extract_local.
      assert (Hx : phase (nb d c q) <> GAS).
      { apply H. apply (adjacent_nb d phase); try assumption. exists q; auto. }
      destruct (phase (nb d c q)); try reflexivity. contradiction. }
  split.
  - intros H. apply HG in H. rewrite H. reflexivity.
  - intros (n & Ha & El). assert (EG : G = false).
    { destruct G; [|reflexivity]. exfalso. apply (proj1 HG eq_refl n Ha El). }
    rewrite EG. split.
    + intros H. apply HL in H. rewrite H. reflexivity.
    + intros (m & Hm & Em). destruct L; [|reflexivity]. exfalso. apply (proj1 HL eq_refl m Hm Em).
Qed.

Lemma adhoc_wall d phase c : in_grid d c -> adhoc_step d phase c = WALL <-> phase c = WALL.
Proof.
  intros Hc. unfold adhoc_step. rewrite local0 by exact Hc. destruct (phase c); cbn [phase_eqb andb]; try tauto.
  split; [|discriminate]. repeat match goal with |- context [if ?b then _ else _] => destruct b end; discriminate.
Qed.

(** The phase map after each stage of one re-initialisation. *)
Section Stages.
Variables (p : params) (d : dims) (s : lstate) (rho : field R) (u : field vec3) (e T : field R).
Let ph1 := reini_lg_to_liquid (lf s) (lphase s) (lmass s).
Let s2 := reini_gas_to_lg p d (mkL (lf s) (lh s) ph1 (lmass s)) rho u e T.
Let ph3 := reini_lg_to_gas (lf s2) (lphase s2) (lmass s2).
Definition mid_phase := fst (reini_liquid_to_lg d (lf s2) ph3 (lmass s2)).

Lemma reinit_phase : lphase (reinit p d s rho u e T) = adhoc_step d mid_phase.
Proof. reflexivity. Qed.

Lemma st1_wall c : ph1 c = WALL <-> lphase s c = WALL.
Proof.
  unfold ph1. rewrite lg_to_liquid_other by discriminate. split; [tauto|].
  intros E; split; [exact E|]. intros [F _]; congruence.
Qed.
Lemma st2_wall c : in_grid d c -> lphase s2 c = WALL <-> ph1 c = WALL.
Proof.
  intros Hc. unfold s2. rewrite gas_to_lg_phase by exact Hc. cbn [lphase].
  destruct (gas_to_lg_flag d ph1 c) eqn:Ef; [|tauto].
  apply gas_to_lg_flag_gas in Ef; [|exact Hc]. split; [discriminate|congruence].
Qed.
Lemma st3_wall c : ph3 c = WALL <-> lphase s2 c = WALL.
Proof.
  destruct (lg_to_gas_spec s2 c) as [H1 H2]. destruct (emptied_dec s2 c) as [H|H].
  - unfold ph3; rewrite (H1 H). destruct H as [E _]. split; [discriminate|congruence].
  - unfold ph3; rewrite (H2 H). tauto.
Qed.
Lemma st4_wall c : in_grid d c -> mid_phase c = WALL <-> ph3 c = WALL.
Proof.
  intros Hc. unfold mid_phase. rewrite liquid_to_lg_phase by exact Hc.
  destruct (liquid_to_lg_flag d ph3 c) eqn:Ef; [|tauto].
  apply liquid_to_lg_flag_liquid in Ef; [|exact Hc]. split; [discriminate|congruence].
Qed.
Lemma mid_wall c : in_grid d c -> mid_phase c = WALL <-> lphase s c = WALL.
Proof. intros Hc. rewrite st4_wall, st3_wall, st2_wall, st1_wall by exact Hc. tauto. Qed.
Lemma reinit_wall c : in_grid d c -> lphase (reinit p d s rho u e T) c = WALL <-> lphase s c = WALL.
Proof. intros Hc. rewrite reinit_phase, adhoc_wall, mid_wall by exact Hc. tauto. Qed.

Hypothesis Hcl : closed d (lphase s).
Lemma cl1 : closed d ph1.
Proof. apply (closed_ext _ _ _ Hcl). intros; apply st1_wall. Qed.
Lemma cl2 : closed d (lphase s2).
Proof. apply (closed_ext _ _ _ cl1). intros; apply st2_wall; assumption. Qed.
Lemma cl3 : closed d ph3.
Proof. apply (closed_ext _ _ _ cl2). intros; apply st3_wall. Qed.
Lemma cl4 : closed d mid_phase.
Proof. apply (closed_ext _ _ _ cl3). intros; apply st4_wall; assumption. Qed.
Lemma closed_reinit : closed d (lphase (reinit p d s rho u e T)).
Proof. apply (closed_ext _ _ _ Hcl). intros; apply reinit_wall; assumption. Qed.

Lemma mid_no_contact : no_liquid_gas_contact d mid_phase.
Proof. apply liquid_to_lg_separates. apply cl3. Qed.

(* liquid at stage 3 is exactly: liquid before, or filled *)
Lemma st2_liquid c : in_grid d c -> lphase s2 c = LIQUID <-> ph1 c = LIQUID.
Proof.
  intros Hc. unfold s2. rewrite gas_to_lg_phase by exact Hc. cbn [lphase].
  destruct (gas_to_lg_flag d ph1 c) eqn:Ef; [|tauto].
  apply gas_to_lg_flag_gas in Ef; [|exact Hc]. split; [discriminate|congruence].
Qed.
Lemma st3_liquid c : ph3 c = LIQUID <-> lphase s2 c = LIQUID.
Proof.
  destruct (lg_to_gas_spec s2 c) as [H1 H2]. destruct (emptied_dec s2 c) as [H|H].
  - unfold ph3; rewrite (H1 H). destruct H as [E _]. split; [discriminate|congruence].
  - unfold ph3; rewrite (H2 H). tauto.
Qed.
Lemma st3_liquid_iff c : in_grid d c -> ph3 c = LIQUID <-> lphase s c = LIQUID \/ filled s c.
Proof. intros Hc. rewrite st3_liquid, st2_liquid by exact Hc. apply lg_to_liquid_spec. Qed.

Lemma mid_gas c : in_grid d c -> mid_phase c = GAS <-> ph3 c = GAS.
Proof.
  intros Hc. unfold mid_phase. rewrite liquid_to_lg_phase by exact Hc.
  destruct (liquid_to_lg_flag d ph3 c) eqn:Ef; [|tauto].
  apply liquid_to_lg_flag_liquid in Ef; [|exact Hc]. split; [discriminate|congruence].
Qed.

Lemma mid_from_liquid c : in_grid d c -> lphase s c = LIQUID \/ filled s c ->
  mid_phase c = LIQUID \/ (mid_phase c = LG /\ exists n, adjacent c n /\ mid_phase n = GAS).
Proof.
  intros Hc Hl. assert (E3 := proj2 (st3_liquid_iff c Hc) Hl).
  assert (Ec : mid_phase c = if liquid_to_lg_flag d ph3 c then LG else ph3 c)
    by (apply liquid_to_lg_phase; exact Hc).
  destruct (liquid_to_lg_flag d ph3 c) eqn:Ef; [|left; congruence].
  right. split; [exact Ec|].
  apply liquid_to_lg_flag_spec in Ef as (_ & n & Ha & En); [|apply cl3|exact Hc].
  exists n. split; [exact Ha|]. apply mid_gas; [|exact En].
  apply (closed_nb_grid d (ph3) c); [apply cl3|exact Hc|congruence|exact Ha].
Qed.

Lemma mid_liquid c : in_grid d c -> mid_phase c = LIQUID -> lphase s c = LIQUID \/ filled s c.
Proof.
  intros Hc E. apply st3_liquid_iff; [exact Hc|].
  assert (Ec : mid_phase c = if liquid_to_lg_flag d ph3 c then LG else ph3 c)
    by (apply liquid_to_lg_phase; exact Hc).
  destruct (liquid_to_lg_flag d ph3 c); congruence.
Qed.

(* an interface cell is unchanged by stages 1 and 2 unless filled *)
Lemma st2_lg c : in_grid d c -> lphase s c = LG -> ~ filled s c ->
  lphase s2 c = LG /\ lf s2 c = lf s c /\ lmass s2 c = lmass s c.
Proof.
  intros Hc E Hf. assert (E1 : ph1 c = LG) by (apply lg_to_liquid_other; [discriminate|auto]).
  assert (Ef : gas_to_lg_flag d ph1 c = false).
  { destruct (gas_to_lg_flag d ph1 c) eqn:Ef; [|reflexivity]. apply gas_to_lg_flag_gas in Ef; [congruence|exact Hc]. }
  unfold s2. rewrite gas_to_lg_phase by exact Hc. cbn. rewrite Ef. auto.
Qed.

Lemma mid_from_lg c : in_grid d c -> lphase s c = LG -> ~ filled s c ->
  (emptied s c -> mid_phase c = GAS) /\ (~ emptied s c -> mid_phase c = LG).
Proof.
  intros Hc E Hf. destruct (st2_lg c Hc E Hf) as (E2 & F2 & M2).
  destruct (lg_to_gas_spec s2 c) as [H1 H2].
  assert (Hiff : emptied s2 c <-> emptied s c) by (unfold emptied; rewrite E2, F2, M2, E; tauto).
  split; intros H.
  - apply mid_gas; [exact Hc|]. apply H1. tauto.
  - assert (E3 : ph3 c = LG) by (unfold ph3; rewrite H2 by tauto; exact E2).
    assert (Ec : mid_phase c = if liquid_to_lg_flag d ph3 c then LG else ph3 c)
      by (apply liquid_to_lg_phase; exact Hc).
    destruct (liquid_to_lg_flag d ph3 c); congruence.
Qed.

Lemma mid_from_gas c : in_grid d c -> lphase s c = GAS ->
  (mid_phase c = GAS \/ mid_phase c = LG) /\
  (mid_phase c = LG -> exists n, adjacent c n /\ (lphase s n = LIQUID \/ filled s n)) /\
  ((exists n, adjacent c n /\ (lphase s n = LIQUID \/ filled s n)) ->
     (forall n, 0 <= rho n) -> mid_phase c = LG).
Proof.
  intros Hc E. assert (E1 : ph1 c = GAS).
  { apply lg_to_liquid_other; [discriminate|]. split; [exact E|]. intros [F _]; congruence. }
  assert (E2 : lphase s2 c = if gas_to_lg_flag d ph1 c then LG else GAS).
  { unfold s2. rewrite gas_to_lg_phase by exact Hc. cbn [lphase]. rewrite E1. reflexivity. }
  assert (Ec : mid_phase c = if liquid_to_lg_flag d ph3 c then LG else ph3 c)
    by (apply liquid_to_lg_phase; exact Hc).
  assert (Hfl := gas_to_lg_flag_spec d ph1 c cl1 Hc).
  assert (Hn3 : ph3 c <> LIQUID).
  { intros F. apply st3_liquid in F. rewrite E2 in F. destruct (gas_to_lg_flag d ph1 c); discriminate. }
  assert (Ef4 : liquid_to_lg_flag d ph3 c = false).
  { destruct (liquid_to_lg_flag d ph3 c) eqn:Ef; [|reflexivity].
    apply liquid_to_lg_flag_liquid in Ef; [contradiction|exact Hc]. }
  rewrite Ef4 in Ec.
  assert (Hnb : (exists n, adjacent c n /\ ph1 n = LIQUID) <-> exists n, adjacent c n /\ (lphase s n = LIQUID \/ filled s n)).
  { split; intros (n & Ha & H); exists n; (split; [exact Ha|]); apply lg_to_liquid_spec; exact H. }
  destruct (lg_to_gas_spec s2 c) as [H1 H2].
  split; [|split].
  - rewrite Ec. destruct (emptied_dec s2 c) as [Hm|Hm].
    + left. apply H1; exact Hm.
    + unfold ph3. rewrite (H2 Hm), E2. destruct (gas_to_lg_flag d ph1 c); auto.
  - intros Em. apply Hnb. apply Hfl.
    destruct (gas_to_lg_flag d ph1 c) eqn:Ef; [reflexivity|exfalso].
    rewrite Ec in Em. unfold ph3 in Em. rewrite H2, E2 in Em; [discriminate|].
    intros [F _]. rewrite E2 in F. discriminate.
  - intros Hex Hr. assert (Ef : gas_to_lg_flag d ph1 c = true) by (apply Hfl; split; [exact E1|apply Hnb; exact Hex]).
    rewrite Ef in E2. rewrite Ec. unfold ph3. rewrite H2; [exact E2|].
    intros [_ Hm]. unfold s2 in Hm. cbn in Hm. rewrite Ef in Hm.
    unfold density in Hm. change (sumR (seq 0 19)) with sumQ in Hm.
    destruct (equilibrium_f_moments_L (nb_avg d ph1 rho c) (nb_avg3 d ph1 u c)) as (E0 & _).
    assert (Hm' : 0 < - (1/1000) * nb_avg d ph1 rho c) by (rewrite <- E0; exact Hm).
    assert (0 <= nb_avg d ph1 rho c); [|lra].
    unfold nb_avg.
    assert (Hnn : forall x, 0 <= nb_liquid_flag x) by (intros x; unfold nb_liquid_flag; destruct (_ || _)%bool; cbn; lra).
    assert (A : 0 <= sumQ (fun q => nb_liquid_flag (extract_local d ph1 c q) * extract_local d rho c q)).
    { apply sumR_nonneg. intros q _. apply Rmult_le_pos; [apply Hnn | apply Hr]. }
    assert (B : 0 < sumQ (fun q => nb_liquid_flag (extract_local d ph1 c q))).
    { unfold gas_to_lg_flag in Ef. apply andb_true_iff in Ef as [_ Ef]. apply existsb_nb in Ef as (q & Hq & Eq).
      assert (Hq' : In q dirs) by (apply in_dirs; lia). unfold sumQ. clear -Hq' Eq Hnn.
      induction dirs as [|y l IH]; [destruct Hq'|]. cbn [sumR]. destruct Hq' as [->|Hq'].
      - unfold extract_local at 1. rewrite Eq. cbn.
        assert (0 <= sumR l (fun q => nb_liquid_flag (extract_local d ph1 c q))); [|lra].
        apply sumR_nonneg; auto.
      - specialize (IH Hq'). specialize (Hnn (extract_local d ph1 c y)). lra. }
    apply Rle_mult_inv_pos; assumption.
Qed.

(** Cells whose whole neighbourhood is in bulk do not change. *)
Lemma bulk_liquid_stays c : in_grid d c -> lphase s c = LIQUID ->
  (forall n, adjacent c n -> lphase s n = LIQUID \/ lphase s n = WALL) ->
  lphase (reinit p d s rho u e T) c = LIQUID.
Proof.
  intros Hc E Hn. rewrite reinit_phase. destruct (adhoc_spec d mid_phase c cl4 Hc) as [Hk _].
  destruct (mid_from_liquid c Hc (or_introl E)) as [Em|(Em & n & Ha & Eg)].
  - rewrite Hk; congruence.
  - exfalso. assert (Hgn : in_grid d n) by (apply (closed_nb_grid d (lphase s) c); [exact Hcl|exact Hc|congruence|exact Ha]).
    destruct (Hn n Ha) as [F|F].
    + destruct (mid_from_liquid n Hgn (or_introl F)) as [G|[G _]]; congruence.
    + apply (mid_wall n Hgn) in F. congruence.
Qed.

Lemma bulk_gas_stays c : in_grid d c -> lphase s c = GAS ->
  (forall n, adjacent c n -> lphase s n = GAS \/ lphase s n = WALL) ->
  lphase (reinit p d s rho u e T) c = GAS.
Proof.
  intros Hc E Hn. rewrite reinit_phase. destruct (adhoc_spec d mid_phase c cl4 Hc) as [Hk _].
  destruct (mid_from_gas c Hc E) as ([Em|Em] & H & _).
  - rewrite Hk; congruence.
  - exfalso. destruct (H Em) as (n & Ha & [F|[F _]]); destruct (Hn n Ha); congruence.
Qed.
End Stages.

(** ** Step and run level *)
Lemma step_phase p d src fo target x :
  let s := fst (physics p d src (pre p fo (st x))) in
  exists rho u e T, lphase (st (step p d src fo target x)) = lphase (reinit p d s rho u e T) /\
    lphase s = lphase (st x).
Proof.
  intros s. unfold s, step. destruct (physics p d src (pre p fo (st x))) as [s1 [[[rho u] e] T]] eqn:E.
  exists rho, u, e, T. cbn [fst]. split; [reflexivity|].
  assert (E' : s1 = fst (physics p d src (pre p fo (st x)))) by (rewrite E; reflexivity).
  rewrite E'. unfold physics, pre. cbn [fst lphase]. destruct fo; reflexivity.
Qed.

Lemma step_wall p d src fo target x c : in_grid d c ->
  lphase (st (step p d src fo target x)) c = WALL <-> lphase (st x) c = WALL.
Proof.
  intros Hc. destruct (step_phase p d src fo target x) as (rho & u & e & T & E & Es).
  rewrite E, <- Es. apply reinit_wall. exact Hc.
Qed.

Lemma init_wall p d ph0 c : in_grid d c -> lphase (init_state p d ph0) c = WALL <-> ph0 c = WALL.
Proof.
  intros Hc. unfold init_state. cbn [lphase]. rewrite gas_to_lg_phase by exact Hc. cbn [lphase].
  destruct (gas_to_lg_flag d ph0 c) eqn:Ef; [|tauto].
  apply gas_to_lg_flag_gas in Ef; [|exact Hc]. split; [discriminate|congruence].
Qed.

Lemma run_wall p d fo target srcs x c : in_grid d c ->
  lphase (st (run p d fo target srcs x)) c = WALL <-> lphase (st x) c = WALL.
Proof.
  intros Hc. induction srcs as [|src srcs IH] using rev_ind; [tauto|].
  rewrite run_last, step_wall by exact Hc. exact IH.
Qed.

Lemma simulate_walls p d fo ph0 srcs c : in_grid d c ->
  lphase (st (simulate p d fo ph0 srcs)) c = WALL <-> ph0 c = WALL.
Proof. intros Hc. unfold simulate. rewrite run_wall by exact Hc. apply init_wall; exact Hc. Qed.

Lemma simulate_zero p d fo ph0 srcs c : srcs <> [] ->
  let s := st (simulate p d fo ph0 srcs) in
  lphase s c = GAS \/ lphase s c = WALL ->
  (forall q, lf s c q = 0 /\ lh s c q = 0) /\ lmass s c = 0.
Proof.
  intros Hne s Hp. unfold s, simulate in *. destruct srcs as [|src srcs _] using rev_ind; [contradiction|].
  rewrite run_last in *. unfold step in *.
  destruct (physics p d src _) as [s1 [[[rho u] e] T]]. cbn [st] in *. unfold refresh_for_output in *.
  cbn [lphase lf lh lmass] in *.
  assert (Ez : is_gas_or_wall (lphase (reinit p d s1 rho u e T) c) = true) by (destruct Hp as [-> | ->]; reflexivity).
  rewrite Ez. auto.
Qed.

Lemma bulk_stays p d src fo target x c : closed d (lphase (st x)) -> in_grid d c ->
  let ph := lphase (st x) in let ph' := lphase (st (step p d src fo target x)) in
  (ph c = LIQUID -> (forall n, adjacent c n -> ph n = LIQUID \/ ph n = WALL) -> ph' c = LIQUID) /\
  (ph c = GAS -> (forall n, adjacent c n -> ph n = GAS \/ ph n = WALL) -> ph' c = GAS).
Proof.
  intros Hcl Hc ph ph'. destruct (step_phase p d src fo target x) as (rho & u & e & T & E & Es).
  unfold ph', ph. rewrite E, <- Es in *. split.
  - apply bulk_liquid_stays; assumption.
  - apply bulk_gas_stays; assumption.
Qed.

(** ** Melt history *)
Lemma melted_step p d src fo target x c :
  melted (step p d src fo target x) c = if Rltb (T_solidus p) (T_of p (pre p fo (st x)) c) then 1 else melted x c.
Proof. reflexivity. Qed.

Lemma melted_run p d fo ph0 srcs c :
  (melted (simulate p d fo ph0 srcs) c = 1 /\
    exists k, (k < length srcs)%nat /\
      T_solidus p < T_of p (pre p fo (st (simulate p d fo ph0 (firstn k srcs)))) c) \/
  (melted (simulate p d fo ph0 srcs) c = 0 /\
    forall k, (k < length srcs)%nat ->
      T_of p (pre p fo (st (simulate p d fo ph0 (firstn k srcs)))) c <= T_solidus p).
Proof.
  induction srcs as [|src srcs IH] using rev_ind.
  { right. split; [reflexivity|]. cbn; intros; lia. }
  unfold simulate. rewrite run_last. rewrite melted_step. fold (simulate p d fo ph0 srcs).
  assert (Fl : forall k, (k < length srcs)%nat -> firstn k (srcs ++ [src]) = firstn k srcs).
  { intros k Hk. rewrite firstn_app. replace (k - length srcs)%nat with 0%nat by lia. cbn. apply app_nil_r. }
  assert (Fe : firstn (length srcs) (srcs ++ [src]) = srcs).
  { rewrite firstn_app, Nat.sub_diag, firstn_all. cbn. apply app_nil_r. }
  fold (simulate p d fo ph0 srcs).
  change (run p d fo (init_total_mass p d ph0) srcs (init_sim p d ph0)) with (simulate p d fo ph0 srcs).
  rewrite app_length. cbn [length].
  destruct (Rltb (T_solidus p) (T_of p (pre p fo (st (simulate p d fo ph0 srcs))) c)) eqn:Er.
  - apply Rltb_true in Er. left. split; [reflexivity|]. exists (length srcs). split; [lia|].
    change (T_solidus p < T_of p (pre p fo (st (simulate p d fo ph0 (firstn (length srcs) (srcs ++ [src]))))) c).
    rewrite Fe. exact Er.
  - apply Rltb_false in Er. destruct IH as [[M (k & Hk & HT)]|[M H]].
    + left. split; [exact M|]. exists k. split; [lia|].
      change (T_solidus p < T_of p (pre p fo (st (simulate p d fo ph0 (firstn k (srcs ++ [src]))))) c).
      rewrite Fl by exact Hk. exact HT.
    + right. split; [exact M|]. intros k Hk.
      change (T_of p (pre p fo (st (simulate p d fo ph0 (firstn k (srcs ++ [src]))))) c <= T_solidus p).
      destruct (Nat.eq_dec k (length srcs)) as [->|Hne]; [rewrite Fe; exact Er|].
      rewrite Fl by lia. apply H. lia.
Qed.

(** ** Temperature recovery *)
Lemma compute_T_curve p : consistent p ->
  compute_T1 p (enthalpy_s p) = T_solidus p /\
  compute_T1 p (enthalpy_l p) = T_liquidus p /\
  (forall e, e <= enthalpy_s p -> compute_T1 p e = e / heat_capacity p) /\
  (forall a b, a < b -> compute_T1 p a < compute_T1 p b) /\
  (exists K, 0 < K /\ forall a b, Rabs (compute_T1 p a - compute_T1 p b) <= K * Rabs (a - b)).
Proof.
  destruct p as [tn tl ts cp Ts Tl hs hl]. unfold consistent, compute_T1. cbn.
  intros (Hcp & Hhs & Hr).
  assert (Hle : hs <= hl) by (destruct Hr as [[? _]|[? _]]; lra).
  assert (Eq_s : hs / cp = Ts) by (rewrite Hhs; field; lra).
  assert (icp : 0 < / cp) by (apply Rinv_0_lt_compat; exact Hcp).
  set (k := (Tl - Ts) / (hl - hs)).
  assert (Hk0 : hs < hl -> 0 < k).
  { intros Hlt. destruct Hr as [[_ HT]|[? _]]; [|lra]. unfold k. apply Rdiv_lt_0_compat; lra. }
  assert (Hkv : hs < hl -> Ts + (hl - hs) * k = Tl) by (intros; unfold k; field; lra).
  assert (Heq : hs = hl -> Ts = Tl) by (destruct Hr as [[? _]|[_ ?]]; lra).
  (* the three branches as affine pieces *)
  set (g := fun e => if Rltb e hs then Ts + (e - hs) * / cp
                     else if Rltb e hl then Ts + (e - hs) * k else Tl + (e - hl) * / cp).
  assert (Eg : forall e, (if Rltb e hs then e / cp else if Rltb e hl
             then Ts + (e - hs) / (hl - hs) * (Tl - Ts) else Tl + (e - hl) / cp) = g e).
  { intros e. unfold g. destruct (Rltb e hs) eqn:E1.
    - rewrite <- Eq_s. field. lra.
    - destruct (Rltb e hl) eqn:E2; [|reflexivity]. apply Rltb_false in E1. apply Rltb_true in E2.
      unfold k. field. lra. }
  assert (G : forall e, g e = if Rltb e hs then Ts + (e - hs) * / cp
                     else if Rltb e hl then Ts + (e - hs) * k else Tl + (e - hl) * / cp) by reflexivity.
  split; [rewrite Eg, G|split; [rewrite Eg, G|split]].
  - rewrite (proj2 (Rltb_false hs hs)) by lra. destruct (Rltb hs hl) eqn:E.
    + ring.
    + apply Rltb_false in E. assert (hs = hl) by lra. rewrite <- Heq by assumption. replace (hs - hl) with 0 by lra. ring.
  - rewrite (proj2 (Rltb_false hl hs)) by lra. rewrite (proj2 (Rltb_false hl hl)) by lra. ring.
  - intros e He. rewrite Eg, G. destruct (Rltb e hs) eqn:E.
    + rewrite <- Eq_s. field. lra.
    + apply Rltb_false in E. assert (e = hs) by lra; subst e. destruct (Rltb hs hl) eqn:E2.
      * rewrite <- Eq_s. unfold Rdiv. ring.
      * apply Rltb_false in E2. assert (hs = hl) by lra. rewrite <- Heq by assumption.
        replace (hs - hl) with 0 by lra. rewrite <- Eq_s. unfold Rdiv. ring.
  - set (K := Rmax (/ cp) (Rmax k 0)).
    assert (HK1 : / cp <= K) by apply Rmax_l.
    assert (HK2 : k <= K) by (eapply Rle_trans; [apply Rmax_l | apply Rmax_r]).
    assert (HKp : 0 < K) by lra.
    (* two-sided increments *)
    assert (Hinc : forall a b, a < b -> 0 < g b - g a <= K * (b - a)).
    { intros a b Hab. rewrite !G.
      destruct (Rltb a hs) eqn:A1; [apply Rltb_true in A1|apply Rltb_false in A1].
      - destruct (Rltb b hs) eqn:B1; [apply Rltb_true in B1|apply Rltb_false in B1]; [split; nra|].
        destruct (Rltb b hl) eqn:B2; [apply Rltb_true in B2|apply Rltb_false in B2].
        + specialize (Hk0 ltac:(lra)). split; nra.
        + destruct (Rle_lt_or_eq_dec _ _ Hle) as [Hlt|Heq'].
          * specialize (Hk0 Hlt). specialize (Hkv Hlt). split; nra.
          * specialize (Heq Heq'). split; nra.
      - rewrite (proj2 (Rltb_false b hs)) by lra.
        destruct (Rltb a hl) eqn:A2; [apply Rltb_true in A2|apply Rltb_false in A2].
        + specialize (Hk0 ltac:(lra)). specialize (Hkv ltac:(lra)).
          destruct (Rltb b hl) eqn:B2; [apply Rltb_true in B2|apply Rltb_false in B2]; split; nra.
        + rewrite (proj2 (Rltb_false b hl)) by lra. split; nra. }
    split.
    + intros a b Hab. rewrite !Eg. specialize (Hinc a b Hab). lra.
    + exists K. split; [exact HKp|]. intros a b. rewrite !Eg.
      destruct (Rtotal_order a b) as [H|[->|H]].
      * specialize (Hinc a b H). rewrite !Rabs_left by lra. lra.
      * rewrite !Rminus_diag_eq, Rabs_R0 by reflexivity. lra.
      * specialize (Hinc b a H). rewrite !Rabs_right by lra. lra.
Qed.
Close Scope R_scope.
