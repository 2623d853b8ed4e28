From Verif Require Import Prelude PreludeFacts LbmModel LbmSpec LbmProofs.
From Coq Require Import Lra Psatz ZifyBool ZifyNat Permutation.
Open Scope R_scope.

(** ** The grid *)
Lemma in_grid_iff d c : In c (grid d) <-> in_grid d c.
Proof.
  unfold grid. rewrite in_flat3. destruct c as [[x y] z]. cbn. split.
  - intros (i & j & k & Hi & Hj & Hk & E). inversion E; subst. lia.
  - intros (Hx & Hy & Hz). exists (Z.to_nat x), (Z.to_nat y), (Z.to_nat z).
    repeat split; try lia. rewrite !Z2Nat.id by lia. reflexivity.
Qed.

Lemma NoDup_nth_error_inj {A} (l : list A) :
  (forall i j x, nth_error l i = Some x -> nth_error l j = Some x -> i = j) -> NoDup l.
Proof.
  intros H. apply NoDup_nth_error. intros i j Hi E.
  destruct (nth_error l i) as [x|] eqn:Ei.
  - apply (H i j x); [exact Ei | symmetry; exact E].
  - apply nth_error_None in Ei. lia.
Qed.

Lemma grid_NoDup d : NoDup (grid d).
Proof.
  unfold grid. set (n1 := Z.to_nat (NX d)); set (n2 := Z.to_nat (NY d)); set (n3 := Z.to_nat (NZ d)).
  apply NoDup_nth_error_inj. intros i j x Hi Hj.
  assert (Li : (i < n1 * (n2 * n3))%nat).
  { rewrite <- (flat3_length n1 n2 n3 (fun i j k => (Z.of_nat i, Z.of_nat j, Z.of_nat k))).
    apply nth_error_Some. intros Ez. assert (Some x = None) by (transitivity (nth_error (flat3 n1 n2 n3 (fun i j k => (Z.of_nat i, Z.of_nat j, Z.of_nat k) : cell)) i); [symmetry; exact Hi | exact Ez]). discriminate. }
  assert (Lj : (j < n1 * (n2 * n3))%nat).
  { rewrite <- (flat3_length n1 n2 n3 (fun i j k => (Z.of_nat i, Z.of_nat j, Z.of_nat k))).
    apply nth_error_Some. intros Ez. assert (Some x = None) by (transitivity (nth_error (flat3 n1 n2 n3 (fun i j k => (Z.of_nat i, Z.of_nat j, Z.of_nat k) : cell)) j); [symmetry; exact Hj | exact Ez]). discriminate. }
  destruct (decode3 n1 n2 n3 i Li) as (A1 & A2 & A3 & A4).
  destruct (decode3 n1 n2 n3 j Lj) as (B1 & B2 & B3 & B4).
  rewrite <- A4, nth_error_flat3 in Hi by assumption.
  rewrite <- B4, nth_error_flat3 in Hj by assumption.
  assert (E : (Z.of_nat (i / n3 / n2), Z.of_nat ((i / n3) mod n2), Z.of_nat (i mod n3))
            = (Z.of_nat (j / n3 / n2), Z.of_nat ((j / n3) mod n2), Z.of_nat (j mod n3))) by congruence.
  inversion E as [[E1 E2 E3]]. apply Nat2Z.inj in E1, E2, E3.
  rewrite <- A4, <- B4, E1, E2, E3. reflexivity.
Qed.

Lemma sum_grid d f : sumR (grid d) f =
  sumR (seq 0 (Z.to_nat (NX d))) (fun i =>
  sumR (seq 0 (Z.to_nat (NY d))) (fun j =>
  sumR (seq 0 (Z.to_nat (NZ d))) (fun k => f (Z.of_nat i, Z.of_nat j, Z.of_nat k)))).
Proof. unfold grid. apply sumR_flat3. Qed.

Lemma total_mass_spec d s : total_mass d (lf s) (lphase s) (lmass s) = system_mass d s.
Proof.
  unfold total_mass, system_mass. rewrite sum_grid.
  do 3 (apply sumR_ext; intros ? _). unfold cell_mass.
  destruct (lphase s _); reflexivity.
Qed.

(** ** Neighbours in a closed domain *)
Lemma interior_nb d phase c q : closed d phase -> in_grid d c -> phase c <> WALL -> (q < 19)%nat ->
  nb d c q = cadd c (vel q) /\ in_grid d (nb d c q).
Proof.
  intros Hcl Hg Hw Hq.
  assert (Hb : ~ on_border d c) by (intros Hb; apply Hw, Hcl; assumption).
  assert (Hv := vel_bound q Hq). destruct c as [[x y] z]. unfold vel in *. cbn in *.
  rewrite !jax_index_in by lia. split; [f_equal; [f_equal|]; lia | repeat split; lia].
Qed.

Lemma cadd_vel_rev c q : (q < 19)%nat -> cadd (cadd c (vel q)) (vel (rev q)) = c.
Proof.
  intros Hq. destruct c as [[x y] z]. destruct (vel_rev q Hq) as (E1 & E2 & E3).
  unfold vel, cadd. rewrite E1, E2, E3. f_equal; [f_equal|]; lia.
Qed.

Lemma adjacent_nb d phase c n : closed d phase -> in_grid d c -> phase c <> WALL ->
  adjacent c n <-> exists q, (1 <= q < 19)%nat /\ n = nb d c q.
Proof.
  intros Hcl Hg Hw. split.
  - intros (Hne & e & He & ->). destruct (vel_complete e He) as (q & Hq & <-).
    destruct (interior_nb d phase c q Hcl Hg Hw Hq) as [E _].
    exists q. split; [|symmetry; exact E]. destruct (Nat.eq_dec q 0) as [->|]; [|lia].
    exfalso; apply Hne. destruct c as [[x y] z]; cbn. f_equal; [f_equal|]; lia.
  - intros (q & Hq & ->). destruct (interior_nb d phase c q Hcl Hg Hw ltac:(lia)) as [E _]. rewrite E.
    split; [|exists (vel q); split; [apply vel_bound; lia | reflexivity]].
    intros Eq. assert (Ev : vel q = (0,0,0)%Z).
    { clear E. destruct c as [[x y] z]; destruct (vel q) as [[a b] g]; cbn in Eq. inversion Eq. f_equal; [f_equal|]; lia. }
    assert (Hlt : (q < 19)%nat) by lia.
    dirsplit q Hlt; try lia; cbv in Ev; discriminate.
Qed.

Lemma adjacent_sym c n : adjacent c n -> adjacent n c.
Proof.
  intros (Hne & [[a b] g] & He & ->). destruct c as [[x y] z]. split; [intros E; apply Hne; symmetry; exact E|].
  exists (-a, -b, -g)%Z. split; [cbn in *; lia | cbn; f_equal; [f_equal|]; lia].
Qed.

(** ** Sums over a filtered list *)
Lemma sumR_filter {A} (p : A -> bool) (l : list A) f :
  sumR (filter p l) f = sumR l (fun x => if p x then f x else 0).
Proof.
  induction l as [|x l IH]; cbn [filter sumR]; [reflexivity|].
  destruct (p x); cbn [sumR]; rewrite IH; ring.
Qed.

Lemma sumR_list_prod {A B} (l : list A) (m : list B) (f : A * B -> R) :
  sumR (list_prod l m) f = sumR l (fun x => sumR m (fun y => f (x, y))).
Proof.
  induction l as [|x l IH]; cbn [list_prod sumR]; [reflexivity|].
  rewrite sumR_app, sumR_map, IH. reflexivity.
Qed.

Lemma NoDup_app_disj {A} (l m : list A) :
  NoDup l -> NoDup m -> (forall x, In x l -> ~ In x m) -> NoDup (l ++ m).
Proof.
  induction l as [|x l IH]; cbn; intros Hl Hm Hd; [exact Hm|].
  inversion Hl; subst. constructor.
  - rewrite in_app_iff. intros [H|H]; [contradiction | exact (Hd x (or_introl eq_refl) H)].
  - apply IH; [assumption..|]. intros y Hy. apply Hd; right; exact Hy.
Qed.

Lemma NoDup_list_prod {A B} (l : list A) (m : list B) : NoDup l -> NoDup m -> NoDup (list_prod l m).
Proof.
  induction l as [|x l IH]; cbn [list_prod]; intros Hl Hm; [constructor|].
  inversion Hl; subst. apply NoDup_app_disj.
  - apply FinFun.Injective_map_NoDup; [intros a b E; inversion E; reflexivity | exact Hm].
  - apply IH; assumption.
  - intros [a b] Ha Hb. apply in_map_iff in Ha as (y & E & _). inversion E; subst.
    apply in_prod_iff in Hb as [Hb _]. contradiction.
Qed.

(** An antisymmetric exchange between fluid cells sums to zero. *)
Lemma exchange_zero d phase (D : cell -> nat -> R) :
  closed d phase ->
  (forall c q, in_grid d c -> fluid (phase c) = true -> (q < 19)%nat ->
     fluid (phase (nb d c q)) = false -> D c q = 0) ->
  (forall c q, in_grid d c -> fluid (phase c) = true -> (q < 19)%nat ->
     fluid (phase (nb d c q)) = true -> D (nb d c q) (rev q) = - D c q) ->
  sumR (grid d) (fun c => if fluid (phase c) then sumQ (D c) else 0) = 0.
Proof.
  intros Hcl H0 Ha.
  set (ok := fun x : cell * nat => fluid (phase (fst x)) && fluid (phase (nb d (fst x) (snd x)))).
  set (P := filter ok (list_prod (grid d) dirs)).
  set (D2 := fun x : cell * nat => D (fst x) (snd x)).
  assert (E1 : sumR (grid d) (fun c => if fluid (phase c) then sumQ (D c) else 0) = sumR P D2).
  { unfold P. rewrite sumR_filter, sumR_list_prod. apply sumR_ext. intros c Hc. apply in_grid_iff in Hc.
    unfold ok; cbn [fst snd]. destruct (fluid (phase c)) eqn:Ef.
    - unfold sumQ. apply sumR_ext. intros q Hq. apply in_dirs in Hq. cbn [andb]. unfold D2; cbn [fst snd].
      destruct (fluid (phase (nb d c q))) eqn:Ef2; [reflexivity|]. apply H0; assumption.
    - rewrite sumR_zero; [reflexivity|]. intros; reflexivity. }
  rewrite E1.
  set (sg := fun x : cell * nat => (nb d (fst x) (snd x), rev (snd x))).
  assert (inP : forall x, In x P <-> in_grid d (fst x) /\ (snd x < 19)%nat /\ fluid (phase (fst x)) = true
                 /\ fluid (phase (nb d (fst x) (snd x))) = true).
  { intros [c q]. unfold P. rewrite filter_In, in_prod_iff, in_grid_iff, in_dirs. unfold ok; cbn [fst snd].
    rewrite andb_true_iff. tauto. }
  assert (nw : forall c, fluid (phase c) = true -> phase c <> WALL) by (intros c Hc E; rewrite E in Hc; discriminate).
  assert (sgnb : forall c q, in_grid d c -> (q < 19)%nat -> fluid (phase c) = true ->
             fluid (phase (nb d c q)) = true -> nb d (nb d c q) (rev q) = c /\ in_grid d (nb d c q)).
  { intros c q Hc Hq Hf Hf'. destruct (interior_nb d phase c q Hcl Hc (nw _ Hf) Hq) as [E G].
    destruct (interior_nb d phase (nb d c q) (rev q) Hcl G (nw _ Hf') (rev_lt q Hq)) as [E' _].
    split; [|exact G]. rewrite E', E. apply cadd_vel_rev; exact Hq. }
  assert (E2 : sumR P (fun x => D2 (sg x)) = sumR P D2).
  { apply sumR_reindex.
    - unfold P. apply NoDup_filter. apply NoDup_list_prod; [apply grid_NoDup | apply seq_NoDup].
    - intros [c q] Hx. apply inP in Hx as (Hc & Hq & Hf & Hf'). cbn [fst snd] in *.
      destruct (sgnb c q Hc Hq Hf Hf') as [Eb G]. apply inP. unfold sg; cbn [fst snd].
      split; [exact G|]. split; [apply rev_lt; exact Hq|]. split; [exact Hf'|]. rewrite Eb. exact Hf.
    - intros [c q] [c' q'] Hx Hy E. apply inP in Hx as (Hc & Hq & Hf & Hf'). apply inP in Hy as (Hc' & Hq' & Hg & Hg').
      unfold sg in E; cbn [fst snd] in *. inversion E as [[E3 E4]].
      assert (q = q') by (apply rev_inj; assumption). subst q'.
      destruct (sgnb c q Hc Hq Hf Hf') as [Eb _]. destruct (sgnb c' q Hc' Hq Hg Hg') as [Eb' _].
      rewrite <- Eb, <- Eb', E3. reflexivity. }
  assert (E3 : sumR P (fun x => D2 (sg x)) = - sumR P D2).
  { rewrite <- sumR_opp. apply sumR_ext. intros [c q] Hx. apply inP in Hx as (Hc & Hq & Hf & Hf').
    unfold D2, sg; cbn [fst snd] in *. apply Ha; assumption. }
  lra.
Qed.

(** ** Streaming conserves mass *)
Definition exch d (f : field dist) (phase : field phase_t) (vof : field R) (c : cell) (q : nat) : R :=
  let y := nb d c q in
  let df := f y (rev q) - f c q in
  match phase c, phase y with
  | LG, LG => df * (vof y + vof c) / 2
  | _, LIQUID => df
  | LIQUID, LG => df
  | _, _ => 0
  end.

Lemma stream_cell_delta d f rho u phase mass vof c :
  closed d phase -> no_liquid_gas_contact d phase -> in_grid d c -> fluid (phase c) = true ->
  (match phase c with
   | LIQUID => density (fst (update_f d f rho u phase mass vof c))
   | LG => snd (update_f d f rho u phase mass vof c) | _ => 0 end)
  - (match phase c with LIQUID => density (f c) | LG => mass c | _ => 0 end)
  = sumQ (exch d f phase vof c).
Proof.
  intros Hcl Hnc Hc Hf.
  assert (Hw : phase c <> WALL) by (intros E; rewrite E in Hf; discriminate).
  assert (E0 : extract_local d phase c 0 = phase c) by (unfold extract_local; rewrite nb0 by exact Hc; reflexivity).
  unfold update_f. rewrite E0.
  destruct (phase c) eqn:Ep; try discriminate.
  - cbn [is_gas_or_wall phase_eqb orb fst].
    unfold density. change (sumR (seq 0 19)) with sumQ.
    rewrite <- sumQ_rev. unfold sumQ. rewrite <- sumR_sub. apply sumR_ext. intros q Hq. apply in_dirs in Hq.
    unfold stream_f, extract_local, extract_self, extract_income, exch.
    rewrite !rev_rev by exact Hq. rewrite Ep.
    destruct (phase (nb d c q)) eqn:En; try ring.
    exfalso. destruct (Nat.eq_dec q 0) as [->|Hq0].
    + rewrite nb0 in En by exact Hc. congruence.
    + destruct (interior_nb d phase c q Hcl Hc ltac:(congruence) Hq) as [_ G].
      apply (Hnc c (nb d c q)); try assumption.
      apply (adjacent_nb d phase); [assumption..|congruence|]. exists q. split; [lia|reflexivity].
  - cbn [is_gas_or_wall phase_eqb orb fst snd]. unfold extract_self.
    replace (sumQ (mass_change d f phase vof c) + mass c - mass c) with (sumQ (mass_change d f phase vof c)) by ring.
    apply sumQ_ext. intros q Hq. unfold mass_change, exch, extract_local, extract_income, extract_self.
    rewrite Ep, nb0 by exact Hc. destruct (phase (nb d c q)); reflexivity.
Qed.

Lemma streaming_mass d f rho u phase mass vof h :
  closed d phase -> no_liquid_gas_contact d phase ->
  let r := update_f d f rho u phase mass vof in
  system_mass d (mkL (fun c => fst (r c)) h phase (fun c => snd (r c))) = system_mass d (mkL f h phase mass).
Proof.
  intros Hcl Hnc r. rewrite <- !total_mass_spec. cbn [lf lphase lmass]. unfold total_mass.
  apply Rminus_diag_uniq. rewrite <- sumR_sub.
  rewrite <- (exchange_zero d phase (exch d f phase vof) Hcl).
  - apply sumR_ext. intros c Hc. apply in_grid_iff in Hc.
    destruct (fluid (phase c)) eqn:Ef.
    + rewrite <- (stream_cell_delta d f rho u phase mass vof c) by assumption.
      unfold cell_mass. destruct (phase c); try discriminate; reflexivity.
    + unfold cell_mass. destruct (phase c); try discriminate; cbn; ring.
  - intros c q Hc Hf Hq Hn. unfold exch. destruct (phase c); try discriminate;
    destruct (phase (nb d c q)); try discriminate; reflexivity.
  - intros c q Hc Hf Hq Hn. unfold exch.
    assert (Hw : phase c <> WALL) by (intros E; rewrite E in Hf; discriminate).
    assert (Hw' : phase (nb d c q) <> WALL) by (intros E; rewrite E in Hn; discriminate).
    destruct (interior_nb d phase c q Hcl Hc Hw Hq) as [E G].
    destruct (interior_nb d phase (nb d c q) (rev q) Hcl G Hw' (rev_lt q Hq)) as [E' _].
    assert (Eb : nb d (nb d c q) (rev q) = c) by (rewrite E', E; apply cadd_vel_rev; exact Hq).
    rewrite Eb, rev_rev by exact Hq.
    destruct (phase c); try discriminate; destruct (phase (nb d c q)); try discriminate; field.
Qed.

(** Collision and streaming together. *)
Lemma physics_mass p d src s : tau_nu p <> 0 ->
  closed d (lphase s) -> no_liquid_gas_contact d (lphase s) ->
  system_mass d (fst (physics p d src s)) = system_mass d s.
Proof.
  intros Ht Hcl Hnc. unfold physics. cbn [fst].
  rewrite streaming_mass with (h := update_h p d (collide_h p d (lh s) (compute_enthalpy (lh s)) (compute_T p (compute_enthalpy (lh s)))
     (compute_rho (lf s)) _ (lphase s) _) _ (lphase s)) by assumption.
  rewrite <- !total_mass_spec. cbn [lf lphase lmass]. unfold total_mass. apply sumR_ext.
  intros c Hc. apply in_grid_iff in Hc. unfold cell_mass.
  destruct (lphase s c) eqn:Ep; try reflexivity. cbn [phase_eqb].
  apply (collide_f_balance p d (lf s) (compute_T p (compute_enthalpy (lh s)))); auto.
Qed.

(** ** Mass correction *)
Lemma lg_count_pos d phase : (exists c, in_grid d c /\ phase c = LG) -> lg_count d phase > 0.
Proof.
  intros (c & Hc & Ep). unfold lg_count. apply in_grid_iff in Hc.
  induction (grid d) as [|x l IH]; [destruct Hc|]. cbn [sumR].
  destruct Hc as [->|Hc].
  - rewrite Ep. cbn. assert (0 <= sumR l (fun c => b2R (phase_eqb (phase c) LG))); [|lra].
    apply sumR_nonneg. intros y _. destruct (phase_eqb _ _); cbn; lra.
  - specialize (IH Hc). destruct (phase_eqb (phase x) LG); cbn; lra.
Qed.

Lemma correct_mass_total d target f h phase mass :
  (exists c, in_grid d c /\ phase c = LG) ->
  system_mass d (mkL f h phase (correct_mass d target f phase mass)) = target.
Proof.
  intros Hex. rewrite <- total_mass_spec. cbn [lf lphase lmass].
  assert (Hp := lg_count_pos d phase Hex).
  unfold total_mass at 1.
  rewrite (sumR_ext _ _ (fun c => cell_mass f phase mass c
       + b2R (phase_eqb (phase c) LG) * ((target - total_mass d f phase mass) / lg_count d phase))).
  - rewrite sumR_add, sumR_scal_r. fold (lg_count d phase). fold (total_mass d f phase mass). field. lra.
  - intros c _. unfold cell_mass, correct_mass. destruct (phase c); cbn; ring.
Qed.

Lemma correct_mass_noop d target f phase mass c :
  phase c <> LG -> correct_mass d target f phase mass c = mass c.
Proof. intros H. unfold correct_mass. destruct (phase c); try reflexivity. contradiction. Qed.

Lemma refresh_mass d s : system_mass d (refresh_for_output s) = system_mass d s.
Proof.
  rewrite <- !total_mass_spec. unfold refresh_for_output, total_mass. cbn [lf lphase lmass].
  apply sumR_ext. intros c _. unfold cell_mass. destruct (lphase s c); reflexivity.
Qed.

Lemma step_mass p d src fo target x :
  let s := st (step p d src fo target x) in
  (exists c, in_grid d c /\ lphase s c = LG) -> system_mass d s = target.
Proof.
  unfold step. destruct (physics p d src (pre p fo (st x))) as [s1 [[[rho u] e] T]]. cbn [st].
  intros Hex. rewrite refresh_mass. apply correct_mass_total. exact Hex.
Qed.

Lemma run_last p d fo target srcs src x :
  run p d fo target (srcs ++ [src]) x = step p d src fo target (run p d fo target srcs x).
Proof. unfold run. rewrite fold_left_app. reflexivity. Qed.

Lemma simulate_mass p d fo ph0 srcs :
  let s := st (simulate p d fo ph0 srcs) in
  (exists c, in_grid d c /\ lphase s c = LG) -> system_mass d s = system_mass d (init_state p d ph0).
Proof.
  intros s Hex. unfold s, simulate in *. destruct srcs as [|src srcs] using rev_ind; [reflexivity|].
  rewrite run_last in *. rewrite step_mass by exact Hex. unfold init_total_mass. apply total_mass_spec.
Qed.

(** ** Phases *)
Lemma phase_eqb_spec a b : phase_eqb a b = true <-> a = b.
Proof. destruct a, b; cbn; split; intros; congruence. Qed.

Lemma existsb_nb d phase c ph : existsb (fun q => phase_eqb (extract_local d phase c q) ph) nbdirs = true <->
  exists q, (1 <= q < 19)%nat /\ phase (nb d c q) = ph.
Proof.
  rewrite existsb_exists. split; intros (q & Hq & E); exists q.
  - apply in_nbdirs in Hq. apply phase_eqb_spec in E. auto.
  - split; [apply in_nbdirs; exact Hq | apply phase_eqb_spec; exact E].
Qed.

Lemma closed_nb_grid d phase c n : closed d phase -> in_grid d c -> phase c <> WALL -> adjacent c n -> in_grid d n.
Proof.
  intros Hcl Hc Hw Ha. apply (adjacent_nb d phase) in Ha as (q & Hq & ->); try assumption.
  apply (interior_nb d phase); try assumption. lia.
Qed.

Lemma existsb_adjacent d phase c ph : closed d phase -> in_grid d c -> phase c <> WALL ->
  existsb (fun q => phase_eqb (extract_local d phase c q) ph) nbdirs = true <->
  exists n, adjacent c n /\ phase n = ph.
Proof.
  intros Hcl Hc Hw. rewrite existsb_nb. split.
  - intros (q & Hq & E). exists (nb d c q). split; [|exact E].
    apply (adjacent_nb d phase); try assumption. exists q; auto.
  - intros (n & Ha & E). apply (adjacent_nb d phase) in Ha as (q & Hq & ->); try assumption. exists q; auto.
Qed.

Lemma closed_ext d phase phase' : closed d phase ->
  (forall c, in_grid d c -> (phase' c = WALL <-> phase c = WALL)) -> closed d phase'.
Proof. intros H E c Hc Hb. apply E; auto. Qed.

(** stage 1 *)
Lemma lg_to_liquid_spec s c :
  reini_lg_to_liquid (lf s) (lphase s) (lmass s) c = LIQUID <-> lphase s c = LIQUID \/ filled s c.
Proof.
  unfold reini_lg_to_liquid, filled, density. change (sumR (seq 0 19) (lf s c)) with (sumQ (lf s c)).
  unfold theta. destruct (lphase s c) eqn:E; cbn [phase_eqb andb].
  - split; auto.
  - destruct (Rltb _ _) eqn:Er.
    + apply Rltb_true in Er. split; [right; split; auto | auto].
    + apply Rltb_false in Er. split; [discriminate|]. intros [?|[_ ?]]; [discriminate|lra].
  - split; [discriminate|]. intros [?|[? _]]; discriminate.
  - split; [discriminate|]. intros [?|[? _]]; discriminate.
Qed.
Lemma lg_to_liquid_other s c ph : ph <> LIQUID -> 
  reini_lg_to_liquid (lf s) (lphase s) (lmass s) c = ph <-> lphase s c = ph /\ ~ filled s c.
Proof.
  intros Hn. assert (Hs := lg_to_liquid_spec s c).
  assert (Hor : reini_lg_to_liquid (lf s) (lphase s) (lmass s) c = LIQUID \/
                reini_lg_to_liquid (lf s) (lphase s) (lmass s) c = lphase s c)
    by (unfold reini_lg_to_liquid; destruct (_ && _)%bool; auto).
  split.
  - intros E. destruct Hor as [Hor|Hor]; [congruence|]. split; [congruence|].
    intros Hf. assert (ph = LIQUID) by (rewrite <- E; apply Hs; right; exact Hf). contradiction.
  - intros [E Hf]. destruct Hor as [Hor|Hor]; [|congruence].
    apply Hs in Hor as [Hor|Hor]; [congruence|contradiction].
Qed.
Close Scope R_scope.
