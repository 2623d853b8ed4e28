(** The first step of a simulation whose material starts solid, used as a witness. *)
From Verif Require Import Prelude PreludeFacts LbmModel LbmSpec LbmProofs LbmMassProofs LbmPhaseProofs.
From Coq Require Import Lra Psatz ZifyBool ZifyNat.
Open Scope R_scope.

Lemma nb_in_grid d c q : (0 < NX d)%Z -> (0 < NY d)%Z -> (0 < NZ d)%Z -> in_grid d (nb d c q).
Proof. intros. destruct c as [[x y] z]. cbn [nb in_grid]. repeat split; apply jax_index_range; assumption. Qed.

Lemma eq_f_rest q : equilibrium_f q 1 (0,0,0) = weight q.
Proof. unfold equilibrium_f, dot, velR, cs_sq. field. Qed.

Lemma nb_avg_const d ph v c k : gas_to_lg_flag d ph c = true -> (forall x, v x = k) -> nb_avg d ph v c = k.
Proof.
  intros Ef Hv. unfold nb_avg.
  set (w := fun q => nb_liquid_flag (extract_local d ph c q)).
  assert (Hs : sumQ (fun q => w q * extract_local d v c q) = sumQ w * k).
  { unfold sumQ. rewrite <- sumR_scal_r. apply sumR_ext. intros q _. unfold extract_local. rewrite Hv. reflexivity. }
  fold w. change (sumQ (fun q => nb_liquid_flag (extract_local d ph c q) * extract_local d v c q)) with (sumQ (fun q => w q * extract_local d v c q)).
  rewrite Hs. change (sumQ (fun q => nb_liquid_flag (extract_local d ph c q))) with (sumQ w).
  assert (Hp : 0 < sumQ w).
  { unfold gas_to_lg_flag in Ef. apply andb_true_iff in Ef as [_ Ef]. apply existsb_nb in Ef as (q & Hq & Eq).
    assert (Hq' : In q dirs) by (apply in_dirs; lia). unfold sumQ.
    assert (Hnn : forall x, 0 <= w x) by (intros x; unfold w, nb_liquid_flag; destruct (_ || _)%bool; cbn; lra).
    clear Hs. induction dirs as [|y l IH]; [destruct Hq'|]. cbn [sumR]. destruct Hq' as [->|Hq'].
    - assert (w q = 1) by (unfold w, extract_local; rewrite Eq; reflexivity).
      assert (0 <= sumR l w) by (apply sumR_nonneg; auto). lra.
    - specialize (IH Hq'). specialize (Hnn y). lra. }
  field. lra.
Qed.

Definition cold (p : params) : Prop :=
  heat_capacity p > 0 /\ heat_capacity p < enthalpy_s p /\ 1 < T_solidus p.

Lemma compute_T_cold p : cold p -> compute_T1 p (heat_capacity p) = 1.
Proof.
  intros (Hc & Hs & _). unfold compute_T1. rewrite (proj2 (Rltb_true _ _) Hs). field. lra.
Qed.

Lemma init_enthalpy p c : compute_enthalpy (init_h p) c = heat_capacity p.
Proof. unfold compute_enthalpy, init_h, T0. lat. field. Qed.
Lemma init_rho c : compute_rho init_f c = 1.
Proof. unfold compute_rho, init_f, rho0. lat. field. Qed.

Lemma init_f_weight p d ph0 c q : lf (init_state p d ph0) c q = weight q.
Proof.
  unfold init_state. cbn [lf reini_gas_to_lg lphase]. destruct (gas_to_lg_flag d ph0 c) eqn:Ef.
  - rewrite (nb_avg_const d ph0 _ c 1 Ef) by apply init_rho.
    unfold nb_avg3. rewrite !(nb_avg_const d ph0 _ c 0 Ef) by reflexivity. apply eq_f_rest.
  - unfold init_f, rho0. ring.
Qed.

Lemma init_h_weight p d ph0 c : cold p -> sumQ (lh (init_state p d ph0) c) = heat_capacity p.
Proof.
  intros Hc. unfold init_state. cbn [lh reini_gas_to_lg lphase]. destruct (gas_to_lg_flag d ph0 c) eqn:Ef.
  - destruct (equilibrium_h_moments_L p (nb_avg d ph0 (compute_enthalpy (init_h p)) c)
       (nb_avg d ph0 (compute_T p (compute_enthalpy (init_h p))) c) (nb_avg3 d ph0 (fun _ => (0,0,0)) c)) as (E & _).
    rewrite E. apply nb_avg_const; [exact Ef|]. apply init_enthalpy.
  - apply (init_enthalpy p c).
Qed.

Lemma init_T p d ph0 c : cold p -> T_of p (init_state p d ph0) c = 1.
Proof.
  intros Hc. unfold T_of, compute_T, compute_enthalpy. rewrite init_h_weight by exact Hc. apply compute_T_cold; exact Hc.
Qed.

Lemma init_mass_lg p d ph0 c : lphase (init_state p d ph0) c = LG -> lmass (init_state p d ph0) c = 1/2.
Proof.
  intros E. assert (Ew : sumQ (lf (init_state p d ph0) c) = 1).
  { transitivity (sumQ weight); [apply sumQ_ext; intros; apply init_f_weight | apply weights_sum]. }
  unfold init_state in E, Ew |- *. cbn [lphase lmass lf] in *. 
  destruct (reini_gas_to_lg _ _ _ _ _ _ _) as [f h ph m]. cbn [lphase lmass lf] in *. rewrite E, Ew. cbn. lra.
Qed.

(** One collision + streaming of a solid state at rest changes nothing. *)
Lemma quiet_physics p d src s :
  (0 < NX d)%Z -> (0 < NY d)%Z -> (0 < NZ d)%Z ->
  (forall c q, in_grid d c -> fluid (lphase s c) = true -> (q < 19)%nat -> lf s c q = weight q) ->
  (forall c, in_grid d c -> fluid (lphase s c) = true -> T_of p s c < T_solidus p) ->
  let s' := fst (physics p d src s) in
  forall c, in_grid d c -> fluid (lphase s c) = true ->
    density (lf s' c) = 1 /\ (lphase s c = LG -> lmass s' c = lmass s c).
Proof.
  intros HX HY HZ Hf HT s' c Hc Hfl. unfold s', physics. cbn [fst lf lmass].
  set (rho := compute_rho (lf s)). set (e := compute_enthalpy (lh s)). set (T := compute_T p e).
  set (vof := compute_vof rho (lphase s) (lmass s)).
  set (fs := f_src src s rho vof T). set (u := compute_u p (lf s) rho T fs).
  set (f1 := collide_f p d (lf s) rho T u (lphase s) fs).
  assert (F1 : forall x q, in_grid d x -> fluid (lphase s x) = true -> (q < 19)%nat -> f1 x q = weight q).
  { intros x q Hx Hxf Hq. unfold f1, collide_f. rewrite local0 by exact Hx.
    assert (Eg : is_gas_or_wall (lphase s x) = false) by (destruct (lphase s x); try discriminate; reflexivity).
    rewrite Eg. unfold extract_self. change (T x) with (T_of p s x).
    rewrite (proj2 (Rltb_true _ _) (HT x Hx Hxf)).
    assert (Er : rho x = 1).
    { unfold rho, compute_rho. transitivity (sumQ weight); [apply sumQ_ext; intros; apply Hf; assumption | apply weights_sum]. }
    rewrite Er. ring. }
  assert (Eu : u c = (0,0,0)).
  { unfold u, compute_u, compute_u1. change (T c) with (T_of p s c).
    rewrite (proj2 (Rltb_true _ _) (HT c Hc Hfl)). reflexivity. }
  assert (Sf : forall q, (q < 19)%nat -> stream_f d f1 u (lphase s) c q = weight q).
  { intros q Hq. unfold stream_f, extract_local, extract_self, extract_income.
    assert (Hg := nb_in_grid d c (rev q) HX HY HZ). assert (Hr := rev_lt q Hq).
    destruct (lphase s (nb d c (rev q))) eqn:En.
    - rewrite rev_rev by exact Hq. apply F1; [exact Hg| rewrite En; reflexivity | exact Hq].
    - rewrite rev_rev by exact Hq. apply F1; [exact Hg| rewrite En; reflexivity | exact Hq].
    - rewrite Eu. unfold rho_g, rho0. rewrite !eq_f_rest, F1 by assumption. rewrite weight_rev by exact Hq. ring.
    - rewrite F1 by assumption. apply weight_rev; exact Hq. }
  assert (Mc : forall q, (q < 19)%nat -> mass_change d f1 (lphase s) vof c q = 0).
  { intros q Hq. unfold mass_change, extract_local, extract_self, extract_income.
    assert (Hg := nb_in_grid d c q HX HY HZ). assert (Hr := rev_lt q Hq).
    destruct (lphase s (nb d c q)) eqn:En; try reflexivity;
    rewrite (F1 (nb d c q)) by (try assumption; rewrite En; reflexivity); rewrite (F1 c) by assumption;
    rewrite weight_rev by exact Hq; field. }
  unfold update_f. rewrite local0 by exact Hc.
  destruct (lphase s c) eqn:Ep; try discriminate; cbn [is_gas_or_wall phase_eqb orb fst snd].
  - split; [|discriminate]. unfold density. transitivity (sumQ weight); [apply sumQ_ext; exact Sf | apply weights_sum].
  - split; [unfold density; transitivity (sumQ weight); [apply sumQ_ext; exact Sf | apply weights_sum]|].
    intros _. unfold extract_self.
    assert (E0 : sumQ (mass_change d f1 (lphase s) vof c) = 0).
    { unfold sumQ. apply sumR_zero. intros q Hq. apply Mc. apply in_dirs; exact Hq. }
    fold f1. rewrite E0. ring.
Qed.

Lemma init_no_contact p d ph0 : closed d ph0 -> no_liquid_gas_contact d (lphase (init_state p d ph0)).
Proof.
  intros Hcl c n Hc Hn Ha. unfold init_state; cbn [lphase]. rewrite !gas_to_lg_phase by assumption. cbn [lphase].
  destruct (gas_to_lg_flag d ph0 c) eqn:Ec; [discriminate|]. intros El.
  destruct (gas_to_lg_flag d ph0 n) eqn:En; [discriminate|]. intros Eg.
  assert (gas_to_lg_flag d ph0 n = true); [|congruence].
  apply gas_to_lg_flag_spec; [assumption..|]. split; [exact Eg|]. exists c. split; [apply adjacent_sym; exact Ha | exact El].
Qed.

Lemma quiet_first_step p d ph0 src target : cold p ->
  (0 < NX d)%Z -> (0 < NY d)%Z -> (0 < NZ d)%Z -> closed d ph0 ->
  let phI := lphase (init_state p d ph0) in
  let s' := st (step p d src false target (init_sim p d ph0)) in
  (forall c, in_grid d c -> lphase s' c = adhoc_step d phI c) /\
  (forall c, in_grid d c -> fluid (phI c) = true -> fluid (lphase s' c) = true -> density (lf s' c) = 1).
Proof.
  intros Hcold HX HY HZ Hcl phI s'.
  set (s0 := init_state p d ph0) in *.
  set (s1 := fst (physics p d src s0)).
  assert (Es1 : lphase s1 = phI) by reflexivity.
  assert (HclI : closed d phI) by (apply (closed_ext _ _ _ Hcl); intros; apply init_wall; assumption).
  assert (Q : forall c, in_grid d c -> fluid (phI c) = true -> density (lf s1 c) = 1 /\ (phI c = LG -> lmass s1 c = 1/2)).
  { intros c Hc Hfl. destruct (quiet_physics p d src s0) with (c := c) as [A B]; try assumption.
    - intros; apply init_f_weight.
    - intros x _ _. unfold s0. rewrite init_T by exact Hcold. destruct Hcold as (_ & _ & H); exact H.
    - split; [exact A|]. intros E. transitivity (lmass s0 c); [exact (B E)|]. apply init_mass_lg. exact E. }
  assert (NF : forall c, in_grid d c -> ~ filled s1 c).
  { intros c Hc [E L]. rewrite Es1 in E. destruct (Q c Hc) as [A B]; [rewrite E; reflexivity|]. rewrite A, (B E) in L. lra. }
  assert (NE : forall c, in_grid d c -> ~ emptied s1 c).
  { intros c Hc [E L]. rewrite Es1 in E. destruct (Q c Hc) as [A B]; [rewrite E; reflexivity|]. rewrite A, (B E) in L. lra. }
  assert (Hcon := init_no_contact p d ph0 Hcl). fold s0 in Hcon. change (lphase s0) with phI in Hcon.
  unfold s', step. cbn [pre]. change (st (init_sim p d ph0)) with s0.
  assert (Ed : s1 = fst (physics p d src s0)) by reflexivity. clearbody s1.
  destruct (physics p d src s0) as [s1' [[[rho u] e] T]]. cbn [fst] in Ed. subst s1'. cbn [st].
  (* the middle phase map equals phI *)
  set (mid := mid_phase p d s1 rho u e T).
  assert (Hcl1 : closed d (lphase s1)) by (rewrite Es1; exact HclI).
  assert (Hadjg : forall c n, in_grid d c -> phI c <> WALL -> adjacent c n -> in_grid d n).
  { intros c n Hc Hw Ha. apply (closed_nb_grid d phI c); assumption. }
  assert (Mg : forall c, in_grid d c -> mid c = GAS -> phI c = GAS).
  { intros c Hc Em. destruct (phI c) eqn:Ep; [..|reflexivity|].
    - destruct (mid_from_liquid p d s1 rho u e T Hcl1 c Hc) as [F|[F _]]; [left; rewrite Es1; exact Ep| |]; unfold mid in Em; congruence.
    - destruct (mid_from_lg p d s1 rho u e T c Hc) as [_ F]; [rewrite Es1; exact Ep|apply NF; exact Hc|].
      unfold mid in Em; rewrite F in Em by (apply NE; exact Hc). discriminate.
    - assert (F := proj2 (mid_wall p d s1 rho u e T c Hc)). rewrite Es1 in F. specialize (F Ep). unfold mid in Em; congruence. }
  assert (Mid : forall c, in_grid d c -> mid c = phI c).
  { intros c Hc. destruct (phI c) eqn:Ep.
    - destruct (mid_from_liquid p d s1 rho u e T Hcl1 c Hc) as [F|[F (n & Ha & En)]]; [left; rewrite Es1; exact Ep|exact F|exfalso].
      assert (Hn : in_grid d n) by (apply (Hadjg c); [exact Hc|congruence|exact Ha]).
      apply (Hcon c n Hc Hn Ha Ep). apply Mg; assumption.
    - destruct (mid_from_lg p d s1 rho u e T c Hc) as [_ F]; [rewrite Es1; exact Ep|apply NF; exact Hc|].
      apply F. apply NE; exact Hc.
    - destruct (mid_from_gas p d s1 rho u e T Hcl1 c Hc) as ([F|F] & G & _); [rewrite Es1; exact Ep|exact F|exfalso].
      destruct (G F) as (n & Ha & Hn).
      assert (Hgn : in_grid d n) by (apply (Hadjg c); [exact Hc|congruence|exact Ha]).
      destruct Hn as [En|En]; [|apply (NF n Hgn En)]. rewrite Es1 in En.
      apply (Hcon n c Hgn Hc (adjacent_sym _ _ Ha) En Ep).
    - apply (mid_wall p d s1 rho u e T c Hc). rewrite Es1; exact Ep. }
  assert (Hclm : closed d mid) by (apply cl4; exact Hcl1).
  assert (Hext : forall c, in_grid d c -> adhoc_step d mid c = adhoc_step d phI c).
  { intros c Hc. unfold adhoc_step. rewrite !local0 by exact Hc. rewrite !Mid by exact Hc.
    assert (El : forall q, extract_local d mid c q = extract_local d phI c q)
      by (intros q; unfold extract_local; apply Mid, nb_in_grid; assumption).
    assert (X : forall g : phase_t -> bool, forallb (fun q => g (extract_local d mid c q)) nbdirs = forallb (fun q => g (extract_local d phI c q)) nbdirs).
    { intros g. induction nbdirs as [|y l IH]; cbn [forallb]; [reflexivity|]. rewrite IH, El. reflexivity. }
    rewrite (X (fun t => phase_eqb t WALL || (phase_eqb t GAS || phase_eqb t LG))%bool).
    rewrite (X (fun t => phase_eqb t WALL || (phase_eqb t LIQUID || phase_eqb t LG))%bool). reflexivity. }
  split.
  - intros c Hc. rewrite <- Hext by exact Hc. reflexivity.
  - intros c Hc Hfl Hfl'. unfold refresh_for_output. cbn [lf lphase] in *.
    assert (Eg : is_gas_or_wall (lphase (reinit p d s1 rho u e T) c) = false).
    { unfold refresh_for_output in Hfl'. cbn [lphase] in Hfl'.
      destruct (lphase (reinit p d s1 rho u e T) c); try discriminate; reflexivity. }
    rewrite Eg. unfold reinit. cbn [lf reini_gas_to_lg lphase].
    destruct (gas_to_lg_flag d (reini_lg_to_liquid (lf s1) (lphase s1) (lmass s1)) c) eqn:Ef.
    + exfalso. apply gas_to_lg_flag_gas in Ef; [|exact Hc].
      apply lg_to_liquid_other in Ef; [|discriminate]. destruct Ef as [Ef _].
      rewrite Es1 in Ef. rewrite Ef in Hfl. discriminate.
    + apply Q; assumption.
Qed.

(** *** Witness parameters *)
Definition p_cold : params := mkParams 1 1 1 1 2 3 2 3.
Lemma p_cold_cold : cold p_cold.
Proof. unfold cold, p_cold; cbn. lra. Qed.

Definition row_phase (l : list phase_t) : field phase_t := fun c =>
  let '(x, y, z) := c in
  if (Z.eqb y 1 && Z.eqb z 1 && Z.ltb 0 x)%bool then nth (Z.to_nat (x - 1)) l WALL else WALL.

(** A row of cells [l] enclosed in walls. *)
Definition row_dims (n : Z) : dims := mkDims (n + 2) 3 3.

Lemma row_closed l : closed (row_dims (Z.of_nat (length l))) (row_phase l).
Proof.
  intros [[x y] z] Hg Hb. unfold row_dims, row_phase in *; cbn [in_grid on_border NX NY NZ] in *.
  destruct (Z.eqb y 1 && Z.eqb z 1 && Z.ltb 0 x)%bool eqn:E; [|reflexivity].
  apply nth_overflow. lia.
Qed.

Lemma grid_forall d (P : cell -> bool) : forallb P (grid d) = true -> forall c, in_grid d c -> P c = true.
Proof. intros H c Hc. rewrite forallb_forall in H. apply H, in_grid_iff, Hc. Qed.

Definition phI_of (d : dims) (ph0 : field phase_t) : field phase_t :=
  fun c => if gas_to_lg_flag d ph0 c then LG else ph0 c.
Lemma phI_of_spec p d ph0 c : in_grid d c -> lphase (init_state p d ph0) c = phI_of d ph0 c.
Proof. intros Hc. unfold init_state; cbn [lphase]. apply gas_to_lg_phase; exact Hc. Qed.

Lemma adhoc_ext d a b : (0 < NX d)%Z -> (0 < NY d)%Z -> (0 < NZ d)%Z ->
  (forall c, in_grid d c -> a c = b c) -> forall c, in_grid d c -> adhoc_step d a c = adhoc_step d b c.
Proof.
  intros HX HY HZ E c Hc.
  unfold adhoc_step. rewrite !local0 by exact Hc. rewrite !E by exact Hc.
  assert (El : forall q, extract_local d a c q = extract_local d b c q)
    by (intros q; unfold extract_local; apply E, nb_in_grid; assumption).
  assert (X : forall g : phase_t -> bool, forallb (fun q => g (extract_local d a c q)) nbdirs = forallb (fun q => g (extract_local d b c q)) nbdirs).
  { intros g. induction nbdirs as [|y l IH]; cbn [forallb]; [reflexivity|]. rewrite IH, El. reflexivity. }
  rewrite (X (fun t => phase_eqb t WALL || (phase_eqb t GAS || phase_eqb t LG))%bool).
  rewrite (X (fun t => phase_eqb t WALL || (phase_eqb t LIQUID || phase_eqb t LG))%bool). reflexivity.
Qed.

(** C10 without interface cells: one liquid cell and one gas cell in a closed box. *)
Lemma thin_gap_gains_mass src :
  let d := row_dims 2 in let ph0 := row_phase [LIQUID; GAS] in
  let s := st (simulate p_cold d false ph0 [src]) in
  system_mass d (init_state p_cold d ph0) = 3/2 /\ system_mass d s = 2.
Proof.
  intros d ph0 s.
  assert (HX : (0 < NX d)%Z) by reflexivity. assert (HY : (0 < NY d)%Z) by reflexivity. assert (HZ : (0 < NZ d)%Z) by reflexivity.
  assert (Hcl : closed d ph0) by apply (row_closed [LIQUID; GAS]).
  destruct (quiet_first_step p_cold d ph0 src (init_total_mass p_cold d ph0) p_cold_cold HX HY HZ Hcl) as [Hp Hf].
  assert (HI : forall c, in_grid d c -> lphase (init_state p_cold d ph0) c = row_phase [LIQUID; LG] c).
  { intros c Hc. rewrite phI_of_spec by exact Hc. apply phase_eqb_spec. revert c Hc. apply grid_forall. vm_compute. reflexivity. }
  assert (HS : forall c, in_grid d c -> lphase s c = row_phase [LIQUID; LIQUID] c).
  { intros c Hc. unfold s, simulate, run. cbn [fold_left]. rewrite Hp by exact Hc.
    rewrite (adhoc_ext d _ (row_phase [LIQUID; LG])) by assumption.
    apply phase_eqb_spec. revert c Hc. apply grid_forall. vm_compute. reflexivity. }
  split.
  - rewrite <- total_mass_spec. unfold total_mass.
    rewrite (sumR_ext _ _ (fun c => match row_phase [LIQUID; LG] c with LIQUID => 1 | LG => 1/2 | _ => 0 end)).
    + rewrite <- (sumR_map (row_phase [LIQUID; LG]) (grid d) (fun t => match t with LIQUID => 1 | LG => 1/2 | _ => 0 end)).
      let l := eval vm_compute in (map (row_phase [LIQUID; LG]) (grid d)) in
      change (map (row_phase [LIQUID; LG]) (grid d)) with l. cbn [sumR]. lra.
    + intros c Hc. apply in_grid_iff in Hc. unfold cell_mass. specialize (HI c Hc).
      destruct (row_phase [LIQUID; LG] c); rewrite HI; cbn [phase_eqb]; try reflexivity.
      * transitivity (sumQ weight); [apply sumQ_ext; intros; apply init_f_weight | apply weights_sum].
      * apply init_mass_lg; exact HI.
  - rewrite <- total_mass_spec. unfold total_mass.
    rewrite (sumR_ext _ _ (fun c => match row_phase [LIQUID; LIQUID] c with LIQUID => 1 | _ => 0 end)).
    + rewrite <- (sumR_map (row_phase [LIQUID; LIQUID]) (grid d) (fun t => match t with LIQUID => 1 | _ => 0 end)).
      let l := eval vm_compute in (map (row_phase [LIQUID; LIQUID]) (grid d)) in
      change (map (row_phase [LIQUID; LIQUID]) (grid d)) with l. cbn [sumR]. lra.
    + intros c Hc. apply in_grid_iff in Hc. unfold cell_mass. assert (HSc := HS c Hc).
      destruct (row_phase [LIQUID; LIQUID] c) eqn:Er; rewrite HSc; cbn [phase_eqb]; try reflexivity.
      * apply Hf; [exact Hc| |].
        -- rewrite HI by exact Hc. revert Er. apply in_grid_iff in Hc. revert c Hc HSc.
           assert (G : forall c, in_grid d c -> (negb (phase_eqb (row_phase [LIQUID; LIQUID] c) LIQUID) || fluid (row_phase [LIQUID; LG] c))%bool = true)
             by (apply grid_forall; vm_compute; reflexivity).
           intros c Hc _ Er. apply in_grid_iff in Hc. specialize (G c Hc). rewrite Er in G. exact G.
        -- change (fluid (lphase s c) = true). rewrite HSc. reflexivity.
      * exfalso. assert (G : forall c, in_grid d c -> negb (phase_eqb (row_phase [LIQUID; LIQUID] c) LG) = true)
             by (apply grid_forall; vm_compute; reflexivity).
        specialize (G c Hc). rewrite Er in G. discriminate.
Qed.

(** C12: the last re-initialisation step puts liquid and gas side by side. *)
Lemma adhoc_contact src :
  let d := row_dims 4 in let ph0 := row_phase [LIQUID; LG; LG; GAS] in
  let s := st (simulate p_cold d false ph0 [src]) in
  closed d ph0 /\ no_liquid_gas_contact d ph0 /\
  lphase s (2, 1, 1)%Z = LIQUID /\ lphase s (3, 1, 1)%Z = GAS /\ ~ no_liquid_gas_contact d (lphase s).
Proof.
  intros d ph0 s.
  assert (HX : (0 < NX d)%Z) by reflexivity. assert (HY : (0 < NY d)%Z) by reflexivity. assert (HZ : (0 < NZ d)%Z) by reflexivity.
  assert (Hcl : closed d ph0) by apply (row_closed [LIQUID; LG; LG; GAS]).
  destruct (quiet_first_step p_cold d ph0 src (init_total_mass p_cold d ph0) p_cold_cold HX HY HZ Hcl) as [Hp _].
  assert (HI : forall c, in_grid d c -> lphase (init_state p_cold d ph0) c = ph0 c).
  { intros c Hc. rewrite phI_of_spec by exact Hc. apply phase_eqb_spec. revert c Hc. apply grid_forall. vm_compute. reflexivity. }
  assert (HS : forall c, in_grid d c -> lphase s c = row_phase [LIQUID; LIQUID; GAS; GAS] c).
  { intros c Hc. unfold s, simulate, run. cbn [fold_left]. rewrite Hp by exact Hc.
    rewrite (adhoc_ext d _ ph0) by assumption.
    apply phase_eqb_spec. revert c Hc. apply grid_forall. vm_compute. reflexivity. }
  assert (G2 : in_grid d (2,1,1)%Z) by (cbn; lia). assert (G3 : in_grid d (3,1,1)%Z) by (cbn; lia).
  assert (Ha : adjacent (2,1,1)%Z (3,1,1)%Z).
  { split; [discriminate|]. exists (1,0,0)%Z. cbn. split; [lia|reflexivity]. }
  split; [exact Hcl|]. split; [|split; [rewrite HS by exact G2; reflexivity | split; [rewrite HS by exact G3; reflexivity|]]].
  - intros c n Hc Hn (Hne & e & He & Ee) El Eg.
    assert (X : forall c, in_grid d c -> (negb (phase_eqb (ph0 c) LIQUID) || (let '(x,y,z) := c in Z.eqb x 1)%bool) = true)
      by (apply grid_forall; vm_compute; reflexivity).
    assert (Y : forall c, in_grid d c -> (negb (phase_eqb (ph0 c) GAS) || (let '(x,y,z) := c in Z.eqb x 4)%bool) = true)
      by (apply grid_forall; vm_compute; reflexivity).
    specialize (X c Hc). specialize (Y n Hn). rewrite El in X. rewrite Eg in Y. cbn [phase_eqb negb orb] in X, Y.
    destruct c as [[x y] z], n as [[x' y'] z'], e as [[a b] g]. cbn in *. inversion Ee. lia.
  - intros H. apply (H _ _ G2 G3 Ha); rewrite HS by assumption; reflexivity.
Qed.
Close Scope R_scope.
