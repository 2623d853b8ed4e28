(** Assembling the stage lemmas into statements about one time step. *)
From Verif Require Import Prelude PreludeFacts MeshModel MeshProofs LbmModel LbmSpec LbmProofs LbmMassProofs LbmPhaseProofs LbmQuietProofs.
From Coq Require Import Lra Psatz ZifyBool ZifyNat.
Open Scope R_scope.

Lemma step_reinit p d src fo target x :
  let s := fst (physics p d src (pre p fo (st x))) in
  exists u e T, lphase (st (step p d src fo target x)) = lphase (reinit p d s (compute_rho (lf (st x))) u e T) /\
    lphase s = lphase (st x).
Proof.
  intros s. unfold s, step, physics, pre. destruct fo; cbn [fst lphase st lf]; do 3 eexists; split; reflexivity.
Qed.

Lemma step_transitions p d src fo target x : closed d (lphase (st x)) ->
  let s := fst (physics p d src (pre p fo (st x))) in
  let final := lphase (st (step p d src fo target x)) in
  exists mid : field phase_t, no_liquid_gas_contact d mid /\
  forall c, in_grid d c ->
   ((mid c = WALL <-> lphase (st x) c = WALL) /\
    (lphase (st x) c = LIQUID \/ filled s c ->
       mid c = LIQUID \/ (mid c = LG /\ exists n, adjacent c n /\ mid n = GAS)) /\
    (mid c = LIQUID -> lphase (st x) c = LIQUID \/ filled s c) /\
    (lphase (st x) c = LG -> ~ filled s c -> (emptied s c -> mid c = GAS) /\ (~ emptied s c -> mid c = LG)) /\
    (lphase (st x) c = GAS -> (mid c = GAS \/ mid c = LG) /\
       (mid c = LG -> exists n, adjacent c n /\ (lphase (st x) n = LIQUID \/ filled s n)) /\
       ((exists n, adjacent c n /\ (lphase (st x) n = LIQUID \/ filled s n)) ->
          (forall n, 0 <= density (lf (st x) n)) -> mid c = LG))) /\
   ((mid c <> LG -> final c = mid c) /\
    (mid c = LG ->
      ((forall n, adjacent c n -> mid n <> LIQUID) -> final c = GAS) /\
      ((exists n, adjacent c n /\ mid n = LIQUID) ->
        ((forall n, adjacent c n -> mid n <> GAS) -> final c = LIQUID) /\
        ((exists n, adjacent c n /\ mid n = GAS) -> final c = LG)))).
Proof.
  intros Hcl s final. destruct (step_reinit p d src fo target x) as (u & e & T & E & Es). fold s in E, Es.
  rewrite <- Es in *. set (rho := compute_rho (lf (st x))) in *.
  exists (mid_phase p d s rho u e T). split; [apply mid_no_contact; exact Hcl|].
  intros c Hc. split.
  - split; [apply mid_wall; exact Hc|]. split; [apply mid_from_liquid; assumption|].
    split; [apply mid_liquid; assumption|]. split; [apply mid_from_lg; assumption|].
    apply mid_from_gas; assumption.
  - unfold final. rewrite E, reinit_phase. apply adhoc_spec; [apply cl4; exact Hcl|exact Hc].
Qed.

(** interface cells never jump straight into bulk on the wrong side *)
Lemma run_closed p d fo target srcs x : closed d (lphase (st x)) -> closed d (lphase (st (run p d fo target srcs x))).
Proof. intros H. apply (closed_ext d _ _ H). intros c Hc. apply run_wall; exact Hc. Qed.

Lemma mid_exists p d src fo target x : closed d (lphase (st x)) ->
  exists mid, no_liquid_gas_contact d mid /\
    lphase (st (step p d src fo target x)) = adhoc_step d mid.
Proof.
  intros Hcl. destruct (step_reinit p d src fo target x) as (u & e & T & E & Es).
  rewrite <- Es in Hcl. eexists. split; [|exact E]. apply mid_no_contact. exact Hcl.
Qed.

Lemma contact_refuted : exists p d ph0, forall src,
  closed d ph0 /\ no_liquid_gas_contact d ph0 /\
  ~ no_liquid_gas_contact d (lphase (st (simulate p d false ph0 [src]))).
Proof.
  exists p_cold, (row_dims 4), (row_phase [LIQUID; LG; LG; GAS]). intros src.
  destruct (adhoc_contact src) as (A & B & _ & _ & C). auto.
Qed.

Lemma mass_refuted : exists p d ph0, forall src,
  closed d ph0 /\
  system_mass d (init_state p d ph0) = 3/2 /\
  system_mass d (st (simulate p d false ph0 [src])) = 2.
Proof.
  exists p_cold, (row_dims 2), (row_phase [LIQUID; GAS]). intros src.
  split; [apply (row_closed [LIQUID; GAS])|]. apply thin_gap_gains_mass.
Qed.

Lemma vmapped_lattice_kernel_L (A : Type) (dflt : A) Nx Ny Nz (k : nat * nat * nat -> A) x y z :
  (x < Nx)%nat -> (y < Ny)%nat -> (z < Nz)%nat ->
  at3 (shape_wrapper_vmap dflt Nx Ny Nz (fun id => k (to_id_xyz Ny Nz id))) x y z = k (x, y, z).
Proof.
  intros Hx Hy Hz. rewrite shape_wrapper_places by assumption.
  destruct (to_id_xyz_to_id Nx Ny Nz x y z Hx Hy Hz) as [_ E]. rewrite E. reflexivity.
Qed.

(** Witnesses used by the non-vacuity examples. *)
Lemma row_LG_LIQUID_ok : closed (row_dims 3) (row_phase [LIQUID; LG; GAS]) /\
  no_liquid_gas_contact (row_dims 3) (row_phase [LIQUID; LG; GAS]).
Proof.
  split; [apply (row_closed [LIQUID; LG; GAS])|].
  intros [[x y] z] [[x' y'] z'] Hc Hn (_ & [[a b] g] & He & E). cbn in *. inversion E; subst; clear E.
  destruct (Z.eqb y 1 && Z.eqb z 1 && Z.ltb 0 x)%bool eqn:E1; [|discriminate].
  destruct (Z.eqb (y+b) 1 && Z.eqb (z+g) 1 && Z.ltb 0 (x+a))%bool eqn:E2; [|discriminate].
  destruct (Z.to_nat (x - 1)) as [|[|[|[]]]] eqn:Ex; try discriminate. intros _.
  destruct (Z.to_nat (x + a - 1)) as [|[|[|[]]]] eqn:Ey; try discriminate.
  exfalso. lia.
Qed.
Close Scope R_scope.
