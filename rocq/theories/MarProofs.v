From Coq Require Import Lra Lia.
From Verif Require Import Prelude PreludeFacts GridFacts CfdMeshModel CfdMeshSpec CfdMeshProofs CfdModel CfdSpec CfdProofs CfdOpProofs FemModel FemFacts MarSpec.
Open Scope R_scope.
Section Mar.
Variable a : amargs.
Local Notation l := (a_local a).
Variable T : arr.
Lemma wall_zero vel s c p q : (s < 5)%nat \/ (s = 5%nat /\ (2 <= c)%nat) -> wall_value a T vel s c p q = 0.
Proof.
  unfold wall_value. intros [H|(-> & H)].
  - do 5 (destruct s as [|s]; [cbn; field|]). lia.
  - destruct c as [|[|c]]; try lia. cbn. field.
Qed.
Lemma mar_eq c i j : (i < mNx l)%nat -> (j < mNy l)%nat -> a_visco a <> 0 -> dXx l <> 0 -> dXy l <> 0 ->
  a_visco a * marangoni_effect a (fun i j => T i j (mNz l - 1)%nat) c i j = a_marangoni a * surface_grad a T c i j * fluid_frac a (surface_T a T i j).
Proof.
  intros Hi Hj Hv Hx Hy. unfold marangoni_effect, surface_grad, central, surface_T. destruct c as [|[|c]].
  - rewrite (padi_hi (mNx l) i Hi), (padi_lo (mNx l) i Hi), (padi_mid (mNy l) j Hj). field. auto.
  - rewrite (padi_hi (mNy l) j Hj), (padi_lo (mNy l) j Hj), (padi_mid (mNx l) i Hi). field. auto.
  - ring.
Qed.
Lemma shear_eq vel c i j : (c < 2)%nat -> (i < mNx l)%nat -> (j < mNy l)%nat -> a_visco a <> 0 -> dXx l <> 0 -> dXy l <> 0 -> dXz l <> 0 ->
  surface_shear a T vel c i j = a_marangoni a * surface_grad a T c i j * fluid_frac a (surface_T a T i j).
Proof.
  intros Hc Hi Hj Hv Hx Hy Hz. rewrite <- mar_eq by assumption. unfold surface_shear.
  cbn [get_GC bkind bval vel_BCs Nat.ltb Nat.leb]. unfold ghost_cell. rewrite (proj2 (Nat.ltb_lt c 2) Hc). cbn [grid_of gNz gdz]. field. exact Hz.
Qed.
(** ** the sum along a row telescopes *)
Lemma central_sum n h f : (0 < n)%nat -> h <> 0 -> sumN n (fun i => central n h f i * h) = f (n - 1)%nat - f 0%nat.
Proof.
  intros Hn Hh. assert (G : forall m, (m < n)%nat -> sumN m (fun i => central n h f i * h) = (f m + f (m - 1)%nat) / 2 - f 0%nat).
  { induction m as [|m IH]; intros Hm; [unfold sumN; cbn; field|]. rewrite sumN_S, IH by lia. unfold central. rewrite Nat.min_l by lia.
    replace (m + 1)%nat with (S m) by lia. replace (S m - 1)%nat with m by lia. field. exact Hh. }
  destruct n as [|n]; [lia|]. rewrite sumN_S, G by lia. unfold central. rewrite Nat.min_r by lia. replace (S n - 1)%nat with n by lia. field. exact Hh.
Qed.
Lemma liquid_one i j : a_Ts a < a_Tl a -> a_Tl a <= surface_T a T i j -> fluid_frac a (surface_T a T i j) = 1.
Proof.
  intros H HT. unfold fluid_frac, clipR. rewrite Rmax_left, Rmin_right by lra. field. lra.
Qed.
Lemma solid_zero i j : a_Ts a < a_Tl a -> surface_T a T i j <= a_Ts a -> fluid_frac a (surface_T a T i j) = 0.
Proof. intros H HT. unfold fluid_frac, clipR. rewrite Rmax_right, Rmin_left by lra. field. lra. Qed.
Lemma frac_nonneg x : a_Ts a < a_Tl a -> 0 <= fluid_frac a x <= 1.
Proof.
  intros H. unfold fluid_frac, clipR. set (y := Rmin (Rmax x (a_Ts a)) (a_Tl a)).
  assert (Hy : a_Ts a <= y <= a_Tl a) by (unfold y; split; [apply Rmin_glb; [apply Rmax_r|lra]|apply Rmin_r]).
  assert (0 < / (a_Tl a - a_Ts a)) by (apply Rinv_0_lt_compat; lra). unfold Rdiv.
  split; [apply Rmult_le_pos; lra|]. apply Rle_trans with ((a_Tl a - a_Ts a) * / (a_Tl a - a_Ts a)); [apply Rmult_le_compat_r; lra|]. rewrite Rinv_r; lra.
Qed.
Lemma row_force vel j : (0 < mNx l)%nat -> (j < mNy l)%nat -> a_visco a <> 0 -> dXx l <> 0 -> dXy l <> 0 -> dXz l <> 0 -> a_Ts a < a_Tl a ->
  (forall i, (i < mNx l)%nat -> a_Tl a <= surface_T a T i j) ->
  sumN (mNx l) (fun i => surface_shear a T vel 0 i j * dXx l) = a_marangoni a * (surface_T a T (mNx l - 1) j - surface_T a T 0 j).
Proof.
  intros Hn Hj Hv Hx Hy Hz HT Hl. rewrite <- (central_sum (mNx l) (dXx l) (fun i => surface_T a T i j)) by assumption. rewrite <- sumN_scal. apply sumN_ext. intros i Hi.
  rewrite shear_eq, liquid_one by (auto; lia). unfold surface_grad. ring.
Qed.
Lemma column_force vel i : (i < mNx l)%nat -> (0 < mNy l)%nat -> a_visco a <> 0 -> dXx l <> 0 -> dXy l <> 0 -> dXz l <> 0 -> a_Ts a < a_Tl a ->
  (forall j, (j < mNy l)%nat -> a_Tl a <= surface_T a T i j) ->
  sumN (mNy l) (fun j => surface_shear a T vel 1 i j * dXy l) = a_marangoni a * (surface_T a T i (mNy l - 1) - surface_T a T i 0).
Proof.
  intros Hi Hn Hv Hx Hy Hz HT Hl. rewrite <- (central_sum (mNy l) (dXy l) (fun j => surface_T a T i j)) by assumption. rewrite <- sumN_scal. apply sumN_ext. intros j Hj.
  rewrite shear_eq, liquid_one by (auto; lia). unfold surface_grad. ring.
Qed.
End Mar.
(** ** the two forms of the conditions *)
Lemma flat2_at {A} (d : A) n1 n2 f i j : (i < n1)%nat -> (j < n2)%nat -> nth (i * n2 + j) (flat2 n1 n2 f) d = f i j.
Proof.
  intros Hi Hj. unfold flat2. cut (forall k, (i < n1)%nat -> nth (i * n2 + j) (flat_map (fun i => map (fun j => f i j) (seq 0 n2)) (seq k n1)) d = f (k + i)%nat j).
  { intros H. exact (H 0%nat Hi). }
  clear Hi. revert i. induction n1 as [|n1 IH]; intros i k Hi; [lia|]. cbn [seq flat_map]. destruct i as [|i].
  - cbn [Nat.mul Nat.add]. rewrite app_nth1 by (rewrite map_length, seq_length; exact Hj). rewrite (nth_indep _ d (f k 0%nat)) by (rewrite map_length, seq_length; exact Hj).
    rewrite (map_nth (fun j => f k j)), seq_nth by exact Hj. now rewrite Nat.add_0_r.
  - rewrite app_nth2 by (rewrite map_length, seq_length; nia). rewrite map_length, seq_length. replace (S i * n2 + j - n2)%nat with (i * n2 + j)%nat by nia.
    rewrite IH by lia. f_equal. lia.
Qed.
Lemma scalar_form a T c : exists top, vel_bc_scalar a T c = map (fun n => (0%nat, repeat 0 n)) (firstn 5 (surf_set_num (a_local a))) ++ [((if Nat.ltb c 2 then 1 else 0)%nat, top)]
  /\ length top = (mNx (a_local a) * mNy (a_local a))%nat
  /\ forall i j, (i < mNx (a_local a))%nat -> (j < mNy (a_local a))%nat -> nth (i * mNy (a_local a) + j) top 0 = bval (vel_BCs a T) 5 c i j * a_visco a.
Proof.
  eexists. split; [reflexivity|]. split.
  - unfold flat2. rewrite flat_map_const_length with (c := mNy (a_local a)); [now rewrite seq_length|]. intros; now rewrite map_length, seq_length.
  - intros i j Hi Hj. rewrite flat2_at by assumption. reflexivity.
Qed.
Close Scope R_scope.
Section Linear.
Open Scope R_scope.
Variables (a : amargs) (T : arr) (t0 s : R).
Local Notation l := (a_local a).
Hypothesis HT : forall i j, (i < mNx l)%nat -> (j < mNy l)%nat -> surface_T a T i j = t0 + s * (INR i * dXx l).
Hypotheses (Hv : a_visco a <> 0) (Hx : dXx l <> 0) (Hy : dXy l <> 0) (Hz : dXz l <> 0) (Hs : a_Ts a < a_Tl a).
Lemma linear_inner vel i j : (1 <= i)%nat -> (i + 1 < mNx l)%nat -> (j < mNy l)%nat -> a_Tl a <= surface_T a T i j -> surface_shear a T vel 0 i j = a_marangoni a * s.
Proof.
  intros H1 Hi Hj Hl. rewrite shear_eq, liquid_one by (auto; lia). unfold surface_grad, central. rewrite Nat.min_l, !HT by lia.
  rewrite plus_INR, minus_INR by lia. cbn [INR]. field. exact Hx.
Qed.
Lemma linear_first vel j : (1 < mNx l)%nat -> (j < mNy l)%nat -> a_Tl a <= surface_T a T 0 j -> surface_shear a T vel 0 0 j = a_marangoni a * s / 2.
Proof.
  intros Hn Hj Hl. rewrite shear_eq, liquid_one by (auto; lia). unfold surface_grad, central. rewrite Nat.min_l, !HT by lia. cbn [Nat.add Nat.sub INR]. field. exact Hx.
Qed.
Lemma linear_last vel j : (1 < mNx l)%nat -> (j < mNy l)%nat -> a_Tl a <= surface_T a T (mNx l - 1) j -> surface_shear a T vel 0 (mNx l - 1) j = a_marangoni a * s / 2.
Proof.
  intros Hn Hj Hl. rewrite shear_eq, liquid_one by (auto; lia). unfold surface_grad, central. rewrite Nat.min_r, !HT by lia. rewrite (minus_INR (mNx l - 1) 1) by lia. cbn [INR]. field. exact Hx.
Qed.
End Linear.
