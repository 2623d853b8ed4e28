(** * The pressure correction of the CFD solver. *)
From Coq Require Import Lra Lia Psatz ZifyBool ZifyNat.
From Verif Require Import Prelude PreludeFacts GridFacts CfdMeshModel CfdMeshSpec CfdMeshProofs CfdModel CfdSpec CfdProofs CfdOpProofs CfdEqProofs CfdSolveProofs ProjSpec.
Open Scope R_scope.

(** ** one axis *)
Lemma sum_hi m (w f : nat -> R) : sumR (seq 0 (S m)) (fun i => w i * (f (Nat.min (i + 1) (S m - 1)) - f i)) = sumR (seq 0 m) (fun i => w i * (f (i + 1)%nat - f i)).
Proof.
  rewrite sumR_seq_S. replace (Nat.min (m + 1) (S m - 1)) with m by lia.
  rewrite (sumR_ext (seq 0 m) _ (fun i => w i * (f (i + 1)%nat - f i))); [ring|]. intros i Hi. apply in_seq in Hi. now replace (Nat.min (i + 1) (S m - 1)) with (i + 1)%nat by lia.
Qed.
Lemma sum_lo m (w f : nat -> R) : sumR (seq 0 (S m)) (fun i => w i * (f i - f (i - 1)%nat)) = sumR (seq 0 m) (fun i => w (i + 1)%nat * (f (i + 1)%nat - f i)).
Proof.
  change (seq 0 (S m)) with (0%nat :: seq 1 m). cbn [sumR]. rewrite sumR_seq_shift. cbn [Nat.sub].
  rewrite (sumR_ext (seq 0 m) _ (fun i => w (i + 1)%nat * (f (i + 1)%nat - f i))); [ring|].
  intros i _. replace (1 + i)%nat with (i + 1)%nat by lia. now replace (i + 1 - 1)%nat with i by lia.
Qed.
(** central difference, divergence with closed ends, compact second difference (all without the mesh width) *)
Definition cen (n : nat) (f : nat -> R) (i : nat) : R := (f (Nat.min (i + 1) (n - 1)) - f (i - 1)%nat) / 2.
Definition wall (n : nat) (u : nat -> R) (i : nat) : R := if Nat.eqb i 0 then 0 else if Nat.eqb i n then 0 else (u i + u (i - 1)%nat) / 2.
Definition dv (n : nat) (u : nat -> R) (i : nat) : R := wall n u (i + 1) - wall n u i.
Definition cmp (n : nat) (f : nat -> R) (i : nat) : R := f (Nat.min (i + 1) (n - 1)) - 2 * f i + f (i - 1)%nat.
Lemma by_parts m (f F : nat -> R) : F 0%nat = 0 -> F (S m) = 0 -> sumR (seq 0 (S m)) (fun i => f i * (F (i + 1)%nat - F i)) = - sumR (seq 0 m) (fun i => (f (i + 1)%nat - f i) * F (i + 1)%nat).
Proof.
  intros H0 Hm.
  assert (G : forall k, sumR (seq 0 k) (fun i => f i * (F (i + 1)%nat - F i)) = - sumR (seq 0 k) (fun i => (f (i + 1)%nat - f i) * F (i + 1)%nat) + f k * F k - f 0%nat * F 0%nat).
  { induction k as [|k IH]; [cbn; ring|]. rewrite !sumR_seq_S, IH. replace (k + 1)%nat with (S k) by lia. ring. }
  rewrite G, H0, Hm, sumR_seq_S. replace (m + 1)%nat with (S m) by lia. rewrite Hm. ring.
Qed.
Lemma adjoint1 n (f u : nat -> R) : (0 < n)%nat -> sumR (seq 0 n) (fun i => f i * dv n u i) = - sumR (seq 0 n) (fun i => u i * cen n f i).
Proof.
  intros Hn. destruct n as [|m]; [lia|]. unfold dv.
  rewrite (by_parts m f (wall (S m) u)).
  - f_equal. transitivity (/ 2 * (sumR (seq 0 (S m)) (fun i => u i * (f (Nat.min (i + 1) (S m - 1)) - f i)) + sumR (seq 0 (S m)) (fun i => u i * (f i - f (i - 1)%nat)))).
    + rewrite sum_hi, sum_lo, <- sumR_add, <- sumR_scal. apply sumR_ext. intros i Hi. apply in_seq in Hi. unfold wall.
      destruct (Nat.eqb_spec (i + 1) 0); [lia|]. destruct (Nat.eqb_spec (i + 1) (S m)); [lia|]. replace (i + 1 - 1)%nat with i by lia. field.
    + rewrite <- sumR_add, <- sumR_scal. apply sumR_ext. intros i _. unfold cen. field.
  - reflexivity.
  - unfold wall. rewrite Nat.eqb_refl. reflexivity.
Qed.
Lemma compact1 n (f : nat -> R) : (0 < n)%nat -> sumR (seq 0 n) (fun i => f i * cmp n f i) = - sumR (seq 0 (n - 1)) (fun i => (f (i + 1)%nat - f i) ^ 2).
Proof.
  intros Hn. destruct n as [|m]; [lia|]. cbn [Nat.sub]. rewrite Nat.sub_0_r.
  transitivity (sumR (seq 0 (S m)) (fun i => f i * (f (Nat.min (i + 1) (S m - 1)) - f i)) - sumR (seq 0 (S m)) (fun i => f i * (f i - f (i - 1)%nat))).
  - rewrite <- sumR_sub. apply sumR_ext. intros i _. unfold cmp. ring.
  - rewrite sum_hi, sum_lo, <- sumR_sub, <- sumR_opp. apply sumR_ext. intros. ring.
Qed.
Lemma central1 n (f : nat -> R) : (0 < n)%nat -> sumR (seq 0 n) (fun i => cen n f i ^ 2) <= sumR (seq 0 (n - 1)) (fun i => (f (i + 1)%nat - f i) ^ 2).
Proof.
  intros Hn. destruct n as [|m]; [lia|]. cbn [Nat.sub]. rewrite Nat.sub_0_r.
  set (A := fun i => f (Nat.min (i + 1) (S m - 1)) - f i). set (B := fun i => f i - f (i - 1)%nat).
  apply Rle_trans with (/ 2 * (sumR (seq 0 (S m)) (fun i => A i * A i) + sumR (seq 0 (S m)) (fun i => B i * B i))).
  - rewrite <- sumR_add, <- sumR_scal. apply sumR_le. intros i _. unfold cen, A, B.
    pose proof (pow2_ge_0 (f (Nat.min (i + 1) (S m - 1)) - f i - (f i - f (i - 1)%nat))). nra.
  - right. unfold A at 2. rewrite (sum_hi m A f). unfold B at 2. rewrite (sum_lo m B f). rewrite <- sumR_add, <- sumR_scal. apply sumR_ext. intros i Hi. apply in_seq in Hi. unfold A, B.
    replace (Nat.min (i + 1) (S m - 1)) with (i + 1)%nat by lia. replace (i + 1 - 1)%nat with i by lia. field.
Qed.
Lemma mirror_mid n i : (i < n)%nat -> mirror n (i + 2) = i.
Proof. intros H. unfold mirror. destruct (Nat.ltb_spec (i + 2) 2); [lia|]. replace (i + 2 - 2)%nat with i by lia. destruct (Nat.ltb_spec i n); [reflexivity|lia]. Qed.
Ltac cases_idx := repeat match goal with
   | |- context [Nat.ltb ?x ?y] => destruct (Nat.ltb_spec x y)
   | |- context [Nat.eqb ?x ?y] => destruct (Nat.eqb_spec x y) end; try lia.
Ltac solve_idx := unfold mirror; cases_idx.
Ltac to_idx f l := repeat match goal with |- context [f ?x] =>
  lazymatch x with
  | l => fail | S l => fail | S (S l) => fail | S (S (S l)) => fail | S (S (S (S l))) => fail
  | _ => first [replace x with l by solve_idx | replace x with (S l) by solve_idx | replace x with (S (S l)) by solve_idx | replace x with (S (S (S l))) by solve_idx | replace x with (S (S (S (S l)))) by solve_idx] end end.
Lemma wide1 n (f : nat -> R) i : (i < n)%nat -> dv n (cen n f) i = cmp n f i + fourth n f i / 4.
Proof.
  intros Hi. unfold fourth. rewrite (mirror_mid n i Hi). unfold dv, wall, cen, cmp.
  destruct i as [|[|i]].
  - destruct n as [|[|[|n]]]; [lia| | |]; cases_idx; to_idx f 0%nat; field.
  - destruct n as [|[|[|[|n]]]]; [lia|lia| | |]; cases_idx; to_idx f 0%nat; field.
  - assert (H : n = (S (S (S i))) \/ n = S (S (S (S i))) \/ exists d, n = (d + S (S (S (S (S i)))))%nat) by (destruct (Nat.lt_ge_cases n (i + 5)); [lia|right; right; exists (n - (i + 5))%nat; lia]).
    destruct H as [-> |[-> |[d ->]]]; cases_idx; to_idx f i; field.
Qed.

Lemma fourth_cmp n (f : nat -> R) i : (i < n)%nat -> fourth n f i = cmp n (cmp n f) i.
Proof.
  intros Hi. transitivity (4 * (dv n (cen n f) i - cmp n f i)); [rewrite wide1 by exact Hi; field|]. unfold dv, wall, cen, cmp.
  destruct i as [|[|i]].
  - destruct n as [|[|[|n]]]; [lia| | |]; cases_idx; to_idx f 0%nat; field.
  - destruct n as [|[|[|[|n]]]]; [lia|lia| | |]; cases_idx; to_idx f 0%nat; field.
  - assert (H : n = (S (S (S i))) \/ n = S (S (S (S i))) \/ exists d, n = (d + S (S (S (S (S i)))))%nat) by (destruct (Nat.lt_ge_cases n (i + 5)); [lia|right; right; exists (n - (i + 5))%nat; lia]).
    destruct H as [-> |[-> |[d ->]]]; cases_idx; to_idx f i; field.
Qed.
Lemma cmp_form n (f g : nat -> R) : (0 < n)%nat -> sumR (seq 0 n) (fun i => f i * cmp n g i) = - sumR (seq 0 (n - 1)) (fun i => (f (i + 1)%nat - f i) * (g (i + 1)%nat - g i)).
Proof.
  intros Hn. destruct n as [|m]; [lia|]. replace (S m - 1)%nat with m by lia.
  rewrite (sumR_ext _ _ (fun i => f i * (g (Nat.min (i + 1) (S m - 1)) - g i) - f i * (g i - g (i - 1)%nat))) by (intros; unfold cmp; ring).
  rewrite sumR_sub, sum_hi, sum_lo, <- sumR_sub, <- sumR_opp. apply sumR_ext. intros. ring.
Qed.
Lemma rough1 n (f : nat -> R) : (0 < n)%nat -> sumR (seq 0 n) (fun i => f i * fourth n f i) = sumR (seq 0 n) (fun i => cmp n f i ^ 2).
Proof.
  intros Hn. rewrite (sumR_ext _ _ (fun i => f i * cmp n (cmp n f) i)) by (intros i Hi; apply in_seq in Hi; now rewrite fourth_cmp by lia).
  rewrite (cmp_form n f (cmp n f) Hn). rewrite (sumR_ext (seq 0 n) (fun i => cmp n f i ^ 2) (fun i => cmp n f i * cmp n f i)) by (intros; ring). rewrite (cmp_form n (cmp n f) f Hn). f_equal. apply sumR_ext. intros. ring.
Qed.

(** ** the window *)
Section Window.
Variables (a : amargs) (T : arr).
Notation l := (a_local a).
Notation g := (grid_of l).
Hypothesis W : good_mesh l.
Hypothesis Hdt : 0 < a_dt a.
Hypothesis Hrho : 0 < a_rho a.
Let Pw : 0 < dXx l /\ 0 < dXy l /\ 0 < dXz l.
Proof. exact (widths (mkEqn l PyFalse (Some 1) None (fun _ _ => 0)) W). Qed.
Definition P3 (p : fld) : arr := fun i j k => p (cell_idx l i j k).
Notation X f j k := (fun i => f i j k).
Notation Y f i k := (fun j => f i j k).
Notation Z f i j := (fun k => f i j k).

Lemma face_avg_wall n f g0 g1 i : (0 < n)%nat -> (i <= n)%nat -> g0 = - f 0%nat -> g1 = - f (n - 1)%nat -> face_avg n g0 f g1 i = wall n f i.
Proof.
  intros Hn Hi -> ->. unfold wall. destruct (Nat.eqb_spec i 0) as [-> |H0]; [rewrite face_avg_lo by exact Hn; field|].
  destruct (Nat.eqb_spec i n) as [-> |H1]; [rewrite face_avg_hi by exact Hn; field|]. rewrite face_avg_mid by lia. reflexivity.
Qed.
Lemma divergence_axes vel i j k : in_box l i j k ->
  divergence a T vel i j k = dv (mNx l) (X (vel 0%nat) j k) i / dXx l + dv (mNy l) (Y (vel 1%nat) i k) j / dXy l + dv (mNz l) (Z (vel 2%nat) i j) k / dXz l.
Proof.
  intros (Hi & Hj & Hk). unfold divergence, face_div, face_u, face_v, face_w, dv. cbn [gNx gNy gNz gdx gdy gdz grid_of].
  rewrite !face_avg_wall; try lia; try reflexivity; cbn; ring.
Qed.
Lemma div_vel_eq vel i j k : div_vel a (vel_BCs a T) vel i j k = divergence a T vel i j k / a_dt a * a_rho a.
Proof. reflexivity. Qed.
Lemma gradient_axes p i j k : in_box l i j k ->
  gradient g None (P3 p) 0 i j k = cen (mNx l) (X (P3 p) j k) i / dXx l /\ gradient g None (P3 p) 1 i j k = cen (mNy l) (Y (P3 p) i k) j / dXy l /\
  gradient g None (P3 p) 2 i j k = cen (mNz l) (Z (P3 p) i j) k / dXz l.
Proof.
  intros (Hi & Hj & Hk). unfold gradient, cen, diff_app, diff_pre. cbn [gNx gNy gNz gdx gdy gdz grid_of get_GC ghost_cell default_BCs bkind bval].
  assert (E : forall n (f : nat -> R) i h x y, 0 < h -> (i < n)%nat -> x = f (n - 1)%nat -> y = f 0%nat ->
    ((if Nat.ltb (i + 1) n then f (i + 1)%nat else x) - f i + (f i - (if Nat.eqb i 0 then y else f (i - 1)%nat))) / h / 2 = (f (Nat.min (i + 1) (n - 1)) - f (i - 1)%nat) / 2 / h).
  { intros n f i' h x y Hh Hi' -> ->. replace (if Nat.ltb (i' + 1) n then f (i' + 1)%nat else f (n - 1)%nat) with (f (Nat.min (i' + 1) (n - 1))).
    2:{ destruct (Nat.ltb_spec (i' + 1) n); f_equal; lia. }
    replace (if Nat.eqb i' 0 then f 0%nat else f (i' - 1)%nat) with (f (i' - 1)%nat) by (destruct (Nat.eqb_spec i' 0) as [-> |]; reflexivity). field. lra. }
  destruct Pw as (? & ? & ?).
  repeat split; [apply (E (mNx l) (X (P3 p) j k))|apply (E (mNy l) (Y (P3 p) i k))|apply (E (mNz l) (Z (P3 p) i j))]; try assumption; ring.
Qed.
Definition compact (p : fld) (i j k : nat) : R :=
  cmp (mNx l) (X (P3 p) j k) i / dXx l ^ 2 + cmp (mNy l) (Y (P3 p) i k) j / dXy l ^ 2 + cmp (mNz l) (Z (P3 p) i j) k / dXz l ^ 2.
Lemma laplace_compact fl src p i j k : in_box l i j k -> laplace (mkEqn l fl (Some 1) None src) p (cell_idx l i j k) = dV l * compact p i j k.
Proof.
  intros (Hi & Hj & Hk). pose proof (lap_cell (mkEqn l fl (Some 1) None src) W p i j k Hi Hj Hk) as E. cbn [e_mesh] in E. rewrite E. clear E. unfold G, face_mu, wt, compact, cmp, P3, dV. cbn [e_mesh e_mu e_mufn]. destruct Pw as (? & ? & ?). field. repeat split; lra.
Qed.
Lemma flat_idx f i j k : in_box l i j k -> flat l f (cell_idx l i j k) = f i j k.
Proof. intros (Hi & Hj & Hk). unfold flat, cell_idx. destruct (decode_encode (mNy l) (mNz l) i j k Hj Hk) as (-> & -> & ->). reflexivity. Qed.
Lemma pressure_iff vel p : pressure_solution a T vel p <-> forall i j k, in_box l i j k -> compact p i j k = divergence a T vel i j k / a_dt a * a_rho a.
Proof.
  unfold pressure_solution, pressure_eqn, mk_poisson. cbn [eq_false].
  pose proof (dV_pos (mkEqn l PyFalse (Some 1) None (fun _ _ => 0)) W) as HV. cbn [e_mesh] in HV.
  split.
  - intros (e & r & He & Hr & Hz) i j k Hb. injection He as <-. rewrite residual_none in Hr. injection Hr as <-. cbn [e_src e_mesh] in Hz.
    pose proof Hb as (Hi & Hj & Hk). specialize (Hz (cell_idx l i j k) ltac:(apply idx_lt; assumption)). rewrite laplace_compact in Hz by exact Hb. rewrite flat_idx, div_vel_eq in Hz by exact Hb. nra.
  - intros H. eexists _, _. split; [reflexivity|]. split; [apply residual_none|]. intros n Hn. cbn [e_src e_mesh].
    destruct (idx_ex l n Hn) as (i & j & k & Hi & Hj & Hk & ->). assert (Hb : in_box l i j k) by (repeat split; assumption).
    rewrite laplace_compact, flat_idx, div_vel_eq, (H i j k Hb) by exact Hb. ring.
Qed.
Lemma dv_sub n u w c i : dv n (fun i => u i - c * w i) i = dv n u i - c * dv n w i.
Proof. unfold dv, wall. repeat match goal with |- context [Nat.eqb ?x ?y] => destruct (Nat.eqb x y) end; field. Qed.
Lemma dv_ext n u w i : (i < n)%nat -> (forall i, (i < n)%nat -> u i = w i) -> dv n u i = dv n w i.
Proof. intros Hi H. unfold dv, wall. destruct (Nat.eqb_spec (i + 1) 0), (Nat.eqb_spec (i + 1) n), (Nat.eqb_spec i 0), (Nat.eqb_spec i n); try lia; rewrite ?(H (i + 1)%nat), ?(H (i + 1 - 1)%nat), ?(H i), ?(H (i - 1)%nat) by lia; reflexivity. Qed.
Lemma corrected_cell vel p c i j k : (c < 3)%nat -> in_box l i j k ->
  corrected a vel p c i j k = vel c i j k - a_dt a / a_rho a *
   match c with 0%nat => / dXx l * cen (mNx l) (X (P3 p) j k) i | 1%nat => / dXy l * cen (mNy l) (Y (P3 p) i k) j | _ => / dXz l * cen (mNz l) (Z (P3 p) i j) k end.
Proof.
  intros Hc Hb. unfold corrected, correct_vel. change (unflat l p) with (P3 p). destruct (gradient_axes p i j k Hb) as (E0 & E1 & E2).
  destruct c as [|[|[|c]]]; [rewrite E0|rewrite E1|rewrite E2|lia]; unfold Rdiv; ring.
Qed.
Lemma remaining vel p : pressure_solution a T vel p -> forall i j k, in_box l i j k ->
  divergence a T (corrected a vel p) i j k = - (a_dt a / a_rho a) * roughness l p i j k.
Proof.
  intros Hp i j k Hb. rewrite (divergence_axes (corrected a vel p)) by exact Hb.
  pose proof (proj1 (pressure_iff vel p) Hp i j k Hb) as Hc. rewrite (divergence_axes vel) in Hc by exact Hb. destruct Hb as (Hi & Hj & Hk).
  rewrite (dv_ext (mNx l) (X (corrected a vel p 0%nat) j k) (fun i => X (vel 0%nat) j k i - a_dt a / a_rho a * / dXx l * cen (mNx l) (X (P3 p) j k) i) i) by (try exact Hi; intros i' Hi'; rewrite corrected_cell by (try lia; repeat split; assumption); ring).
  rewrite (dv_ext (mNy l) (Y (corrected a vel p 1%nat) i k) (fun j => Y (vel 1%nat) i k j - a_dt a / a_rho a * / dXy l * cen (mNy l) (Y (P3 p) i k) j) j) by (try exact Hj; intros i' Hi'; rewrite corrected_cell by (try lia; repeat split; assumption); ring).
  rewrite (dv_ext (mNz l) (Z (corrected a vel p 2%nat) i j) (fun k => Z (vel 2%nat) i j k - a_dt a / a_rho a * / dXz l * cen (mNz l) (Z (P3 p) i j) k) k) by (try exact Hk; intros i' Hi'; rewrite corrected_cell by (try lia; repeat split; assumption); ring).
  rewrite !dv_sub, !wide1 by assumption. unfold compact in Hc. unfold roughness. change (fun i => p (cell_idx l i j k)) with (X (P3 p) j k). change (fun j => p (cell_idx l i j k)) with (Y (P3 p) i k). change (fun k => p (cell_idx l i j k)) with (Z (P3 p) i j).
  set (c0 := cmp (mNx l) _ i) in *. set (c1 := cmp (mNy l) _ j) in *. set (c2 := cmp (mNz l) _ k) in *. set (d0 := dv (mNx l) _ i) in *. set (d1 := dv (mNy l) _ j) in *. set (d2 := dv (mNz l) _ k) in *.
  destruct Pw as (? & ? & ?).
  assert (E : d0 / dXx l + d1 / dXy l + d2 / dXz l = a_dt a / a_rho a * (c0 / dXx l ^ 2 + c1 / dXy l ^ 2 + c2 / dXz l ^ 2)) by (rewrite Hc; field; repeat split; lra).
  transitivity (d0 / dXx l + d1 / dXy l + d2 / dXz l - a_dt a / a_rho a * (c0 / dXx l ^ 2 + c1 / dXy l ^ 2 + c2 / dXz l ^ 2) - a_dt a / a_rho a * (fourth (mNx l) (X (P3 p) j k) i / (4 * dXx l ^ 2) + fourth (mNy l) (Y (P3 p) i k) j / (4 * dXy l ^ 2) + fourth (mNz l) (Z (P3 p) i j) k / (4 * dXz l ^ 2))).
  - field. repeat split; lra.
  - rewrite E. ring.
Qed.

(** ** sums over the window *)
Lemma box_ext f f' : (forall i j k, in_box l i j k -> f i j k = f' i j k) -> box_of l f = box_of l f'.
Proof. intros H. apply box_sum_ext. intros i j k Hi Hj Hk. apply H. repeat split; assumption. Qed.
Lemma box_scal c f : box_of l (fun i j k => c * f i j k) = c * box_of l f.
Proof. apply box_sum_scal. Qed.
Lemma box_add f f' : box_of l (fun i j k => f i j k + f' i j k) = box_of l f + box_of l f'.
Proof. unfold box_of, box_sum. rewrite <- sumR_add. apply sumR_ext. intros i _. rewrite <- sumR_add. apply sumR_ext. intros j _. now rewrite <- sumR_add. Qed.
Lemma box_le f f' : (forall i j k, in_box l i j k -> f i j k <= f' i j k) -> box_of l f <= box_of l f'.
Proof. intros H. unfold box_of, box_sum. apply sumR_le. intros i Hi. apply in_seq in Hi. apply sumR_le. intros j Hj. apply in_seq in Hj. apply sumR_le. intros k Hk. apply in_seq in Hk. apply H. repeat split; lia. Qed.
Lemma box_x f : box_of l f = sumR (seq 0 (mNy l)) (fun j => sumR (seq 0 (mNz l)) (fun k => sumR (seq 0 (mNx l)) (fun i => f i j k))).
Proof. apply sum3_rot. Qed.
Lemma box_y f : box_of l f = sumR (seq 0 (mNx l)) (fun i => sumR (seq 0 (mNz l)) (fun k => sumR (seq 0 (mNy l)) (fun j => f i j k))).
Proof. apply sum3_mid. Qed.
Lemma sum2_neg n1 n2 (f f' : nat -> nat -> R) : (forall i j, f i j = - f' i j) -> sumR (seq 0 n1) (fun i => sumR (seq 0 n2) (fun j => f i j)) = - sumR (seq 0 n1) (fun i => sumR (seq 0 n2) (fun j => f' i j)).
Proof. intros H. rewrite <- sumR_opp. apply sumR_ext. intros i _. rewrite <- sumR_opp. apply sumR_ext. intros j _. apply H. Qed.
Definition fx (p : fld) : R := sumR (seq 0 (mNy l)) (fun j => sumR (seq 0 (mNz l)) (fun k => sumR (seq 0 (mNx l - 1)) (fun i => (P3 p (i + 1)%nat j k - P3 p i j k) ^ 2))).
Definition fy (p : fld) : R := sumR (seq 0 (mNx l)) (fun i => sumR (seq 0 (mNz l)) (fun k => sumR (seq 0 (mNy l - 1)) (fun j => (P3 p i (j + 1)%nat k - P3 p i j k) ^ 2))).
Definition fz (p : fld) : R := sumR (seq 0 (mNx l)) (fun i => sumR (seq 0 (mNy l)) (fun j => sumR (seq 0 (mNz l - 1)) (fun k => (P3 p i j (k + 1)%nat - P3 p i j k) ^ 2))).
Lemma face_energy_eq p : face_energy l p = fx p / dXx l ^ 2 + fy p / dXy l ^ 2 + fz p / dXz l ^ 2.
Proof.
  destruct Pw as (? & ? & ?). unfold face_energy, fx, fy, fz.
  assert (E : forall n1 n2 n3 (f : nat -> nat -> nat -> R) h, 0 < h -> sumR (seq 0 n1) (fun i => sumR (seq 0 n2) (fun j => sumR (seq 0 n3) (fun k => (f i j k / h) ^ 2))) =
     sumR (seq 0 n1) (fun i => sumR (seq 0 n2) (fun j => sumR (seq 0 n3) (fun k => f i j k ^ 2))) / h ^ 2).
  { intros n1 n2 n3 f h Hh. unfold Rdiv. rewrite <- sumR_scal_r. apply sumR_ext. intros i _. rewrite <- sumR_scal_r. apply sumR_ext. intros j _. rewrite <- sumR_scal_r. apply sumR_ext. intros k _. rewrite Rpow_mult_distr, pow_inv. reflexivity. }
  rewrite (E _ _ _ (fun j k i => P3 p (i + 1)%nat j k - P3 p i j k)) by assumption. rewrite (E _ _ _ (fun i k j => P3 p i (j + 1)%nat k - P3 p i j k)) by assumption. rewrite (E _ _ _ (fun i j k => P3 p i j (k + 1)%nat - P3 p i j k)) by assumption. reflexivity.
Qed.
Let Nx0 : (0 < mNx l)%nat. Proof. apply W. Qed.
Let Ny0 : (0 < mNy l)%nat. Proof. apply W. Qed.
Let Nz0 : (0 < mNz l)%nat. Proof. apply W. Qed.
Lemma compact_energy p : box_of l (fun i j k => P3 p i j k * compact p i j k) = - face_energy l p.
Proof.
  rewrite face_energy_eq.
  rewrite (box_ext _ (fun i j k => / dXx l ^ 2 * (P3 p i j k * cmp (mNx l) (X (P3 p) j k) i) + (/ dXy l ^ 2 * (P3 p i j k * cmp (mNy l) (Y (P3 p) i k) j) + / dXz l ^ 2 * (P3 p i j k * cmp (mNz l) (Z (P3 p) i j) k))))
    by (intros; unfold compact, Rdiv; ring).
  assert (Ex : box_of l (fun i j k => P3 p i j k * cmp (mNx l) (X (P3 p) j k) i) = - fx p) by (rewrite box_x; apply sum2_neg; intros j k; exact (compact1 (mNx l) (X (P3 p) j k) Nx0)).
  assert (Ey : box_of l (fun i j k => P3 p i j k * cmp (mNy l) (Y (P3 p) i k) j) = - fy p) by (rewrite box_y; apply sum2_neg; intros i k; exact (compact1 (mNy l) (Y (P3 p) i k) Ny0)).
  assert (Ez : box_of l (fun i j k => P3 p i j k * cmp (mNz l) (Z (P3 p) i j) k) = - fz p) by (apply sum2_neg; intros i j; exact (compact1 (mNz l) (Z (P3 p) i j) Nz0)).
  rewrite !box_add, !box_scal, Ex, Ey, Ez. unfold Rdiv. ring.
Qed.
(** components of the pressure gradient *)
Definition grd (p : fld) (c : nat) : arr := fun i j k => match c with 0%nat => / dXx l * cen (mNx l) (X (P3 p) j k) i | 1%nat => / dXy l * cen (mNy l) (Y (P3 p) i k) j | _ => / dXz l * cen (mNz l) (Z (P3 p) i j) k end.
Lemma adjoint3 vel p : box_of l (fun i j k => P3 p i j k * divergence a T vel i j k) = - sumR (seq 0 3) (fun c => box_of l (fun i j k => vel c i j k * grd p c i j k)).
Proof.
  rewrite (box_ext _ (fun i j k => / dXx l * (P3 p i j k * dv (mNx l) (X (vel 0%nat) j k) i) + (/ dXy l * (P3 p i j k * dv (mNy l) (Y (vel 1%nat) i k) j) + / dXz l * (P3 p i j k * dv (mNz l) (Z (vel 2%nat) i j) k))))
    by (intros i j k Hb; rewrite divergence_axes by exact Hb; unfold Rdiv; ring).
  assert (Ex : box_of l (fun i j k => P3 p i j k * dv (mNx l) (X (vel 0%nat) j k) i) = - box_of l (fun i j k => vel 0%nat i j k * cen (mNx l) (X (P3 p) j k) i)) by (rewrite !box_x; apply sum2_neg; intros j k; exact (adjoint1 (mNx l) (X (P3 p) j k) (X (vel 0%nat) j k) Nx0)).
  assert (Ey : box_of l (fun i j k => P3 p i j k * dv (mNy l) (Y (vel 1%nat) i k) j) = - box_of l (fun i j k => vel 1%nat i j k * cen (mNy l) (Y (P3 p) i k) j)) by (rewrite !box_y; apply sum2_neg; intros i k; exact (adjoint1 (mNy l) (Y (P3 p) i k) (Y (vel 1%nat) i k) Ny0)).
  assert (Ez : box_of l (fun i j k => P3 p i j k * dv (mNz l) (Z (vel 2%nat) i j) k) = - box_of l (fun i j k => vel 2%nat i j k * cen (mNz l) (Z (P3 p) i j) k)) by (apply sum2_neg; intros i j; exact (adjoint1 (mNz l) (Z (P3 p) i j) (Z (vel 2%nat) i j) Nz0)).
  rewrite !box_add, !box_scal, Ex, Ey, Ez.
  assert (Gx : box_of l (fun i j k => vel 0%nat i j k * grd p 0 i j k) = / dXx l * box_of l (fun i j k => vel 0%nat i j k * cen (mNx l) (X (P3 p) j k) i)) by (rewrite <- box_scal; apply box_ext; intros; unfold grd; ring).
  assert (Gy : box_of l (fun i j k => vel 1%nat i j k * grd p 1 i j k) = / dXy l * box_of l (fun i j k => vel 1%nat i j k * cen (mNy l) (Y (P3 p) i k) j)) by (rewrite <- box_scal; apply box_ext; intros; unfold grd; ring).
  assert (Gz : box_of l (fun i j k => vel 2%nat i j k * grd p 2 i j k) = / dXz l * box_of l (fun i j k => vel 2%nat i j k * cen (mNz l) (Z (P3 p) i j) k)) by (rewrite <- box_scal; apply box_ext; intros; unfold grd; ring).
  cbn [seq sumR]. rewrite Gx, Gy, Gz. ring.
Qed.
Lemma sum2_le n1 n2 (f f' : nat -> nat -> R) : (forall i j, f i j <= f' i j) -> sumR (seq 0 n1) (fun i => sumR (seq 0 n2) (fun j => f i j)) <= sumR (seq 0 n1) (fun i => sumR (seq 0 n2) (fun j => f' i j)).
Proof. intros H. apply sumR_le. intros i _. apply sumR_le. intros j _. apply H. Qed.
Lemma grd_energy p : kinetic l (grd p) <= face_energy l p.
Proof.
  rewrite face_energy_eq. unfold kinetic. cbn [seq sumR]. destruct Pw as (H0 & H1 & H2).
  assert (Gx : box_of l (fun i j k => grd p 0 i j k ^ 2) = / dXx l ^ 2 * box_of l (fun i j k => cen (mNx l) (X (P3 p) j k) i ^ 2)) by (rewrite <- box_scal; apply box_ext; intros; unfold grd; rewrite Rpow_mult_distr, pow_inv; reflexivity).
  assert (Gy : box_of l (fun i j k => grd p 1 i j k ^ 2) = / dXy l ^ 2 * box_of l (fun i j k => cen (mNy l) (Y (P3 p) i k) j ^ 2)) by (rewrite <- box_scal; apply box_ext; intros; unfold grd; rewrite Rpow_mult_distr, pow_inv; reflexivity).
  assert (Gz : box_of l (fun i j k => grd p 2 i j k ^ 2) = / dXz l ^ 2 * box_of l (fun i j k => cen (mNz l) (Z (P3 p) i j) k ^ 2)) by (rewrite <- box_scal; apply box_ext; intros; unfold grd; rewrite Rpow_mult_distr, pow_inv; reflexivity).
  rewrite Gx, Gy, Gz.
  assert (Ex : box_of l (fun i j k => cen (mNx l) (X (P3 p) j k) i ^ 2) <= fx p) by (rewrite box_x; apply sum2_le; intros j k; exact (central1 (mNx l) (X (P3 p) j k) Nx0)).
  assert (Ey : box_of l (fun i j k => cen (mNy l) (Y (P3 p) i k) j ^ 2) <= fy p) by (rewrite box_y; apply sum2_le; intros j k; exact (central1 (mNy l) (Y (P3 p) j k) Ny0)).
  assert (Ez : box_of l (fun i j k => cen (mNz l) (Z (P3 p) i j) k ^ 2) <= fz p) by (apply sum2_le; intros j k; exact (central1 (mNz l) (Z (P3 p) j k) Nz0)).
  assert (I : forall h, 0 < h -> 0 < / h ^ 2) by (intros h Hh; apply Rinv_0_lt_compat, pow_lt; exact Hh).
  pose proof (I _ H0). pose proof (I _ H1). pose proof (I _ H2). unfold Rdiv. nra.
Qed.
Lemma kinetic_correction vel p : pressure_solution a T vel p ->
  kinetic l (corrected a vel p) = kinetic l vel - (a_dt a / a_rho a) ^ 2 * (2 * face_energy l p - kinetic l (grd p)).
Proof.
  intros Hp. set (tau := a_dt a / a_rho a).
  assert (E1 : kinetic l (corrected a vel p) = kinetic l vel - 2 * tau * sumR (seq 0 3) (fun c => box_of l (fun i j k => vel c i j k * grd p c i j k)) + tau ^ 2 * kinetic l (grd p)).
  { unfold kinetic. rewrite <- !sumR_scal, <- sumR_sub, <- sumR_add. apply sumR_ext. intros c Hc. apply in_seq in Hc.
    rewrite (box_ext _ (fun i j k => vel c i j k ^ 2 + ((- 2 * tau) * (vel c i j k * grd p c i j k) + tau ^ 2 * grd p c i j k ^ 2))).
    - rewrite !box_add, !box_scal. ring.
    - intros i j k Hb. rewrite corrected_cell by (try lia; exact Hb). fold tau. change (match c with 0%nat => _ | _ => _ end) with (grd p c i j k). ring. }
  rewrite E1. pose proof (adjoint3 vel p) as A.
  assert (E2 : box_of l (fun i j k => P3 p i j k * divergence a T vel i j k) = tau * - face_energy l p).
  { rewrite <- compact_energy, <- box_scal. apply box_ext. intros i j k Hb. rewrite (proj1 (pressure_iff vel p) Hp i j k Hb). unfold tau. field. split; lra. }
  rewrite E2 in A. nra.
Qed.
Lemma face_energy_nonneg p : 0 <= face_energy l p.
Proof. unfold face_energy. repeat apply Rplus_le_le_0_compat; do 3 (apply sumR_nonneg; intros ? _); apply pow2_ge_0. Qed.
Lemma face_energy_zero p : face_energy l p = 0 -> forall n n', (n < cell_num l)%nat -> (n' < cell_num l)%nat -> p n = p n'.
Proof.
  intros H.
  assert (Z3 : forall n1 n2 n3 (f : nat -> nat -> nat -> R), sumR (seq 0 n1) (fun i => sumR (seq 0 n2) (fun j => sumR (seq 0 n3) (fun k => f i j k ^ 2))) = 0 -> forall i j k, (i < n1)%nat -> (j < n2)%nat -> (k < n3)%nat -> f i j k = 0).
  { assert (Z1 : forall n (f : nat -> R), sumR (seq 0 n) f = 0 -> (forall i, 0 <= f i) -> forall i, (i < n)%nat -> f i = 0).
    { induction n as [|n IH]; intros f Hs Hf i Hi; [lia|]. rewrite sumR_seq_S in Hs. assert (0 <= sumR (seq 0 n) f) by (apply sumR_nonneg; intros; apply Hf). pose proof (Hf n).
      destruct (Nat.eq_dec i n) as [-> |]; [lra|]. apply IH; [lra|exact Hf|lia]. }
    intros n1 n2 n3 f Hs i j k Hi Hj Hk.
    pose proof (Z1 n1 _ Hs ltac:(intros; apply sumR_nonneg; intros; apply sumR_nonneg; intros; apply pow2_ge_0) i Hi) as S2. cbv beta in S2.
    pose proof (Z1 n2 _ S2 ltac:(intros; apply sumR_nonneg; intros; apply pow2_ge_0) j Hj) as S3. cbv beta in S3.
    pose proof (Z1 n3 _ S3 ltac:(intros; apply pow2_ge_0) k Hk) as S4. cbv beta in S4. nra. }
  rewrite face_energy_eq in H. destruct Pw as (H0 & H1 & H2).
  assert (I : forall h, 0 < h -> 0 < / h ^ 2) by (intros h Hh; apply Rinv_0_lt_compat, pow_lt; exact Hh).
  pose proof (I _ H0). pose proof (I _ H1). pose proof (I _ H2).
  assert (0 <= fx p /\ 0 <= fy p /\ 0 <= fz p) as (Fx & Fy & Fz) by (unfold fx, fy, fz; repeat split; do 3 (apply sumR_nonneg; intros ? _); apply pow2_ge_0).
  unfold Rdiv in H. assert (fx p = 0 /\ fy p = 0 /\ fz p = 0) as (Zx & Zy & Zz) by (repeat split; nra).
  assert (E : forall i j k, in_box l i j k -> P3 p i j k = P3 p 0%nat 0%nat 0%nat).
  { assert (Ek : forall k, (k < mNz l)%nat -> P3 p 0%nat 0%nat k = P3 p 0%nat 0%nat 0%nat).
    { induction k as [|k IH]; intros Hk; [reflexivity|]. rewrite <- IH by lia. pose proof (Z3 _ _ _ (fun i j k => P3 p i j (k + 1)%nat - P3 p i j k) Zz 0%nat 0%nat k Nx0 Ny0 ltac:(lia)) as E. cbv beta in E. replace (S k) with (k + 1)%nat by lia. lra. }
    assert (Ej : forall j k, (j < mNy l)%nat -> (k < mNz l)%nat -> P3 p 0%nat j k = P3 p 0%nat 0%nat 0%nat).
    { induction j as [|j IH]; intros k Hj Hk; [now apply Ek|]. rewrite <- (IH k) by lia. pose proof (Z3 _ _ _ (fun i k j => P3 p i (j + 1)%nat k - P3 p i j k) Zy 0%nat k j Nx0 Hk ltac:(lia)) as E. cbv beta in E. replace (S j) with (j + 1)%nat by lia. lra. }
    induction i as [|i IH]; intros j k (Hi & Hj & Hk); [now apply Ej|]. rewrite <- (IH j k) by (repeat split; lia).
    pose proof (Z3 _ _ _ (fun j k i => P3 p (i + 1)%nat j k - P3 p i j k) Zx j k i Hj Hk ltac:(lia)) as E. cbv beta in E. replace (S i) with (i + 1)%nat by lia. lra. }
  intros n n' Hn Hn'. destruct (idx_ex l n Hn) as (i & j & k & Hi & Hj & Hk & ->). destruct (idx_ex l n' Hn') as (i' & j' & k' & Hi' & Hj' & Hk' & ->).
  transitivity (P3 p 0%nat 0%nat 0%nat); [apply E|symmetry; apply E]; repeat split; assumption.
Qed.
Lemma compact_sub p q i j k : compact (fun n => p n - q n) i j k = compact p i j k - compact q i j k.
Proof. unfold compact, cmp, P3, Rdiv. ring. Qed.
Lemma compact_zero_energy p : (forall i j k, in_box l i j k -> compact p i j k = 0) -> face_energy l p = 0.
Proof. intros H. pose proof (compact_energy p) as E. rewrite (box_ext _ (fun _ _ _ => 0 * 0)) in E by (intros i j k Hb; rewrite (H i j k Hb); ring). rewrite box_scal in E. lra. Qed.
Lemma solutions_differ vel p q : pressure_solution a T vel p -> pressure_solution a T vel q -> exists c, forall n, (n < cell_num l)%nat -> q n = p n + c.
Proof.
  intros Hp Hq. exists (q 0%nat - p 0%nat). intros n Hn.
  assert (H0 : (0 < cell_num l)%nat) by (unfold cell_num; nia).
  assert (E : face_energy l (fun n => q n - p n) = 0).
  { apply compact_zero_energy. intros i j k Hb. rewrite compact_sub, (proj1 (pressure_iff vel p) Hp i j k Hb), (proj1 (pressure_iff vel q) Hq i j k Hb). ring. }
  pose proof (face_energy_zero _ E n 0%nat Hn H0) as E0. cbv beta in E0. lra.
Qed.
Lemma cen_shift n (f f' : nat -> R) c i : (i < n)%nat -> (forall i, (i < n)%nat -> f' i = f i + c) -> cen n f' i = cen n f i.
Proof. intros Hi H. unfold cen. rewrite !H by lia. field. Qed.
Lemma gradient_shift p q c : (forall n, (n < cell_num l)%nat -> q n = p n + c) -> forall d i j k, (d < 3)%nat -> in_box l i j k -> gradient g None (P3 q) d i j k = gradient g None (P3 p) d i j k.
Proof.
  intros H d i j k Hd Hb. destruct (gradient_axes p i j k Hb) as (E0 & E1 & E2). destruct (gradient_axes q i j k Hb) as (E0' & E1' & E2'). pose proof Hb as (Hi & Hj & Hk).
  destruct d as [|[|[|d]]]; [rewrite E0, E0'|rewrite E1, E1'|rewrite E2, E2'|lia]; f_equal; (eapply cen_shift; [assumption|]; intros i' Hi'; apply H; apply idx_lt; assumption).
Qed.
(** the divergence left by the correction vanishes only if there was none before *)
Lemma rough_energy p : box_of l (fun i j k => P3 p i j k * roughness l p i j k) =
  box_of l (fun i j k => cmp (mNx l) (X (P3 p) j k) i ^ 2 / (4 * dXx l ^ 2) + (cmp (mNy l) (Y (P3 p) i k) j ^ 2 / (4 * dXy l ^ 2) + cmp (mNz l) (Z (P3 p) i j) k ^ 2 / (4 * dXz l ^ 2))).
Proof.
  destruct Pw as (H0 & H1 & H2).
  rewrite (box_ext _ (fun i j k => / (4 * dXx l ^ 2) * (P3 p i j k * fourth (mNx l) (X (P3 p) j k) i) + (/ (4 * dXy l ^ 2) * (P3 p i j k * fourth (mNy l) (Y (P3 p) i k) j) + / (4 * dXz l ^ 2) * (P3 p i j k * fourth (mNz l) (Z (P3 p) i j) k))))
    by (intros; unfold roughness, P3, Rdiv; ring).
  rewrite (box_ext (fun i j k => cmp (mNx l) (X (P3 p) j k) i ^ 2 / (4 * dXx l ^ 2) + _) (fun i j k => / (4 * dXx l ^ 2) * cmp (mNx l) (X (P3 p) j k) i ^ 2 + (/ (4 * dXy l ^ 2) * cmp (mNy l) (Y (P3 p) i k) j ^ 2 + / (4 * dXz l ^ 2) * cmp (mNz l) (Z (P3 p) i j) k ^ 2)))
    by (intros; unfold Rdiv; ring).
  rewrite !box_add, !box_scal.
  assert (S2 : forall n1 n2 (f f' : nat -> nat -> R), (forall i j, f i j = f' i j) -> sumR (seq 0 n1) (fun i => sumR (seq 0 n2) (fun j => f i j)) = sumR (seq 0 n1) (fun i => sumR (seq 0 n2) (fun j => f' i j))) by (intros n1 n2 f f' E; apply sumR_ext; intros; apply sumR_ext; intros; apply E).
  f_equal; [f_equal; rewrite !box_x; apply S2; intros j k; exact (rough1 (mNx l) (X (P3 p) j k) Nx0)|].
  f_equal; [f_equal; rewrite !box_y; apply S2; intros i k; exact (rough1 (mNy l) (Y (P3 p) i k) Ny0)|].
  f_equal. apply S2. intros i j. exact (rough1 (mNz l) (Z (P3 p) i j) Nz0).
Qed.
Lemma box_zero f : (forall i j k, 0 <= f i j k) -> box_of l f <= 0 -> forall i j k, in_box l i j k -> f i j k = 0.
Proof.
  assert (Z1 : forall n (f : nat -> R), sumR (seq 0 n) f <= 0 -> (forall i, 0 <= f i) -> forall i, (i < n)%nat -> f i <= 0).
  { induction n as [|n IH]; intros f' Hs Hf i Hi; [lia|]. rewrite sumR_seq_S in Hs. assert (0 <= sumR (seq 0 n) f') by (apply sumR_nonneg; intros; apply Hf). pose proof (Hf n).
    destruct (Nat.eq_dec i n) as [-> |]; [lra|]. apply IH; [lra|exact Hf|lia]. }
  intros Hf Hs i j k (Hi & Hj & Hk). unfold box_of, box_sum in Hs.
  pose proof (Z1 _ _ Hs ltac:(intros; apply sumR_nonneg; intros; apply sumR_nonneg; intros; apply Hf) i Hi) as S2. cbv beta in S2.
  pose proof (Z1 _ _ S2 ltac:(intros; apply sumR_nonneg; intros; apply Hf) j Hj) as S3. cbv beta in S3.
  pose proof (Z1 _ _ S3 ltac:(intros; apply Hf) k Hk) as S4. cbv beta in S4. pose proof (Hf i j k). lra.
Qed.
Lemma never_free vel p : pressure_solution a T vel p -> (forall i j k, in_box l i j k -> divergence a T (corrected a vel p) i j k = 0) ->
  forall i j k, in_box l i j k -> divergence a T vel i j k = 0.
Proof.
  intros Hp Hd. assert (Ht : 0 < a_dt a / a_rho a) by (apply Rdiv_lt_0_compat; assumption).
  assert (Hr : forall i j k, in_box l i j k -> roughness l p i j k = 0) by (intros i j k Hb; pose proof (remaining vel p Hp i j k Hb) as E; rewrite (Hd i j k Hb) in E; nra).
  pose proof (rough_energy p) as E. rewrite (box_ext _ (fun _ _ _ => 0 * 0)), box_scal in E by (intros i j k Hb; rewrite (Hr i j k Hb); ring). rewrite Rmult_0_l in E.
  destruct Pw as (H0 & H1 & H2). assert (I : forall h, 0 < h -> 0 < / (4 * h ^ 2)) by (intros h Hh; apply Rinv_0_lt_compat; pose proof (pow_lt h 2 Hh); lra).
  pose proof (I _ H0) as I0. pose proof (I _ H1) as I1. pose proof (I _ H2) as I2.
  assert (Q : forall x h, 0 < / (4 * h ^ 2) -> 0 <= x ^ 2 / (4 * h ^ 2)) by (intros x h Hh; unfold Rdiv; apply Rmult_le_pos; [apply pow2_ge_0|lra]).
  intros i j k Hb. match type of E with _ = box_of l ?F => pose proof (fun A B => box_zero F A B i j k Hb) as BZ end.
  match type of BZ with ?A -> ?B -> _ => assert (HA : A); [|pose proof (BZ HA (Req_le_sym _ _ E)) as Zc] end.
  { intros i' j' k'. cbv beta. apply Rplus_le_le_0_compat; [apply Q; exact I0|]. apply Rplus_le_le_0_compat; [apply Q; exact I1|apply Q; exact I2]. }
  cbv beta in Zc.
  pose proof (Q (cmp (mNx l) (X (P3 p) j k) i) _ I0) as Q0. pose proof (Q (cmp (mNy l) (Y (P3 p) i k) j) _ I1) as Q1. pose proof (Q (cmp (mNz l) (Z (P3 p) i j) k) _ I2) as Q2.
  assert (N : forall x h, 0 < / (4 * h ^ 2) -> x ^ 2 / (4 * h ^ 2) = 0 -> x = 0).
  { intros x h Hh Hx. unfold Rdiv in Hx. apply Rmult_integral in Hx as [Hx|Hx]; [|lra]. rewrite <- Rsqr_pow2 in Hx. now apply Rsqr_0_uniq. }
  pose proof (N (cmp (mNx l) (X (P3 p) j k) i) _ I0 ltac:(lra)) as C0. pose proof (N (cmp (mNy l) (Y (P3 p) i k) j) _ I1 ltac:(lra)) as C1. pose proof (N (cmp (mNz l) (Z (P3 p) i j) k) _ I2 ltac:(lra)) as C2.
  pose proof (proj1 (pressure_iff vel p) Hp i j k Hb) as C. unfold compact in C. rewrite C0, C1, C2 in C. unfold Rdiv in C. rewrite !Rmult_0_l, !Rplus_0_l in C.
  symmetry in C. apply Rmult_integral in C as [C|C]; [|lra]. apply Rmult_integral in C as [C|C]; [exact C|]. pose proof (Rinv_0_lt_compat _ Hdt). lra.
Qed.
Lemma free_kept vel p : pressure_solution a T vel p -> (forall i j k, in_box l i j k -> divergence a T vel i j k = 0) ->
  forall i j k c, in_box l i j k -> (c < 3)%nat -> corrected a vel p c i j k = vel c i j k.
Proof.
  intros Hp Hd i j k c Hb Hc.
  assert (F : face_energy l p = 0) by (apply compact_zero_energy; intros i' j' k' Hb'; rewrite (proj1 (pressure_iff vel p) Hp i' j' k' Hb'), (Hd i' j' k' Hb'); unfold Rdiv; ring).
  pose proof (face_energy_zero p F) as E. rewrite corrected_cell by assumption. destruct Hb as (Hi & Hj & Hk).
  assert (C : forall n (f : nat -> R) i, (i < n)%nat -> (forall i, (i < n)%nat -> f i = f 0%nat) -> cen n f i = 0) by (intros n f i' Hi' Hf; unfold cen; rewrite (Hf (Nat.min (i' + 1) (n - 1))), (Hf (i' - 1)%nat) by lia; unfold Rdiv; ring).
  destruct c as [|[|[|c]]]; [rewrite (C (mNx l)) by (try assumption; intros; apply E; apply idx_lt; assumption)|rewrite (C (mNy l)) by (try assumption; intros; apply E; apply idx_lt; assumption)|rewrite (C (mNz l)) by (try assumption; intros; apply E; apply idx_lt; assumption)|lia]; ring.
Qed.
End Window.
