(** * Proofs about ghost cells, convection, gradients and face velocities (C29, C30, C37, C38, C77). *)
From Verif Require Import Prelude PreludeFacts GridFacts CfdMeshModel CfdModel CfdSpec.
From Coq Require Import Lra Psatz ZifyBool ZifyNat.
Open Scope R_scope.

Lemma ghost_ok g B c f s p q : (s < 6)%nat ->
  (value_given (bkind B s) c ->
     (get_GC g B c f s p q + edge_value (gNx g) (gNy g) (gNz g) f s p q) / 2 = bval B s c p q) /\
  (slope_given (bkind B s) c -> width g s <> 0 ->
     face_slope s (width g s) (edge_value (gNx g) (gNy g) (gNz g) f s p q) (get_GC g B c f s p q) = bval B s c p q).
Proof.
  intros Hs. unfold face_slope.
  do 6 (destruct s as [|s]; [cbn [get_GC edge_value width Nat.even]; unfold ghost_cell;
    match goal with |- context [bkind B ?s] => destruct (bkind B s) end; cbn [value_given slope_given]; split;
    try tauto; try (intros -> ); intros;
    try (destruct (Nat.ltb_spec c 2); [|lia]); cbn [Nat.ltb Nat.leb]; field; assumption|]). lia.
Qed.

(** ** Convection *)
Lemma div_sum_axis n (F : nat -> R) d : F n = 0 -> F 0%nat = 0 ->
  sumR (seq 0 n) (fun i => (F (i + 1)%nat - F i) / d) = 0.
Proof.
  intros Hn H0. unfold Rdiv. rewrite sumR_scal_r.
  rewrite (sumR_ext _ _ (fun i => F (S i) - F i)) by (intros; now rewrite Nat.add_1_r).
  rewrite sumR_telescope, Hn, H0. ring.
Qed.

Lemma div_sum_zero g theta B f uf vf wf : closed_box g uf vf wf ->
  box_sum (gNx g) (gNy g) (gNz g) (div g theta B f uf vf wf) = 0.
Proof.
  intros (Cx & Cy & Cz). unfold box_sum, div.
  set (fx := fun p j k => f_face theta (gNx g) (get_GC g B 0 f 0 j k) (fun i => f i j k) (get_GC g B 0 f 1 j k) (uf p j k) p).
  set (fy := fun p i k => f_face theta (gNy g) (get_GC g B 0 f 2 i k) (fun j => f i j k) (get_GC g B 0 f 3 i k) (vf i p k) p).
  set (fz := fun p i j => f_face theta (gNz g) (get_GC g B 0 f 4 i j) (fun k => f i j k) (get_GC g B 0 f 5 i j) (wf i j p) p).
  set (X := fun i j k => (fx (i + 1)%nat j k * uf (i + 1)%nat j k - fx i j k * uf i j k) / gdx g).
  set (Y := fun i j k => (fy (j + 1)%nat i k * vf i (j + 1)%nat k - fy j i k * vf i j k) / gdy g).
  set (Z := fun i j k => (fz (k + 1)%nat i j * wf i j (k + 1)%nat - fz k i j * wf i j k) / gdz g).
  transitivity (sumR (seq 0 (gNx g)) (fun i => sumR (seq 0 (gNy g)) (fun j => sumR (seq 0 (gNz g)) (fun k => X i j k)))
    + sumR (seq 0 (gNx g)) (fun i => sumR (seq 0 (gNy g)) (fun j => sumR (seq 0 (gNz g)) (fun k => Y i j k)))
    + sumR (seq 0 (gNx g)) (fun i => sumR (seq 0 (gNy g)) (fun j => sumR (seq 0 (gNz g)) (fun k => Z i j k)))).
  - rewrite <- !sumR_add. apply sumR_ext. intros i _. rewrite <- !sumR_add. apply sumR_ext. intros j _.
    rewrite <- !sumR_add. apply sumR_ext. intros k _. reflexivity.
  - rewrite sum3_rot. rewrite (sum3_mid _ _ _ Y).
    rewrite (sumR_zero (seq 0 (gNy g))), (sumR_zero (seq 0 (gNx g))), (sumR_zero (seq 0 (gNx g))); [ring| | |].
    + intros i Hi. apply in_seq in Hi. apply sumR_zero. intros j Hj. apply in_seq in Hj.
      destruct (Cz i j ltac:(lia) ltac:(lia)) as (E0 & E1).
      apply (div_sum_axis (gNz g) (fun k => fz k i j * wf i j k)); rewrite ?E0, ?E1; ring.
    + intros i Hi. apply in_seq in Hi. apply sumR_zero. intros k Hk. apply in_seq in Hk.
      destruct (Cy i k ltac:(lia) ltac:(lia)) as (E0 & E1).
      apply (div_sum_axis (gNy g) (fun j => fy j i k * vf i j k)); rewrite ?E0, ?E1; ring.
    + intros j Hj. apply in_seq in Hj. apply sumR_zero. intros k Hk. apply in_seq in Hk.
      destruct (Cx j k ltac:(lia) ltac:(lia)) as (E0 & E1).
      apply (div_sum_axis (gNx g) (fun i => fx i j k * uf i j k)); rewrite ?E0, ?E1; ring.
Qed.

Lemma f_face_const theta n c u i : f_face theta n c (fun _ => c) c u i = c.
Proof.
  unfold f_face, ext2. rewrite !Tauto.if_same.
  destruct (Rle_dec 0 u).
  - rewrite (proj2 (Rleb_true 0 u)), (proj2 (Rltb_false u 0)) by lra. cbn. field.
  - rewrite (proj2 (Rleb_false 0 u)), (proj2 (Rltb_true u 0)) by lra. cbn. field.
Qed.
Lemma div_const_field g theta c uf vf wf i j k :
  div g theta default_BCs (fun _ _ _ => c) uf vf wf i j k = c * face_div g uf vf wf i j k.
Proof.
  unfold div. cbn [get_GC default_BCs bkind bval ghost_cell].
  repeat match goal with |- context [f_face theta ?n (c + ?x * 0)] =>
    replace (c + x * 0) with c by ring end.
  repeat match goal with |- context [c + ?x * 0] => replace (c + x * 0) with c by ring end.
  rewrite !f_face_const. unfold face_div, Rdiv. ring.
Qed.

(** Between four inner cells the face value of a linear profile is exact, whatever the direction
    of the flow and the blend. *)
Lemma f_face_linear theta n g0 g1 u a b i : (2 <= i)%nat -> (i + 2 <= n)%nat ->
  f_face theta n g0 (fun i => a + b * (INR i + 1 / 2)) g1 u i = a + b * INR i.
Proof.
  intros H1 H2. unfold f_face, ext2.
  destruct (Nat.ltb_spec (i + 1) 2), (Nat.ltb_spec (i + 1) (n + 2)), (Nat.ltb_spec (i + 2) 2), (Nat.ltb_spec (i + 2) (n + 2)),
    (Nat.ltb_spec i 2), (Nat.ltb_spec i (n + 2)), (Nat.ltb_spec (i + 3) 2), (Nat.ltb_spec (i + 3) (n + 2)); try lia.
  rewrite !minus_INR, !plus_INR by lia. cbn [INR].
  destruct (Rle_dec 0 u).
  - rewrite (proj2 (Rleb_true 0 u)), (proj2 (Rltb_false u 0)) by lra. cbn. field.
  - rewrite (proj2 (Rleb_false 0 u)), (proj2 (Rltb_true u 0)) by lra. cbn. field.
Qed.

(** ** Face velocities *)
Lemma face_avg_lo n g0 f g1 : (0 < n)%nat -> face_avg n g0 f g1 0 = (f 0%nat + g0) / 2.
Proof.
  intros H. unfold face_avg, ext1. cbn [Nat.add]. destruct (Nat.ltb_spec 1 1), (Nat.ltb_spec 1 (n + 1)); try lia.
  reflexivity.
Qed.
Lemma face_avg_hi n g0 f g1 : (0 < n)%nat -> face_avg n g0 f g1 n = (g1 + f (n - 1)%nat) / 2.
Proof.
  intros H. unfold face_avg, ext1.
  destruct (Nat.ltb_spec (n + 1) 1), (Nat.ltb_spec (n + 1) (n + 1)), (Nat.ltb_spec n 1), (Nat.ltb_spec n (n + 1)); try lia.
  reflexivity.
Qed.
Lemma face_avg_mid n g0 f g1 i : (0 < i < n)%nat -> face_avg n g0 f g1 i = (f i + f (i - 1)%nat) / 2.
Proof.
  intros H. unfold face_avg, ext1.
  destruct (Nat.ltb_spec (i + 1) 1), (Nat.ltb_spec (i + 1) (n + 1)), (Nat.ltb_spec i 1), (Nat.ltb_spec i (n + 1)); try lia.
  now replace (i + 1 - 1)%nat with i by lia.
Qed.

(** With the boundary conditions of the driver nothing flows through the faces of the window. *)
Lemma vel_BCs_closed a T g vel : (0 < gNx g)%nat -> (0 < gNy g)%nat -> (0 < gNz g)%nat ->
  closed_box g (face_u g (vel_BCs a T) vel) (face_v g (vel_BCs a T) vel) (face_w g (vel_BCs a T) vel).
Proof.
  intros Px Py Pz. unfold closed_box, face_u, face_v, face_w. repeat split; intros;
    rewrite ?face_avg_lo, ?face_avg_hi by assumption; cbn; field.
Qed.

Lemma conv_closed a T vel T' : (0 < mNx (a_local a))%nat -> (0 < mNy (a_local a))%nat -> (0 < mNz (a_local a))%nat ->
  let '(convT, conv) := update_convective_terms a T' vel (vel_BCs a T) in
  box_sum (mNx (a_local a)) (mNy (a_local a)) (mNz (a_local a)) convT = 0 /\
  forall c, box_sum (mNx (a_local a)) (mNy (a_local a)) (mNz (a_local a)) (conv c) = 0.
Proof.
  intros Px Py Pz. unfold update_convective_terms.
  split; [|intros c]; apply (div_sum_zero (conv_grid a)), vel_BCs_closed; assumption.
Qed.

Lemma box_sum_ext nx ny nz f g : (forall i j k, (i < nx)%nat -> (j < ny)%nat -> (k < nz)%nat -> f i j k = g i j k) ->
  box_sum nx ny nz f = box_sum nx ny nz g.
Proof.
  intros H. unfold box_sum. apply sumR_ext. intros i Hi. apply in_seq in Hi. apply sumR_ext. intros j Hj. apply in_seq in Hj.
  apply sumR_ext. intros k Hk. apply in_seq in Hk. apply H; lia.
Qed.
Lemma box_sum_scal nx ny nz c f : box_sum nx ny nz (fun i j k => c * f i j k) = c * box_sum nx ny nz f.
Proof.
  unfold box_sum. rewrite <- sumR_scal. apply sumR_ext. intros. rewrite <- sumR_scal. apply sumR_ext. intros.
  now rewrite <- sumR_scal.
Qed.

(** The pressure equation has a compatible right-hand side. *)
Lemma div_vel_sum a T vel : (0 < mNx (a_local a))%nat -> (0 < mNy (a_local a))%nat -> (0 < mNz (a_local a))%nat ->
  box_sum (mNx (a_local a)) (mNy (a_local a)) (mNz (a_local a)) (div_vel a (vel_BCs a T) vel) = 0.
Proof.
  intros Px Py Pz. set (g := grid_of (a_local a)). set (B := vel_BCs a T).
  rewrite (box_sum_ext _ _ _ _ (fun i j k => (/ a_dt a * a_rho a) *
     div g 0 default_BCs (fun _ _ _ => 1) (face_u g B vel) (face_v g B vel) (face_w g B vel) i j k)).
  - rewrite box_sum_scal. unfold g. rewrite (div_sum_zero (grid_of (a_local a))); [ring|]. now apply vel_BCs_closed.
  - intros i j k _ _ _. rewrite div_const_field. unfold div_vel, face_div. fold g B. unfold Rdiv. ring.
Qed.

(** ** gradient *)
Lemma gradient_linear g B a b0 b1 b2 f i j k :
  (0 < i)%nat -> (i + 1 < gNx g)%nat -> (0 < j)%nat -> (j + 1 < gNy g)%nat -> (0 < k)%nat -> (k + 1 < gNz g)%nat ->
  gdx g <> 0 -> gdy g <> 0 -> gdz g <> 0 ->
  (forall i j k, f i j k = a + b0 * ((INR i + 1 / 2) * gdx g) + b1 * ((INR j + 1 / 2) * gdy g) + b2 * ((INR k + 1 / 2) * gdz g)) ->
  gradient g B f 0 i j k = b0 /\ gradient g B f 1 i j k = b1 /\ gradient g B f 2 i j k = b2.
Proof.
  intros Hi Hi' Hj Hj' Hk Hk' Nx Ny Nz F. unfold gradient, diff_app, diff_pre.
  destruct (Nat.ltb_spec (i + 1) (gNx g)), (Nat.eqb_spec i 0), (Nat.ltb_spec (j + 1) (gNy g)), (Nat.eqb_spec j 0),
    (Nat.ltb_spec (k + 1) (gNz g)), (Nat.eqb_spec k 0); try lia.
  rewrite !F, !plus_INR, !minus_INR by lia. cbn [INR]. repeat split; field; assumption.
Qed.
Lemma gradient_ignores g B B' f : gradient g B f = gradient g B' f.
Proof. reflexivity. Qed.

(** ** get_face_vel_component *)
Lemma component_01 g B vel : exists u v,
  get_face_vel_component g B 0 (vel 0%nat) 0 = Ok (Some u) /\ (forall i j k, u i j k = face_u g B vel i j k) /\
  get_face_vel_component g B 1 (vel 1%nat) 1 = Ok (Some v) /\ (forall i j k, v i j k = face_v g B vel i j k).
Proof. eexists _, _. repeat split; reflexivity. Qed.
