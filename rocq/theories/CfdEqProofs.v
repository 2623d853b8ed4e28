(** * Proofs about the discrete equations and solvers (C33-C36, C78). *)
From Verif Require Import Prelude PreludeFacts GridFacts CfdMeshModel CfdMeshSpec CfdMeshProofs CfdModel CfdSpec CfdProofs.
From Coq Require Import Lra Psatz ZifyBool ZifyNat.
Open Scope R_scope.

(** ** Boundary faces as a list *)
Record face := mkFace { fs : nat; fty : nat; fv : R; fc : nat }.
Fixpoint faces_from (m : mesh3) (i : nat) (bc : bclist) : list face :=
  match bc with
  | [] => []
  | (ty, vals) :: r => map (fun vc => mkFace i ty (fst vc) (snd vc)) (combine vals (side_of m i)) ++ faces_from m (S i) r
  end.
Definition face_flux (e : eqn) (U : fld) (f : face) : R :=
  match fty f with
  | O => kappa_of e (fv f) * 2 * (fv f - U (fc f)) / nth (fs f) (D3 (e_mesh e)) 0 * nth (fs f) (dS3 (e_mesh e)) 0
  | _ => fv f * Rabs (nth (fs f) (dS3 (e_mesh e)) 0)
  end.
Definition aligned (m : mesh3) (i : nat) (bc : bclist) : Prop :=
  forall s ty vals, nth_error bc s = Some (ty, vals) -> (ty <= 1)%nat /\ length vals = length (side_of m (i + s)).

Lemma aligned_tail m i b r : aligned m i (b :: r) -> aligned m (S i) r.
Proof.
  intros A s ty vals H. destruct (A (S s) ty vals H) as (H1 & H2). split; [assumption|].
  now replace (S i + s)%nat with (i + S s)%nat by lia.
Qed.

Definition ok_mu (e : eqn) : Prop := forall v mu, bc_mu e v = Ok mu -> mu = kappa_of e v.

Lemma mapM_ok_map {A B} (f : A -> res B) (g : A -> B) l ys :
  (forall a b, f a = Ok b -> b = g a) -> mapM f l = Ok ys -> ys = map g l.
Proof.
  intros H. revert ys. induction l as [|a l IH]; cbn; intros ys E.
  - now inversion E.
  - destruct (f a) eqn:Ef; cbn in E; [|discriminate]. destruct (mapM f l) eqn:El; cbn in E; [|discriminate].
    inversion E; subst. rewrite (H _ _ Ef). f_equal. now apply IH.
Qed.

Lemma fluxes_faces e U i bc x : ok_mu e -> aligned (e_mesh e) i bc -> fluxes e U i bc = Ok x ->
  x = map (face_flux e U) (faces_from (e_mesh e) i bc).
Proof.
  intros M. revert i x. induction bc as [|[ty vals] r IH]; intros i x A E; cbn [fluxes flux_side bind] in E.
  - now inversion E.
  - destruct (A 0%nat ty vals eq_refl) as (Ht & Hl). rewrite Nat.add_0_r in Hl.
    destruct (match ty with 0%nat => _ | _ => _ end) as [y|] eqn:Ey; cbn [bind] in E; [|discriminate].
    destruct (fluxes e U (S i) r) as [z|] eqn:Ez; cbn [bind] in E; [|discriminate]. inversion E; subst x. clear E.
    cbn [faces_from]. rewrite map_app, map_map. f_equal; [|apply IH; [now apply aligned_tail in A|assumption]].
    unfold face_flux. cbn [fty fv fc fs].
    destruct ty as [|[|ty]]; [| |lia].
    + destruct (Nat.eqb (length vals) (length (side_of (e_mesh e) i))); [|discriminate].
      destruct vals as [|v0 vals0].
      * destruct (bc_mu e 0); inversion Ey. reflexivity.
      * revert Ey. apply mapM_ok_map. intros [v c] b. cbn [fst snd].
        destruct (bc_mu e v) as [mu|] eqn:Em; cbn [bind]; intros E; inversion E. now rewrite (M _ _ Em).
    + inversion Ey; subst y. clear Ey. revert Hl. generalize (side_of (e_mesh e) i). clear.
      induction vals as [|v vals IH]; intros [|c l] H; cbn in *; try discriminate; [reflexivity|].
      f_equal. apply IH. lia.
Qed.

Lemma entries_faces e i bc x : ok_mu e -> aligned (e_mesh e) i bc -> dirichlet_entries e i bc = Ok x ->
  x = map (fun f => (fc f, kappa_of e (fv f) * 2 / nth (fs f) (D3 (e_mesh e)) 0 * nth (fs f) (dS3 (e_mesh e)) 0))
          (filter (fun f => Nat.eqb (fty f) 0) (faces_from (e_mesh e) i bc)).
Proof.
  intros M. revert i x. induction bc as [|[ty vals] r IH]; intros i x A E; cbn [dirichlet_entries bind] in E.
  - now inversion E.
  - destruct (match ty with 0%nat => _ | _ => _ end) as [y|] eqn:Ey; cbn [bind] in E; [|discriminate].
    destruct (dirichlet_entries e (S i) r) as [z|] eqn:Ez; cbn [bind] in E; [|discriminate]. inversion E; subst x. clear E.
    cbn [faces_from]. rewrite filter_app, map_app. f_equal; [|apply IH; [now apply aligned_tail in A|assumption]].
    destruct ty as [|ty].
    + destruct (Nat.eqb (length vals) (length (side_of (e_mesh e) i))); [|discriminate].
      assert (F : forall l, filter (fun f => Nat.eqb (fty f) 0) (map (fun vc => mkFace i 0 (fst vc) (snd vc)) l)
                  = map (fun vc => mkFace i 0 (fst vc) (snd vc)) l)
        by (induction l; cbn; congruence).
      rewrite F, map_map. cbn [fty fv fc fs].
      destruct vals as [|v0 vals0].
      * destruct (bc_mu e 0); inversion Ey. reflexivity.
      * revert Ey. apply mapM_ok_map. intros [v c] b. cbn [fst snd].
        destruct (bc_mu e v) as [mu|] eqn:Em; cbn [bind]; intros E; inversion E. now rewrite (M _ _ Em).
    + inversion Ey. assert (F : forall l, filter (fun f => Nat.eqb (fty f) 0) (map (fun vc => mkFace i (S ty) (fst vc) (snd vc)) l) = [])
        by (induction l; cbn; congruence). now rewrite F.
Qed.

Lemma side_of_eq m s : (s < 6)%nat -> side_of m s = nth s (side_cells m) [].
Proof. intros. unfold side_of. now apply gather_side. Qed.
Lemma side_list_eq m s : (s < 6)%nat -> side_of m s = side_list m s.
Proof.
  intros Hs. rewrite side_of_eq by assumption.
  assert (E : forall n1 n2 (f g : nat -> nat -> nat), (forall i j, f i j = g i j) -> flat2 n1 n2 f = flat2 n1 n2 g).
  { intros. unfold flat2. apply flat_map_ext. intros. apply map_ext. intros. auto. }
  do 6 (destruct s as [|s]; [apply E; intros; unfold cell_idx; nia|]). lia.
Qed.
Lemma side_len m s : (s < 6)%nat -> nth_error (surf_set_num m) s = Some (length (side_of m s)).
Proof.
  intros Hs. rewrite side_of_eq by assumption.
  do 6 (destruct s as [|s]; [cbn [nth_error surf_set_num nth side_cells]; rewrite flat2_length; f_equal; lia|]). lia.
Qed.
Lemma good_aligned m bc : good_bc m bc -> aligned m 0 bc.
Proof.
  intros (L & H) s ty vals E. assert (s < 6)%nat by (rewrite <- L; apply nth_error_Some; congruence).
  destruct (H s ty vals E) as (H1 & H2). split; [assumption|]. rewrite (side_len m s) in H2 by assumption. cbn [Nat.add]. congruence.
Qed.

Lemma map_fc {A} i ty (vals : list R) (side : list nat) (f : face -> A) (g : nat -> A) :
  length vals = length side -> (forall v c, f (mkFace i ty v c) = g c) ->
  map f (map (fun vc => mkFace i ty (fst vc) (snd vc)) (combine vals side)) = map g side.
Proof.
  revert side; induction vals as [|v vals IH]; intros [|c side] H E; cbn in *; try discriminate; [reflexivity|].
  rewrite E, IH by (lia || assumption). reflexivity.
Qed.
Lemma faces_cells m bc : good_bc m bc -> map fc (faces_from m 0 bc) = surf_cell m.
Proof.
  intros G. pose proof (good_aligned m bc G) as A. destruct G as (L & _).
  do 6 (destruct bc as [|[? ?] bc]; [discriminate L|]). destruct bc; [|discriminate L].
  cbn [faces_from]. rewrite !map_app.
  pose proof (A 0%nat _ _ eq_refl) as (_ & A0). pose proof (A 1%nat _ _ eq_refl) as (_ & A1).
  pose proof (A 2%nat _ _ eq_refl) as (_ & A2). pose proof (A 3%nat _ _ eq_refl) as (_ & A3).
  pose proof (A 4%nat _ _ eq_refl) as (_ & A4). pose proof (A 5%nat _ _ eq_refl) as (_ & A5).
  cbn [Nat.add] in *.
  rewrite !(map_fc _ _ _ _ fc (fun c => c)) by (assumption || reflexivity).
  rewrite !map_id, !side_of_eq by lia. unfold surf_cell, side_cells. cbn [nth concat map]. reflexivity.
Qed.

Lemma scatter_map base (l : list face) (g : face -> R) n :
  scatter_add base (map fc l) (map g l) n = base n + sumR l (fun f => if Nat.eqb (fc f) n then g f else 0).
Proof.
  unfold scatter_add. f_equal. induction l as [|f l IH]; cbn; [reflexivity|]. now rewrite IH.
Qed.

(** The residual with its boundary terms. *)
Lemma residual_form e bc U r : ok_mu e -> good_bc (e_mesh e) bc -> compute_residual e (Some bc) U = Ok r ->
  forall n, r n = - laplace e U n - e_src e n (U n) * dV (e_mesh e)
                  - sumR (faces_from (e_mesh e) 0 bc) (fun f => if Nat.eqb (fc f) n then face_flux e U f else 0).
Proof.
  intros M G E n. unfold compute_residual, apply_BC_to_residual in E.
  destruct (fluxes e U 0 bc) as [x|] eqn:Ex; cbn [bind] in E; [|discriminate].
  destruct (Nat.eqb (length x) _); [|discriminate]. inversion E; subst r. clear E.
  apply fluxes_faces in Ex; [|assumption|now apply good_aligned]. subst x.
  rewrite <- (faces_cells _ _ G), map_map, scatter_map.
  match goal with |- ?a + sumR ?l ?f = ?b - sumR ?l ?g => enough (H : sumR l f = - sumR l g) by (rewrite H; ring) end.
  rewrite <- sumR_opp. apply sumR_ext. intros f _. destruct (Nat.eqb (fc f) n); ring.
Qed.
Lemma residual_none e U : compute_residual e None U = Ok (fun n => - laplace e U n - e_src e n (U n) * dV (e_mesh e)).
Proof. reflexivity. Qed.

Lemma newton_form e dk ds bc U v : ok_mu e -> good_bc (e_mesh e) bc -> newton_values e dk ds (Some bc) U = Ok v ->
  forall n c, v n c = kernel_grad e dk ds n (fun l => U (nb (e_mesh e) n l)) c +
    (if Nat.eqb c 0 then sumR (faces_from (e_mesh e) 0 bc) (fun f =>
       if Nat.eqb (fc f) n && Nat.eqb (fty f) 0
       then kappa_of e (fv f) * 2 / nth (fs f) (D3 (e_mesh e)) 0 * nth (fs f) (dS3 (e_mesh e)) 0 else 0) else 0).
Proof.
  intros M G E n c. unfold newton_values in E.
  destruct (dirichlet_entries e 0 bc) as [x|] eqn:Ex; cbn [bind] in E; [|discriminate]. inversion E; subst v. clear E.
  apply entries_faces in Ex; [|assumption|now apply good_aligned]. subst x.
  destruct (Nat.eqb_spec c 0) as [-> |]; [|ring].
  rewrite !map_map. cbn [fst snd]. rewrite (scatter_map _ _ (fun f => kappa_of e (fv f) * 2 / nth (fs f) (D3 (e_mesh e)) 0 * nth (fs f) (dS3 (e_mesh e)) 0)).
  f_equal. induction (faces_from (e_mesh e) 0 bc) as [|f l IH]; [reflexivity|]. cbn [filter sumR].
  destruct (Nat.eqb (fty f) 0); cbn [sumR]; rewrite IH; [|rewrite andb_false_r; ring].
  now rewrite andb_true_r.
Qed.

Lemma ok_mu_linear e mu : e_mufn e = None -> e_mu e = Some mu -> ok_mu e.
Proof. intros A B v x. unfold bc_mu, kappa_of. rewrite A, B. destruct (eq_true _); intros E; inversion E; reflexivity. Qed.
Lemma ok_mu_nonlinear e k : e_mufn e = Some k -> e_mu e = None -> ok_mu e.
Proof. intros A B v x. unfold bc_mu, kappa_of. rewrite A, B. destruct (eq_true _); intros E; inversion E; reflexivity. Qed.
Lemma mk_poisson_ok m fl mu k s e : mk_poisson m fl mu k s = Ok e ->
  ok_mu e /\ e_mesh e = m /\ ((e_mufn e = None /\ exists v, e_mu e = Some v) \/ ((exists k, e_mufn e = Some k) /\ e_mu e = None)).
Proof.
  unfold mk_poisson. destruct (eq_false fl).
  - destruct mu as [v|]; [|discriminate]. intros E; inversion E; subst. split; [now apply (ok_mu_linear _ v)|].
    split; [reflexivity|]. left. split; [reflexivity|]. now exists v.
  - destruct k as [k|]; [|discriminate]. intros E; inversion E; subst. split; [now apply (ok_mu_nonlinear _ k)|].
    split; [reflexivity|]. right. split; [now exists k|reflexivity].
Qed.

(** ** Global balance (C34) *)
Lemma sum_scatter N (l : list face) (g : face -> R) : (forall f, In f l -> (fc f < N)%nat) ->
  sumR (seq 0 N) (fun n => sumR l (fun f => if Nat.eqb (fc f) n then g f else 0)) = sumR l g.
Proof.
  intros H. rewrite sumR_swap. apply sumR_ext. intros f Hf.
  rewrite (sumR_single _ (fc f)).
  - now rewrite Nat.eqb_refl.
  - apply seq_NoDup.
  - apply in_seq. specialize (H f Hf). lia.
  - intros x _ Hx. destruct (Nat.eqb_spec (fc f) x); [congruence|reflexivity].
Qed.

Lemma in_surf_lt m c : (0 < mNx m)%nat -> (0 < mNy m)%nat -> (0 < mNz m)%nat -> In c (surf_cell m) -> (c < cell_num m)%nat.
Proof.
  intros Px Py Pz H. unfold surf_cell in H. apply in_concat in H as (l & Hl & Hc).
  cbn [In side_cells] in Hl. destruct Hl as [<-|[<-|[<-|[<-|[<-|[<-|[]]]]]]]; apply in_flat2 in Hc as (x & y & Hx & Hy & ->); apply idx_lt; lia.
Qed.

Section Eq.
Variable e : eqn.
Notation m := (e_mesh e).
Hypothesis W : good_mesh m.

Lemma faces_lt bc : good_bc m bc -> forall f, In f (faces_from m 0 bc) -> (fc f < cell_num m)%nat.
Proof.
  intros G f Hf. destruct W as (? & ? & ? & _). apply in_surf_lt; try assumption.
  rewrite <- (faces_cells m bc G). now apply in_map.
Qed.

Lemma face_flux_gain U f : (fs f < 6)%nat -> (fty f <= 1)%nat ->
  face_flux e U f = face_gain m (kappa_of e) (fs f) (fty f) (fv f) (U (fc f)).
Proof.
  intros Hs Ht. destruct f as [s ty v c]. cbn [fs fty fv fc] in *. unfold face_flux, face_gain. cbn [fs fty fv fc].
  destruct (widths e W) as (Hx & Hy & Hz).
  assert (Pxy : 0 < dXx m * dXy m) by now apply Rmult_lt_0_compat.
  assert (Pyz : 0 < dXy m * dXz m) by now apply Rmult_lt_0_compat.
  assert (Pzx : 0 < dXz m * dXx m) by now apply Rmult_lt_0_compat.
  destruct ty as [|[|ty]]; [| |lia].
  - do 6 (destruct s as [|s]; [cbn [nth D3 dS3 spacing area]; field; lra|]). lia.
  - do 6 (destruct s as [|s]; [cbn [nth dS3 area]; rewrite ?Ropp_mult_distr_l_reverse, ?Rabs_Ropp, Rabs_pos_eq by lra; ring|]). lia.
Qed.

Lemma faces_sum bc i (g : nat -> nat -> R -> nat -> R) :
  sumR (faces_from m i bc) (fun f => g (fs f) (fty f) (fv f) (fc f)) =
  sumR (combine (seq i (length bc)) bc) (fun sb =>
    sumR (combine (snd (snd sb)) (side_of m (fst sb))) (fun vc => g (fst sb) (fst (snd sb)) (fst vc) (snd vc))).
Proof.
  revert i; induction bc as [|[ty vals] r IH]; intros i; [reflexivity|].
  cbn [faces_from length seq combine sumR fst snd]. rewrite sumR_app, IH, sumR_map. reflexivity.
Qed.
Lemma faces_shape bc : good_bc m bc -> forall f, In f (faces_from m 0 bc) -> (fs f < 6)%nat /\ (fty f <= 1)%nat.
Proof.
  intros G. pose proof (good_aligned m bc G) as A. destruct G as (L & _). rewrite <- L.
  assert (H : forall i f, aligned m i bc -> In f (faces_from m i bc) -> (fs f < i + length bc)%nat /\ (fty f <= 1)%nat).
  { clear A L. induction bc as [|[ty vals] r IH]; intros i f A Hf; [destruct Hf|]. cbn [faces_from] in Hf. apply in_app_iff in Hf as [Hf|Hf].
    - apply in_map_iff in Hf as (vc & <- & _). cbn [fs fty length]. destruct (A 0%nat ty vals eq_refl). split; [lia|assumption].
    - destruct (IH (S i) f) as (H1 & H2); [now apply aligned_tail in A|assumption|]. cbn [length]. split; [lia|assumption]. }
  intros f Hf. exact (H 0%nat f A Hf).
Qed.

Lemma gain_faces bc U : good_bc m bc -> boundary_gain m (kappa_of e) bc U = sumR (faces_from m 0 bc) (face_flux e U).
Proof.
  intros G. unfold boundary_gain.
  rewrite (sumR_ext (faces_from m 0 bc) _ (fun f => face_gain m (kappa_of e) (fs f) (fty f) (fv f) (U (fc f)))).
  2:{ intros f Hf. destruct (faces_shape bc G f Hf). now apply face_flux_gain. }
  rewrite (faces_sum bc 0 (fun s ty v c => face_gain m (kappa_of e) s ty v (U c))).
  destruct G as (L & _). rewrite L. apply sumR_ext. intros [s b] Hs. apply in_combine_l, in_seq in Hs.
  cbn [fst]. now rewrite side_list_eq by lia.
Qed.

Lemma balance bc U r : ok_mu e -> good_bc m bc -> compute_residual e (Some bc) U = Ok r ->
  sumR (seq 0 (cell_num m)) r =
  - sumR (seq 0 (cell_num m)) (fun n => e_src e n (U n)) * dV m - boundary_gain m (kappa_of e) bc U.
Proof.
  intros M G E. rewrite (gain_faces bc U G).
  rewrite (sumR_ext _ r _ (fun n _ => residual_form e bc U r M G E n)).
  rewrite !sumR_sub, sumR_opp, (lap_sum_zero e W), sumR_scal_r, sum_scatter by (now apply faces_lt). ring.
Qed.

(** ** The matrix is the derivative of the residual (C33) *)
Lemma dlim_mul f g x a b : derivable_pt_lim f x a -> derivable_pt_lim g x b ->
  derivable_pt_lim (fun s => f s * g s) x (a * g x + f x * b).
Proof. apply derivable_pt_lim_mult. Qed.
Lemma dlim_add f g x a b : derivable_pt_lim f x a -> derivable_pt_lim g x b ->
  derivable_pt_lim (fun s => f s + g s) x (a + b).
Proof. apply derivable_pt_lim_plus. Qed.
Lemma dlim_eq f g x a b : derivable_pt_lim f x a -> (forall s, f s = g s) -> a = b -> derivable_pt_lim g x b.
Proof. intros H E <- eps He. destruct (H eps He) as [d Hd]. exists d. intros h. rewrite <- !E. apply Hd. Qed.
Lemma dlim_cst c x : derivable_pt_lim (fun _ => c) x 0.
Proof. apply derivable_pt_lim_const. Qed.
Lemma dlim_line u v x : derivable_pt_lim (fun s => u + s * v) x v.
Proof.
  eapply dlim_eq; [apply dlim_add; [apply dlim_cst|apply dlim_mul; [apply derivable_pt_lim_id|apply dlim_cst]]| |].
  - intros s. reflexivity.
  - cbn. unfold id. ring.
Qed.
Lemma dlim_comp k dk u v : derivable_pt_lim k u dk -> derivable_pt_lim (fun s => k (u + s * v)) 0 (dk * v).
Proof.
  intros H. apply (derivable_pt_lim_comp (fun s => u + s * v) k 0 v dk); [apply dlim_line|].
  now rewrite Rmult_0_l, Rplus_0_r.
Qed.
Lemma dlim_sumR {A} (l : list A) (f : A -> R -> R) (d : A -> R) x :
  (forall a, In a l -> derivable_pt_lim (f a) x (d a)) -> derivable_pt_lim (fun s => sumR l (fun a => f a s)) x (sumR l d).
Proof.
  induction l as [|a l IH]; intros H; cbn; [apply dlim_cst|].
  apply dlim_add; [apply H; now left|apply IH; intros; apply H; now right].
Qed.

Variables (dk : R -> R) (ds : nat -> R -> R).
Hypothesis Hk : forall k, e_mufn e = Some k -> forall x, 0 < k x /\ derivable_pt_lim k x (dk x).
Hypothesis Hs : forall n u, derivable_pt_lim (e_src e n) u (ds n u).

Lemma face_mu_deriv up un vp vn :
  derivable_pt_lim (fun s => face_mu e (up + s * vp) (un + s * vn)) 0 (dface_p e dk up un * vp + dface_n e dk up un * vn).
Proof.
  unfold face_mu, dface_p, dface_n. destruct (e_mufn e) as [k|] eqn:K.
  - destruct (Hk k eq_refl up) as (Pp & Dp). destruct (Hk k eq_refl un) as (Pn & Dn).
    pose proof (dlim_comp k (dk up) up vp Dp) as Cp. pose proof (dlim_comp k (dk un) un vn Dn) as Cn.
    pose proof (derivable_pt_lim_div (fun s => 2 * k (up + s * vp) * k (un + s * vn)) (fun s => k (un + s * vn) + k (up + s * vp)) 0
      ((0 * k (up + 0 * vp) + 2 * (dk up * vp)) * k (un + 0 * vn) + 2 * k (up + 0 * vp) * (dk un * vn)) (dk un * vn + dk up * vp)) as Q.
    eapply dlim_eq; [apply Q| |].
    + apply (dlim_mul (fun s => 2 * k (up + s * vp)) (fun s => k (un + s * vn))); [|exact Cn].
      apply (dlim_mul (fun _ => 2) (fun s => k (up + s * vp))); [apply dlim_cst|exact Cp].
    + apply (dlim_add (fun s => k (un + s * vn)) (fun s => k (up + s * vp))); assumption.
    + rewrite !Rmult_0_l, !Rplus_0_r. lra.
    + intros s. reflexivity.
    + rewrite !Rmult_0_l, !Rplus_0_r. unfold Rsqr. field. lra.
  - eapply dlim_eq; [apply dlim_cst| |]; [reflexivity|ring].
Qed.

Lemma kernel_deriv n (u v : nat -> R) :
  derivable_pt_lim (fun s => residual_kernel e n (fun l => u l + s * v l)) 0
    (sumR (seq 0 7) (fun c => kernel_grad e dk ds n u c * v c)).
Proof.
  set (w := fun l => nth l (dS3 m) 0 / nth l (D3 m) 0).
  assert (K : derivable_pt_lim (fun s => sumR (seq 0 6) (fun l =>
     w l * (((u (S l) - u 0%nat) + s * (v (S l) - v 0%nat)) * face_mu e (u 0%nat + s * v 0%nat) (u (S l) + s * v (S l))))) 0
     (sumR (seq 0 6) (fun l => w l * ((v (S l) - v 0%nat) * face_mu e (u 0%nat) (u (S l)) +
        (u (S l) - u 0%nat) * (dface_p e dk (u 0%nat) (u (S l)) * v 0%nat + dface_n e dk (u 0%nat) (u (S l)) * v (S l)))))).
  { apply dlim_sumR. intros l _.
    eapply dlim_eq; [apply (dlim_mul (fun _ => w l)); [apply dlim_cst|apply dlim_mul; [apply dlim_line|apply face_mu_deriv]]|reflexivity|].
    cbn beta. rewrite !Rmult_0_l, !Rplus_0_r. ring. }
  eapply dlim_eq.
  - apply dlim_add; [apply (dlim_mul (fun _ => -1)); [apply dlim_cst|exact K]|].
    apply (dlim_mul (fun s => - dV m)); [apply dlim_cst|]. apply (dlim_comp (e_src e n) (ds n (u 0%nat)) (u 0%nat) (v 0%nat)). apply Hs.
  - intros s. cbn beta. unfold residual_kernel, laplace_kernel.
    rewrite (sumR_ext (seq 0 6) (fun l => (u (S l) + s * v (S l) - (u 0%nat + s * v 0%nat)) / nth l (D3 m) 0 *
         face_mu e (u 0%nat + s * v 0%nat) (u (S l) + s * v (S l)) * nth l (dS3 m) 0)
      (fun l => w l * (((u (S l) - u 0%nat) + s * (v (S l) - v 0%nat)) * face_mu e (u 0%nat + s * v 0%nat) (u (S l) + s * v (S l)))))
      by (intros; unfold w, Rdiv; ring). ring.
  - cbn beta. change (seq 0 7) with (0%nat :: seq 1 6). cbn [sumR]. rewrite (sumR_seq_shift 6 1). cbn [Nat.add kernel_grad].
    fold w. rewrite Rmult_0_l, Rplus_0_l, Rmult_minus_distr_r.
    match goal with |- _ = ?a * v 0%nat - ?b + sumR _ ?g => 
      rewrite <- (sumR_scal_r (seq 0 6) (v 0%nat)) end.
    match goal with |- -1 * ?x + ?y = ?a - ?b + ?c => enough (x = - a - c) as -> by (ring) end.
    match goal with |- ?x = - ?a - ?b => enough (H : x = - (a + b)) by (rewrite H; ring) end.
    rewrite <- sumR_add, <- sumR_opp. apply sumR_ext. intros l _. unfold w. ring.
Qed.

Definition res_at (bc : option bclist) (U : fld) (n : nat) : R := ok_or (fun _ => 0) (compute_residual e bc U) n.

Lemma nb0 n : (n < cell_num m)%nat -> nb m n 0 = n.
Proof.
  intros Hn. destruct (idx_ex m n Hn) as (i & j & k & Hi & Hj & Hk' & ->). now rewrite nb_eq.
Qed.

Lemma fluxes_total U U' i bc x : fluxes e U i bc = Ok x -> exists y, fluxes e U' i bc = Ok y /\ length y = length x.
Proof.
  revert i x. induction bc as [|[ty vals] r IH]; intros i x E; cbn [fluxes flux_side bind] in *.
  - exists []. inversion E. auto.
  - destruct (match ty with 0%nat => _ | _ => _ end) as [y|] eqn:Ey; cbn [bind] in E; [|discriminate].
    destruct (fluxes e U (S i) r) as [z|] eqn:Ez; cbn [bind] in E; [|discriminate]. inversion E; subst x.
    destruct (IH _ _ Ez) as (z' & Ez' & Lz). rewrite Ez'.
    assert (H : exists y', match ty with
      | 0%nat => if (length vals =? length (side_of m i))%nat then
          match vals with
          | [] => bind (bc_mu e 0) (fun _ => Ok [])
          | _ :: _ => mapM (fun vc => bind (bc_mu e (fst vc)) (fun mu => Ok (mu * 2 * (fst vc - U' (snd vc)) / nth i (D3 m) 0 * nth i (dS3 m) 0)))
                 (combine vals (side_of m i))
          end else Err ValueError
      | 1%nat => Ok (map (fun v => v * Rabs (nth i (dS3 m) 0)) vals)
      | _ => Ok []
      end = Ok y' /\ length y' = length y).
    { destruct ty as [|[|ty]]; [|eauto|eauto].
      destruct (Nat.eqb (length vals) (length (side_of m i))); [|discriminate].
      destruct vals as [|v0 vals0]; [eauto|].
      clear E. revert y Ey. generalize (combine (v0 :: vals0) (side_of m i)). intros l. clear.
      induction l as [|[v c] l IHl]; intros y Ey; cbn [mapM fst snd] in *; [eauto|].
      destruct (bc_mu e v); cbn [bind] in *; [|discriminate].
      destruct (mapM _ l) as [y1|] eqn:E1 in Ey; cbn [bind] in Ey; [|discriminate]. inversion Ey; subst y.
      destruct (IHl _ E1) as (y' & -> & L). cbn [bind]. eexists. split; [reflexivity|]. cbn. congruence. }
    destruct H as (y' & -> & Ly). cbn [bind]. eexists. split; [reflexivity|]. rewrite !app_length. congruence.
Qed.
Lemma residual_total bc U U' r : compute_residual e bc U = Ok r -> exists r', compute_residual e bc U' = Ok r'.
Proof.
  unfold compute_residual, apply_BC_to_residual. destruct bc as [l|]; [|eauto].
  destruct (fluxes e U 0 l) as [x|] eqn:E; cbn [bind]; [|discriminate].
  destruct (fluxes_total U U' 0 l x E) as (y & -> & L). cbn [bind]. rewrite L.
  destruct (Nat.eqb (length x) _); [eauto|discriminate].
Qed.

Lemma base_kernel U n : (n < cell_num m)%nat ->
  - laplace e U n - e_src e n (U n) * dV m = residual_kernel e n (fun l => U (nb m n l)).
Proof. intros Hn. unfold residual_kernel, laplace. now rewrite (nb0 n Hn). Qed.

Lemma newton_is_derivative bc U V r v : ok_mu e -> (forall l, bc = Some l -> good_bc m l) ->
  compute_residual e bc U = Ok r -> newton_values e dk ds bc U = Ok v ->
  forall n, (n < cell_num m)%nat ->
  derivable_pt_lim (fun s => res_at bc (fun i => U i + s * V i) n) 0 (linearized_residual m v V n).
Proof.
  intros M GB E Ev n Hn. destruct bc as [bc|].
  - specialize (GB bc eq_refl).
    pose proof (newton_form e dk ds bc U v M GB Ev n) as NV.
    set (C := fun f => if Nat.eqb (fc f) n && Nat.eqb (fty f) 0
       then kappa_of e (fv f) * 2 / nth (fs f) (D3 m) 0 * nth (fs f) (dS3 m) 0 else 0) in *.
    assert (DF : derivable_pt_lim (fun s => sumR (faces_from m 0 bc) (fun f => if Nat.eqb (fc f) n then face_flux e (fun i => U i + s * V i) f else 0)) 0
       (sumR (faces_from m 0 bc) (fun f => - (C f * V n)))).
    { apply dlim_sumR. intros f Hf. destruct (faces_shape bc GB f Hf) as (_ & Ht). unfold C, face_flux.
      destruct (Nat.eqb_spec (fc f) n) as [<- |]; cbn [andb]; [|eapply dlim_eq; [apply dlim_cst|reflexivity|ring]].
      destruct (fty f) as [|[|ty]]; [| |lia]; cbn [Nat.eqb].
      - eapply dlim_eq; [apply (dlim_line (kappa_of e (fv f) * 2 * (fv f - U (fc f)) / nth (fs f) (D3 m) 0 * nth (fs f) (dS3 m) 0)
           (- (kappa_of e (fv f) * 2 / nth (fs f) (D3 m) 0 * nth (fs f) (dS3 m) 0 * V (fc f))))|intros s; unfold Rdiv; ring|reflexivity].
      - eapply dlim_eq; [apply dlim_cst|reflexivity|ring]. }
    eapply dlim_eq; [apply dlim_add; [exact (kernel_deriv n (fun l => U (nb m n l)) (fun l => V (nb m n l)))
       |apply (dlim_mul (fun _ => -1)); [apply dlim_cst|exact DF]]| |].
    + intros s. cbn beta. unfold res_at. destruct (residual_total (Some bc) U (fun i => U i + s * V i) r E) as (r' & Er').
      rewrite Er'. cbn [ok_or]. rewrite (residual_form e bc _ r' M GB Er' n).
      rewrite (base_kernel (fun i => U i + s * V i) n Hn). ring.
    + cbn beta. unfold linearized_residual. rewrite sumR_opp, sumR_scal_r.
      rewrite (sumR_ext (seq 0 7) (fun l => v n l * V (nb m n l)) (fun l => kernel_grad e dk ds n (fun l => U (nb m n l)) l * V (nb m n l)
         + (if Nat.eqb l 0 then sumR (faces_from m 0 bc) C * V (nb m n l) else 0))).
      * rewrite sumR_add. rewrite (sumR_single (seq 0 7) 0%nat (fun l => if Nat.eqb l 0 then _ else 0)).
        -- cbn [Nat.eqb]. rewrite (nb0 n Hn). ring.
        -- apply seq_NoDup.
        -- apply in_seq; lia.
        -- intros x _ Hx. destruct (Nat.eqb_spec x 0); [contradiction|reflexivity].
      * intros l _. rewrite NV. destruct (Nat.eqb l 0); ring.
  - unfold newton_values in Ev. inversion Ev; subst v. unfold res_at, linearized_residual.
    eapply dlim_eq; [exact (kernel_deriv n (fun l => U (nb m n l)) (fun l => V (nb m n l)))| |reflexivity].
    intros s. cbn [compute_residual apply_BC_to_residual ok_or]. now rewrite (base_kernel (fun i => U i + s * V i) n Hn).
Qed.

(** The Jacobi preconditioner divides by the diagonal of the matrix. *)
Lemma precond_diag v n : (n < cell_num m)%nat ->
  precond_values m v n = linearized_residual m v (fun i => if Nat.eqb i n then 1 else 0) n.
Proof.
  intros _. unfold precond_values, linearized_residual. apply sumR_ext. intros l _.
  destruct (Nat.eqb (nb m n l) n); cbn; ring.
Qed.
End Eq.
