(** * Thermal problem on the active mesh, and the thin-wall loop. *)
From Coq Require Import Lia Lra Permutation Sorted.
From Verif Require Import Prelude PreludeFacts FemModel FemSpec FemFacts FemAsmProofs FemGeoProofs ActModel ActSpec ActProofs.

(** ** the loop *)
Lemma activate_length rb cs laser tab : length cs = length tab -> length (activate rb cs laser tab) = length tab.
Proof. intros H. unfold activate. rewrite map_length, combine_length. lia. Qed.
Lemma activate_active rb cs laser tab c : length cs = length tab ->
  (active (activate rb cs laser tab) c <-> active tab c \/ exists x, nth_error cs c = Some x /\ centroid_near rb laser x = true).
Proof.
  unfold activate, active. revert tab c. induction cs as [|x r IH]; intros [|b tab] [|c] Hl; cbn in *; try discriminate.
  - split; [discriminate|]. intros [H|(x & H & _)]; discriminate.
  - split; [discriminate|]. intros [H|(x & H & _)]; discriminate.
  - split.
    + destruct b; cbn; [now left|]. intros H. right. exists x. split; [reflexivity|congruence].
    + intros [H|(y & H & Hy)]; [injection H as ->; reflexivity|]. injection H as ->. rewrite Hy. now rewrite Bool.orb_true_r.
  - apply IH. lia.
Qed.
Lemma activate_growing rb cs laser tab : length cs = length tab -> growing tab (activate rb cs laser tab).
Proof. intros H. split; [now rewrite activate_length|]. intros c Hc. apply activate_active; auto. Qed.
Section Wall.
Variables (order : list face -> list face) (rb : R) (np nn : nat) (face_inds : list (list nat)) (full : mesh point) (cs : list point).
Hypothesis Ho : set_order order.
Hypothesis Hwf : wf_cells (length (m_points full)) nn face_inds (m_cells full).
Hypothesis Hcs : length cs = length (m_cells full).
Definition untouched (tab : list bool) (sol : list R) : Prop :=
  forall n, (n < length (m_points full))%nat -> (forall c, active tab c -> ~ In n (nth c (m_cells full) [])) -> nth_error sol n = Some 300%R.
Definition wall_inv (cf : list (list (list nat))) (w : wall) : Prop :=
  length (w_tab w) = length (m_cells full) /\ get_cells_face face_inds (m_cells full) = Ok cf /\ tracks (w_tab w) cf (w_tables w)
  /\ reports (m_cells full) face_inds (w_tab w) (w_faces w) /\ length (w_sol w) = length (m_points full) /\ untouched (w_tab w) (w_sol w).
Lemma start_inv tab w cf : length tab = length (m_cells full) -> wall_start order face_inds full tab = Ok (w, cf) -> wall_inv cf w /\ w_tab w = tab.
Proof.
  intros Hl E. unfold wall_start in E. destruct (get_active_mesh full tab) as [((am, pm), cm)|] eqn:Em; [|discriminate]. cbn [bind] in E.
  destruct (initialize_hash_map order face_inds (m_cells full) tab cm) as [((ext, cf0), t)|] eqn:Ei; [|discriminate]. cbn [bind] in E. injection E as <- <-. split; [|reflexivity].
  destruct (history_inv order _ nn face_inds (m_cells full) tab cf0 t ext Ho Hwf (fh_init _ _ _ _ _ _ _ _ _ _ _ _ Hl eq_refl Em Ei)) as (H1 & H2 & H3 & H4).
  split; [exact H1|]. split; [exact H2|]. split; [exact H3|]. split; [exact H4|]. cbn. split; [apply repeat_length|]. intros n Hn _. now rewrite nth_error_repeat.
Qed.
Lemma step_inv cf w solve laser w' : wall_inv cf w -> wall_step order rb full cs cf solve w laser = Ok w' -> (forall a f s, length (solve a f s) = length s) ->
  wall_inv cf w' /\ w_tab w' = activate rb cs laser (w_tab w) /\ exists am pm cm sol, get_active_mesh full (w_tab w') = Ok (am, pm, cm) /\ take (w_sol w) pm = Ok sol /\
    (forall j n, nth_error pm j = Some n -> nth_error (w_sol w') n = nth_error (solve am (w_faces w') sol) j) /\ forall n, ~ In n pm -> nth_error (w_sol w') n = nth_error (w_sol w) n.
Proof.
  intros (H1 & H2 & H3 & H4 & H5 & H6) E Hs. unfold wall_step in E. set (tab := activate rb cs laser (w_tab w)) in *.
  assert (Hg : growing (w_tab w) tab) by (apply activate_growing; congruence). assert (Hl : length tab = length (m_cells full)) by (rewrite <- H1; symmetry; apply Hg).
  destruct (get_active_mesh full tab) as [((am, pm), cm)|] eqn:Em; [|discriminate]. cbn [bind] in E.
  destruct (take (w_sol w) pm) as [sol|] eqn:Et; [|discriminate]. cbn [bind] in E.
  destruct (update_hash_map order (w_tab w) tab cm cf (w_tables w)) as [(ext, t')|] eqn:Eu; [|discriminate]. cbn [bind fst snd] in E.
  destruct (put (w_sol w) pm (solve am ext sol)) as [fs|] eqn:Ep; [|discriminate]. cbn [bind] in E. injection E as <-. cbn [w_tab w_tables w_sol w_faces].
  destruct (update_spec order _ nn face_inds full Ho Hwf (w_tab w) tab am pm cm cf (w_tables w) Hl Hg Em H2 H3) as (U1 & U2).
  destruct (after_call order _ nn face_inds full Ho Hwf tab am pm cm cf _ Em H2 (tracks_update _ tab cf _ Hg H3)) as (A & _).
  destruct (exterior_dec_cases tab face_inds (m_cells full) t' cf _ A) as [Hx|Hx]; [|rewrite (U2 Hx) in Eu; discriminate].
  destruct (U1 Hx) as (ext0 & t1 & E & Ht' & Hrep'). rewrite E in Eu. injection Eu as -> ->.
  assert (Hlen : length pm = length (solve am ext sol)) by (rewrite Hs; symmetry; apply (take_length _ _ _ Et)).
  split; [|split; [reflexivity|]].
  - split; [exact Hl|]. split; [exact H2|]. split; [exact Ht'|]. split; [exact Hrep'|]. cbn. split; [rewrite (put_length _ _ _ _ Ep); exact H5|].
    intros n Hn Hna. rewrite (put_other _ _ _ _ _ Ep); [apply H6; [exact Hn|]; intros c Hc; apply Hna; now apply Hg|].
    intros Hi. apply (used_points full tab am pm cm Em) in Hi. destruct Hi as (c & Hc & Hi). exact (Hna c Hc Hi).
  - exists am, pm, cm, sol. split; [exact Em|]. split; [exact Et|]. split.
    + intros j n Hj. exact (put_at _ _ _ _ _ _ Ep (points_nodup full tab am pm cm Em) Hlen Hj).
    + intros n Hn. exact (put_other _ _ _ _ _ Ep Hn).
Qed.
Lemma steps_inv cf solves lasers w w' : wall_inv cf w -> wall_steps order rb full cs cf solves w lasers = Ok w' -> length solves = length lasers ->
  Forall (fun solve : mesh point -> list face -> list R -> list R => forall a f s, length (solve a f s) = length s) solves ->
  wall_inv cf w' /\ forall c, active (w_tab w') c <-> active (w_tab w) c \/ exists x laser, nth_error cs c = Some x /\ In laser lasers /\ centroid_near rb laser x = true.
Proof.
  revert solves w. induction lasers as [|laser r IH]; intros [|solve s] w Hi E Hl Hs; cbn in *; try discriminate.
  - injection E as <-. split; [exact Hi|]. intros c. split; [now left|]. intros [H|(x & l & _ & [] & _)]. exact H.
  - destruct (wall_step order rb full cs cf solve w laser) as [w1|] eqn:E1; [|discriminate]. cbn [bind] in E. inversion Hs; subst.
    destruct (step_inv cf w solve laser w1 Hi E1 ltac:(assumption)) as (Hi1 & Ht & _). destruct (IH s w1 Hi1 E ltac:(lia) ltac:(assumption)) as (Hi' & Ha). split; [exact Hi'|].
    assert (L : length cs = length (w_tab w)) by (destruct Hi as (-> & _); exact Hcs). intros c. rewrite Ha, Ht, activate_active by exact L. split.
    + intros [[H|(x & H & H')]|(x & l & H & H' & H'')]; [now left|right; exists x, laser; auto|right; exists x, l; auto].
    + intros [H|(x & l & H & [<-|H'] & H'')]; [left; now left|left; right; eauto|right; eauto].
Qed.
(** each step succeeds as long as there is an exterior face *)
Lemma step_ok cf w solve laser : wall_inv cf w -> (exists s, exterior (m_cells full) face_inds (activate rb cs laser (w_tab w)) s) ->
  exists w', wall_step order rb full cs cf solve w laser = Ok w'.
Proof.
  intros (H1 & H2 & H3 & H4 & H5 & H6) Hx. unfold wall_step. set (tab := activate rb cs laser (w_tab w)) in *.
  assert (Hg : growing (w_tab w) tab) by (apply activate_growing; congruence). assert (Hl : length tab = length (m_cells full)) by (rewrite <- H1; symmetry; apply Hg).
  assert (Hpts : Forall (Forall (fun n => (n < length (m_points full))%nat)) (m_cells full)) by (destruct Hwf as (Hc & _); eapply Forall_impl; [|exact Hc]; intros a Ha; apply Ha).
  destruct (active_mesh_ok full tab) as (am & pm & cm & Em); [intros c Hc; rewrite <- Hl; now apply active_length|exact Hpts|]. rewrite Em. cbn [bind].
  assert (Hpm : Forall (fun i => (i < length (w_sol w))%nat) pm).
  { apply Forall_forall. intros n Hn. apply (used_points full tab am pm cm Em) in Hn. destruct Hn as (c & Hc & Hn). rewrite H5. rewrite Forall_forall in Hpts.
    assert (Hc' : (c < length (m_cells full))%nat) by (rewrite <- Hl; now apply active_length). specialize (Hpts _ (nth_In _ [] Hc')). rewrite Forall_forall in Hpts. now apply Hpts. }
  rewrite (take_ok 0%R _ _ Hpm). cbn [bind]. destruct (update_spec order _ nn face_inds full Ho Hwf (w_tab w) tab am pm cm cf (w_tables w) Hl Hg Em H2 H3) as (U1 & _).
  destruct (U1 Hx) as (ext & t' & E & _). rewrite E. cbn [bind fst snd]. edestruct (@put_ok R) as (fs & Ep); [exact Hpm|]. rewrite Ep. cbn [bind]. eauto.
Qed.
End Wall.

(** ** the problem *)
Open Scope R_scope.
Lemma Rltb_true a b : Rltb a b = true <-> a < b.
Proof. unfold Rltb. destruct (Rlt_dec a b); split; auto; discriminate || contradiction. Qed.
Lemma Rltb_false a b : Rltb a b = false <-> b <= a.
Proof. unfold Rltb. destruct (Rlt_dec a b); split; try discriminate; try reflexivity; intros; lra. Qed.
Lemma is_top_iff pts : is_top pts = true <-> horizontal pts.
Proof.
  unfold is_top, horizontal. destruct pts as [|p0 r]; [split; [discriminate|reflexivity]|]. remember (p0 :: r) as l. rewrite Bool.andb_true_iff, forallb_forall, Rltb_true. split.
  - intros (H1 & H2) q Hq. rewrite Heql in Hq. injection Hq as <-. split; [exact H2|]. intros p Hp. apply H1 in Hp. apply Bool.negb_true_iff, Rltb_false in Hp. exact Hp.
  - intros H. destruct (H p0) as (H1 & H2); [now rewrite Heql|]. split; [|exact H1]. intros p Hp. apply Bool.negb_true_iff, Rltb_false. now apply H2.
Qed.
Lemma in_indexed_nth {X} (d : X) (l : list X) j x : In (j, x) (indexed l) -> nth j l d = x.
Proof.
  unfold indexed. assert (G : forall i, In (j, x) (combine (seq i (length l)) l) -> (i <= j)%nat /\ nth (j - i) l d = x).
  { induction l as [|y r IH]; intros i; cbn; [tauto|]. intros [H|H].
    - injection H as <- <-. split; [lia|]. now rewrite Nat.sub_diag.
    - apply IH in H. destruct H as (H1 & H2). split; [lia|]. replace (j - i)%nat with (S (j - S i)) by lia. exact H2. }
  intros H. apply G in H. rewrite Nat.sub_0_r in H. apply H.
Qed.
Section Problem.
Variables (F : fem (nat -> R)) (rho Cp dt : R) (q0 q1 : point -> list (nat -> R) -> nat -> R) (ext : list face) (old_sol : nodal).
Hypothesis HF : conduction F rho Cp dt [q0; q1].
Let tops := filter (fun s => is_top (face_points F s)) ext.
Lemma init_two : exists iv, thermal_init F ext old_sol = Ok ([ext; tops], iv) /\ iv_mass iv = [] /\ iv_laplace iv = [] /\ iv_body iv = Some old_sol
  /\ (forall j p, map (fun f => f j p) (iv_neumann iv 0) = [fun i => at_face F old_sol (nth j ext (0, 0)%nat) p i])
  /\ (forall j p, map (fun f => f j p) (iv_neumann iv 1) = [fun i => at_face F old_sol (nth j tops (0, 0)%nat) p i]).
Proof. destruct HF as (_ & _ & _ & _ & Hn & _). unfold thermal_init. rewrite Hn. cbn. eexists. split; [reflexivity|]. repeat split. Qed.
Lemma sumR_indexed {X} (d : X) (l : list X) (g : nat -> X -> R) : (forall j x, nth j l d = x -> (j < length l)%nat -> g j x = g 0%nat x) ->
  sumR (indexed l) (fun js => g (fst js) (snd js)) = sumR l (g 0%nat).
Proof.
  unfold indexed. intros H. assert (G : forall l i, (forall j x, nth j l d = x -> (j < length l)%nat -> g (i + j)%nat x = g 0%nat x) -> sumR (combine (seq i (length l)) l) (fun js => g (fst js) (snd js)) = sumR l (g 0%nat)).
  { clear. induction l as [|x r IH]; intros i H; cbn; [reflexivity|]. rewrite IH.
    - specialize (H 0%nat x eq_refl ltac:(cbn; lia)). rewrite Nat.add_0_r in H. rewrite H. reflexivity.
    - intros j y Hj Hlt. specialize (H (S j) y Hj ltac:(cbn; lia)). now rewrite Nat.add_succ_r in H. }
  apply G. exact H.
Qed.
Hypothesis Hwf : wf_mesh F.
Hypothesis H0 : (0 < num_cells F)%nat.
Lemma balance sol : grads_sum_zero F -> vals_sum_one F -> face_vals_sum_one F -> faces_ok F ext -> dt <> 0 ->
  exists inds iv r, thermal_init F ext old_sol = Ok (inds, iv) /\ compute_residual_vars F inds sol iv = Ok r /\
  sumN (num_cells F) (fun c => sumN (num_quads (f_ele F)) (fun q => JxW F c q * (rho * Cp * (at_quad F sol c q 0%nat - at_quad F old_sol c q 0%nat))))
  = dt * (sumN (num_total_nodes F) (fun n => r n 0%nat)
          + through F ext (fun s p => q0 (surface_quad_point F s p) [at_face F old_sol s p] 0%nat)
          + through F tops (fun s p => q1 (surface_quad_point F s p) [at_face F old_sol s p] 0%nat)).
Proof.
  intros Hg Hvs Hfv Hfo Hdt. destruct init_two as (iv & Ei & Im & Il & Ib & In0 & In1). pose proof HF as (Hv & Ht & Hm & Hb & Hn & Hca).
  assert (Hfo2 : forall sel, In sel [ext; tops] -> faces_ok F sel).
  { intros sel [ <- |[ <- |[]]]; [exact Hfo|]. unfold faces_ok in *. rewrite Forall_forall in *. intros s Hs. apply Hfo. apply filter_In in Hs. apply Hs. }
  assert (Hsz : iv_sized F iv) by (split; [rewrite Im|rewrite Il]; constructor).
  destruct (resultant F Hwf [ext; tops] sol iv 0%nat Hg Hvs Hfv ltac:(rewrite Hv; lia) Hsz H0 ltac:(unfold neumann_ok; rewrite Hn; cbn; lia) Hfo2) as (r & Hr & He).
  exists [ext; tops], iv, r. split; [exact Ei|]. split; [exact Hr|]. rewrite He. unfold cauchy_faces. rewrite Hca. cbn [sumR].
  assert (E0 : sumR (indexed [ext; tops]) (fun isel => sumR (indexed (snd isel)) (fun js => sumN (num_face_quads (f_ele F)) (fun p =>
              nanson_scale F (snd js) p * traction F iv (fst isel) (fst js) (snd js) p 0%nat)))
     = through F ext (fun s p => q0 (surface_quad_point F s p) [at_face F old_sol s p] 0%nat) + through F tops (fun s p => q1 (surface_quad_point F s p) [at_face F old_sol s p] 0%nat)).
  { unfold indexed at 1. cbn [length seq combine sumR fst snd]. rewrite Rplus_0_r. unfold through, traction. rewrite Hn. f_equal.
    - transitivity (sumR (indexed ext) (fun js => sumN (num_face_quads (f_ele F)) (fun p => nanson_scale F (snd js) p * q0 (surface_quad_point F (snd js) p) [at_face F old_sol (snd js) p] 0%nat)));
        [|exact (sumR_indexed (0, 0)%nat ext (fun _ s => sumN (num_face_quads (f_ele F)) (fun p => nanson_scale F s p * q0 (surface_quad_point F s p) [at_face F old_sol s p] 0%nat)) (fun _ _ _ _ => eq_refl))].
      apply sumR_ext. intros (j, s) Hj. cbn [fst snd nth]. apply sumN_ext. intros p _. rewrite In0. apply (in_indexed_nth (0, 0)%nat) in Hj. cbv beta. unfold face in *. rewrite Hj. reflexivity.
    - transitivity (sumR (indexed tops) (fun js => sumN (num_face_quads (f_ele F)) (fun p => nanson_scale F (snd js) p * q1 (surface_quad_point F (snd js) p) [at_face F old_sol (snd js) p] 0%nat)));
        [|exact (sumR_indexed (0, 0)%nat tops (fun _ s => sumN (num_face_quads (f_ele F)) (fun p => nanson_scale F s p * q1 (surface_quad_point F s p) [at_face F old_sol s p] 0%nat)) (fun _ _ _ _ => eq_refl))].
      apply sumR_ext. intros (j, s) Hj. cbn [fst snd nth]. apply sumN_ext. intros p _. rewrite In1. apply (in_indexed_nth (0, 0)%nat) in Hj. cbv beta. unfold face in *. rewrite Hj. reflexivity. }
  unfold face in E0 |- *. rewrite E0. rewrite (sumN_ext (num_cells F) (fun c => sumN (num_quads (f_ele F)) (fun q => JxW F c q * (reaction F iv sol c q 0%nat - _)))
     (fun c => / dt * sumN (num_quads (f_ele F)) (fun q => JxW F c q * (rho * Cp * (at_quad F sol c q 0%nat - at_quad F old_sol c q 0%nat))))).
  - rewrite sumN_scal. field. exact Hdt.
  - intros c Hcc. rewrite <- sumN_scal. apply sumN_ext. intros q _. unfold reaction, body_load. rewrite Hm, Ib, Hb. unfold th_mass_map. field. exact Hdt.
Qed.
End Problem.
Lemma laser_off_fails (F : fem (nat -> R)) ext old_sol q : neumann_bc_info F = Some [q] -> thermal_init F ext old_sol = Err IndexError.
Proof. intros H. unfold thermal_init. rewrite H. reflexivity. Qed.
Close Scope R_scope.
