(** * Proofs about the inverse example. *)
From Coq Require Import String FunctionalExtensionality Lra.
From Verif Require Import Prelude PreludeFacts FemModel FemSpec FemFacts FemAsmProofs FemGeoProofs FemMatProofs MatModel MatSpec MatProofs MatHyperProofs RveModel RveSpec
  SolverModel SolverSpec SolverProofs SolverAdProofs SolverFemProofs WellSpec WellProofs InvModel InvSpec.
Open Scope R_scope.
Open Scope list_scope.

Lemma sumN3 f : sumN 3 f = f 0%nat + f 1%nat + f 2%nat.
Proof. unfold sumN. cbn [seq sumR]. ring. Qed.
(** ** the stress is proportional to the modulus *)
Lemma P_scale P_fn E D : psi_contract P_fn -> 0 < det 3 D -> meq 3 (P_fn E (3 / 10) D) (fun i j => E * P_fn 1 (3 / 10) D i j).
Proof.
  intros HP HD. apply (grad_unique 3 (psi_E E (3 / 10)) (fun D => 0 < det 3 D) (P_fn E (3 / 10)) (fun D i j => E * P_fn 1 (3 / 10) D i j) D (HP E (3 / 10))); [|exact HD].
  intros G i j HG Hi Hj. eapply dl_eq; [apply (dl_scal E); exact (HP 1 (3 / 10) G i j HG Hi Hj)| |reflexivity].
  intros t. unfold psi_E, psi_mod. field.
Qed.

Section Inv.
Context {V : Type}.
Variable M : fem V.
Variable P_fn : R -> R -> mat -> mat.
Variable Lz : R.
Hypothesis HM : mesh_ok M.
Local Notation N := (num_total_nodes M).
Local Notation F p := (inv_fem M P_fn p).
Local Notation iv p := (inv_vars M p).
Local Notation inds := (inv_inds M Lz).
Local Notation nq := (num_quads (f_ele M)).
Local Notation locs := [on_plane 2 0; on_plane 2 0; on_plane 2 0].
Local Notation vecs := [0; 1; 2]%nat.
Local Notation fns p := [fun _ => 0; fun _ => 0; get_dirichlet_bottom Lz (d_of M p)].
Local Notation bottom n := (on_plane 2 0 (points M n) = true).

Lemma inv_wf p : wf_mesh (F p).
Proof. exact (proj1 HM). Qed.
Lemma inv_dim : dim M = 3%nat.
Proof. exact (proj1 (proj2 HM)). Qed.
Lemma inv_iv p : iv_sized (F p) (iv p).
Proof. split; [constructor|]. constructor; [|constructor]. unfold inv_vars, inv_nc. rewrite map_length, seq_length. reflexivity. Qed.
Lemma inv_cells p : (0 < num_cells (F p))%nat.
Proof. exact (proj1 (proj2 (proj2 HM))). Qed.
Lemma inv_neu p : neumann_ok (F p) inds.
Proof. unfold neumann_ok. cbn [neumann_bc_info inv_fem]. unfold inv_inds, get_boundary_conditions_inds. rewrite map_length. cbn. lia. Qed.
Lemma inv_faces p : forall s, In s inds -> faces_ok (F p) s.
Proof.
  unfold inv_inds, get_boundary_conditions_inds. cbn [map In]. intros s [<-|[]]. apply Forall_forall. intros x Hx.
  unfold boundary_inds in Hx. apply filter_In in Hx as [Hx _]. unfold flat2 in Hx. apply in_flat_map in Hx as (c & Hc & Hx). apply in_map_iff in Hx as (f & <- & Hf).
  apply in_seq in Hc, Hf. cbn [fst snd]. split; [exact (proj2 Hc)|exact (proj2 Hf)].
Qed.
(** ** the virtual powers *)
Definition modulus (p : vector) (c q : nat) : R := E_of p * rho_of M p c q.
Definition def_grad (u : nodal) (c q : nat) : mat := fun i j => sol_to_grad M u c q i j + eye i j.
Definition inner (T : nat -> nat -> mat) (v : nodal) : R :=
  sumN (num_cells M) (fun c => sumN nq (fun q => JxW M c q * sumN 3 (fun k => sumN 3 (fun d => T c q k d * sol_to_grad M v c q k d)))).
Definition body1 (v : nodal) : R := sumN (num_cells M) (fun c => sumN nq (fun q => JxW M c q * (100 * at_quad M v c q 0))).
Definition trac1 (v : nodal) : R := sumR (indexed inds) (fun isel => sumR (indexed (snd isel)) (fun js => sumN (num_face_quads (f_ele M)) (fun p =>
    nanson_scale M (snd js) p * (-100 * at_face M v (snd js) p 2)))).
Lemma power_inner p u v : internal_power (F p) (iv p) u v = inner (fun c q => P_fn (modulus p c q) (3 / 10) (def_grad u c q)) v.
Proof.
  unfold internal_power, inner. apply sumN_ext. intros c Hc. apply sumN_ext. intros q _. change (JxW (F p) c q) with (JxW M c q). f_equal.
  assert (dot_vec (F p) (reaction (F p) (iv p) u c q) (at_quad (F p) v c q) = 0) as -> by (unfold dot_vec, reaction; cbn [mass_map inv_fem]; apply sumN_zero; intros; ring). rewrite Rplus_0_r.
  change (vec (F p)) with 3%nat. change (dim (F p)) with (dim M). rewrite inv_dim. apply sumN_ext. intros k _. apply sumN_ext. intros d _. f_equal.
  unfold stress. cbn [tensor_map inv_fem inv_vars iv_laplace]. unfold vars_at. cbn [flat_map]. rewrite nth_error_map_seq by exact Hc. cbn [app map inv_tensor_map]. reflexivity.
Qed.
Lemma power_body p v : body_power (F p) (iv p) v = s_of M p * body1 v.
Proof.
  unfold body_power, body1. rewrite <- sumN_scal. apply sumN_ext. intros c _. rewrite <- sumN_scal. apply sumN_ext. intros q _. change (JxW (F p) c q) with (JxW M c q).
  unfold dot_vec. change (vec (F p)) with 3%nat. rewrite sumN3. unfold body_load. cbn [iv_body inv_vars source_info inv_fem get_body_force].
  change (at_quad (F p) v c q 0) with (at_quad M v c q 0). ring.
Qed.
Lemma power_trac p v : neumann_power (F p) inds (iv p) v = n_of M p * trac1 v.
Proof.
  unfold neumann_power, trac1. rewrite <- sumR_scal. apply sumR_ext. intros [i sel] Hi. rewrite <- sumR_scal. apply sumR_ext. intros js _. rewrite <- sumN_scal. apply sumN_ext. intros x _.
  cbn [fst snd]. change (nanson_scale (F p) (snd js) x) with (nanson_scale M (snd js) x). unfold dot_vec. change (vec (F p)) with 3%nat. rewrite sumN3.
  assert (i = 0)%nat as -> by (unfold inv_inds, get_boundary_conditions_inds in Hi; cbn in Hi; destruct Hi as [Hi|[]]; congruence).
  unfold traction. cbn [neumann_bc_info inv_fem nth]. unfold get_neumann_top.
  change (at_face (F p) v (snd js) x 2) with (at_face M v (snd js) x 2). ring.
Qed.
Definition res_value (p : vector) (u v : nodal) : R :=
  inner (fun c q => P_fn (modulus p c q) (3 / 10) (def_grad u c q)) v - s_of M p * body1 v - n_of M p * trac1 v.
Lemma residual_value p u r n k : compute_residual_vars (F p) inds u (iv p) = Ok r -> (n < N)%nat -> (k < 3)%nat -> r n k = res_value p u (one_dof n k).
Proof.
  intros Hr Hn Hk. destruct (virtual_work (F p) (inv_wf p) inds u (iv p) (inv_iv p) (inv_cells p) (inv_neu p) (inv_faces p)) as (r' & Hr' & Hw). rewrite Hr in Hr'. injection Hr' as <-.
  specialize (Hw (one_dof n k)). rewrite power_inner, power_body, power_trac in Hw. unfold cauchy_power, cauchy_faces in Hw. cbn [cauchy_bc_info inv_fem sumR] in Hw. unfold res_value.
  transitivity (sumN (num_total_nodes (F p)) (fun i => sumN (vec (F p)) (fun j => one_dof n k i j * r i j))); [|rewrite Hw; ring].
  change (num_total_nodes (F p)) with N. change (vec (F p)) with 3%nat. unfold one_dof.
  rewrite (sumN_ext N _ (fun i => if Nat.eqb i n then r i k else 0)).
  - symmetry. exact (sumN_pick N n (fun i => r i k) Hn).
  - intros i _. destruct (Nat.eqb i n); cbn [andb].
    + rewrite (sumN_ext 3 _ (fun j => if Nat.eqb j k then r i j else 0)) by (intros j _; destruct (Nat.eqb j k); ring). exact (sumN_pick 3 k (fun j => r i j) Hk).
    + apply sumN_zero. intros; ring.
Qed.
Lemma residual_ok p u : exists r, compute_residual_vars (F p) inds u (iv p) = Ok r.
Proof. destruct (virtual_work (F p) (inv_wf p) inds u (iv p) (inv_iv p) (inv_cells p) (inv_neu p) (inv_faces p)) as (r & Hr & _). eauto. Qed.
Lemma inner_ext T T' v : (forall c q k d, (c < num_cells M)%nat -> (q < nq)%nat -> (k < 3)%nat -> (d < 3)%nat -> T c q k d = T' c q k d) -> inner T v = inner T' v.
Proof. intros H. unfold inner. apply sumN_ext. intros c Hc. apply sumN_ext. intros q Hq. f_equal. apply sumN_ext. intros k Hk. apply sumN_ext. intros d Hd. now rewrite H. Qed.
Lemma inner_scal a T v : inner (fun c q k d => a * T c q k d) v = a * inner T v.
Proof.
  unfold inner. rewrite <- sumN_scal. apply sumN_ext. intros c _. rewrite <- sumN_scal. apply sumN_ext. intros q _.
  rewrite (sumN_ext 3 _ (fun k => a * sumN 3 (fun d => T c q k d * sol_to_grad M v c q k d))) by (intros k _; rewrite <- sumN_scal; apply sumN_ext; intros; ring). rewrite sumN_scal. ring.
Qed.
Lemma inner_add T T' v : inner (fun c q k d => T c q k d + T' c q k d) v = inner T v + inner T' v.
Proof.
  unfold inner. rewrite <- sumN_add. apply sumN_ext. intros c _. rewrite <- sumN_add. apply sumN_ext. intros q _.
  rewrite <- Rmult_plus_distr_l. f_equal. rewrite <- sumN_add. apply sumN_ext. intros k _. rewrite <- sumN_add. apply sumN_ext. intros; ring.
Qed.
(** ** boundary values *)
Lemma inv_fixed p n k : fixed (F p) locs vecs n k <-> (k < 3)%nat /\ bottom n.
Proof.
  split.
  - intros (i & Hi & Hv & Hl). cbn [List.length] in Hi. destruct i as [|[|[|i]]]; cbn [nth] in Hv, Hl; try lia; subst k; (split; [lia|exact Hl]).
  - intros [Hk Hb]. exists k. destruct k as [|[|[|k]]]; try lia; repeat split; cbn; try lia; exact Hb.
Qed.
Lemma inv_last p i n k : last_applying (F p) locs vecs i n k -> i = k /\ (k < 3)%nat /\ bottom n.
Proof.
  intros ((Hi & Hv & Hl) & _). cbn [List.length] in Hi. destruct i as [|[|[|i]]]; cbn [nth] in Hv, Hl; try lia; subst k; (split; [reflexivity|split; [lia|exact Hl]]).
Qed.
Lemma inv_last_ex p n k : (k < 3)%nat -> bottom n -> last_applying (F p) locs vecs k n k.
Proof. intros Hk Hb. destruct (last_exists (F p) locs vecs n k (proj2 (inv_fixed p n k) (Logic.conj Hk Hb))) as (i & Hi). destruct (inv_last p i n k Hi) as [-> _]. exact Hi. Qed.
Lemma sol_iff p u : inv_solution M P_fn Lz p u <->
  (forall n, (n < N)%nat -> bottom n -> u n 0%nat = 0 /\ u n 1%nat = 0 /\ u n 2%nat = d_of M p * Lz)
  /\ forall n k, (n < N)%nat -> (k < 3)%nat -> ~ bottom n -> res_value p u (one_dof n k) = 0.
Proof.
  unfold inv_solution, inv_dirichlet. split.
  - intros [Hv (r & Hr & Hz)]. split.
    + intros n Hn Hb. repeat split; [exact (Hv _ n 0%nat Hn (inv_last_ex p n 0 ltac:(lia) Hb))|exact (Hv _ n 1%nat Hn (inv_last_ex p n 1 ltac:(lia) Hb))|exact (Hv _ n 2%nat Hn (inv_last_ex p n 2 ltac:(lia) Hb))].
    + intros n k Hn Hk Hb. rewrite <- (residual_value p u r n k Hr Hn Hk). apply Hz; [exact Hn|exact Hk|]. intros Hf. apply Hb. exact (proj2 (proj1 (inv_fixed p n k) Hf)).
  - intros [Hv Hz]. split.
    + intros i n k Hn Hi. destruct (inv_last p i n k Hi) as (-> & Hk & Hb). destruct (Hv n Hn Hb) as (H0 & H1 & H2). destruct k as [|[|[|k]]]; try lia; assumption.
    + destruct (residual_ok p u) as (r & Hr). exists r. split; [exact Hr|]. intros n k Hn Hk Hf. rewrite (residual_value p u r n k Hr Hn Hk). apply Hz; [exact Hn|exact Hk|]. intros Hb. apply Hf. apply inv_fixed. now split.
Qed.
(** ** scaling *)
Hypothesis HP : psi_contract P_fn.
Lemma res_scaled a p p' u v : scaled M a p p' -> a = 1 \/ oriented M u -> res_value p' u v = a * res_value p u v.
Proof.
  intros (Hm & _ & Hn & Hs) Ho. unfold res_value. rewrite Hn, Hs, !Rmult_minus_distr_l, <- inner_scal. rewrite !Rmult_assoc. do 2 f_equal. apply inner_ext.
  intros c q k d Hc Hq Hk Hd. unfold modulus. rewrite (Hm c q Hc Hq). destruct Ho as [-> | Ho]; [rewrite !Rmult_1_l; reflexivity|].
  assert (Hd0 : 0 < det 3 (def_grad u c q)) by exact (Ho c q Hc Hq). rewrite (P_scale P_fn (a * _) _ HP Hd0 k d Hk Hd), (P_scale P_fn (E_of p * _) _ HP Hd0 k d Hk Hd). ring.
Qed.
Lemma solution_scaled a p p' u : a <> 0 -> scaled M a p p' -> a = 1 \/ oriented M u -> (inv_solution M P_fn Lz p' u <-> inv_solution M P_fn Lz p u).
Proof.
  intros Ha Hs Ho. rewrite !sol_iff. pose proof Hs as (_ & Hd & _). rewrite Hd. split; intros [H1 H2]; (split; [exact H1|]); intros n k Hn Hk Hb; specialize (H2 n k Hn Hk Hb).
  - rewrite (res_scaled a p p' u _ Hs Ho) in H2. apply Rmult_integral in H2 as [H2|H2]; [contradiction|exact H2].
  - rewrite (res_scaled a p p' u _ Hs Ho), H2. ring.
Qed.
Lemma residual_scaled a p p' u r r' : scaled M a p p' -> a = 1 \/ oriented M u ->
  compute_residual_vars (F p) inds u (iv p) = Ok r -> compute_residual_vars (F p') inds u (iv p') = Ok r' ->
  forall n k, (n < N)%nat -> (k < 3)%nat -> r' n k = a * r n k.
Proof. intros Hs Ho Hr Hr' n k Hn Hk. rewrite (residual_value p u r n k Hr Hn Hk), (residual_value p' u r' n k Hr' Hn Hk). exact (res_scaled a p p' u _ Hs Ho). Qed.
(** ** translation *)
Lemma grads_zero c q d : (q < nq)%nat -> sumN (num_nodes (f_ele M)) (fun a => shape_grads M c q a d) = 0.
Proof.
  intros Hq. unfold shape_grads. rewrite sumN_swap. apply sumN_zero. intros j Hj. rewrite sumN_scal_r, (proj2 (proj2 (proj2 HM)) q j Hq Hj). ring.
Qed.
Lemma grad_shift t u c q : (q < nq)%nat -> sol_to_grad M (shift_z t u) c q = sol_to_grad M u c q.
Proof.
  intros Hq. apply functional_extensionality. intros i. apply functional_extensionality. intros j. unfold sol_to_grad, shift_z. destruct (Nat.eqb i 2).
  - rewrite (sumN_ext _ _ (fun a => u (cell_node M c a) i * shape_grads M c q a j + t * shape_grads M c q a j)) by (intros; ring).
    rewrite sumN_add, sumN_scal, (grads_zero c q j Hq). ring.
  - reflexivity.
Qed.
Lemma res_shift t p u v : res_value p (shift_z t u) v = res_value p u v.
Proof.
  unfold res_value. do 2 f_equal. unfold inner. apply sumN_ext. intros c _. apply sumN_ext. intros q Hq. unfold def_grad. now rewrite (grad_shift t u c q Hq).
Qed.
Lemma res_but_d p p' u v : same_but_d M p p' -> res_value p' u v = res_value p u v.
Proof.
  intros (HE & Hr & Hn & Hs). unfold res_value. rewrite Hn, Hs. do 2 f_equal. apply inner_ext. intros c q k d Hc Hq _ _. unfold modulus. now rewrite HE, (Hr c q Hc Hq).
Qed.
Lemma solution_shift p p' u : same_but_d M p p' ->
  (inv_solution M P_fn Lz p' (shift_z ((d_of M p' - d_of M p) * Lz) u) <-> inv_solution M P_fn Lz p u).
Proof.
  intros H. rewrite !sol_iff. split; intros [H1 H2]; split.
  - intros n Hn Hb. destruct (H1 n Hn Hb) as (H3 & H4 & H5). unfold shift_z in H3, H4, H5. cbn [Nat.eqb] in H3, H4, H5. repeat split; [exact H3|exact H4|lra].
  - intros n k Hn Hk Hb. rewrite <- (H2 n k Hn Hk Hb), res_shift. symmetry. now apply res_but_d.
  - intros n Hn Hb. destruct (H1 n Hn Hb) as (H3 & H4 & H5). unfold shift_z. cbn [Nat.eqb]. repeat split; [exact H3|exact H4|lra].
  - intros n k Hn Hk Hb. rewrite res_shift, (res_but_d p p' u _ H). now apply H2.
Qed.
Lemma oriented_shift t u : oriented M (shift_z t u) <-> oriented M u.
Proof. unfold oriented. split; intros H c q Hc Hq; specialize (H c q Hc Hq); rewrite (grad_shift t u c q Hq) in *; exact H. Qed.

(** ** the parameters as one vector *)
Local Notation K := (inv_nc M * inv_nq M)%nat.
Local Notation m := (inv_size M).
Definition pack (e : R) (r : vector) (d n s : R) : vector := fun i =>
  match i with 0%nat => e | S j => if Nat.ltb j K then r i else if Nat.eqb j K then d else if Nat.eqb j (1 + K) then n else s end.
Lemma rho_index c q : (c < num_cells M)%nat -> (q < nq)%nat -> (c * inv_nq M + q < K)%nat.
Proof. unfold inv_nc, inv_nq. clear. intros. nia. Qed.
Lemma pack_fields e r d n s : E_of (pack e r d n s) = e /\ (forall c q, (c < num_cells M)%nat -> (q < nq)%nat -> rho_of M (pack e r d n s) c q = rho_of M r c q)
  /\ d_of M (pack e r d n s) = d /\ n_of M (pack e r d n s) = n /\ s_of M (pack e r d n s) = s.
Proof.
  split; [reflexivity|]. unfold rho_of, d_of, n_of, s_of. split.
  - intros c q Hc Hq. pose proof (rho_index c q Hc Hq) as H. cbn [Nat.add pack]. rewrite (proj2 (Nat.ltb_lt _ _) H). reflexivity.
  - set (k := K). cbn [Nat.add]. unfold pack. fold k. rewrite (proj2 (Nat.ltb_ge k k)), Nat.eqb_refl by (clear; lia).
    rewrite (proj2 (Nat.ltb_ge (S k) k)), (proj2 (Nat.eqb_neq (S k) k)) by (clear; lia). cbn [Nat.add]. rewrite Nat.eqb_refl.
    rewrite (proj2 (Nat.ltb_ge (S (S k)) k)), (proj2 (Nat.eqb_neq (S (S k)) k)), (proj2 (Nat.eqb_neq (S (S k)) (S k))) by (clear; lia). auto.
Qed.
Lemma dot_params g x : dotN m g x = E_of g * E_of x + sumN (num_cells M) (fun c => sumN nq (fun q => rho_of M g c q * rho_of M x c q))
  + d_of M g * d_of M x + n_of M g * n_of M x + s_of M g * s_of M x.
Proof.
  unfold dotN, inv_size. change (4 + K)%nat with (S (S (S (S K)))). rewrite !sumN_S.
  assert (H : forall k f, sumN (S k) f = f 0%nat + sumN k (fun i => f (S i))).
  { clear. intros k f. induction k as [|k IH]; [unfold sumN; cbn [seq sumR]; ring|]. rewrite sumN_S, IH, sumN_S. ring. }
  rewrite <- (sumN_S K). rewrite H. change (sumN K) with (sumN (num_cells M * nq)). rewrite sumN_mul.
  rewrite (sumN_ext (num_cells M) _ (fun c => sumN nq (fun q => rho_of M g c q * rho_of M x c q))).
  2: { intros c _. apply sumN_ext. intros q _. unfold rho_of, inv_nq. cbn [Nat.add]. rewrite (Nat.mul_comm c). reflexivity. }
  unfold E_of, d_of, n_of, s_of. cbn [Nat.add]. ring.
Qed.

(** ** the derivative of the constraint with respect to the parameters *)
Local Notation P1 u := (fun c q => P_fn 1 (3 / 10) (def_grad u c q)).
Definition rate (p : vector) (u : nodal) (dp : vector) (v : nodal) : R :=
  E_of dp * inner (fun c q i j => rho_of M p c q * P1 u c q i j) v + E_of p * inner (fun c q i j => rho_of M dp c q * P1 u c q i j) v
  - s_of M dp * body1 v - n_of M dp * trac1 v.
Lemma res_oriented p u v : oriented M u ->
  res_value p u v = E_of p * inner (fun c q i j => rho_of M p c q * P1 u c q i j) v - s_of M p * body1 v - n_of M p * trac1 v.
Proof.
  intros Ho. unfold res_value. do 2 f_equal. rewrite <- inner_scal. apply inner_ext. intros c q i j Hc Hq Hi Hj.
  assert (Hd0 : 0 < det 3 (def_grad u c q)) by exact (Ho c q Hc Hq). rewrite (P_scale P_fn _ _ HP Hd0 i j Hi Hj). unfold modulus. ring.
Qed.
Lemma res_step p u dp v t : oriented M u ->
  res_value (step p t dp) u v = res_value p u v + t * rate p u dp v + t ^ 2 * (E_of dp * inner (fun c q i j => rho_of M dp c q * P1 u c q i j) v).
Proof.
  intros Ho. rewrite !res_oriented by exact Ho. unfold rate.
  assert (inner (fun c q i j => rho_of M (step p t dp) c q * P1 u c q i j) v
    = inner (fun c q i j => rho_of M p c q * P1 u c q i j) v + t * inner (fun c q i j => rho_of M dp c q * P1 u c q i j) v) as ->.
  { rewrite <- inner_scal, <- inner_add. apply inner_ext. intros c q i j _ _ _ _. unfold rho_of, step. cbv beta. ring. }
  unfold E_of, s_of, n_of, step. ring.
Qed.
Lemma res_derivative p u dp v : oriented M u -> derivable_pt_lim (fun t => res_value (step p t dp) u v) 0 (rate p u dp v).
Proof.
  intros Ho. set (c := E_of dp * inner (fun c q i j => rho_of M dp c q * P1 u c q i j) v).
  apply (dl_eq (fun t => res_value p u v + t * rate p u dp v + t * (t * c)) _ 0 (rate p u dp v + (1 * (0 * c) + 0 * c)) _).
  - apply dl_add; [apply dl_line|]. apply (dl_mul (fun t => t) (fun t => t * c) 0 1 c); [apply dl_id|]. eapply dl_eq; [apply (dl_line 0 c)| |reflexivity]. intros z; cbv beta; ring.
  - intros t. rewrite res_step by exact Ho. fold c. ring.
  - ring.
Qed.
End Inv.
Close Scope R_scope.
