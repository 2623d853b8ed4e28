(** * Proofs about the topology optimisation model. *)
From Coq Require Import Lra Lia String.
From Verif Require Import Prelude PreludeFacts FemModel FemFacts FemSpec FemProofs FemAsmProofs FemGeoProofs MatModel MatSpec MatProofs MatPlasticProofs MatFemProofs.
Open Scope R_scope.
Open Scope list_scope.

(** ** interpolated stiffness *)
Lemma Rpower_le_base a b p : 0 < a -> a <= b -> 0 <= p -> Rpower a p <= Rpower b p.
Proof. intros Ha Hb Hp. now apply Rle_Rpower_l. Qed.
Lemma Rpower_lt_base a b p : 0 < a -> a < b -> 0 < p -> Rpower a p < Rpower b p.
Proof. intros Ha Hb Hp. unfold Rpower. apply exp_increasing. apply Rmult_lt_compat_l; [exact Hp|now apply ln_increasing]. Qed.
Lemma Rpower_range t p : 0 < t <= 1 -> 0 <= p -> 0 < Rpower t p <= 1.
Proof.
  intros (H0 & H1) Hp. split; [apply exp_pos|]. replace 1 with (Rpower 1 p) by (unfold Rpower; rewrite ln_1, Rmult_0_r; apply exp_0). now apply Rpower_le_base.
Qed.
Lemma Rpower_one p : Rpower 1 p = 1.
Proof. unfold Rpower. rewrite ln_1, Rmult_0_r. apply exp_0. Qed.
Lemma simp_range Emin Emax t p : Emin < Emax -> 0 < t <= 1 -> 0 < p -> Emin < simp Emin Emax t p <= Emax.
Proof. intros HE Ht Hp. destruct (Rpower_range t p Ht) as (A & B); [lra|]. unfold simp. split; nra. Qed.
Lemma simp_full Emin Emax p : simp Emin Emax 1 p = Emax.
Proof. unfold simp. rewrite Rpower_one. ring. Qed.
Lemma simp_increasing Emin Emax t t' p : Emin < Emax -> 0 < t -> t < t' -> 0 < p -> simp Emin Emax t p < simp Emin Emax t' p.
Proof. intros HE Ht Htt Hp. unfold simp. pose proof (Rpower_lt_base t t' p Ht Htt Hp). nra. Qed.
Lemma multi_range t1 t2 : 0 < t1 <= 1 -> 0 < t2 <= 1 -> 70 + Rpower t1 3 * 14000 < multi_material_E t1 t2 <= 70 + Rpower t1 3 * 70000.
Proof.
  intros H1 H2. unfold multi_material_E. destruct (Rpower_range t1 3 H1) as (A & B); [lra|]. destruct (Rpower_range t2 3 H2) as (C & D); [lra|].
  split; [apply Rplus_lt_compat_l; apply Rmult_lt_compat_l|apply Rplus_le_compat_l; apply Rmult_le_compat_l]; lra.
Qed.
Lemma multi_increasing t1 t2 t1' t2' : 0 < t1 <= t1' -> t1' <= 1 -> 0 < t2 <= t2' -> t2' <= 1 -> multi_material_E t1 t2 <= multi_material_E t1' t2'.
Proof.
  intros H1 H1' H2 H2'. unfold multi_material_E. assert (A : Rpower t1 3 <= Rpower t1' 3) by (apply Rpower_le_base; lra).
  assert (B : Rpower t2 3 <= Rpower t2' 3) by (apply Rpower_le_base; lra). assert (0 < Rpower t1 3) by apply exp_pos. assert (0 < Rpower t2 3) by apply exp_pos.
  assert (Rpower t2' 3 <= 1) by (destruct (Rpower_range t2' 3); lra).
  apply Rplus_le_compat_l. apply Rmult_le_compat; lra.
Qed.
Lemma multi_corners : multi_material_E 1 1 = 70070.
Proof. unfold multi_material_E. rewrite !Rpower_one. lra. Qed.

(** ** plane stress is three-dimensional elasticity without out-of-plane stress *)
Definition thicken (eps : mat) : mat := fun i j =>
  if Nat.ltb i 2 && Nat.ltb j 2 then eps i j
  else if Nat.eqb i 2 && Nat.eqb j 2 then - (nu / (1 - nu)) * (eps 0%nat 0%nat + eps 1%nat 1%nat) else 0.
Lemma plane_is_3d Emax p t G i j : (i < 3)%nat -> (j < 3)%nat ->
  iso_stress 3 (simp (/ 1000 * Emax) Emax t p) (thicken (strain G)) i j
  = if Nat.ltb i 2 && Nat.ltb j 2 then plane_stress Emax p t G i j else 0.
Proof.
  intros Hi Hj. set (E := simp _ _ _ _). destruct i as [|[|[|i]]], j as [|[|[|j]]]; try lia;
    unfold iso_stress, trace, thicken, plane_stress, eye, sumN, lmbda_of, mu_of, nu; fold E; cbn [seq sumR Nat.ltb Nat.leb Nat.eqb andb]; rewrite ?(strain_sym G 1 0); field.
Qed.
(** the law for E = 1 *)
Definition plane_unit (G : mat) : mat := fun i j => match i, j with
  | 0%nat, 0%nat => 1 / (1 + nu) / (1 - nu) * (strain G 0%nat 0%nat + nu * strain G 1%nat 1%nat)
  | 1%nat, 1%nat => 1 / (1 + nu) / (1 - nu) * (nu * strain G 0%nat 0%nat + strain G 1%nat 1%nat)
  | 0%nat, 1%nat => 1 / (1 + nu) * strain G 0%nat 1%nat
  | 1%nat, 0%nat => 1 / (1 + nu) * strain G 0%nat 1%nat
  | _, _ => 0 end.
Lemma plane_stress_unit Emax p t G i j : plane_stress Emax p t G i j = simp (/ 1000 * Emax) Emax t p * plane_unit G i j.
Proof. unfold plane_stress, plane_unit. destruct i as [|[|i]], j as [|[|j]]; unfold Rdiv; ring. Qed.
Lemma plane_unit_sym G H : ddot 2 (plane_unit G) H = ddot 2 (plane_unit H) G.
Proof. unfold ddot, plane_unit, strain, sumN, nu. cbn [seq sumR]. field. Qed.
Lemma plane_unit_linear a G H i j : plane_unit (fun i j => a * G i j + H i j) i j = a * plane_unit G i j + plane_unit H i j.
Proof. unfold plane_unit, strain. destruct i as [|[|i]], j as [|[|j]]; unfold Rdiv; ring. Qed.
Lemma plane_unit_energy G : 0 <= ddot 2 (plane_unit G) G /\ (ddot 2 (plane_unit G) G = 0 -> mskew 2 G).
Proof.
  set (a := strain G 0%nat 0%nat). set (b := strain G 1%nat 1%nat). set (c := strain G 0%nat 1%nat).
  assert (E : ddot 2 (plane_unit G) G = 1 / (1 + nu) / (1 - nu) * ((1 - nu) * (a ^ 2 + b ^ 2) + nu * (a + b) ^ 2) + 2 / (1 + nu) * c ^ 2).
  { unfold ddot, plane_unit, a, b, c, strain, sumN, nu. cbn [seq sumR]. field. }
  rewrite E. unfold nu. pose proof (pow2_ge_0 a). pose proof (pow2_ge_0 b). pose proof (pow2_ge_0 c). pose proof (pow2_ge_0 (a + b)). split; [lra|].
  intros HZ. assert (Ha : a ^ 2 = 0) by lra. assert (Hb : b ^ 2 = 0) by lra. assert (Hc : c ^ 2 = 0) by lra.
  assert (a = 0) by nra. assert (b = 0) by nra. assert (c = 0) by nra. unfold a, b, c, strain in *.
  intros i j Hi Hj. destruct i as [|[|i]], j as [|[|j]]; try lia; lra.
Qed.
Lemma plane_unit_ext A B : meq 2 A B -> meq 2 (plane_unit A) (plane_unit B).
Proof. intros H i j Hi Hj. unfold plane_unit, strain. destruct i as [|[|i]], j as [|[|j]]; try lia; rewrite !H by lia; reflexivity. Qed.

(** ** parameters *)
Lemma set_rows_length {X} (upd : list (nat * X)) : forall l, length (set_rows l upd) = length l.
Proof.
  induction upd as [|(i, x) r IH]; intros l; [reflexivity|]. cbn [set_rows]. rewrite IH. destruct (Nat.ltb i (length l)) eqn:E; [|reflexivity].
  apply Nat.ltb_lt in E. rewrite app_length, firstn_length. cbn [length]. rewrite skipn_length. lia.
Qed.
Lemma nth_replace {X} (l : list X) i x k : (i < length l)%nat ->
  nth_error (firstn i l ++ x :: skipn (S i) l) k = if Nat.eqb k i then Some x else nth_error l k.
Proof.
  intros Hi. destruct (Nat.eqb k i) eqn:E.
  - apply Nat.eqb_eq in E. subst. rewrite nth_error_app2 by (rewrite firstn_length; lia). rewrite firstn_length. replace (i - min i (length l))%nat with 0%nat by lia. reflexivity.
  - apply Nat.eqb_neq in E. destruct (Nat.lt_ge_cases k i) as [H|H].
    + rewrite nth_error_app1 by (rewrite firstn_length; lia).
      clear -H. revert l k H. induction i as [|i IH]; intros l k H; [lia|]. destruct l as [|y l]; [reflexivity|]. destruct k as [|k]; [reflexivity|]. cbn. apply IH. lia.
    + rewrite nth_error_app2 by (rewrite firstn_length; lia). rewrite firstn_length. replace (k - min i (length l))%nat with (S (k - S i)) by lia. cbn [nth_error].
      clear -H E Hi. revert k i H E Hi. induction l as [|y l IH]; intros k i H E Hi; [cbn in Hi; lia|].
      destruct k as [|k]; [lia|]. destruct i as [|i]; [cbn; now rewrite Nat.sub_0_r|]. cbn [skipn nth_error Nat.sub]. change (nth_error (skipn (S i) l) (k - S i) = nth_error l k). apply IH; cbn in Hi; lia.
Qed.
Lemma set_rows_nth {X} (upd : list (nat * X)) : forall l k, NoDup (map fst upd) ->
  (forall x, In (k, x) upd -> (k < length l)%nat -> nth_error (set_rows l upd) k = Some x)
  /\ (~ In k (map fst upd) -> nth_error (set_rows l upd) k = nth_error l k).
Proof.
  induction upd as [|(i, y) r IH]; intros l k Hn; [split; [intros x []|reflexivity]|]. cbn [map fst] in Hn. inversion Hn as [|? ? Hi Hr]; subst.
  cbn [set_rows]. set (l' := if Nat.ltb i (length l) then firstn i l ++ y :: skipn (S i) l else l).
  assert (Hl : length l' = length l). { pose proof (set_rows_length [(i, y)] l) as HL. exact HL. }
  assert (Hk : forall k, nth_error l' k = if Nat.ltb i (length l) && Nat.eqb k i then Some y else nth_error l k).
  { intros k'. unfold l'. destruct (Nat.ltb i (length l)) eqn:E; [|reflexivity]. apply Nat.ltb_lt in E. now rewrite nth_replace. }
  destruct (IH l' k Hr) as (A & B). split.
  - intros x [Hx|Hx] Hlt.
    + injection Hx as -> ->. rewrite B by exact Hi. rewrite Hk, Nat.eqb_refl. apply Nat.ltb_lt in Hlt. now rewrite Hlt.
    + apply A; [exact Hx|lia].
  - cbn [map fst In]. intros Hnot. rewrite B by tauto. rewrite Hk. destruct (Nat.eqb k i) eqn:E; [apply Nat.eqb_eq in E; subst; tauto|]. now rewrite Bool.andb_false_r.
Qed.
Lemma map_fst_combine {A B} (l : list A) (m : list B) : length l = length m -> map fst (combine l m) = l.
Proof. revert m. induction l as [|x l IH]; intros [|y m] H; try discriminate; [reflexivity|]. cbn. f_equal. apply IH. now injection H. Qed.
Lemma set_params_ok {X} (one : X) n flex params : NoDup flex -> length flex = length params ->
  exists full, set_params one n flex params = Ok full /\ length full = n
  /\ (forall j c x, nth_error flex j = Some c -> nth_error params j = Some x -> (c < n)%nat -> nth_error full c = Some x)
  /\ (forall c, (c < n)%nat -> ~ In c flex -> nth_error full c = Some one).
Proof.
  intros Hn Hl. unfold set_params. rewrite (proj2 (Nat.eqb_eq _ _) Hl). eexists. split; [reflexivity|].
  assert (Hf := map_fst_combine flex params Hl). rewrite set_rows_length, repeat_length. split; [reflexivity|]. split.
  - intros j c x Hc Hx Hlt. destruct (set_rows_nth (combine flex params) (repeat one n) c) as (A & _); [now rewrite Hf|]. apply A; [|now rewrite repeat_length].
    clear -Hc Hx. revert j params Hc Hx. induction flex as [|y flex IH]; intros [|j] [|z params] Hc Hx; try discriminate; cbn in *; [left; congruence|right; eauto].
  - intros c Hlt Hc. destruct (set_rows_nth (combine flex params) (repeat one n) c) as (_ & B); [now rewrite Hf|]. rewrite B by (now rewrite Hf).
    now apply nth_error_repeat.
Qed.

(** ** von Mises stress *)
Lemma vm_stress_von_mises s : vm_stress s = von_mises 3 s.
Proof.
  unfold vm_stress, von_mises. do 2 f_equal. apply ddot_ext; intros i j _ _; unfold dev, pressure, eye, identity, trace; cbn [INR]; unfold Rdiv;
    replace (1 + 1 + 1) with 3 by ring; ring.
Qed.
Lemma von_mises_classical s : msym 3 s ->
  von_mises 3 s = sqrt (/ 2 * ((s 0%nat 0%nat - s 1%nat 1%nat) ^ 2 + (s 1%nat 1%nat - s 2%nat 2%nat) ^ 2 + (s 2%nat 2%nat - s 0%nat 0%nat) ^ 2)
                        + 3 * (s 0%nat 1%nat ^ 2 + s 1%nat 2%nat ^ 2 + s 2%nat 0%nat ^ 2)).
Proof.
  intros Hs. unfold von_mises. f_equal. unfold ddot, dev, pressure, identity, sumN. cbn [seq sumR Nat.eqb INR].
  rewrite (Hs 1%nat 0%nat), (Hs 2%nat 1%nat), (Hs 0%nat 2%nat) by lia. field.
Qed.
Lemma sumN_pos n f : (0 < n)%nat -> (forall i, (i < n)%nat -> 0 < f i) -> 0 < sumN n f.
Proof.
  destruct n as [|m]; [lia|]. intros _ H. rewrite sumN_S. assert (0 <= sumN m f) by (apply sumN_nonneg; intros i Hi; left; apply H; lia).
  assert (0 < f m) by (apply H; lia). lra.
Qed.
Lemma cell_average_range {V} (F : fem V) v c lo hi : (0 < num_quads (f_ele F))%nat -> (c < num_cells F)%nat -> positive_weights F ->
  (forall q, (q < num_quads (f_ele F))%nat -> lo <= v c q <= hi) -> lo <= cell_average F v c <= hi.
Proof.
  intros Hq Hc Hw Hv. unfold cell_average. set (n := num_quads (f_ele F)) in *. set (W := sumN n (fun q => JxW F c q)).
  assert (HW : 0 < W) by (apply sumN_pos; [exact Hq|intros q Hqn; now apply Hw]).
  assert (A : lo * W <= sumN n (fun q => v c q * JxW F c q)).
  { unfold W. rewrite <- sumN_scal. apply sumN_le. intros q Hqn. apply Rmult_le_compat_r; [left; now apply Hw|]. now apply Hv. }
  assert (B : sumN n (fun q => v c q * JxW F c q) <= hi * W).
  { unfold W. rewrite <- sumN_scal. apply sumN_le. intros q Hqn. apply Rmult_le_compat_r; [left; now apply Hw|]. now apply Hv. }
  split; [apply Rmult_le_reg_r with W|apply Rmult_le_reg_r with W]; try exact HW; unfold Rdiv; rewrite Rmult_assoc, Rinv_l, Rmult_1_r by lra; assumption.
Qed.

(** ** compliance *)
Section Compliance.
Context {V : Type}.
Variable F : fem V.
Local Notation E := (f_ele F).
Variable law : mat -> mat.
Variable Emod : list V -> R.
Hypothesis Hlin : forall a G H i j, law (fun i j => a * G i j + H i j) i j = a * law G i j + law H i j.
Hypothesis Hext : forall G H, meq (dim F) G H -> meq (dim F) (law G) (law H).
Hypothesis Hsym : forall G H, ddot (dim F) (law G) H = ddot (dim F) (law H) G.
Hypothesis Hpos : forall G, 0 <= ddot (dim F) (law G) G.
Hypothesis Htm : exists tm, tensor_map F = Some tm /\ forall vars G i j, (i < dim F)%nat -> (j < dim F)%nat -> tm vars G i j = Emod vars * law G i j.
Hypothesis Hwf : wf_mesh F.
Hypothesis Hc : (0 < num_cells F)%nat.
Hypothesis Hv : vec F = dim F.
Hypothesis Hm : mass_map F = None.
Hypothesis Hsrc : source_info F = None.
Hypothesis Hca : cauchy_bc_info F = None.
Variables (sel : list (nat * nat)) (load : point -> nat -> R).
Hypothesis Hsel : faces_ok F sel.
Hypothesis Hn : neumann_bc_info F = Some [fun x _ => load x].
(** the internal variables: one list of design variables per cell *)
Definition design (lap : list (list (nat -> V))) : internal_vars V := mkIv [] lap None (fun _ => []).
Definition modulus (lap : list (list (nat -> V))) (c q : nat) : R := Emod (map (fun f => f q) (vars_at lap c)).
Definition energy (lap : list (list (nat -> V))) (u v : nodal) : R :=
  sumN (num_cells F) (fun c => sumN (num_quads E) (fun q => JxW F c q * (modulus lap c q * ddot (dim F) (law (sol_to_grad F u c q)) (sol_to_grad F v c q)))).
Lemma compliance_power lap u : compute_compliance F sel load u = neumann_power F [sel] (design lap) u.
Proof.
  unfold neumann_power, indexed. cbn [length seq combine sumR fst snd].
  unfold compute_compliance. unfold traction. rewrite Hn. cbn [nth].
  assert (HS : forall (g : nat * nat -> R) l s0, sumR (combine (seq s0 (length l)) l) (fun js => g (snd js)) = sumR l g).
  { intros g l. induction l as [|x l IH]; intros s0; [reflexivity|]. cbn [length seq combine sumR snd]. now rewrite IH. }
  rewrite Rplus_0_r, (HS (fun s => sumN (num_face_quads E) (fun p => nanson_scale F s p * dot_vec F (load (surface_quad_point F s p)) (at_face F u s p)))).
  apply sumR_ext. intros s _. apply sumN_ext. intros p _. unfold dot_vec. rewrite <- sumN_scal. apply sumN_ext. intros i _.
  unfold at_face, convert_neumann_from_dof. ring.
Qed.
Lemma equilibrium_work lap u : sized F lap -> exists r, compute_residual_vars F [sel] u (design lap) = Ok r /\ forall v,
  power F r v = energy lap u v - compute_compliance F sel load v.
Proof.
  intros Hs. destruct (virtual_work F Hwf [sel] u (design lap)) as (r & Hr & He).
  - split; [constructor|exact Hs].
  - exact Hc.
  - unfold neumann_ok. rewrite Hn. cbn. lia.
  - intros s [<-|[]]. exact Hsel.
  - exists r. split; [exact Hr|]. intros v. unfold power. rewrite He, (compliance_power lap v). unfold cauchy_power, cauchy_faces. rewrite Hca. cbn [sumR].
    replace (body_power F (design lap) v) with 0.
    + rewrite Rplus_0_r, Rminus_0_r. f_equal. unfold internal_power, energy. apply sumN_ext. intros c _. apply sumN_ext. intros q _. f_equal.
      destruct Htm as (tm & Et & Eq). unfold stress, reaction, dot_vec, modulus. rewrite Et, Hm. cbn [iv_laplace design].
      rewrite (sumN_zero (vec F) (fun k => 0 * _)) by (intros; ring). rewrite Rplus_0_r. unfold ddot. rewrite Hv, <- sumN_scal.
      apply sumN_ext. intros i Hi. rewrite <- sumN_scal. apply sumN_ext. intros j Hj. rewrite Eq by assumption. ring.
    + symmetry. unfold body_power. apply sumN_zero. intros c _. apply sumN_zero. intros q _. unfold body_load. cbn [iv_body design]. rewrite Hsrc.
      unfold dot_vec. rewrite sumN_zero; [ring|]. intros; ring.
Qed.
Lemma balanced_power fixed r u v : balanced F fixed r u -> (forall n k, (n < num_total_nodes F)%nat -> (k < vec F)%nat -> fixed n k = true -> v n k = 0) -> power F r v = 0.
Proof.
  intros Hb H0. unfold power. apply sumN_zero. intros n Hnn. apply sumN_zero. intros k Hk. specialize (Hb n k Hnn Hk). destruct (fixed n k) eqn:E0.
  - rewrite H0 by assumption. ring.
  - rewrite Hb. ring.
Qed.
Lemma balanced_fixed fixed r u n k : balanced F fixed r u -> (n < num_total_nodes F)%nat -> (k < vec F)%nat -> fixed n k = true -> u n k = 0.
Proof. intros Hb Hnn Hk Hf. specialize (Hb n k Hnn Hk). now rewrite Hf in Hb. Qed.
Lemma energy_diff lap u w : energy lap (fun n k => -1 * w n k + u n k) (fun n k => -1 * w n k + u n k) = energy lap w w - 2 * energy lap u w + energy lap u u.
Proof.
  unfold energy. rewrite <- sumN_scal, <- sumN_sub, <- sumN_add. apply sumN_ext. intros c _. rewrite <- sumN_scal, <- sumN_sub, <- sumN_add. apply sumN_ext. intros q _.
  set (Gw := sol_to_grad F w c q). set (Gu := sol_to_grad F u c q).
  rewrite (ddot_ext (dim F) _ (fun i j => -1 * law Gw i j + law Gu i j) _ (fun i j => -1 * Gw i j + Gu i j)).
  - rewrite (ddot_add_l (dim F) (fun i j => -1 * law Gw i j)), ddot_scal_l.
    rewrite (ddot_comm (dim F) (law Gw)), (ddot_comm (dim F) (law Gu)).
    rewrite !(ddot_add_l (dim F) (fun i j => -1 * Gw i j)), !ddot_scal_l.
    rewrite (ddot_comm (dim F) Gw (law Gw)), (ddot_comm (dim F) Gu (law Gw)), (ddot_comm (dim F) Gw (law Gu)), (ddot_comm (dim F) Gu (law Gu)).
    rewrite (Hsym Gw Gu). ring.
  - intros i j Hi Hj. rewrite <- Hlin. apply Hext; try assumption. intros k l _ _. apply grad_linear.
  - intros i j _ _. apply grad_linear.
Qed.
Lemma energy_nonneg lap u : positive_weights F -> (forall c q, (c < num_cells F)%nat -> (q < num_quads E)%nat -> 0 <= modulus lap c q) -> 0 <= energy lap u u.
Proof.
  intros Hw HE. unfold energy. apply sumN_nonneg. intros c Hcc. apply sumN_nonneg. intros q Hq.
  apply Rmult_le_pos; [left; now apply Hw|]. apply Rmult_le_pos; [now apply HE|apply Hpos].
Qed.
Lemma compliance_is_energy lap fixed u : sized F lap ->
  (forall r, compute_residual_vars F [sel] u (design lap) = Ok r -> balanced F fixed r u) ->
  compute_compliance F sel load u = energy lap u u
  /\ (positive_weights F -> (forall c q, (c < num_cells F)%nat -> (q < num_quads E)%nat -> 0 <= modulus lap c q) -> 0 <= compute_compliance F sel load u).
Proof.
  intros Hs Hb. destruct (equilibrium_work lap u Hs) as (r & Hr & He). specialize (Hb r Hr).
  assert (A : compute_compliance F sel load u = energy lap u u).
  { pose proof (He u) as H0. rewrite (balanced_power fixed r u u Hb) in H0 by (intros; now apply (balanced_fixed fixed r)). lra. }
  split; [exact A|]. intros Hw HE. rewrite A. now apply energy_nonneg.
Qed.
(** more material never makes the structure more compliant *)
Lemma compliance_decreases lap lap' fixed u u' : sized F lap -> sized F lap' -> positive_weights F ->
  (forall c q, (c < num_cells F)%nat -> (q < num_quads E)%nat -> 0 <= modulus lap c q <= modulus lap' c q) ->
  (forall r, compute_residual_vars F [sel] u (design lap) = Ok r -> balanced F fixed r u) ->
  (forall r, compute_residual_vars F [sel] u' (design lap') = Ok r -> balanced F fixed r u') ->
  compute_compliance F sel load u' <= compute_compliance F sel load u.
Proof.
  intros Hs Hs' Hw HE Hb Hb'. destruct (compliance_is_energy lap fixed u Hs Hb) as (A & _). destruct (compliance_is_energy lap' fixed u' Hs' Hb') as (A' & _).
  destruct (equilibrium_work lap u Hs) as (r & Hr & He). specialize (Hb r Hr).
  destruct (equilibrium_work lap' u' Hs') as (r' & Hr' & He'). specialize (Hb' r' Hr').
  assert (B : energy lap u u' = compute_compliance F sel load u').
  { pose proof (He u') as H0. rewrite (balanced_power fixed r u u' Hb) in H0 by (intros; now apply (balanced_fixed fixed r')). lra. }
  assert (C : energy lap u' u' <= energy lap' u' u').
  { unfold energy. apply sumN_le. intros c Hcc. apply sumN_le. intros q Hq. apply Rmult_le_compat_l; [left; now apply Hw|].
    apply Rmult_le_compat_r; [apply Hpos|now apply HE]. }
  assert (D := energy_nonneg lap (fun n k => -1 * u' n k + u n k) Hw (fun c q Hcc Hq => proj1 (HE c q Hcc Hq))).
  rewrite energy_diff in D. lra.
Qed.
End Compliance.
Close Scope R_scope.
