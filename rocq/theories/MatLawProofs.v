(** * Proofs: the laws of topology optimisation and the small-strain limit of hyperelasticity. *)
From Coq Require Import Lra Lia String.
From Verif Require Import Prelude PreludeFacts FemModel FemFacts FemSpec FemProofs FemAsmProofs FemGeoProofs MatModel MatSpec MatProofs MatPlasticProofs MatFemProofs MatHyperProofs MatTopProofs.
Open Scope R_scope.

(** ** topology optimisation *)
Lemma iso_scale d E eps i j : iso_stress d E eps i j = E * iso_stress d 1 eps i j.
Proof. unfold iso_stress, lmbda_of, mu_of, nu. field. Qed.
Definition law_unit (law : case_law) (d : nat) (G : mat) : mat :=
  match law with PlaneStress _ => plane_unit G | _ => iso_stress d 1 (strain G) end.
Definition law_modulus (law : case_law) (theta : list R) : R :=
  match law, theta with
  | Freecad, t :: _ => simp 70 (70 * 10 ^ 3) t 3
  | Box, t :: _ => simp 70 (70 * 10 ^ 9) t 3
  | PlaneStress penal, t :: _ => simp (/ 1000 * (70 * 10 ^ 9)) (70 * 10 ^ 9) t penal
  | Multi, [t1; t2] => multi_material_E t1 t2
  | _, _ => 0
  end.
Definition vars_modulus (law : case_law) (vars : list (list R)) : R := match vars with [theta] => law_modulus law theta | _ => 0 end.
Lemma case_tensor law d vars G i j : case_tensor_map law d vars G i j = vars_modulus law vars * law_unit law d G i j.
Proof.
  unfold case_tensor_map, vars_modulus. destruct vars as [|theta [|x l]]; try (cbn; ring).
  destruct law; destruct theta as [|t [|t2 [|t3 r]]]; cbn [case_stress law_modulus law_unit]; try ring;
    try apply plane_stress_unit; unfold simp_stress; apply iso_scale.
Qed.
Section Law.
Variable d : nat.
Lemma iso_unit_linear a G H i j : iso_stress d 1 (strain (fun i j => a * G i j + H i j)) i j = a * iso_stress d 1 (strain G) i j + iso_stress d 1 (strain H) i j.
Proof.
  rewrite <- iso_linear. unfold iso_stress. f_equal; [|f_equal; apply strain_linear]. do 2 f_equal. unfold trace. apply sumN_ext. intros k _. apply strain_linear.
Qed.
Lemma iso_unit_ext G H : meq d G H -> meq d (iso_stress d 1 (strain G)) (iso_stress d 1 (strain H)).
Proof. intros HG. apply iso_ext. intros i j Hi Hj. unfold strain. now rewrite !HG. Qed.
Lemma iso_unit_sym G H : ddot d (iso_stress d 1 (strain G)) H = ddot d (iso_stress d 1 (strain H)) G.
Proof.
  rewrite <- (ddot_strain_r d (iso_stress d 1 (strain G)) H), <- (ddot_strain_r d (iso_stress d 1 (strain H)) G) by (apply iso_sym, strain_msym).
  rewrite !iso_work, (ddot_comm d (strain G)). ring.
Qed.
Lemma iso_unit_energy G : 0 <= ddot d (iso_stress d 1 (strain G)) G.
Proof.
  rewrite <- (ddot_strain_r d (iso_stress d 1 (strain G)) G) by (apply iso_sym, strain_msym). rewrite iso_work.
  pose proof (lmbda_pos 1 ltac:(lra)). pose proof (mu_pos 1 ltac:(lra)). pose proof (ddot_nonneg d (strain G)). nra.
Qed.
End Law.
Section Top.
Variable F : fem (list R).
Variables (law : case_law) (sel : list (nat * nat)) (load : point -> nat -> R).
Hypothesis Hp : topopt_problem F law sel load.
Local Notation E := (f_ele F).
Local Notation U := (law_unit law (dim F)).
Lemma unit_lin a G H i j : U (fun i j => a * G i j + H i j) i j = a * U G i j + U H i j.
Proof. destruct law; cbn [law_unit]; try apply iso_unit_linear. apply plane_unit_linear. Qed.
Lemma unit_ext G H : meq (dim F) G H -> meq (dim F) (U G) (U H).
Proof. destruct Hp as (_ & _ & _ & _ & _ & _ & _ & _ & _ & Hd). destruct law; cbn [law_unit]; try apply iso_unit_ext. destruct Hd as (-> & _). apply plane_unit_ext. Qed.
Lemma unit_sym G H : ddot (dim F) (U G) H = ddot (dim F) (U H) G.
Proof. destruct Hp as (_ & _ & _ & _ & _ & _ & _ & _ & _ & Hd). destruct law; cbn [law_unit]; try apply iso_unit_sym. destruct Hd as (-> & _). apply plane_unit_sym. Qed.
Lemma unit_pos G : 0 <= ddot (dim F) (U G) G.
Proof. destruct Hp as (_ & _ & _ & _ & _ & _ & _ & _ & _ & Hd). destruct law; cbn [law_unit]; try apply iso_unit_energy. destruct Hd as (-> & _). apply plane_unit_energy. Qed.
Lemma unit_tm : exists tm, tensor_map F = Some tm /\ forall vars G i j, (i < dim F)%nat -> (j < dim F)%nat -> tm vars G i j = vars_modulus law vars * U G i j.
Proof. exists (case_tensor_map law (dim F)). split; [apply Hp|]. intros. apply case_tensor. Qed.
Variable theta : nat -> list R.
Local Notation lap := [map (fun c (_ : nat) => theta c) (seq 0 (num_cells F))].
Lemma lap_sized : sized F lap.
Proof. repeat constructor. now rewrite map_length, seq_length. Qed.
Lemma lap_modulus c q : (c < num_cells F)%nat -> modulus (vars_modulus law) lap c q = law_modulus law (theta c).
Proof.
  intros Hc. unfold modulus, vars_at. cbn [flat_map]. rewrite nth_error_map, (nth_error_nth' (seq 0 (num_cells F)) 0%nat) by (now rewrite seq_length).
  rewrite seq_nth by assumption. reflexivity.
Qed.
Lemma law_modulus_pos t : in_design law t -> 0 <= law_modulus law t.
Proof.
  destruct Hp as (_ & _ & _ & _ & _ & _ & _ & _ & _ & Hd). intros (Hl & Hr). destruct law; destruct t as [|t1 [|t2 [|t3 r]]]; try discriminate; cbn [law_modulus].
  - inversion Hr; subst. pose proof (simp_range 70 (70 * 10 ^ 3) t1 3 ltac:(lra) ltac:(assumption) ltac:(lra)). lra.
  - inversion Hr; subst. pose proof (simp_range 70 (70 * 10 ^ 9) t1 3 ltac:(lra) ltac:(assumption) ltac:(lra)). lra.
  - inversion Hr as [|? ? A B]; subst. inversion B as [|? ? C D]; subst. pose proof (multi_range t1 t2 A C). pose proof (Rpower_range t1 3 A ltac:(lra)). lra.
  - inversion Hr; subst. pose proof (simp_range (/ 1000 * (70 * 10 ^ 9)) (70 * 10 ^ 9) t1 penal ltac:(lra) ltac:(assumption) ltac:(tauto)). lra.
Qed.
Lemma law_modulus_le t t' : in_design law t -> in_design law t' -> Forall2 Rle t t' -> law_modulus law t <= law_modulus law t'.
Proof.
  destruct Hp as (_ & _ & _ & _ & _ & _ & _ & _ & _ & Hd). intros (Hl & Hr) (Hl' & Hr') H2.
  assert (S : forall a b t1 t1' p, a < b -> 0 < t1 <= 1 -> t1 <= t1' -> 0 < p -> simp a b t1 p <= simp a b t1' p).
  { intros a b t1 t1' p Hab H1 H1' Hp0. destruct (Rle_lt_or_eq_dec _ _ H1') as [L|<-]; [left; now apply simp_increasing|lra]. }
  destruct law; destruct t as [|t1 [|t2 [|t3 r]]]; try discriminate; destruct t' as [|t1' [|t2' [|t3' r']]]; try discriminate; cbn [law_modulus];
    inversion H2 as [|? ? ? ? X Y]; subst; inversion Hr as [|? ? A B]; subst; inversion Hr' as [|? ? A' B']; subst.
  - apply S; lra.
  - apply S; lra.
  - inversion Y; subst. inversion B as [|? ? C D]; subst. inversion B' as [|? ? C' D']; subst. apply multi_increasing; lra.
  - apply S; try lra; tauto.
Qed.
Lemma law_energy u v : energy F (law_unit law (dim F)) (vars_modulus law) lap u v
  = sumN (num_cells F) (fun c => sumN (num_quads E) (fun q => JxW F c q * ddot (dim F) (stress F (design_vars (num_cells F) theta) u c q) (sol_to_grad F v c q))).
Proof.
  unfold energy. apply sumN_ext. intros c Hc. apply sumN_ext. intros q _. f_equal. rewrite <- ddot_scal_l. apply ddot_ext; intros i j Hi Hj; [|reflexivity].
  unfold stress. destruct unit_tm as (tm & -> & Ht). rewrite Ht by assumption. reflexivity.
Qed.
End Top.
Section Use.
Variable F : fem (list R).
Variables (law : case_law) (sel : list (nat * nat)) (load : point -> nat -> R).
Hypothesis Hp : topopt_problem F law sel load.
Ltac start := destruct Hp as (Hwf & Hc & Hv & Ht & Hm & Hs & Hca & Hn & Hsel & Hd).
Lemma top_compliance theta fixed u : equilibrium F sel theta fixed u ->
  compute_compliance F sel load u = sumN (num_cells F) (fun c => sumN (num_quads (f_ele F)) (fun q =>
     JxW F c q * ddot (dim F) (stress F (design_vars (num_cells F) theta) u c q) (sol_to_grad F u c q)))
  /\ (positive_weights F -> (forall c, (c < num_cells F)%nat -> in_design law (theta c)) -> 0 <= compute_compliance F sel load u).
Proof.
  intros Hb. start.
  destruct (compliance_is_energy F (law_unit law (dim F)) (vars_modulus law) (unit_lin F law sel load Hp) (unit_ext F law sel load Hp) (unit_sym F law sel load Hp) (unit_pos F law sel load Hp) (unit_tm F law sel load Hp) Hwf Hc Hv Hm Hs Hca sel load Hsel Hn
    [map (fun c (_ : nat) => theta c) (seq 0 (num_cells F))] fixed u (lap_sized F theta) Hb) as (A & B).
  rewrite A, (law_energy F law sel load Hp). split; [reflexivity|]. intros Hw Hi. rewrite <- (law_energy F law sel load Hp), <- A. apply B; [exact Hw|]. intros c q Hcc _.
  rewrite lap_modulus by exact Hcc. apply (law_modulus_pos F law sel load Hp). now apply Hi.
Qed.
Lemma top_more_material theta theta' fixed u u' : positive_weights F ->
  (forall c, (c < num_cells F)%nat -> in_design law (theta c) /\ in_design law (theta' c) /\ Forall2 Rle (theta c) (theta' c)) ->
  equilibrium F sel theta fixed u -> equilibrium F sel theta' fixed u' -> compute_compliance F sel load u' <= compute_compliance F sel load u.
Proof.
  intros Hw Hi Hb Hb'. start.
  apply (compliance_decreases F (law_unit law (dim F)) (vars_modulus law) (unit_lin F law sel load Hp) (unit_ext F law sel load Hp) (unit_sym F law sel load Hp) (unit_pos F law sel load Hp)
    (unit_tm F law sel load Hp) Hwf Hc Hv Hm Hs Hca sel load Hsel Hn _ _ fixed u u' (lap_sized F theta) (lap_sized F theta') Hw); try assumption.
  intros c q Hcc _. rewrite !lap_modulus by exact Hcc. destruct (Hi c Hcc) as (A & B & C). split; [now apply (law_modulus_pos F law sel load Hp)|].
  now apply (law_modulus_le F law sel load Hp).
Qed.
End Use.

(** ** hyperelasticity, small strains *)
Lemma small_strain P_fn H i j : is_grad 3 (psi 3) (fun F => 0 < det 3 F) P_fn -> (i < 3)%nat -> (j < 3)%nat ->
  derivable_pt_lim (fun t => first_PK_stress P_fn (fun i j => t * H i j) i j) 0 (iso_stress 3 1000 (strain H) i j).
Proof.
  intros Hg Hi Hj. set (mu := 1000 / (2 * (1 + 3 / 10))). set (kappa := 1000 / (3 * (1 - 2 * (3 / 10)))).
  assert (Hg' : is_grad 3 (psi_mod 3 mu kappa) (fun F => 0 < det 3 F) P_fn) by exact Hg.
  assert (Hd : derivable_pt_lim (fun t => det 3 (near_rest H t)) 0 (trace 3 H)).
  { eapply dl_eq; [apply (dl_poly 1 (trace 3 H))| |reflexivity]. intros t. cbv beta. symmetry. apply det_near_rest. }
  assert (Hd0 : 0 < det 3 (near_rest H 0)) by (rewrite det_near_rest; lra).
  destruct (pos_near _ _ _ Hd Hd0) as (e & He & Hpos).
  apply dl_local with (f := fun t => PK 3 mu kappa (near_rest H t) i j).
  - exists e. split; [exact He|]. intros t Ht. unfold first_PK_stress. change (fun i j => t * H i j + eye i j) with (near_rest H t).
    symmetry. apply (P_formula 3 mu kappa P_fn (near_rest H t)); try assumption; [unfold small_dim; lia|]. now apply Hpos.
  - eapply dl_eq; [exact (PK_linearised mu kappa H i j Hi Hj)|reflexivity|]. unfold iso_stress, lmbda_of, mu_of, nu, mu, kappa, strain. change (eye i j) with (identity i j).
    replace (trace 3 (fun i j => / 2 * (H i j + H j i))) with (trace 3 H) by (unfold trace, sumN; cbn [seq sumR]; field). field.
Qed.
Lemma det_ext2 A B : meq 2 A B -> det 2 A = det 2 B.
Proof. intros H. cbn [det]. now rewrite !H by lia. Qed.
(** plane strain: the 2-D energy of the cellular solid *)
Lemma psi2_frame Q F : rotation 2 Q -> psi_2d (matmul 2 Q F) = psi_2d F.
Proof.
  intros HQ. unfold psi_2d. cbv zeta. rewrite (psi_ext3 _ _ _ (matmul 3 (embed Q) (embed F))).
  - apply psi_frame; [unfold small_dim; lia|now apply embed_rotation].
  - intros i j Hi Hj. now apply embed_matmul.
Qed.
Lemma psi2_rest : psi_2d identity = 0.
Proof. unfold psi_2d. cbv zeta. rewrite (psi_ext3 _ _ _ identity); [apply psi_rest|]. intros i j Hi Hj. now apply embed_identity. Qed.
Lemma psi2_nonneg F : 0 < det 2 F -> 0 <= psi_2d F.
Proof. intros H. unfold psi_2d. cbv zeta. apply psi_nonneg; try lra. now rewrite embed_det. Qed.
Lemma psi2_grad P_fn F : is_grad 2 psi_2d (fun F => 0 < det 2 F) P_fn -> 0 < det 2 F ->
  meq 2 (P_fn F) (PK 3 (70000 / (2 * (1 + 3 / 10))) (70000 / (3 * (1 - 2 * (3 / 10)))) (embed F)).
Proof.
  intros Hg HF. apply (grad_unique 2 psi_2d (fun F => 0 < det 2 F) P_fn (fun F => PK 3 (70000 / (2 * (1 + 3 / 10))) (70000 / (3 * (1 - 2 * (3 / 10)))) (embed F)) F Hg); [|exact HF].
  intros F' i j HF' Hi Hj. eapply dl_eq.
  - apply (PK_is_grad 3 (70000 / (2 * (1 + 3 / 10))) (70000 / (3 * (1 - 2 * (3 / 10)))) ltac:(unfold small_dim; lia) (embed F') i j); [|lia|lia]. rewrite embed_det. exact HF'.
  - intros t. unfold psi_2d. cbv zeta. apply psi_ext3. intros k l Hk Hl. symmetry. now apply embed_bump.
  - reflexivity.
Qed.
Lemma psi2_stress_free P_fn : is_grad 2 psi_2d (fun F => 0 < det 2 F) P_fn -> meq 2 (P_fn identity) mzero.
Proof.
  intros Hg i j Hi Hj. rewrite (psi2_grad P_fn identity Hg) by (try assumption; cbn; unfold identity; cbn; lra).
  set (mu := 70000 / (2 * (1 + 3 / 10))). set (kappa := 70000 / (3 * (1 - 2 * (3 / 10)))).
  transitivity (PK 3 mu kappa identity i j).
  - unfold PK. assert (E : meq 3 (embed identity) identity) by (intros a b Ha Hb; now apply embed_identity).
    rewrite (det_ext3 _ _ E), (ddot_ext 3 _ _ _ _ E E), (E i j) by lia.
    replace (adj 3 (embed identity) j i) with (adj 3 identity j i); [reflexivity|].
    destruct i as [|[|i]]; try lia; destruct j as [|[|j]]; try lia; reflexivity.
  - rewrite PK_rest by (try lia; unfold small_dim; lia). unfold mzero. cbn [INR]. field.
Qed.
Close Scope R_scope.
