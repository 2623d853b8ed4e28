(** * A concrete manufactured solution. *)
From Coq Require Import String FunctionalExtensionality Lra Lia.
From Verif Require Import Prelude PreludeFacts FemModel FemFacts FemSpec FemGeoProofs FemMatProofs BasisModel BasisSpec BasisQuadProofs BasisExamples MatModel MatSpec MatProofs SolverModel SolverSpec SolverFemProofs SolverExamples RveSpec RveExamples BoxSpec BoxProofs BoxPatchProofs BoxRveProofs BoxExamples WellSpec WellProofs WellBoxProofs WellMainProofs WellExamples ManSpec ManProofs ManMainProofs.
From Verif Require MeshModel.
Open Scope R_scope.
Open Scope list_scope.

(** the first two terms of the example of applications/fem/convergence_rate, and z^2 for the third *)
Definition man_g (_ d : nat) (x : R) : R := match d with 0%nat => 100 * (x - 1 / 2) ^ 3 | 1%nat => 200 * (x - 1 / 2) ^ 3 | _ => x ^ 2 end.
Definition man_g1 (_ d : nat) (x : R) : R := match d with 0%nat => 300 * (x - 1 / 2) ^ 2 | 1%nat => 600 * (x - 1 / 2) ^ 2 | _ => 2 * x end.
Definition man_g2 (_ d : nat) (x : R) : R := match d with 0%nat => 600 * (x - 1 / 2) | 1%nat => 1200 * (x - 1 / 2) | _ => 2 end.
Definition cubic_of (a b c d : R) (x : R) : R := a + b * x + c * x ^ 2 + d * x ^ 3.
Lemma man_form k d x : man_g k d x = match d with 0%nat => cubic_of (-100 / 8) (300 / 4) (-300 / 2) 100 x | 1%nat => cubic_of (-200 / 8) (600 / 4) (-600 / 2) 200 x | _ => cubic_of 0 0 1 0 x end.
Proof. unfold man_g, cubic_of. destruct d as [|[|d]]; field. Qed.
Lemma man_cubic k d : cubic (man_g k d).
Proof.
  destruct d as [|[|d]]; [exists (-100 / 8), (300 / 4), (-300 / 2), 100|exists (-200 / 8), (600 / 4), (-600 / 2), 200|exists 0, 0, 1, 0]; intros x; rewrite man_form; reflexivity.
Qed.
Lemma der_ext f1 f2 x l l' : (forall x, f1 x = f2 x) -> l = l' -> derivable_pt_lim f1 x l -> derivable_pt_lim f2 x l'.
Proof. intros H <- Hd. replace f2 with f1 by (apply functional_extensionality; exact H). exact Hd. Qed.
Lemma man_der1 k d : derivative_of (man_g k d) (man_g1 k d).
Proof.
  intros x. destruct d as [|[|d]]; [eapply (der_ext (cubic_of (-100 / 8) (300 / 4) (-300 / 2) 100))|eapply (der_ext (cubic_of (-200 / 8) (600 / 4) (-600 / 2) 200))|eapply (der_ext (cubic_of 0 0 1 0))]; try apply cubic_der;
    try (intros y; rewrite man_form; reflexivity); unfold man_g1; field.
Qed.
Lemma man_der2 k d : derivative_of (man_g1 k d) (man_g2 k d).
Proof.
  intros x. destruct d as [|[|d]]; [eapply (der_ext (cubic_of (300 / 4) (-300) 300 0))|eapply (der_ext (cubic_of (600 / 4) (-600) 600 0))|eapply (der_ext (cubic_of 0 2 0 0))]; try apply cubic_der;
    try (intros y; unfold man_g1, cubic_of; field); unfold man_g2; field.
Qed.
Definition man_src (p : point) (k : nat) : R := - sumN 3 (fun d => man_g2 k d (p d)).
Definition top_flux (p : point) (_ : list R) (k : nat) : R := man_g1 k 2 (p 2%nat).
Definition man_fem (n : nat) : fem R :=
  let m := MeshModel.box_mesh n n n 1 1 1 in
  mkFem hex_E (List.length (MeshModel.points m))
    (fun n d => let '(x, y, z) := nth n (MeshModel.points m) (0, 0, 0) in match d with 0%nat => x | 1%nat => y | _ => z end)
    (MeshModel.cells m) 1 (Some (fun _ => poisson_map)) None (fun u => u) (Some man_src) (Some [top_flux]) None.
Lemma man_mesh n : let m := MeshModel.box_mesh n n n 1 1 1 in has_mesh3 (man_fem n) (MeshModel.points m) (MeshModel.cells m).
Proof. split; [reflexivity|]. intros i x y z H. unfold man_fem. cbn [points]. rewrite (nth_error_nth _ _ _ H). auto. Qed.
Lemma man_hex n : (0 < n)%nat -> box_hex (man_fem n) ex_basix n n n 1 1 1.
Proof.
  intros Hn. repeat (split; [first [exact ex_documented | exact ex_exact_hex | assumption | lra]|]). split; [exact (man_mesh n)|]. split; [reflexivity|exact hex_E_ok].
Qed.
Definition side_plane (s : nat * bool) : point -> bool := plane 1 1 1 s.
(** five sides are held, u' = du/dz on the top *)
Definition held : list (nat * bool) := [(0, false); (0, true); (1, false); (1, true); (2, false)]%nat.
Definition man_value (p : point) : R := separable man_g p 0.
Definition man_dirichlet := (map side_plane held, [0; 0; 0; 0; 0]%nat, repeat man_value 5).
Lemma man_natural n : natural_sides (man_fem n) 1 1 1 man_g1 [(2%nat, true)] [side_plane (2%nat, true)] [top_flux].
Proof.
  split; [constructor; [intros []|constructor]|]. split; [intros s [<-|[]]; cbn; lia|]. split; [constructor; [|constructor]; apply (plane_picks (man_fem n) 1 1 1 (2%nat, true))|].
  split; [|reflexivity]. constructor; [|constructor]. intros p vars k Hk Hp. unfold sumN, outward, top_flux. cbn [seq sumR fst snd Nat.eqb]. ring.
Qed.
Definition man_inds (n : nat) := get_boundary_conditions_inds (man_fem n) [side_plane (2%nat, true)].
Definition man_problem (n : nat) : problem :=
  match fem_problem (man_fem n) (man_inds n) no_vars (unit_jac (man_fem n)) cjac0 (Some man_dirichlet) None None with Ok p => p | Err _ => per 4 end.
Lemma man_ok n : fem_problem (man_fem n) (man_inds n) no_vars (unit_jac (man_fem n)) cjac0 (Some man_dirichlet) None None = Ok (man_problem n).
Proof. reflexivity. Qed.
Lemma man_jac n : exact_jacobians (man_fem n) no_vars (unit_jac (man_fem n)).
Proof.
  apply (unit_jac_exact (man_fem n) (fun _ => poisson_map) eq_refl (poisson_linear (man_fem n)) eq_refl). intros vars G H k d HG Hk Hd. now apply HG.
Qed.
Lemma man_prescribed n i m k : applies (man_fem n) (map side_plane held) [0; 0; 0; 0; 0]%nat i m k -> nth i (repeat man_value 5) (fun _ => 0) (points (man_fem n) m) = separable man_g (points (man_fem n) m) k.
Proof.
  intros (Hi & Hk & _). cbn [held map List.length] in Hi. do 5 (destruct i as [|i]; [cbn in Hk |- *; subst k; reflexivity|]). lia.
Qed.
Lemma man_held n s m : In s held -> points (man_fem n) m (fst s) = side_coord 1 1 1 s -> fixed (man_fem n) (map side_plane held) [0; 0; 0; 0; 0]%nat m 0.
Proof.
  intros Hs Hp. assert (Hi : exists i, (i < 5)%nat /\ nth i held (0%nat, false) = s) by (destruct (In_nth _ _ (0%nat, false) Hs) as (i & Hi & E); exists i; split; [exact Hi|exact E]). destruct Hi as (i & Hi & E).
  exists i. split; [exact Hi|]. split; [do 5 (destruct i as [|i]; [reflexivity|]); lia|].
  rewrite (nth_indep _ _ (side_plane (0%nat, false))) by exact Hi. rewrite map_nth, E. unfold side_plane, plane. now apply Reqb_true.
Qed.
Lemma man_free n m k : (k < 1)%nat -> ~ fixed (man_fem n) (map side_plane held) [0; 0; 0; 0; 0]%nat m k -> side_free (man_fem n) 1 1 1 man_g1 [(2%nat, true)] m k.
Proof.
  intros Hk Hf s Hs Hp. replace k with 0%nat in * by lia. destruct (in_dec (fun x y : nat * bool => ltac:(decide equality; [apply Bool.bool_dec|apply Nat.eq_dec])) s held) as [Hh|Hh].
  - exfalso. apply Hf. now apply (man_held n s m).
  - left. cbn in Hs, Hh. intuition (subst; auto). now left.
Qed.
Lemma man_somewhere n k : (0 < n)%nat -> (k < 1)%nat -> exists m, (m < num_total_nodes (man_fem n))%nat /\ fixed (man_fem n) (map side_plane held) [0; 0; 0; 0; 0]%nat m k.
Proof.
  intros Hn Hk. replace k with 0%nat by lia. exists (node n n 0 0 0). split; [exact (node_lt (man_fem n) n n n 1 1 1 Hn Hn Hn eq_refl 0 0 0 ltac:(lia) ltac:(lia) ltac:(lia))|].
  apply (man_held n (0%nat, false)); [now left|]. cbn [fst]. rewrite (node_point (man_fem n) n n n 1 1 1 Hn Hn Hn (man_mesh n) eq_refl 0 0 0 0 ltac:(lia) ltac:(lia) ltac:(lia) ltac:(cbn; lia)). unfold side_coord. cbn [along INR fst snd]. unfold Rdiv. ring.
Qed.
Lemma ex_gauss : gauss_points ex_basix.
Proof.
  intros p d Hp Hd. cbn [make_quadrature ex_basix ex_quadrature fst map In] in Hp. pose proof g2_sq as Hg.
  repeat (destruct Hp as [<-|Hp]; [unfold pt; destruct d as [|[|[|d]]]; try lia; cbn [nth]; unfold lo, hi; nra|]). destruct Hp.
Qed.
(** the field x^2 *)
Definition sq (_ d : nat) (x : R) : R := match d with 0%nat => x ^ 2 | _ => 0 end.
Definition sq1 (_ d : nat) (x : R) : R := match d with 0%nat => 2 * x | _ => 0 end.
Definition sq2 (_ d : nat) : R := match d with 0%nat => 2 | _ => 0 end.
Lemma sq_facts : (forall k d, cubic (sq k d)) /\ (forall k d, derivative_of (sq k d) (sq1 k d)) /\ (forall k d, derivative_of (sq1 k d) (fun _ => sq2 k d)).
Proof.
  split; [|split]; intros k d.
  - destruct d as [|d]; [exists 0, 0, 1, 0|exists 0, 0, 0, 0]; intros x; unfold sq; ring.
  - intros x. destruct d as [|d]; [eapply (der_ext (cubic_of 0 0 1 0))|eapply (der_ext (cubic_of 0 0 0 0))]; try apply cubic_der; try (intros y; unfold sq, cubic_of; ring); unfold sq1; ring.
  - intros x. destruct d as [|d]; [eapply (der_ext (cubic_of 0 2 0 0))|eapply (der_ext (cubic_of 0 0 0 0))]; try apply cubic_der; try (intros y; unfold sq1, cubic_of; ring); unfold sq2; ring.
Qed.
Close Scope R_scope.
