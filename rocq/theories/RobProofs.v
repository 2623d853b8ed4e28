(** * Poisson problems with a flux law on the boundary. *)
From Coq Require Import String FunctionalExtensionality Classical Lra Lia.
From Verif Require Import Prelude PreludeFacts FemModel FemFacts FemSpec FemAsmProofs FemMatProofs FemGeoProofs BasisModel BasisSpec BasisProofs BasisProps MatModel MatSpec MatProofs SolverModel SolverSpec SolverProofs SolverFemProofs MmaNewtonProofs WellSpec WellProofs HeatWellProofs ConnSpec ConnRankProofs ConnMainProofs RobModel RobSpec RobWellProofs.
Open Scope R_scope.
Open Scope list_scope.

Lemma sumR_pos_zero {A} (l : list A) f : (forall x, In x l -> 0 <= f x) -> sumR l f = 0 -> forall x, In x l -> f x = 0.
Proof.
  induction l as [|y l IH]; intros Hp H x Hx; [destruct Hx|]. cbn [sumR] in H.
  assert (H0 : 0 <= f y) by (apply Hp; now left). assert (H1 : 0 <= sumR l f) by (apply sumR_nonneg; intros; apply Hp; now right).
  destruct Hx as [<-|Hx]; [lra|]. apply IH; [intros; apply Hp; now right|lra|exact Hx].
Qed.
Section Rob.
Context {V : Type}.
Variable F : fem V.
Variables (B : basix) (t : string).
Hypothesis HM : lagrange_mesh F B t.
Hypothesis Htm : tensor_map F = Some (fun _ => poisson_map).
Hypothesis Hmass : mass_map F = None.
Local Notation E := (f_ele F).
Lemma rb_face_vals : face_vals_sum_one F.
Proof. pose proof HM as (HB & Ht & _ & _ & HE & _). exact (proj1 (proj2 (proj2 (tables_meet_fem_assumptions _ F B t HB Ht HE)))). Qed.
Lemma at_face_sub u w s p k : at_face F (fun n l => u n l - w n l) s p k = at_face F u s p k - at_face F w s p k.
Proof. unfold at_face, convert_neumann_from_dof. rewrite <- sumN_sub. apply sumN_ext. intros; ring. Qed.
Lemma at_face_const d s p k x : (snd s < length (face_inds E))%nat -> (p < num_face_quads E)%nat -> (forall a, (a < num_nodes E)%nat -> d (cell_node F (fst s) a) k = x) -> at_face F d s p k = x.
Proof.
  intros Hs Hp H. unfold at_face, convert_neumann_from_dof. rewrite (sumN_ext _ _ (fun a => x * face_shape_vals E (snd s) p a)) by (intros a Ha; now rewrite H).
  rewrite sumN_scal. replace (sumN (num_nodes E) (face_shape_vals E (snd s) p)) with 1 by (symmetry; exact (rb_face_vals (snd s) p Hs Hp)). ring.
Qed.
Variables (inds : list (list (nat * nat))) (iv : internal_vars V).
Hypothesis Hloads : loads_ok F inds iv.
Variables (locs : list (point -> bool)) (vecs : list nat) (fns : list (point -> R)).
Hypothesis Hup : upright F.
(** two solutions have the same gradient and the same fluxes *)
Lemma calm u w : discrete_solution F locs vecs fns inds iv u -> discrete_solution F locs vecs fns inds iv w ->
  (forall x p, In x (cauchy_faces F) -> (p < num_face_quads E)%nat ->
     0 <= dot_vec F (fun k => snd x (at_face F u (fst x) p) k - snd x (at_face F w (fst x) p) k) (fun k => at_face F u (fst x) p k - at_face F w (fst x) p k)) ->
  energy_form F iv (fun n k => u n k - w n k) (fun n k => u n k - w n k) = 0 /\
  forall x p, In x (cauchy_faces F) -> (p < num_face_quads E)%nat -> 0 < nanson_scale F (fst x) p ->
     dot_vec F (fun k => snd x (at_face F u (fst x) p) k - snd x (at_face F w (fst x) p) k) (fun k => at_face F u (fst x) p k - at_face F w (fst x) p k) = 0.
Proof.
  intros Hu Hw Hmono. destruct Hloads as (Hiv & Hneu & Hfc). pose proof HM as (_ & _ & _ & _ & _ & Hwf & Hnc & _). set (d := fun n k => u n k - w n k).
  pose proof (difference_admissible F inds iv locs vecs fns u w Hu Hw : admissible F locs vecs d) as Hadm.
  pose proof (full_weak F inds iv locs vecs fns Hwf Hiv Hnc Hneu Hfc u d Hu Hadm) as E1. pose proof (full_weak F inds iv locs vecs fns Hwf Hiv Hnc Hneu Hfc w d Hw Hadm) as E2.
  unfold full_power in E1, E2. rewrite (power_form F Hmass iv) in E1, E2.
  assert (Ed : energy_form F iv d d = energy_form F iv u d - energy_form F iv w d).
  { replace d with (fun n k => -1 * w n k + u n k) at 1 by (apply functional_extensionality; intros; apply functional_extensionality; intros; unfold d; ring).
    rewrite (form_l F _ Htm (lp_linear F) iv). ring. }
  set (S := fun x => sumN (num_face_quads E) (fun p => nanson_scale F (fst x) p *
     dot_vec F (fun k => snd x (at_face F u (fst x) p) k - snd x (at_face F w (fst x) p) k) (fun k => at_face F u (fst x) p k - at_face F w (fst x) p k))).
  assert (Ec : cauchy_power F u d - cauchy_power F w d = sumR (cauchy_faces F) S).
  { unfold cauchy_power, S. rewrite <- sumR_sub. apply sumR_ext. intros x _. rewrite <- sumN_sub. apply sumN_ext. intros p _. unfold dot_vec. rewrite <- Rmult_minus_distr_l, <- sumN_sub. f_equal. apply sumN_ext. intros k _.
    unfold d. rewrite at_face_sub. ring. }
  assert (HS : forall x, In x (cauchy_faces F) -> 0 <= S x) by (intros x Hx; apply sumN_nonneg; intros p Hp; apply Rmult_le_pos; [now apply Hup|now apply Hmono]).
  pose proof (lp_nonneg F B t HM Htm iv d) as Hd. pose proof (sumR_nonneg _ _ HS) as Hs. split; [lra|]. intros x p Hx Hp Hpos.
  pose proof (sumR_pos_zero _ _ HS ltac:(lra) x Hx) as Z. unfold S in Z.
  pose proof (sumN_pos_zero _ _ (fun p Hp => Rmult_le_pos _ _ (Hup x p Hx Hp) (Hmono x p Hx Hp)) Z p Hp) as Z2. cbv beta in Z2. apply Rmult_integral in Z2 as [Z2|Z2]; [lra|exact Z2].
Qed.
Lemma calm_unique Q u w : discrete_solution F locs vecs fns inds iv u -> discrete_solution F locs vecs fns inds iv w ->
  (forall x p, In x (cauchy_faces F) -> (p < num_face_quads E)%nat ->
     0 <= dot_vec F (fun k => snd x (at_face F u (fst x) p) k - snd x (at_face F w (fst x) p) k) (fun k => at_face F u (fst x) p k - at_face F w (fst x) p k)) ->
  forall k, (k < vec F)%nat -> anchored F Q locs vecs k -> (forall cm, Q cm -> strict_flux F cm k) -> forall n, (n < num_total_nodes F)%nat -> u n k = w n k.
Proof.
  intros Hu Hw Hmono k Hk Ha HQ n Hn. destruct (calm u w Hu Hw Hmono) as (He & Hz). set (d := fun n k => u n k - w n k) in *.
  destruct (Ha n Hn) as (m & Hl & Hm & Hcase). pose proof (lp_linked F B t HM Htm iv d n m k He Hk Hl) as Hc.
  assert (Hdm : d m k = 0).
  { destruct Hcase as [Hf|(x & a & p & Hx & Hq & Han & -> & Hp & Hpos)]; [exact (difference_admissible F inds iv locs vecs fns u w Hu Hw m k Hm Hk Hf)|].
    pose proof (HQ _ Hq _ _ (Hz x p Hx Hp Hpos)) as Eq. destruct (cauchy_faces_ok F x Hx) as (Hcx & Hfx).
    assert (Ed : at_face F d (fst x) p k = d (cell_node F (fst (fst x)) a) k).
    { apply at_face_const; [exact Hfx|exact Hp|]. intros b Hb. apply (lp_cell F B t HM Htm iv d He); assumption. }
    unfold d in Ed at 1. rewrite at_face_sub in Ed. lra. }
  unfold d in Hc, Hdm. lra.
Qed.
Lemma monotone_unique : (forall x, In x (cauchy_faces F) -> monotone_flux F (snd x)) -> (forall k, (k < vec F)%nat -> anchored F (fun cm => strict_flux F cm k) locs vecs k) ->
  forall u w, discrete_solution F locs vecs fns inds iv u -> discrete_solution F locs vecs fns inds iv w -> same_field F u w.
Proof.
  intros Hm Ha u w Hu Hw n k Hn Hk. refine (calm_unique (fun cm => strict_flux F cm k) u w Hu Hw _ k Hk (Ha k Hk) (fun cm H => H) n Hn). intros x p Hx Hp. apply (Hm x Hx).
Qed.
(** without anything that holds the level, two solutions differ by a constant on every connected part *)
Lemma monotone_shift : (forall x, In x (cauchy_faces F) -> monotone_flux F (snd x)) ->
  forall u w, discrete_solution F locs vecs fns inds iv u -> discrete_solution F locs vecs fns inds iv w ->
  forall n m k, (k < vec F)%nat -> linked F n m -> u m k - w m k = u n k - w n k.
Proof.
  intros Hm u w Hu Hw n m k Hk Hl. destruct (calm u w Hu Hw (fun x p Hx Hp => Hm x Hx _ _)) as (He & _).
  exact (lp_linked F B t HM Htm iv (fun n k => u n k - w n k) n m k He Hk Hl).
Qed.
(** ** linear heat exchange *)
Hypothesis Hrob : robin_faces F.
Lemma rb_cells u s d c a k : (c < num_cells F)%nat -> (k < vec F)%nat ->
  cell_force F iv (add_step u s d) c a k = cell_force F iv u c a k + s * (cell_force F iv d c a k - cell_force F iv zero_field c a k).
Proof.
  intros Hc Hk. replace (add_step u s d) with (fun n k => s * d n k + u n k) by (apply functional_extensionality; intros; apply functional_extensionality; intros; unfold add_step; ring).
  rewrite (force_comb F _ Htm (lp_linear F) Hmass iv) by exact Hk.
  assert (Z : cell_force F iv zero_field c a k = 0).
  { pose proof (force_comb F _ Htm (lp_linear F) Hmass iv 1 zero_field zero_field c a k Hk) as H. replace (fun n l => 1 * zero_field n l + zero_field n l) with zero_field in H by (apply functional_extensionality; intros; apply functional_extensionality; intros; unfold zero_field; ring). lra. }
  rewrite Z. ring.
Qed.
Lemma at_face_step u s d x p k : at_face F (add_step u s d) x p k = at_face F u x p k + s * at_face F d x p k.
Proof. unfold at_face, convert_neumann_from_dof, add_step. rewrite <- sumN_scal, <- sumN_add. apply sumN_ext. intros; ring. Qed.
Lemma at_face_zero x p k : at_face F zero_field x p k = 0.
Proof. unfold at_face, convert_neumann_from_dof, zero_field. apply sumN_zero. intros; ring. Qed.
Lemma rb_faces u s d x a k : In x (cauchy_faces F) -> (k < vec F)%nat ->
  cauchy_force F (add_step u s d) x a k = cauchy_force F u x a k + s * (cauchy_force F d x a k - cauchy_force F zero_field x a k).
Proof.
  intros Hx Hk. destruct (Hrob x Hx) as (h & _ & Hh).
  assert (Ef : forall u, cauchy_force F u x a k = sumN (num_face_quads E) (fun p => (h * at_face F u (fst x) p k + snd x (fun _ => 0) k) * face_shape_vals E (snd (fst x)) p a * nanson_scale F (fst x) p)).
  { intros v. unfold cauchy_force, cauchy_values, cauchy_kernel. apply sumN_ext. intros p _. rewrite <- Hh by exact Hk. reflexivity. }
  rewrite !Ef, <- sumN_sub, <- sumN_scal, <- sumN_add. apply sumN_ext. intros p _. rewrite at_face_step, at_face_zero. ring.
Qed.
(** work of the exchanged heat *)
Definition exchange_form (d v : nodal) : R :=
  sumR (cauchy_faces F) (fun x => sumN (num_face_quads E) (fun p => nanson_scale F (fst x) p * dot_vec F (fun k => snd x (at_face F d (fst x) p) k - snd x (fun _ => 0) k) (at_face F v (fst x) p))).
Lemma rb_form d v : full_form F iv d v = energy_form F iv d v + exchange_form d v.
Proof.
  unfold full_form, full_power. rewrite !(power_form F Hmass iv).
  assert (Z : energy_form F iv zero_field v = 0).
  { pose proof (form_l F _ Htm (lp_linear F) iv 1 zero_field zero_field v) as H. replace (fun n l => 1 * zero_field n l + zero_field n l) with zero_field in H by (apply functional_extensionality; intros; apply functional_extensionality; intros; unfold zero_field; ring). lra. }
  rewrite Z. enough (exchange_form d v = cauchy_power F d v - cauchy_power F zero_field v) by lra.
  unfold exchange_form, cauchy_power. rewrite <- sumR_sub. apply sumR_ext. intros x Hx. rewrite <- sumN_sub. apply sumN_ext. intros p _. rewrite <- Rmult_minus_distr_l. f_equal. unfold dot_vec. rewrite <- sumN_sub. apply sumN_ext. intros k Hk.
  destruct (Hrob x Hx) as (h & _ & Hh). rewrite (Hh (at_face F zero_field (fst x) p) k Hk), at_face_zero. ring.
Qed.
Lemma rb_exchange h x p d v : In x (cauchy_faces F) -> robin_flux F h (snd x) ->
  dot_vec F (fun k => snd x (at_face F d (fst x) p) k - snd x (fun _ => 0) k) (at_face F v (fst x) p) = h * dot_vec F (at_face F d (fst x) p) (at_face F v (fst x) p).
Proof. intros Hx Hh. unfold dot_vec. rewrite <- sumN_scal. apply sumN_ext. intros k Hk. rewrite (Hh _ k Hk). ring. Qed.
Lemma rb_definite : (forall k, (k < vec F)%nat -> anchored F (exchanging F) locs vecs k) -> forall d, admissible F locs vecs d -> full_form F iv d d = 0 -> same_field F d (fun _ _ => 0).
Proof.
  intros Ha d Hadm H n k Hn Hk. rewrite rb_form in H. pose proof (lp_nonneg F B t HM Htm iv d) as Hd.
  assert (Hpos : forall x p, In x (cauchy_faces F) -> (p < num_face_quads E)%nat ->
     0 <= nanson_scale F (fst x) p * dot_vec F (fun k => snd x (at_face F d (fst x) p) k - snd x (fun _ => 0) k) (at_face F d (fst x) p)).
  { intros x p Hx Hp. destruct (Hrob x Hx) as (h & Hh0 & Hh). rewrite (rb_exchange h x p d d Hx Hh). apply Rmult_le_pos; [now apply Hup|]. apply Rmult_le_pos; [exact Hh0|]. apply sumN_nonneg. intros; apply Rle_0_sqr. }
  assert (Hx0 : 0 <= exchange_form d d) by (apply sumR_nonneg; intros x Hx; apply sumN_nonneg; intros p Hp; now apply Hpos).
  assert (He : energy_form F iv d d = 0) by lra. assert (Hx : exchange_form d d = 0) by lra.
  destruct (Ha k Hk n Hn) as (m & Hl & Hm & Hcase). rewrite <- (lp_linked F B t HM Htm iv d n m k He Hk Hl).
  destruct Hcase as [Hf|(x & a & p & Hxi & (h & Hh0 & Hh) & Han & -> & Hp & Hsc)]; [now apply Hadm|].
  pose proof (sumR_pos_zero _ _ (fun x Hx => sumN_nonneg _ _ (fun p Hp => Hpos x p Hx Hp)) Hx x Hxi) as Z. cbv beta in Z.
  pose proof (sumN_pos_zero _ _ (fun p Hp => Hpos x p Hxi Hp) Z p Hp) as Z2. cbv beta in Z2. rewrite (rb_exchange h x p d d Hxi Hh) in Z2.
  apply Rmult_integral in Z2 as [Z2|Z2]; [lra|]. apply Rmult_integral in Z2 as [Z2|Z2]; [lra|].
  pose proof (sumN_pos_zero _ _ (fun k _ => Rle_0_sqr (at_face F d (fst x) p k)) Z2 k Hk) as Z3. cbv beta in Z3. apply Rsqr_0_uniq in Z3.
  destruct (cauchy_faces_ok F x Hxi) as (_ & Hfx). rewrite <- Z3. symmetry. apply at_face_const; [exact Hfx|exact Hp|]. intros b Hb. apply (lp_cell F B t HM Htm iv d He); try assumption. now apply (cauchy_faces_ok F x).
Qed.
Variable jac : nodal -> (nat -> nat -> nat -> R) -> (nat -> R) -> (nat -> nat -> nat -> R) -> list (nat -> V) -> list (nat -> V) -> jac4.
Variable cjac : ((nat -> R) -> nat -> R) -> nodal -> (nat -> nat -> R) -> (nat -> R) -> jac4.
Hypothesis Hjac : exact_jacobians F iv jac.
Hypothesis Hcjac : exact_face_jacobians F cjac.
Variable eps : option R.
Variable P : problem.
Hypothesis HP : fem_problem F inds iv jac cjac (Some (locs, vecs, fns)) None eps = Ok P.
Hypothesis Hvecs : Forall (fun k => (k < vec F)%nat) vecs.
Lemma rb_loose k use_petsc : (k < vec F)%nat -> ~ anchored F (exchanging F) locs vecs k -> ~ solvable_problem P use_petsc.
Proof.
  intros Hk Hno. destruct Hloads as (Hiv & Hneu & Hfc). pose proof HM as (_ & _ & _ & _ & _ & Hwf & Hnc & _).
  apply not_all_ex_not in Hno as (n & Hno). apply imply_to_and in Hno as (Hn & Hno). destruct (indicator F n) as (f & Hf).
  set (w := (fun m l => if Nat.eqb l k then f m else 0) : nodal).
  assert (Hx : forall c l, (c < num_cells F)%nat -> exists x, (forall a, (a < num_nodes E)%nat -> w (cell_node F c a) l = x) /\ (x <> 0 -> forall a, (a < num_nodes E)%nat -> linked F n (cell_node F c a))).
  { intros c l Hc. unfold w. destruct (Nat.eqb l k); [|exists 0; split; [reflexivity|lra]].
    destruct (classic (exists a, (a < num_nodes E)%nat /\ linked F n (cell_node F c a))) as [(a & Ha & Hla)|Hnone].
    - exists 1. split; [|intros _ b Hb; now apply (linked_cell F n c a b)]. intros b Hb. destruct (Hf (cell_node F c b) (cell_node_lt F Hwf c b Hc Hb)) as [[_ ->]|[Hnl _]]; [reflexivity|]. exfalso. apply Hnl. now apply (linked_cell F n c a b).
    - exists 0. split; [|lra]. intros b Hb. destruct (Hf (cell_node F c b) (cell_node_lt F Hwf c b Hc Hb)) as [[Hl _]|[_ ->]]; [|reflexivity]. exfalso. apply Hnone. eauto. }
  apply (full_kernel F inds iv rb_cells rb_faces jac cjac Hjac Hcjac locs vecs fns eps P HP Hvecs Hwf Hiv Hnc Hneu Hfc w n k use_petsc).
  - intros m l Hm Hl Hfx. unfold w. destruct (Nat.eqb_spec l k) as [->|]; [|reflexivity]. destruct (Hf m Hm) as [[Hlk _]|[_ ->]]; [|reflexivity]. exfalso. apply Hno. eauto.
  - intros u. rewrite rb_form, (lp_form F Htm). rewrite (sumN_zero (num_cells F)).
    + unfold exchange_form. rewrite sumR_zero; [ring|]. intros x Hxi. apply sumN_zero. intros p Hp. destruct (cauchy_faces_ok F x Hxi) as (Hcx & Hfx). destruct (Hrob x Hxi) as (h & Hh0 & Hh). rewrite (rb_exchange h x p u w Hxi Hh).
      destruct (Req_dec (nanson_scale F (fst x) p) 0) as [->|Hne]; [ring|]. destruct (Req_dec h 0) as [->|Hne2]; [ring|].
      unfold dot_vec. rewrite (sumN_zero (vec F)); [ring|]. intros l Hl. destruct (Hx (fst (fst x)) l Hcx) as (y & Hy & Hyl).
      rewrite (at_face_const w (fst x) p l y Hfx Hp Hy). destruct (Req_dec y 0) as [->|Hny]; [ring|]. exfalso. apply Hno. 
      assert (Hnn : (0 < num_nodes E)%nat).
      { destruct (Nat.eq_dec (num_nodes E) 0) as [Hz|]; [|lia]. exfalso. pose proof (rb_face_vals (snd (fst x)) p Hfx Hp) as S. rewrite Hz in S. cbn in S. lra. }
      exists (cell_node F (fst (fst x)) 0). split; [now apply Hyl|]. split; [now apply cell_node_lt|]. right. exists x, 0%nat, p. split; [exact Hxi|]. split; [exists h; split; [lra|exact Hh]|]. split; [exact Hnn|]. split; [reflexivity|]. split; [exact Hp|]. pose proof (Hup x p Hxi Hp). lra.
    + intros c Hc. apply sumN_zero. intros q Hq. rewrite (sumN_zero (vec F)); [ring|]. intros l _. apply sumN_zero. intros d _. destruct (Hx c l Hc) as (y & Hy & _). rewrite (constant_grad F B t HM w c q l d y Hc Hq Hy). ring.
  - exact Hn.
  - exact Hk.
  - unfold w. rewrite Nat.eqb_refl. destruct (Hf n Hn) as [[_ ->]|[Hnl _]]; [lra|]. exfalso. apply Hnl. constructor.
Qed.
Lemma rb_solvable_iff use_petsc : solvable_problem P use_petsc <-> forall k, (k < vec F)%nat -> anchored F (exchanging F) locs vecs k.
Proof.
  destruct Hloads as (Hiv & Hneu & Hfc). pose proof HM as (_ & _ & _ & _ & _ & Hwf & Hnc & _). split.
  - intros Hs k Hk. apply NNPP. intros Hno. exact (rb_loose k use_petsc Hk Hno Hs).
  - intros Ha. exact (full_solvable F inds iv rb_cells rb_faces jac cjac Hjac Hcjac locs vecs fns eps P HP Hvecs Hwf Hiv Hnc Hneu Hfc (rb_definite Ha) use_petsc).
Qed.
Lemma rb_solved : (forall k, (k < vec F)%nat -> anchored F (exchanging F) locs vecs k) -> forall ev grad fuel precond guess use_petsc, exact_solvers ev -> exact_floats ev ->
  exists u, solver ev P grad fuel true precond guess use_petsc = Some (Ok u) /\ discrete_solution F locs vecs fns inds iv u /\
  forall w, discrete_solution F locs vecs fns inds iv w -> same_field F w u.
Proof.
  intros Ha. destruct Hloads as (Hiv & Hneu & Hfc). pose proof HM as (_ & _ & _ & _ & _ & Hwf & Hnc & _).
  exact (full_solved F inds iv rb_cells rb_faces jac cjac Hjac Hcjac locs vecs fns eps P HP Hvecs Hwf Hiv Hnc Hneu Hfc (rb_definite Ha)).
Qed.
End Rob.
Close Scope R_scope.
