(** * The Poisson example with a quadratic flux on three-node triangles. *)
From Coq Require Import String Lra Lia.
From Verif Require Import Prelude PreludeFacts FemModel FemFacts FemSpec FemAsmProofs FemGeoProofs BasisModel BasisSpec BasisProofs BasisQuadProofs MatModel SolverModel SolverSpec WellSpec MaxSpec ConnSpec RobModel RobSpec RobProofs.
Open Scope R_scope.
Open Scope list_scope.

Section Tri.
Context {V : Type}.
Variable F : fem V.
Variable B : basix.
Hypothesis HM : lagrange_mesh F B "TRI3".
Lemma tri_affine c : affine_cell F "TRI3" c (fun i j => physical_coos F c (S j) i - physical_coos F c 0 i) (physical_coos F c 0).
Proof. intros a i Ha Hi. cbn in Ha, Hi. unfold node_at, coord, sumN. destruct a as [|[|[|a]]]; try lia; cbn; lra. Qed.
(** the surface weights of triangles are lengths *)
Lemma tri_upright : nonneg_rule B interval 0 -> upright F.
Proof.
  intros Hw x p Hx Hp. pose proof HM as (HB & Ht & _ & _ & HE & _ & _ & Hd). destruct (cauchy_faces_ok F x Hx) as (Hc & Hf). destruct x as [[c f] cm]. cbn [fst snd] in *.
  assert (Hq : (0 < num_quads (f_ele F))%nat).
  { destruct (lagrange_supported _ Ht) as [Hs _]. destruct (tables_given B HB _ (f_ele F) Hs HE) as (fi & _ & EE). rewrite EE. cbn [num_quads tables].
    pose proof HB as (_ & _ & _ & _ & Hr & _). specialize (Hr (cell_of "TRI3") (gauss_of "TRI3")). destruct (make_quadrature B (cell_of "TRI3") (gauss_of "TRI3")) as [pts w]. destruct Hr as (Hl & Hs1 & _). cbn [fst].
    destruct pts; [|cbn; lia]. exfalso. destruct w; [|discriminate]. cbn in Hs1. lra. }
  rewrite (affine_nanson B HB F "TRI3" Ht HE c _ _ f p (tri_affine c) Hf).
  - apply Rmult_le_pos; [cbn; apply sqrt_pos|]. unfold nonneg_rule in Hw. rewrite Forall_forall in Hw. cbn [face_cell cell_of gauss_of].
    destruct (nth_in_or_default p (snd (make_quadrature B interval 0)) 0) as [Hi|Hi]; [now apply Hw|]. change (0 <= nth p (snd (make_quadrature B interval 0)) 0). rewrite Hi. lra.
  - rewrite <- (proj1 (affine_volume B HB F "TRI3" Ht HE c _ _ (tri_affine c)) 0%nat). now apply Hd.
Qed.
Variables (inds : list (list (nat * nat))) (iv : internal_vars V).
Hypothesis Hloads : loads_ok F inds iv.
Hypothesis HC : cb_class F.
Hypothesis Hw : nonneg_rule B interval 0.
Lemma cb_snd x : In x (cauchy_faces F) -> snd x = cb_map.
Proof.
  pose proof HC as (_ & _ & _ & _ & _ & _ & Hca). unfold cauchy_faces. rewrite Hca. unfold cb_cauchy, cauchy_selection. cbn [combine flat_map fst snd]. rewrite app_nil_r.
  intros H. apply in_app_or in H as [H|H]; apply in_map_iff in H as (s & <- & _); reflexivity.
Qed.
Lemma cb_unique u w : let '(locs, vecs, fns) := cb_dirichlet in held F locs vecs 0 ->
  discrete_solution F locs vecs fns inds iv u -> discrete_solution F locs vecs fns inds iv w ->
  (forall x p, In x (cauchy_faces F) -> (p < num_face_quads (f_ele F))%nat -> 0 <= at_face F u (fst x) p 0 + at_face F w (fst x) p 0) -> same_field F u w.
Proof.
  cbn [cb_dirichlet]. intros Hh Hu Hw' Hpos n k Hn Hk. pose proof HC as (Hv & _ & Htm & Hm & _). assert (k = 0%nat) by lia. subst k.
  refine (calm_unique F B "TRI3" HM Htm Hm inds iv Hloads _ _ _ (tri_upright Hw) (fun _ => False) u w Hu Hw' _ 0%nat Hk _ _ n Hn).
  - intros x p Hx Hp. rewrite (cb_snd x Hx). unfold dot_vec, cb_map. rewrite Hv. unfold sumN. cbn [seq sumR]. specialize (Hpos x p Hx Hp).
    pose proof (pow2_ge_0 (at_face F u (fst x) p 0%nat - at_face F w (fst x) p 0%nat)). nra.
  - intros m Hmm. destruct (Hh m Hmm) as (m' & H1 & H2 & H3). exists m'. auto.
  - intros cm [].
Qed.
End Tri.
Close Scope R_scope.
