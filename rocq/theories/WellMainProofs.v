(** * Well-posedness of LinearPoisson and LinearElasticity on box meshes. *)
From Coq Require Import String FunctionalExtensionality Classical Lra Lia.
From Verif Require Import Prelude PreludeFacts FemModel FemFacts FemSpec FemGeoProofs FemMatProofs BasisModel BasisSpec MatModel MatSpec MatProofs SolverModel SolverSpec SolverAdProofs BoxSpec BoxProofs BoxPatchProofs WellSpec WellProofs WellBoxProofs.
From Verif Require MeshModel.
Open Scope R_scope.

Section Main.
Context {V : Type}.
Variable F : fem V.
Variables (B : basix) (Nx Ny Nz : nat) (Lx Ly Lz : R).
Hypothesis HF : box_hex F B Nx Ny Nz Lx Ly Lz.
Hypothesis Hmass : mass_map F = None.
Hypothesis Hcau : cauchy_bc_info F = None.
Variables (inds : list (list (nat * nat))) (iv : internal_vars V).
Hypothesis Hloads : loads_ok F inds iv.
Variables (locs : list (point -> bool)) (vecs : list nat) (fns : list (point -> R)).
Lemma hex_wf : wf_mesh F.
Proof. destruct HF as (HB & Hq & Hx & Hy & Hz & H1 & H2 & H3 & Hm & Hn & HE). exact (box_wf B HB F Nx Ny Nz Lx Ly Lz Hx Hy Hz Hm Hn HE). Qed.
Lemma hex_cells : (0 < num_cells F)%nat.
Proof. destruct HF as (HB & Hq & Hx & Hy & Hz & H1 & H2 & H3 & Hm & Hn & HE). rewrite (box_num_cells F Nx Ny Nz Lx Ly Lz Hx Hy Hz Hm). nia. Qed.
Lemma hex_grads : grads_sum_zero F.
Proof. destruct HF as (HB & Hq & Hx & Hy & Hz & H1 & H2 & H3 & Hm & Hn & HE). exact (box_grads_sum B HB F HE). Qed.
Lemma hex_nodes : (0 < num_total_nodes F)%nat.
Proof.
  pose proof hex_cells as Hc. pose proof hex_wf as Hw. destruct HF as (HB & Hq & Hx & Hy & Hz & H1 & H2 & H3 & Hm & Hn & HE). destruct (box_dim B HB F HE) as [_ H8].
  unfold num_cells in Hc. unfold wf_mesh in Hw. destruct (cells F) as [|c l]; [cbn in Hc; lia|]. inversion Hw as [|? ? [Hl Hf] _]; subst. rewrite H8 in Hl.
  destruct c as [|n c]; [discriminate|]. inversion Hf; subst. lia.
Qed.

(** any symmetric, nonnegative form *)
Section Form.
Variable tm : list V -> mat -> mat.
Hypothesis Htm : tensor_map F = Some tm.
Hypothesis Hlin : linear_tensor F tm.
Hypothesis Hsym : forall u v, energy_form F iv u v = energy_form F iv v u.
Hypothesis Hpos : forall u, 0 <= energy_form F iv u u.
Hypothesis Hdef : forall d, admissible F locs vecs d -> energy_form F iv d d = 0 -> same_field F d (fun _ _ => 0).
Lemma form_minimises u w : discrete_solution F locs vecs fns inds iv u -> takes_values F locs vecs fns w ->
  potential F inds iv u <= potential F inds iv w /\ (potential F inds iv w = potential F inds iv u -> same_field F w u).
Proof.
  intros Hu Hw. destruct Hloads as (Hiv & Hneu & Hfc).
  pose proof (potential_excess F tm Htm Hlin Hmass Hcau inds iv hex_wf Hiv hex_cells Hneu Hfc locs vecs fns Hsym u w Hu Hw) as He.
  set (d := fun n k => -1 * u n k + w n k) in *. pose proof (Hpos d) as Hd. split; [lra|]. intros Heq.
  assert (Hz : same_field F d (fun _ _ => 0)).
  { apply Hdef; [|lra]. intros n k Hn Hk Hf. destruct (last_exists F locs vecs n k Hf) as (i & Hi). unfold d. destruct Hu as [Hu _]. rewrite (Hu i n k Hn Hi), (Hw i n k Hn Hi). ring. }
  intros n k Hn Hk. specialize (Hz n k Hn Hk). unfold d in Hz. lra.
Qed.
End Form.

Lemma poisson_definite : tensor_map F = Some (fun _ => poisson_map) -> (forall k, (k < vec F)%nat -> exists n, (n < num_total_nodes F)%nat /\ fixed F locs vecs n k) ->
  forall d, admissible F locs vecs d -> energy_form F iv d d = 0 -> same_field F d (fun _ _ => 0).
Proof.
  intros Htm Hfix d Hadm He n k Hn Hk. destruct HF as (HB & Hq & Hx & Hy & Hz & H1 & H2 & H3 & Hm & Hnn & HE). destruct (Hfix k Hk) as (n' & Hn' & Hf).
  rewrite (poisson_constant B HB Hq F Nx Ny Nz Lx Ly Lz Hx Hy Hz H1 H2 H3 Hm Hnn HE Htm iv d k n n' He Hk Hn Hn'). now apply Hadm.
Qed.
Lemma elastic_definite d0 hi : tensor_map F = Some (fun _ => linear_elastic_stress 3) -> vec F = 3%nat -> (d0 < 3)%nat ->
  (forall n k, (n < num_total_nodes F)%nat -> points F n d0 = side_coord Lx Ly Lz (d0, hi) -> (k < 3)%nat -> fixed F locs vecs n k) ->
  forall d, admissible F locs vecs d -> energy_form F iv d d = 0 -> same_field F d (fun _ _ => 0).
Proof.
  intros Htm Hv Hd0 Hfix d Hadm He. destruct HF as (HB & Hq & Hx & Hy & Hz & H1 & H2 & H3 & Hm & Hnn & HE).
  apply (elastic_clamped B HB Hq F Nx Ny Nz Lx Ly Lz Hx Hy Hz H1 H2 H3 Hm Hnn HE Htm Hv iv d d0 hi He Hd0). intros n k Hn Hp Hk. apply Hadm; [exact Hn|now rewrite Hv|now apply Hfix].
Qed.
End Main.
Close Scope R_scope.
