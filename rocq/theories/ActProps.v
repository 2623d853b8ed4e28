(** * Growing meshes and the thermal example: theorems. *)
From Coq Require Import Lra Lia Sorted.
From Verif Require Import Prelude PreludeFacts FemModel FemFacts FemSpec FemAsmProofs FemGeoProofs FemExamples MatExamples
  ActModel ActSpec ActProofs ActThermalProofs.
Open Scope R_scope.

(** ** C64 the active mesh *)
Theorem active_mesh_coherent : forall P (m : mesh P) tab, length tab = length (m_cells m) ->
  Forall (Forall (fun n => (n < length (m_points m))%nat)) (m_cells m) ->
  exists am pm cm, get_active_mesh m tab = Ok (am, pm, cm)
  (* the active cells, in order *)
  /\ length (m_cells am) = length (filter (fun b => b) tab)
  /\ (forall k, (k < length (m_cells am))%nat -> exists c, active tab c /\ rank tab c = k)
  /\ (forall c c', active tab c -> active tab c' -> (c < c')%nat -> (rank tab c < rank tab c')%nat)
  /\ (forall c, active tab c -> nth_error cm c = Some (rank tab c))
  (* their corners: the same nodes, the same coordinates *)
  /\ (forall c, active tab c -> exists cell cell', nth_error (m_cells m) c = Some cell /\ nth_error (m_cells am) (rank tab c) = Some cell'
        /\ Forall2 (fun n j => nth_error pm j = Some n /\ exists p, nth_error (m_points m) n = Some p /\ nth_error (m_points am) j = Some p) cell cell')
  (* the points: exactly those used, each once, in their old order *)
  /\ StronglySorted lt pm /\ length (m_points am) = length pm
  /\ (forall n, In n pm <-> exists c, active tab c /\ In n (nth c (m_cells m) []))
  /\ (forall j n, nth_error pm j = Some n -> nth_error (m_points am) j = nth_error (m_points m) n).
Proof.
  intros P m tab Hl Hn. destruct (active_mesh_ok m tab) as (am & pm & cm & E); [intros c Hc; rewrite <- Hl; now apply active_length|exact Hn|]. exists am, pm, cm. split; [exact E|].
  split; [exact (cells_count m tab am pm cm E)|]. split; [|split; [|split; [|split; [|split; [|split; [|split]]]]]].
  - intros k Hk. rewrite (cells_count m tab am pm cm E), <- argwhere_count in Hk. apply nth_error_Some in Hk. destruct (nth_error _ k) as [c|] eqn:Ek; [|congruence]. exists c. exact (rank_of tab k c Ek).
  - intros c c' Ha Ha' Hc. exact (rank_lt tab c c' Ha Hc).
  - exact (cells_map m tab am pm cm E).
  - intros c Hc. destruct (cell_corners m tab am pm cm E c Hc) as (cell & cell' & E1 & E2 & H). exists cell, cell'. split; [exact E1|]. split; [exact E2|].
    assert (Hin : forall n, In n cell -> (n < length (m_points m))%nat).
    { intros n Hi. rewrite Forall_forall in Hn. apply nth_error_In in E1. specialize (Hn _ E1). rewrite Forall_forall in Hn. now apply Hn. }
    clear E1 E2. induction H as [|n j r r' Hj Hr IH]; [constructor|]. constructor; [|apply IH; intros; apply Hin; now right]. split; [exact Hj|].
    assert (Hlt := Hin n (or_introl eq_refl)). apply nth_error_Some in Hlt. destruct (nth_error (m_points m) n) as [p|] eqn:Ep; [|congruence]. exists p. split; [reflexivity|].
    rewrite <- Ep. exact (points_at m tab am pm cm E j n Hj).
  - exact (points_sorted m tab am pm cm E).
  - exact (points_count m tab am pm cm E).
  - exact (used_points m tab am pm cm E).
  - exact (points_at m tab am pm cm E).
Qed.
Print Assumptions active_mesh_coherent.
(** four tetrahedra on eight labelled points; the first and the third are active *)
Definition tets : mesh nat := mkMesh [10; 11; 12; 13; 14; 15; 16; 17]%nat [[0; 1; 2; 3]; [1; 2; 3; 4]; [2; 7; 4; 5]; [2; 3; 4; 5]]%nat.
Example active_mesh_case : get_active_mesh tets [true; false; true; false]
  = Ok (mkMesh [10; 11; 12; 13; 14; 15; 17] [[0; 1; 2; 3]; [2; 6; 4; 5]], [0; 1; 2; 3; 4; 5; 7], [0; 0; 1; 0])%nat.
Proof. reflexivity. Qed.

(** ** C63 exterior faces *)
Theorem exterior_faces_found : forall P order np nn face_inds (m : mesh P) tab am pm cm, set_order order -> wf_cells np nn face_inds (m_cells m) ->
  length tab = length (m_cells m) -> get_active_mesh m tab = Ok (am, pm, cm) ->
  ((exists s, exterior (m_cells m) face_inds tab s) ->
     exists ext cf t, initialize_hash_map order face_inds (m_cells m) tab cm = Ok (ext, cf, t) /\ reports (m_cells m) face_inds tab ext)
  /\ ((forall s, ~ exterior (m_cells m) face_inds tab s) -> initialize_hash_map order face_inds (m_cells m) tab cm = Err IndexError).
Proof.
  intros P order np nn face_inds m tab am pm cm Ho Hwf Hl Em. destruct (init_spec order np nn face_inds m Ho Hwf tab am pm cm Hl Em) as (H1 & H2). split; [|exact H2].
  intros Hx. destruct (H1 Hx) as (ext & cf & t & E & _ & _ & Hr). eauto.
Qed.
Print Assumptions exterior_faces_found.
Theorem exterior_faces_after_updates : forall order np nn face_inds cells tab cf t ext, set_order order -> wf_cells np nn face_inds cells ->
  face_history order face_inds cells tab cf t ext -> reports cells face_inds tab ext.
Proof. intros order np nn face_inds cells tab cf t ext Ho Hwf H. apply (history_inv order np nn face_inds cells tab cf t ext Ho Hwf H). Qed.
Print Assumptions exterior_faces_after_updates.
Theorem exterior_faces_update_goes_on : forall order np nn face_inds cells tab cf t ext P (m : mesh P) tab' am pm cm, set_order order -> wf_cells np nn face_inds cells ->
  face_history order face_inds cells tab cf t ext -> m_cells m = cells -> growing tab tab' -> get_active_mesh m tab' = Ok (am, pm, cm) ->
  (exists s, exterior cells face_inds tab' s) ->
  exists ext' t' ext0 cf0 t0, update_hash_map order tab tab' cm cf t = Ok (ext', t') /\ initialize_hash_map order face_inds cells tab' cm = Ok (ext0, cf0, t0)
  /\ face_history order face_inds cells tab' cf t' ext' /\ Permutation ext' ext0.
Proof.
  intros order np nn face_inds cells tab cf t ext P m tab' am pm cm Ho Hwf H Hm Hg Em Hx. destruct (history_inv order np nn face_inds cells tab cf t ext Ho Hwf H) as (Hl & Ecf & Ht & _).
  assert (Hl' : length tab' = length cells) by (rewrite <- Hl; symmetry; apply Hg). subst cells.
  destruct (update_spec order np nn face_inds m Ho Hwf tab tab' am pm cm cf t Hl' Hg Em Ecf Ht) as (H1 & _). destruct (H1 Hx) as (ext' & t' & E & _ & Hr).
  destruct (init_spec order np nn face_inds m Ho Hwf tab' am pm cm Hl' Em) as (H2 & _). destruct (H2 Hx) as (ext0 & cf0 & t0 & E0 & _ & _ & Hr0).
  exists ext', t', ext0, cf0, t0. split; [exact E|]. split; [exact E0|]. split; [exact (fh_update _ _ _ _ _ _ _ _ _ _ _ _ _ _ _ H Hg eq_refl Em E)|]. exact (reports_perm _ _ _ _ _ Hr Hr0).
Qed.
Print Assumptions exterior_faces_update_goes_on.
Definition tet_faces : list (list nat) := [[0; 1; 2]; [0; 1; 3]; [0; 2; 3]; [1; 2; 3]]%nat.
(** the first two share a face; then the last joins, sharing one with the second *)
Example exterior_faces_case : wf_cells 8 4 tet_faces (m_cells tets)
  /\ exists t t', face_history (fun l => l) tet_faces (m_cells tets) [true; true; false; false]
        [[[0; 1; 2]; [0; 1; 3]; [0; 2; 3]; [1; 2; 3]]; [[1; 2; 3]; [1; 2; 4]; [1; 3; 4]; [2; 3; 4]]; [[2; 4; 7]; [2; 5; 7]; [2; 4; 5]; [4; 5; 7]]; [[2; 3; 4]; [2; 3; 5]; [2; 4; 5]; [3; 4; 5]]]%nat
        t [(0, 0); (0, 1); (0, 2); (1, 1); (1, 2); (1, 3)]%nat
     /\ face_history (fun l => l) tet_faces (m_cells tets) [true; true; false; true]
        [[[0; 1; 2]; [0; 1; 3]; [0; 2; 3]; [1; 2; 3]]; [[1; 2; 3]; [1; 2; 4]; [1; 3; 4]; [2; 3; 4]]; [[2; 4; 7]; [2; 5; 7]; [2; 4; 5]; [4; 5; 7]]; [[2; 3; 4]; [2; 3; 5]; [2; 4; 5]; [3; 4; 5]]]%nat
        t' [(0, 0); (0, 1); (0, 2); (1, 1); (1, 2); (2, 1); (2, 2); (2, 3)]%nat.
Proof.
  split; [split; repeat constructor|]. eexists. eexists.
  match goal with |- ?A /\ _ => assert (H : A) end.
  { eapply (fh_init _ _ _ _ nat tets); reflexivity. }
  split; [exact H|]. eapply (fh_update _ _ _ _ _ _ _ [true; true; false; true] nat tets); [exact H| |reflexivity|reflexivity|reflexivity].
  split; [reflexivity|]. intros [|[|[|[|c]]]]; unfold active; cbn; auto; discriminate.
Qed.
(** cells that are switched off again are not noticed: their faces stay in the list, under the numbers of other cells *)
Theorem deactivation_refuted : ~ (forall order np nn face_inds cells tab cf t ext P (m : mesh P) tab' am pm cm ext' t', set_order order -> wf_cells np nn face_inds cells ->
  face_history order face_inds cells tab cf t ext -> m_cells m = cells -> length tab' = length tab -> get_active_mesh m tab' = Ok (am, pm, cm) ->
  update_hash_map order tab tab' cm cf t = Ok (ext', t') -> reports cells face_inds tab' ext').
Proof.
  intros H. set (tab := [true; true; false; false]). destruct (get_active_mesh tets tab) as [((am, pm), cm)|] eqn:Em; [|discriminate].
  destruct (initialize_hash_map (fun l => l) tet_faces (m_cells tets) tab cm) as [((ext, cf), t)|] eqn:Ei; [|vm_compute in Em; injection Em as <- <- <-; discriminate].
  pose proof (fh_init (fun l => l) tet_faces (m_cells tets) tab nat tets am pm cm ext cf t eq_refl eq_refl Em Ei) as Hh.
  vm_compute in Em. injection Em as <- <- <-. vm_compute in Ei. injection Ei as <- <- <-.
  specialize (H (fun l => l) 8%nat 4%nat tet_faces _ _ _ _ _ nat tets [true; false; false; false] _ _ _ _ _ (fun l => Permutation_refl l) (proj1 exterior_faces_case) Hh eq_refl eq_refl eq_refl eq_refl).
  destruct H as (H & _). vm_compute in H. apply NoDup_cons_iff in H. destruct H as (_ & H). apply NoDup_cons_iff in H. destruct H as (H & _). apply H. cbn. tauto.
Qed.
Print Assumptions deactivation_refuted.

(** ** C109 the thin-wall loop *)
Definition solves_in_place (solve : mesh point -> list face -> list R -> list R) : Prop := forall a f s, length (solve a f s) = length s.
Theorem wall_grows : forall order rb nn face_inds full centroids tab w0 cf lasers solves w,
  set_order order -> wf_cells (length (m_points full)) nn face_inds (m_cells full) -> length centroids = length (m_cells full) -> length tab = length (m_cells full) ->
  length solves = length lasers -> Forall solves_in_place solves ->
  wall_start order face_inds full tab = Ok (w0, cf) -> wall_steps order rb full centroids cf solves w0 lasers = Ok w ->
  (* a cell is active once the laser has passed above it within the beam radius *)
  (forall c, active (w_tab w) c <-> active tab c \/ exists x laser, nth_error centroids c = Some x /\ In laser lasers
       /\ x 2%nat < laser 2%nat /\ (x 0%nat - laser 0%nat) ^ 2 + (x 1%nat - laser 1%nat) ^ 2 <= rb ^ 2)
  /\ reports (m_cells full) face_inds (w_tab w) (w_faces w)
  /\ length (w_sol w) = length (m_points full)
  /\ forall n, (n < length (m_points full))%nat -> (forall c, active (w_tab w) c -> ~ In n (nth c (m_cells full) [])) -> nth_error (w_sol w) n = Some 300.
Proof.
  intros order rb nn face_inds full cs tab w0 cf lasers solves w Ho Hwf Hcs Hl Hsl Hs E0 E. destruct (start_inv order nn face_inds full Ho Hwf tab w0 cf Hl E0) as (I0 & Ht).
  destruct (steps_inv order rb nn face_inds full cs Ho Hwf Hcs cf solves lasers w0 w I0 E Hsl Hs) as ((H1 & H2 & H3 & H4 & H5 & H6) & Ha). rewrite Ht in Ha.
  split; [|split; [exact H4|split; [exact H5|exact H6]]]. intros c. rewrite Ha. split; (intros [H|(x & l & Hx & Hl' & Hn)]; [now left|right; exists x, l; split; [exact Hx|]; split; [exact Hl'|]]).
  - unfold centroid_near in Hn. apply Bool.andb_true_iff in Hn. destruct Hn as (Hz & Hd). apply Rltb_true in Hz. apply Bool.negb_true_iff, Rltb_false in Hd. auto.
  - unfold centroid_near. apply Bool.andb_true_iff. split; [apply Rltb_true; apply Hn|apply Bool.negb_true_iff, Rltb_false; apply Hn].
Qed.
Print Assumptions wall_grows.
Theorem wall_step_solves_active_part : forall order rb nn face_inds full centroids tab w0 cf lasers solves w solve laser w',
  set_order order -> wf_cells (length (m_points full)) nn face_inds (m_cells full) -> length centroids = length (m_cells full) -> length tab = length (m_cells full) ->
  length solves = length lasers -> Forall solves_in_place solves -> solves_in_place solve ->
  wall_start order face_inds full tab = Ok (w0, cf) -> wall_steps order rb full centroids cf solves w0 lasers = Ok w ->
  wall_step order rb full centroids cf solve w laser = Ok w' ->
  exists am pm cm sol, get_active_mesh full (w_tab w') = Ok (am, pm, cm) /\ length sol = length pm
  (* the problem gets the current temperatures of the active points ... *)
  /\ (forall j n, nth_error pm j = Some n -> nth_error sol j = nth_error (w_sol w) n)
  (* ... and the exterior faces; its result replaces those temperatures and no others *)
  /\ (forall j n, nth_error pm j = Some n -> nth_error (w_sol w') n = nth_error (solve am (w_faces w') sol) j)
  /\ (forall n, ~ In n pm -> nth_error (w_sol w') n = nth_error (w_sol w) n).
Proof.
  intros order rb nn face_inds full cs tab w0 cf lasers solves w solve laser w' Ho Hwf Hcs Hl Hsl Hs Hs1 E0 E E1. destruct (start_inv order nn face_inds full Ho Hwf tab w0 cf Hl E0) as (I0 & Ht).
  destruct (steps_inv order rb nn face_inds full cs Ho Hwf Hcs cf solves lasers w0 w I0 E Hsl Hs) as (I1 & _).
  destruct (step_inv order rb nn face_inds full cs Ho Hwf Hcs cf w solve laser w' I1 E1 Hs1) as (_ & _ & am & pm & cm & sol & H1 & H2 & H3 & H4).
  exists am, pm, cm, sol. split; [exact H1|]. split; [exact (take_length _ _ _ H2)|]. split; [intros j n Hj; exact (take_nth _ _ _ _ _ H2 Hj)|]. split; [exact H3|exact H4].
Qed.
Print Assumptions wall_step_solves_active_part.
Theorem wall_step_succeeds : forall order rb nn face_inds full centroids tab w0 cf lasers solves w solve laser,
  set_order order -> wf_cells (length (m_points full)) nn face_inds (m_cells full) -> length centroids = length (m_cells full) -> length tab = length (m_cells full) ->
  length solves = length lasers -> Forall solves_in_place solves ->
  wall_start order face_inds full tab = Ok (w0, cf) -> wall_steps order rb full centroids cf solves w0 lasers = Ok w ->
  (exists s, exterior (m_cells full) face_inds (activate rb centroids laser (w_tab w)) s) ->
  exists w', wall_step order rb full centroids cf solve w laser = Ok w'.
Proof.
  intros order rb nn face_inds full cs tab w0 cf lasers solves w solve laser Ho Hwf Hcs Hl Hsl Hs E0 E Hx. destruct (start_inv order nn face_inds full Ho Hwf tab w0 cf Hl E0) as (I0 & Ht).
  destruct (steps_inv order rb nn face_inds full cs Ho Hwf Hcs cf solves lasers w0 w I0 E Hsl Hs) as (I1 & _). exact (step_ok order rb nn face_inds full cs Ho Hwf Hcs cf w solve laser I1 Hx).
Qed.
Print Assumptions wall_step_succeeds.
(** two tetrahedra, the second built by a laser above it *)
Definition two_tets : mesh point := mkMesh (map pick [[0; 0; 0]; [1; 0; 0]; [0; 1; 0]; [0; 0; 1]; [1; 1; 1]; [5; 5; 5]]) [[0; 1; 2; 3]; [1; 2; 3; 4]]%nat.
Definition two_centroids : list point := map pick [[1/4; 1/4; 1/4]; [1/2; 1/2; 1/2]].
Definition above : point := pick [1/2; 1/2; 2].
Definition hotter (_ : mesh point) (_ : list face) (s : list R) : list R := map (fun x => x + 5) s.
Example wall_case : exists w0 cf w, wall_start (fun l => l) tet_faces two_tets [true; false] = Ok (w0, cf)
  /\ wall_steps (fun l => l) (1/10) two_tets two_centroids cf [hotter] w0 [above] = Ok w
  /\ w_tab w0 = [true; false] /\ w_tab w = [true; true] /\ w_faces w = [(0, 0); (0, 1); (0, 2); (1, 1); (1, 2); (1, 3)]%nat
  /\ w_sol w = [300 + 5; 300 + 5; 300 + 5; 300 + 5; 300 + 5; 300].
Proof.
  assert (Ea : activate (1/10) two_centroids above [true; false] = [true; true]).
  { unfold activate, two_centroids. cbn [map combine fst snd orb]. replace (centroid_near (1 / 10) above (pick [1 / 2; 1 / 2; 1 / 2])) with true; [reflexivity|]. symmetry. unfold centroid_near, above, pick. cbn [nth].
    apply Bool.andb_true_iff. split; [apply Rltb_true; lra|apply Bool.negb_true_iff, Rltb_false; lra]. }
  eexists. eexists. eexists. split; [reflexivity|]. split; [unfold wall_steps, wall_step; cbn [w_tab]; rewrite Ea; reflexivity|]. repeat split; reflexivity.
Qed.

(** ** C110 heat of one step *)
Definition thermal_tables (F : fem (nat -> R)) : Prop := wf_mesh F /\ (0 < num_cells F)%nat /\ grads_sum_zero F /\ vals_sum_one F /\ face_vals_sum_one F.
Definition stored_heat (F : fem (nat -> R)) (rho Cp : R) (old_sol sol : nodal) : R :=
  sumN (num_cells F) (fun c => sumN (num_quads (f_ele F)) (fun q => JxW F c q * (rho * Cp * (at_quad F sol c q 0%nat - at_quad F old_sol c q 0%nat)))).
(** convection with 50 W/m2K to 300 K, explicit; a Gaussian beam of radius 1 mm and 0.4 * 500 W *)
Definition convection (F : fem (nat -> R)) (old_sol : nodal) (s : face) (p : nat) : R := 50 * (300 - at_face F old_sol s p 0%nat).
Definition beam (F : fem (nat -> R)) (laser : point) (s : face) (p : nat) : R :=
  let x := surface_quad_point F s p in
  2 * (4 / 10) * 500 / (PI * (/ 1000) ^ 2) * exp (- 2 * ((x 0%nat - laser 0%nat) ^ 2 + (x 1%nat - laser 1%nat) ^ 2) / (/ 1000) ^ 2).
Definition is_top_of (F : fem (nat -> R)) (ext tops : list face) : Prop :=
  (exists keep, tops = filter keep ext) /\ forall s, In s tops <-> In s ext /\ horizontal (face_points F s).
Theorem thin_wall_heat : forall F rho Cp dt laser ext old_sol sol, conduction F rho Cp dt (thin_wall_laser_on laser) -> thermal_tables F -> faces_ok F ext -> dt <> 0 ->
  exists inds iv r tops, thermal_init F ext old_sol = Ok (inds, iv) /\ compute_residual_vars F inds sol iv = Ok r /\ is_top_of F ext tops /\
  stored_heat F rho Cp old_sol sol = dt * (sumN (num_total_nodes F) (fun n => r n 0%nat) + through F ext (convection F old_sol) + through F tops (beam F laser)).
Proof.
  intros F rho Cp dt laser ext old_sol sol HF (H1 & H2 & H3 & H4 & H5) Hfo Hdt. destruct (balance F rho Cp dt _ _ ext old_sol HF H1 H2 sol H3 H4 H5 Hfo Hdt) as (inds & iv & r & E1 & E2 & E3).
  exists inds, iv, r, (filter (fun s => is_top (face_points F s)) ext). split; [exact E1|]. split; [exact E2|]. split; [|exact E3].
  split; [eexists; reflexivity|]. intros s. rewrite filter_In, is_top_iff. reflexivity.
Qed.
Print Assumptions thin_wall_heat.
(** bare_plate.py gives its functions in the other order *)
Theorem bare_plate_heat : forall F rho Cp dt laser ext old_sol sol, conduction F rho Cp dt (bare_plate_fluxes laser) -> thermal_tables F -> faces_ok F ext -> dt <> 0 ->
  exists inds iv r tops, thermal_init F ext old_sol = Ok (inds, iv) /\ compute_residual_vars F inds sol iv = Ok r /\ is_top_of F ext tops /\
  stored_heat F rho Cp old_sol sol = dt * (sumN (num_total_nodes F) (fun n => r n 0%nat) + through F ext (beam F laser) + through F tops (convection F old_sol)).
Proof.
  intros F rho Cp dt laser ext old_sol sol HF (H1 & H2 & H3 & H4 & H5) Hfo Hdt. destruct (balance F rho Cp dt _ _ ext old_sol HF H1 H2 sol H3 H4 H5 Hfo Hdt) as (inds & iv & r & E1 & E2 & E3).
  exists inds, iv, r, (filter (fun s => is_top (face_points F s)) ext). split; [exact E1|]. split; [exact E2|]. split; [|exact E3].
  split; [eexists; reflexivity|]. intros s. rewrite filter_In, is_top_iff. reflexivity.
Qed.
Print Assumptions bare_plate_heat.
(** a linear tetrahedron with one quadrature point per cell and per face, its first face on top *)
Definition tet4 : ele :=
  mkEle 3 1 4 1 (fun _ _ => 1/4) (fun _ a j => pick2 [[-1; -1; -1]; [1; 0; 0]; [0; 1; 0]; [0; 0; 1]] a j) (fun _ => 1/6)
    (fun f _ a => pick2 [[1/3; 1/3; 1/3; 0]; [1/3; 1/3; 0; 1/3]; [1/3; 0; 1/3; 1/3]; [0; 1/3; 1/3; 1/3]] f a)
    (fun _ _ a j => pick2 [[-1; -1; -1]; [1; 0; 0]; [0; 1; 0]; [0; 0; 1]] a j)
    (fun _ _ => 1/2) (pick2 [[0; 0; -1]; [0; -1; 0]; [-1; 0; 0]; [1; 1; 1]]) tet_faces.
Definition tet_heat (rho Cp dt : R) fluxes : fem (nat -> R) :=
  mkFem tet4 4 (pick2 [[0; 0; 2]; [0; 1; 2]; [1; 0; 2]; [0; 0; 1]]) [[0; 1; 2; 3]]%nat 1 (Some th_tensor_map) (Some (fun _ => th_mass_map rho Cp dt)) (th_mass_map rho Cp dt) None (Some fluxes) None.
Example thermal_case : forall rho Cp dt fluxes, conduction (tet_heat rho Cp dt fluxes) rho Cp dt fluxes /\ thermal_tables (tet_heat rho Cp dt fluxes)
  /\ faces_ok (tet_heat rho Cp dt fluxes) [(0, 0); (0, 1); (0, 2); (0, 3)]%nat
  /\ is_top_of (tet_heat rho Cp dt fluxes) [(0, 0); (0, 1); (0, 2); (0, 3)]%nat [(0, 0)]%nat.
Proof.
  intros rho Cp dt fluxes. split; [repeat split|]. split; [|split].
  - split; [repeat constructor|]. split; [cbn; lia|]. split; [|split].
    + intros q j Hq Hj; cbn in Hq, Hj; unfold sumN; lt_cases q; lt_cases j; cbn; unfold pick2, pick; cbn; lra.
    + intros q Hq; cbn in Hq; unfold sumN; lt_cases q; cbn; lra.
    + intros f p Hf Hp; cbn in Hf, Hp; unfold sumN; lt_cases p; lt_cases f; cbn; unfold pick2, pick; cbn; lra.
  - repeat constructor; cbn; lia.
  - split; [exists (fun s => Nat.eqb (snd s) 0); reflexivity|]. intros s. split.
    + intros [ <- |[]]. split; [now left|]. intros p0 E. cbn in E. injection E as <-. unfold physical_coos, cell_node. cbn. unfold pick2, pick. cbn. split; [lra|].
      intros p [ <- |[ <- |[ <- |[]]]]; cbn; rewrite Rabs_right; lra.
    + intros (H1 & H2). destruct H1 as [ <- |[ <- |[ <- |[ <- |[]]]]]; [now left| | |]; exfalso; specialize (H2 _ eq_refl); destruct H2 as (_ & H2).
      * specialize (H2 _ (or_intror (or_intror (or_introl eq_refl)))). revert H2. unfold physical_coos, cell_node. cbn. unfold pick2, pick. cbn. unfold Rabs. destruct (Rcase_abs _); lra.
      * specialize (H2 _ (or_intror (or_intror (or_introl eq_refl)))). revert H2. unfold physical_coos, cell_node. cbn. unfold pick2, pick. cbn. unfold Rabs. destruct (Rcase_abs _); lra.
      * specialize (H2 _ (or_intror (or_intror (or_introl eq_refl)))). revert H2. unfold physical_coos, cell_node. cbn. unfold pick2, pick. cbn. unfold Rabs. destruct (Rcase_abs _); lra.
Qed.
Theorem bare_plate_pairing_refuted : ~ (forall F rho Cp dt laser ext old_sol sol inds iv r tops, conduction F rho Cp dt (bare_plate_fluxes laser) -> thermal_tables F -> faces_ok F ext -> dt <> 0 ->
  thermal_init F ext old_sol = Ok (inds, iv) -> compute_residual_vars F inds sol iv = Ok r -> is_top_of F ext tops ->
  stored_heat F rho Cp old_sol sol = dt * (sumN (num_total_nodes F) (fun n => r n 0%nat) + through F ext (convection F old_sol) + through F tops (beam F laser))).
Proof.
  intros H. set (laser := fun _ : nat => 0). set (F := tet_heat 1 1 1 (bare_plate_fluxes laser)). destruct (thermal_case 1 1 1 (bare_plate_fluxes laser)) as (A1 & A2 & A3 & A4). fold F in A1, A2, A3, A4.
  set (T := fun _ _ : nat => 300). set (ext := [(0, 1)]%nat).
  assert (Hfo : faces_ok F ext) by (repeat constructor; cbn; lia).
  assert (Hnone : forall tops, is_top_of F ext tops -> tops = []).
  { intros tops (_ & Ht). destruct tops as [|s r]; [reflexivity|]. exfalso. assert (Hs : In s (s :: r)) by now left. apply Ht in Hs. destruct Hs as ([ <- |[]] & Hh).
    assert (Hin : In (0, 1)%nat [(0, 0)]%nat) by (apply A4; split; [right; now left|exact Hh]). destruct Hin as [Hin|[]]. discriminate. }
  destruct (bare_plate_heat F 1 1 1 laser ext T T A1 A2 Hfo ltac:(lra)) as (inds & iv & r & tops & E1 & E2 & Ht & E3).
  specialize (H F 1 1 1 laser ext T T inds iv r tops A1 A2 Hfo ltac:(lra) E1 E2 Ht). rewrite H in E3. rewrite (Hnone tops Ht) in E3.
  assert (Hc : through F ext (convection F T) = 0).
  { unfold through. cbn [sumR ext]. change (num_face_quads (f_ele F)) with 1%nat. unfold sumN. cbn [seq sumR]. unfold convection.
    replace (at_face F T (0, 1)%nat 0%nat 0%nat) with 300; [ring|]. unfold at_face, convert_neumann_from_dof, T, sumN. cbn. unfold pick2, pick. cbn. lra. }
  assert (Hn : nanson_scale F (0, 1)%nat 0%nat = / 2).
  { unfold nanson_scale. change (dim F) with 3%nat. 
    assert (D1 : det 3 (face_jacobian F (0, 1)%nat 0%nat) = 1) by (unfold face_jacobian, physical_coos, cell_node, sumN; cbn; unfold pick2, pick; cbn; ring). rewrite D1.
    assert (D0 : sumN 3 (fun j => sumN 3 (fun i => face_normals (f_ele F) (snd (0, 1)%nat) i * inv 3 (face_jacobian F (0, 1)%nat 0%nat) i j) ^ 2) = 1).
    { unfold inv, face_jacobian, physical_coos, cell_node, sumN. cbn. unfold pick2, pick. cbn. field. }
    rewrite D0, sqrt_1. cbn. lra. }
  assert (Hb : 0 < beam F laser (0, 1)%nat 0%nat).
  { unfold beam. apply Rmult_lt_0_compat; [|apply exp_pos]. apply Rdiv_lt_0_compat; [lra|]. pose proof PI_RGT_0. apply Rmult_lt_0_compat; [lra|apply pow_lt; lra]. }
  rewrite Hc in E3. unfold through in E3. cbn [sumR ext] in E3. change (num_face_quads (f_ele F)) with 1%nat in E3. unfold sumN in E3 at 2 3. cbn [seq sumR] in E3.
  fold (sumN (num_total_nodes F) (fun n : nat => r n 0%nat)) in E3. rewrite Hn in E3. lra.
Qed.
Print Assumptions bare_plate_pairing_refuted.
(** the cooling steps of thin_wall.py: their problem cannot be set up *)
Theorem thin_wall_cooling_refuted : forall F ext old_sol, neumann_bc_info F = Some thin_wall_laser_off -> thermal_init F ext old_sol = Err IndexError.
Proof. intros F ext old_sol H. exact (laser_off_fails F ext old_sol wall_flux H). Qed.
Print Assumptions thin_wall_cooling_refuted.
Example cooling_case : neumann_bc_info (tet_heat 1 1 1 thin_wall_laser_off) = Some thin_wall_laser_off.
Proof. reflexivity. Qed.
Close Scope R_scope.
