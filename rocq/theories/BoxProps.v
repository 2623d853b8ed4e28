(** * Theorems about loads and post-processing on box meshes of hexahedra. *)
From Coq Require Import String Lra Lia.
From Verif Require Import Prelude PreludeFacts FemModel FemFacts FemSpec FemGeoProofs BasisModel BasisSpec BasisQuadProofs BasisExamples SolverModel SolverSpec SolverFemProofs MatModel MatSpec CrysSpec RveModel RveSpec RveProofs RveExamples BoxSpec BoxProofs BoxPatchProofs BoxRveProofs BoxExamples.
From Verif Require MeshModel.
Open Scope R_scope.
Open Scope list_scope.

(** ** C128 the sides of a box mesh *)
Theorem box_side_selected : forall V (F : fem V) B Nx Ny Nz Lx Ly Lz loc d hi, let m := MeshModel.box_mesh Nx Ny Nz Lx Ly Lz in
  documented_basix B -> (0 < Nx)%nat -> (0 < Ny)%nat -> (0 < Nz)%nat -> 0 < Lx -> 0 < Ly -> 0 < Lz ->
  has_mesh3 F (MeshModel.points m) (MeshModel.cells m) -> num_total_nodes F = List.length (MeshModel.points m) -> element_tables B "HEX8" = Ok (f_ele F) ->
  picks_plane F loc d (side_coord Lx Ly Lz (d, hi)) -> (d < 3)%nat ->
  List.length (boundary_inds F loc) = along (Ny * Nz)%nat (Nx * Nz)%nat (Nx * Ny)%nat d /\
  (forall sol k, compute_surface_area F loc sol k = along (Ly * Lz) (Lx * Lz) (Lx * Ly) d) /\
  (forall c f, In (c, f) (boundary_inds F loc) -> (c < num_cells F)%nat /\ forall n, In n (nth f (face_inds (f_ele F)) []) -> points F (cell_node F c n) d = side_coord Lx Ly Lz (d, hi)).
Proof.
  intros V F B Nx Ny Nz Lx Ly Lz loc d hi m HB Hx Hy Hz H1 H2 H3 Hm Hn HE Hl Hd. split; [|split].
  - exact (box_count B HB F Nx Ny Nz Lx Ly Lz Hx Hy Hz H1 H2 H3 Hm Hn HE loc d hi Hl Hd).
  - intros sol k. exact (box_area_post B HB F Nx Ny Nz Lx Ly Lz Hx Hy Hz H1 H2 H3 Hm Hn HE loc d hi sol k Hl Hd).
  - intros c f Hin. exact (box_face_on_side B HB F Nx Ny Nz Lx Ly Lz Hx Hy Hz H1 H2 H3 Hm Hn HE loc d hi c f Hl Hd Hin).
Qed.
Print Assumptions box_side_selected.
Theorem isclose_finds_side : forall V (F : fem V) Nx Ny Nz Lx Ly Lz d hi, let m := MeshModel.box_mesh Nx Ny Nz Lx Ly Lz in
  (0 < Nx)%nat -> (0 < Ny)%nat -> (0 < Nz)%nat -> 0 < Lx -> 0 < Ly -> 0 < Lz ->
  has_mesh3 F (MeshModel.points m) (MeshModel.cells m) -> num_total_nodes F = List.length (MeshModel.points m) -> (d < 3)%nat ->
  / 100000 * (1 + along Lx Ly Lz d) < along Lx Ly Lz d / INR (along Nx Ny Nz d) ->
  picks_plane F (on_plane d (side_coord Lx Ly Lz (d, hi))) d (side_coord Lx Ly Lz (d, hi)).
Proof.
  intros V F Nx Ny Nz Lx Ly Lz d hi m Hx Hy Hz H1 H2 H3 Hm Hn Hd Hf.
  exact (isclose_side F Nx Ny Nz Lx Ly Lz Hx Hy Hz H1 H2 H3 Hm Hn _ d hi Hd Hf eq_refl).
Qed.
Print Assumptions isclose_finds_side.
Example box_side_case : List.length (boundary_inds bar far_end) = 6%nat /\ compute_surface_area bar far_end (fun _ _ => 0) 0 = 3
  /\ picks_plane bar (on_plane 2 1) 2 1.
Proof.
  destruct (box_side_selected R bar ex_basix 1 2 3 2 3 1 far_end 0 true ex_documented ltac:(lia) ltac:(lia) ltac:(lia) ltac:(lra) ltac:(lra) ltac:(lra) (brick_mesh _ _ _ _ _ _ _ _) eq_refl hex_E_ok far_end_ok ltac:(lia)) as (HL & HA & _).
  split; [exact HL|]. split; [rewrite HA; cbn [along]; lra|].
  exact (isclose_finds_side R bar 1 2 3 2 3 1 2 true ltac:(lia) ltac:(lia) ltac:(lia) ltac:(lra) ltac:(lra) ltac:(lra) (brick_mesh _ _ _ _ _ _ _ _) eq_refl ltac:(lia) ltac:(cbn [along INR]; lra)).
Qed.

(** ** C129 the divergence theorem and loaded sides *)
Theorem box_divergence_theorem : forall V (F : fem V) B Nx Ny Nz Lx Ly Lz lo hi u i d, let m := MeshModel.box_mesh Nx Ny Nz Lx Ly Lz in
  documented_basix B -> exact_rule B quadrilateral 2 -> exact_rule B hexahedron 2 -> (0 < Nx)%nat -> (0 < Ny)%nat -> (0 < Nz)%nat -> 0 < Lx -> 0 < Ly -> 0 < Lz ->
  has_mesh3 F (MeshModel.points m) (MeshModel.cells m) -> num_total_nodes F = List.length (MeshModel.points m) -> element_tables B "HEX8" = Ok (f_ele F) ->
  picks_plane F lo d 0 -> picks_plane F hi d (along Lx Ly Lz d) -> (d < 3)%nat ->
  volume_integral F (fun c q => sol_to_grad F u c q i d) = face_integral F hi (fun s p => at_face F u s p i) - face_integral F lo (fun s p => at_face F u s p i).
Proof. intros V F B Nx Ny Nz Lx Ly Lz lo hi u i d m HB Hq4 Hq8 Hx Hy Hz H1 H2 H3 Hm Hn HE. exact (box_gauss B HB F Nx Ny Nz Lx Ly Lz Hx Hy Hz H1 H2 H3 Hm Hn HE Hq4 Hq8 lo hi u i d). Qed.
Print Assumptions box_divergence_theorem.
(** a uniform state of stress S with the tractions S n on some of the sides: the residual vanishes at every node that lies on no
    other side, and where the other side is free of traction *)
Theorem traction_patch_test : forall V (F : fem V) B Nx Ny Nz Lx Ly Lz S u iv loads locs fns, let m := MeshModel.box_mesh Nx Ny Nz Lx Ly Lz in
  documented_basix B -> exact_rule B quadrilateral 2 -> exact_rule B hexahedron 2 -> (0 < Nx)%nat -> (0 < Ny)%nat -> (0 < Nz)%nat -> 0 < Lx -> 0 < Ly -> 0 < Lz ->
  has_mesh3 F (MeshModel.points m) (MeshModel.cells m) -> num_total_nodes F = List.length (MeshModel.points m) -> element_tables B "HEX8" = Ok (f_ele F) ->
  iv_sized F iv -> iv_body iv = None -> source_info F = None -> mass_map F = None -> cauchy_bc_info F = None ->
  (forall c q k d, (c < num_cells F)%nat -> (q < num_quads (f_ele F))%nat -> (k < vec F)%nat -> (d < 3)%nat -> stress F iv u c q k d = S k d) ->
  NoDup loads -> (forall s, In s loads -> (fst s < 3)%nat) ->
  Forall2 (fun s loc => picks_plane F loc (fst s) (side_coord Lx Ly Lz s)) loads locs ->
  Forall2 (fun s fn => forall p vars k, (k < vec F)%nat -> fn p vars k = sumN 3 (fun d => S k d * outward s d)) loads fns ->
  neumann_bc_info F = Some fns ->
  exists r, compute_residual_vars F (get_boundary_conditions_inds F locs) u iv = Ok r /\
  forall n k, (n < num_total_nodes F)%nat -> (k < vec F)%nat ->
    (forall s, In s six_sides -> In s loads \/ points F n (fst s) <> side_coord Lx Ly Lz s \/ sumN 3 (fun d => S k d * outward s d) = 0) -> r n k = 0.
Proof.
  intros V F B Nx Ny Nz Lx Ly Lz S u iv loads locs fns m HB Hq4 Hq8 Hx Hy Hz H1 H2 H3 Hm Hn HE Hiv Hb Hs Hmm Hc Hst Hnd Hsd Hl Hf Hne.
  exact (traction_patch B HB Hq4 Hq8 F Nx Ny Nz Lx Ly Lz Hx Hy Hz H1 H2 H3 Hm Hn HE S u iv Hiv Hb Hs Hmm Hc Hst loads locs fns Hnd Hsd Hl Hf Hne).
Qed.
Print Assumptions traction_patch_test.
(** the bar pulled at its far end is in balance except where it is held, at x = 0 *)
Example pulled_bar_case : exists r, compute_residual_vars bar (get_boundary_conditions_inds bar [far_end]) (affine_field bar (fun _ => 0) e00) no_vars = Ok r /\
  forall n k, (n < 24)%nat -> (k < 3)%nat -> points bar n 0%nat <> 0 -> r n k = 0.
Proof.
  destruct (traction_patch_test R bar ex_basix 1 2 3 2 3 1 (fun i j => 3 * e00 i j) (affine_field bar (fun _ => 0) e00) no_vars [(0%nat, true)] [far_end] [pull]
    ex_documented ex_exact_quad ex_exact_hex ltac:(lia) ltac:(lia) ltac:(lia) ltac:(lra) ltac:(lra) ltac:(lra) (brick_mesh _ _ _ _ _ _ _ _) eq_refl hex_E_ok) as (r & Hr & H0).
  - split; constructor.
  - reflexivity.
  - reflexivity.
  - reflexivity.
  - reflexivity.
  - intros c q k d Hc Hq _ Hd. now apply bar_stress.
  - constructor; [intros []|constructor].
  - intros s [<- | []]. cbn; lia.
  - constructor; [exact far_end_ok|constructor].
  - constructor; [|constructor]. intros p vars k Hk. unfold sumN, outward, e00, pull. cbn [seq sumR fst snd Nat.eqb]. destruct k; ring.
  - reflexivity.
  - exists r. split; [exact Hr|]. intros n k Hn Hk Hp. apply H0; [exact Hn|exact Hk|]. intros s Hs. cbn [six_sides In] in Hs.
    destruct Hs as [<- | [<- | Hs]]; [right; left; exact Hp|left; now left|]. right. right. unfold sumN, e00. cbn [seq sumR]. destruct Hs as [<- | [<- | [<- | [<- | []]]]]; cbn [outward fst snd Nat.eqb]; destruct k; ring.
Qed.

(** ** C130 forces and energies of the tensile test *)
(** a homogeneous sample under a uniform gradient: energy, force on the top, and their relation *)
Theorem uniform_sample_force : forall V (F : fem V) B Nx Ny Nz Lx Ly Lz loc hi b G g info P_fn E nu, let m := MeshModel.box_mesh Nx Ny Nz Lx Ly Lz in
  documented_basix B -> (0 < Nx)%nat -> (0 < Ny)%nat -> (0 < Nz)%nat -> 0 < Lx -> 0 < Ly -> 0 < Lz ->
  has_mesh3 F (MeshModel.points m) (MeshModel.cells m) -> num_total_nodes F = List.length (MeshModel.points m) -> element_tables B "HEX8" = Ok (f_ele F) ->
  picks_plane F loc 2 (side_coord Lx Ly Lz (2%nat, hi)) -> psi_contract P_fn -> 0 < det 3 (fun i j => G i j + eye i j) ->
  (forall k, (k < 3)%nat -> dns_traction F g info P_fn loc (affine_field F b G) k
    = P_fn (fst (traction_moduli g info)) (snd (traction_moduli g info)) (fun i j => G i j + eye i j) k 2%nat * (Lx * Ly)) /\
  ((forall c q, (c < num_cells F)%nat -> (q < num_quads (f_ele F))%nat -> moduli_at F g info c q = (E, nu)) ->
   compute_energy_dns F g info (affine_field F b G) = Lx * Ly * Lz * psi_E E nu (fun i j => G i j + eye i j)).
Proof.
  intros V F B Nx Ny Nz Lx Ly Lz loc hi b G g info P_fn E nu m HB Hx Hy Hz H1 H2 H3 Hm Hn HE Hl HP Hd. split.
  - exact (box_dns_force B HB F Nx Ny Nz Lx Ly Lz Hx Hy Hz H1 H2 H3 Hm Hn HE loc hi b G g info P_fn Hl HP Hd).
  - exact (box_dns_energy B HB F Nx Ny Nz Lx Ly Lz Hx Hy Hz H1 H2 H3 Hm Hn HE b G g info E nu).
Qed.
Print Assumptions uniform_sample_force.
(** moving the top of a homogeneous sample by t v: the slope of the energy is the force on the top times v *)
Theorem uniform_sample_slope : forall (F : fem R) B Nx Ny Nz Lx Ly Lz loc b G v g info P_fn E nu, let m := MeshModel.box_mesh Nx Ny Nz Lx Ly Lz in
  documented_basix B -> (0 < Nx)%nat -> (0 < Ny)%nat -> (0 < Nz)%nat -> 0 < Lx -> 0 < Ly -> 0 < Lz ->
  has_mesh3 F (MeshModel.points m) (MeshModel.cells m) -> num_total_nodes F = List.length (MeshModel.points m) -> element_tables B "HEX8" = Ok (f_ele F) ->
  picks_plane F loc 2 Lz -> psi_contract P_fn ->
  (forall c q, (c < num_cells F)%nat -> (q < num_quads (f_ele F))%nat -> moduli_at F g info c q = (E, nu)) -> traction_moduli g info = (E, nu) ->
  0 < det 3 (fun i j => G i j + eye i j) ->
  derivable_pt_lim (fun t => compute_energy_dns F g info (affine_field F b (fun i j => G i j + t * (v i * delta j 2) / Lz))) 0
    (sumN 3 (fun k => v k * dns_traction F g info P_fn loc (affine_field F b G) k)).
Proof.
  intros F B Nx Ny Nz Lx Ly Lz loc b G v g info P_fn E nu m HB Hx Hy Hz H1 H2 H3 Hm Hn HE Hl HP Hmo Htm Hd.
  exact (uniform_energy_slope F B Nx Ny Nz Lx Ly Lz loc b G v g info P_fn E nu HB Hx Hy Hz H1 H2 H3 Hm Hn HE Hl HP Hmo Htm Hd).
Qed.
Print Assumptions uniform_sample_slope.
(** any sample in equilibrium: the slope of the recorded energy over the relative displacement is the height times the sum of the
    residual forces on the nodes of the top *)
Theorem tensile_energy_slope : forall (F : fem R) g info P_fn inds jac cjac h rel eps P u u', psi_contract P_fn ->
  wf_mesh F -> dim F = 3%nat -> vec F = 3%nat -> (0 < num_cells F)%nat -> (forall s, In s inds -> faces_ok F s) -> only_internal F (moduli_vars F g info) ->
  tensor_map F = Some (dns_tensor_map P_fn) ->
  (forall t, fem_problem F inds (moduli_vars F g info) jac cjac (Some (tensile_dirichlet h (rel + t))) None eps = Ok (P t)) ->
  nodal_path u u' -> orientation F mzero (u 0) -> (forall t, constraints_hold (P t) (u t)) -> in_equilibrium (P 0) (u 0) ->
  exists r, compute_residual_vars F inds (u 0) (moduli_vars F g info) = Ok r /\
  derivable_pt_lim (fun t => compute_energy_dns F g info (u t)) 0 (h * sumN (num_total_nodes F) (fun n => if on_plane 2 h (points F n) then r n 2%nat else 0)).
Proof.
  intros F g info P_fn inds jac cjac h rel eps P u u' HP Hwf Hd Hv Hc Hs Ho Ht HPt.
  exact (castigliano F g info P_fn HP Hwf Hd Hv Hc inds Hs Ho Ht jac cjac h rel eps P HPt u u').
Qed.
Print Assumptions tensile_energy_slope.
(** one element between the grips, stretched by rel + t *)
Example tensile_slope_case : forall rel, 0 < 1 + rel -> exists r,
  let g := default_args 1 1 1 in
  compute_residual_vars grip [] (stretched (rel + 0)) (moduli_vars grip g AllOut) = Ok r /\
  derivable_pt_lim (fun t => compute_energy_dns grip g AllOut (stretched (rel + t))) 0 (1 * sumN 8 (fun n => if on_plane 2 1 (points grip n) then r n 2%nat else 0)) /\
  derivable_pt_lim (fun t => compute_energy_dns grip g AllOut (affine_field grip (fun _ => 0) (fun i j => z_stretch rel i j + t * (match i with 2%nat => 1 | _ => 0 end * delta j 2) / 1))) 0
    (sumN 3 (fun k => match k with 2%nat => 1 | _ => 0 end * dns_traction grip g AllOut P_ex (on_plane 2 1) (affine_field grip (fun _ => 0) (z_stretch rel)) k)).
Proof.
  intros rel Hrel.
  destruct (tensile_energy_slope grip (default_args 1 1 1) AllOut P_ex [] jac0 cjac0 1 rel None (grip_problem rel) (fun t => stretched (rel + t)) (stretched 1) P_ex_ok
    (box_wf ex_basix ex_documented grip 1 1 1 1 1 1 ltac:(lia) ltac:(lia) ltac:(lia) (brick_mesh _ _ _ _ _ _ _ _) eq_refl hex_E_ok) (proj1 (box_dim ex_basix ex_documented grip hex_E_ok)) eq_refl ltac:(cbn; lia) ltac:(intros ? [])
    ltac:(repeat split; reflexivity) eq_refl (grip_ok rel) (stretched_path rel)) as (r & Hr & Hd).
  - apply stretched_oriented. lra.
  - intros t. apply grip_held.
  - apply grip_equilibrium.
  - exists r. split; [exact Hr|]. split; [exact Hd|].
    apply (uniform_sample_slope grip ex_basix 1 1 1 1 1 1 (on_plane 2 1) (fun _ => 0) (z_stretch rel) (fun i => match i with 2%nat => 1 | _ => 0 end) (default_args 1 1 1) AllOut P_ex 100 (4 / 10)
      ex_documented ltac:(lia) ltac:(lia) ltac:(lia) ltac:(lra) ltac:(lra) ltac:(lra) (brick_mesh _ _ _ _ _ _ _ _) eq_refl hex_E_ok).
    + exact (isclose_finds_side R grip 1 1 1 1 1 1 2 true ltac:(lia) ltac:(lia) ltac:(lia) ltac:(lra) ltac:(lra) ltac:(lra) (brick_mesh _ _ _ _ _ _ _ _) eq_refl ltac:(lia) ltac:(cbn [along INR]; lra)).
    + exact P_ex_ok.
    + reflexivity.
    + reflexivity.
    + unfold det, z_stretch, eye. cbn [Nat.eqb andb]. lra.
Qed.
Close Scope R_scope.
