(** * Post-processing on box meshes: areas, force on a side, energy of a uniform state. *)
From Coq Require Import String Lra Lia FunctionalExtensionality.
From Verif Require Import Prelude PreludeFacts FemModel FemFacts FemSpec FemGeoProofs FemAsmProofs BasisModel BasisSpec BasisProofs BasisFaceProofs BasisQuadProofs BasisMeshProofs BoxSpec BoxProofs.
From Verif Require Import SolverModel SolverSpec SolverFemProofs MatModel MatSpec MatProofs MatHyperProofs MatPostProofs FemMatProofs CrysSpec RveModel RveSpec RveProofs RveSolveProofs.
From Verif Require MeshModel MeshProofs.
Open Scope R_scope.
Open Scope list_scope.

Lemma P_ext P_fn E0 nu A A' : psi_contract P_fn -> (forall i d, (i < 3)%nat -> (d < 3)%nat -> A i d = A' i d) -> 0 < det 3 A' ->
  forall k d, (k < 3)%nat -> (d < 3)%nat -> P_fn E0 nu A k d = P_fn E0 nu A' k d.
Proof.
  intros HP HA Hd k d Hk Hdd. assert (Hd' : 0 < det 3 A) by (rewrite (det_ext3 A A' HA); exact Hd).
  eapply dl_unique; [exact (HP E0 nu A k d Hd' Hk Hdd)|]. eapply dl_eq; [exact (HP E0 nu A' k d Hd Hk Hdd)|intros t; cbn beta|reflexivity].
  apply psi_ext3. intros i j Hi Hj. unfold bump. now rewrite HA.
Qed.

Section Post.
Context {V : Type}.
Variable B : basix.
Hypothesis HB : documented_basix B.
Variable F : fem V.
Local Notation E := (f_ele F).
Variables (Nx Ny Nz : nat) (Lx Ly Lz : R).
Hypothesis Hx : (0 < Nx)%nat.
Hypothesis Hy : (0 < Ny)%nat.
Hypothesis Hz : (0 < Nz)%nat.
Hypothesis Hlx : 0 < Lx.
Hypothesis Hly : 0 < Ly.
Hypothesis Hlz : 0 < Lz.
Local Notation m := (MeshModel.box_mesh Nx Ny Nz Lx Ly Lz).
Hypothesis Hmesh : has_mesh3 F (MeshModel.points m) (MeshModel.cells m).
Hypothesis Hnodes : num_total_nodes F = length (MeshModel.points m).
Hypothesis HE : element_tables B "HEX8" = Ok E.
(** np.isclose picks the nodes of a side when the elements are larger than its tolerance *)
Lemma isclose_side loc d hi : (d < 3)%nat -> / 100000 * (1 + along Lx Ly Lz d) < along Lx Ly Lz d / INR (along Nx Ny Nz d) ->
  loc = on_plane d (side_coord Lx Ly Lz (d, hi)) -> picks_plane F loc d (side_coord Lx Ly Lz (d, hi)).
Proof.
  intros Hd Hf -> n Hn. destruct (node_surj F Nx Ny Nz Lx Ly Lz Hnodes n Hn) as (i & j & k & Hi & Hj & Hk & ->).
  unfold on_plane. rewrite (node_point F Nx Ny Nz Lx Ly Lz Hx Hy Hz Hmesh Hnodes i j k d Hi Hj Hk Hd).
  set (x := along i j k d). set (N := along Nx Ny Nz d) in *. set (L := along Lx Ly Lz d) in *.
  assert (HN : (0 < N)%nat) by (unfold N; destruct d as [|[|d']]; assumption). assert (HL : 0 < L) by (unfold L; destruct d as [|[|d']]; assumption).
  assert (Hxn : (x <= N)%nat) by (unfold x, N; destruct d as [|[|d']]; assumption).
  assert (HI : 0 < INR N) by (now apply lt_0_INR). unfold side_coord. cbn [fst snd]. fold L.
  replace (INR x * L / INR N) with (INR x * (L / INR N)) by (field; lra). set (h := L / INR N) in *.
  assert (Hh : 0 < h) by (now apply Rdiv_lt_0_compat). assert (HNh : INR N * h = L) by (unfold h; field; lra).
  unfold isclose. rewrite Rleb_true. destruct hi.
  - rewrite (Rabs_pos_eq L) by lra. split.
    + intros Hc. destruct (Nat.eq_dec x N) as [-> | Hne]; [exact HNh|]. exfalso. assert (Hle : (x + 1 <= N)%nat) by lia. apply le_INR in Hle. rewrite plus_INR in Hle. cbn [INR] in Hle.
      rewrite Rabs_left1 in Hc by nra. nra.
    + intros ->. rewrite Rminus_diag_eq, Rabs_R0 by reflexivity. lra.
  - rewrite Rminus_0_r, Rabs_R0, Rmult_0_r, Rplus_0_r. split.
    + intros Hc. destruct (Nat.eq_dec x 0) as [-> | Hne]; [cbn [INR]; ring|]. exfalso. assert (Hle : (1 <= x)%nat) by lia. apply le_INR in Hle. cbn [INR] in Hle.
      rewrite Rabs_pos_eq in Hc by nra. nra.
    + intros ->. rewrite Rabs_R0. lra.
Qed.
Lemma box_area_post loc d hi sol k : picks_plane F loc d (side_coord Lx Ly Lz (d, hi)) -> (d < 3)%nat ->
  compute_surface_area F loc sol k = along (Ly * Lz) (Lx * Lz) (Lx * Ly) d.
Proof.
  intros Hl Hd. rewrite area_form. unfold area.
  rewrite <- (box_area B HB F Nx Ny Nz Lx Ly Lz Hx Hy Hz Hlx Hly Hlz Hmesh Hnodes HE loc d hi Hl Hd). unfold face_integral.
  apply sumR_ext. intros s _. apply sumN_ext. intros p _. ring.
Qed.
Lemma box_face_sum : face_grads_sum_zero F.
Proof.
  intros f p j Hf Hp Hj. destruct (box_dim B HB F HE) as [Hd Hn]. unfold dim in Hd. rewrite Hn. rewrite Hd in Hj.
  rewrite (hex_tables B HB E HE). cbn [face_shape_grads_ref tables]. exact (proj1 (grads_complete B HB "HEX8" _ j ltac:(cbn; tauto) Hj)).
Qed.
Lemma box_face_det s p : (fst s < num_cells F)%nat -> det 3 (face_jacobian F s p) <> 0.
Proof.
  intros Hc. destruct s as [c f]. cbn [fst] in Hc. destruct (brick_affine F Nx Ny Nz Lx Ly Lz c Hx Hy Hz Hmesh Hc) as (b & HA).
  assert (EJ : forall i j, (i < 3)%nat -> (j < 3)%nat -> face_jacobian F (c, f) p i j = diag [Lx / INR Nx; Ly / INR Ny; Lz / INR Nz] i j) by (intros i j Hi Hj; exact (affine_face_jacobian B HB F "HEX8" ltac:(cbn; tauto) HE c _ b f p i j HA Hi Hj)).
  pose proof (box_det_pos Nx Ny Nz Lx Ly Lz Hx Hy Hz Hlx Hly Hlz) as HD. cbn [det] in *. rewrite !EJ by lia. lra.
Qed.
Lemma sel_cells loc s : In s (boundary_inds F loc) -> (fst s < num_cells F)%nat /\ (snd s < length (face_inds E))%nat.
Proof. intros H. apply in_boundary_inds in H as (H1 & H2 & _). split; assumption. Qed.
Lemma box_face_grad loc b G s p i d : In s (boundary_inds F loc) -> (p < num_face_quads E)%nat -> (d < 3)%nat -> face_grad F (affine_field F b G) s p i d = G i d.
Proof.
  intros Hs Hp Hd. destruct (sel_cells loc s Hs) as [Hc Hf]. destruct (box_dim B HB F HE) as [H3 _].
  apply face_patch; rewrite ?H3; try assumption; [unfold small_dim; auto|exact box_face_sum|now apply box_face_det].
Qed.
(** force through a horizontal side under a uniform gradient *)
Lemma box_force loc hi b G tm : tensor_map F = Some tm -> picks_plane F loc 2 (side_coord Lx Ly Lz (2%nat, hi)) ->
  (forall A A', (forall i d, (i < 3)%nat -> (d < 3)%nat -> A i d = A' i d) -> forall k d, (k < 3)%nat -> (d < 3)%nat -> tm [] A k d = tm [] A' k d) ->
  exists t, compute_traction F loc (affine_field F b G) = Ok t /\ forall k, (k < 3)%nat -> t k = tm [] G k 2%nat * (Lx * Ly).
Proof.
  intros Ht Hl He. destruct (box_dim B HB F HE) as [H3 _]. destruct (traction_ok F loc (affine_field F b G) tm Ht H3) as (t & Et & Hk). exists t. split; [exact Et|]. intros k Hk3. rewrite Hk.
  replace (Lx * Ly) with (area F loc) by (rewrite <- (area_form F loc (affine_field F b G) 0%nat); exact (box_area_post loc 2 hi _ _ Hl ltac:(lia))).
  unfold area. rewrite <- sumR_scal. apply sumR_ext. intros s Hs. rewrite <- sumN_scal. apply sumN_ext. intros p Hp. f_equal. apply He; try lia. intros i d Hi Hd. eapply box_face_grad; eassumption.
Qed.
Lemma box_dns_force loc hi b G g info P_fn : picks_plane F loc 2 (side_coord Lx Ly Lz (2%nat, hi)) ->
  psi_contract P_fn -> 0 < det 3 (fun i j => G i j + eye i j) ->
  forall k, (k < 3)%nat -> dns_traction F g info P_fn loc (affine_field F b G) k
    = P_fn (fst (traction_moduli g info)) (snd (traction_moduli g info)) (fun i j => G i j + eye i j) k 2%nat * (Lx * Ly).
Proof.
  intros Hl HP Hdet k Hk. unfold dns_traction. rewrite surface_sum.
  replace (Lx * Ly) with (area F loc) by (rewrite <- (area_form F loc (affine_field F b G) 0%nat); exact (box_area_post loc 2 hi _ _ Hl ltac:(lia))).
  unfold area. rewrite <- sumR_scal, (sumR_nth _ (0, 0)%nat). apply sumN_ext. intros j Hj. rewrite <- sumN_scal. apply sumN_ext. intros p Hp. f_equal.
  cbn [dns_tensor_map]. apply P_ext; try assumption; try lia. intros i d Hi Hd. f_equal. eapply box_face_grad; try eassumption. now apply nth_In.
Qed.
Lemma box_affine_grad b G c q i d : (c < num_cells F)%nat -> (q < num_quads E)%nat -> (d < 3)%nat -> sol_to_grad F (affine_field F b G) c q i d = G i d.
Proof.
  intros Hc Hq Hd. destruct (box_dim B HB F HE) as [H3 _].
  apply patch_test; rewrite ?H3; try assumption; [unfold small_dim; auto|exact (box_grads_sum B HB F HE)|].
  exact (box_invertible B HB F Nx Ny Nz Lx Ly Lz Hx Hy Hz Hlx Hly Hlz Hmesh Hnodes HE c q Hc Hq).
Qed.
Lemma box_dns_energy b G g info E0 nu : (forall c q, (c < num_cells F)%nat -> (q < num_quads E)%nat -> moduli_at F g info c q = (E0, nu)) ->
  compute_energy_dns F g info (affine_field F b G) = Lx * Ly * Lz * psi_E E0 nu (fun i j => G i j + eye i j).
Proof.
  intros Hm. destruct (brick_volume B HB F Nx Ny Nz Lx Ly Lz Hx Hy Hz Hmesh HE) as [_ Hv]. rewrite <- Hv, <- sumN_scal_r. unfold compute_energy_dns. apply sumN_ext. intros c Hc. rewrite <- sumN_scal_r.
  apply sumN_ext. intros q Hq. rewrite Rmult_comm, Hm by assumption. cbn [fst snd]. f_equal. apply psi_ext3. intros i j Hi Hj. now rewrite box_affine_grad.
Qed.
End Post.
(** the homogeneous sample: the force on the top is the rate of the energy per displacement of the top *)
Lemma uniform_energy_slope (F : fem R) B Nx Ny Nz Lx Ly Lz loc b G v g info P_fn E0 nu : documented_basix B -> (0 < Nx)%nat -> (0 < Ny)%nat -> (0 < Nz)%nat -> 0 < Lx -> 0 < Ly -> 0 < Lz ->
  has_mesh3 F (MeshModel.points (MeshModel.box_mesh Nx Ny Nz Lx Ly Lz)) (MeshModel.cells (MeshModel.box_mesh Nx Ny Nz Lx Ly Lz)) ->
  num_total_nodes F = length (MeshModel.points (MeshModel.box_mesh Nx Ny Nz Lx Ly Lz)) -> element_tables B "HEX8" = Ok (f_ele F) ->
  picks_plane F loc 2 Lz -> psi_contract P_fn ->
  (forall c q, (c < num_cells F)%nat -> (q < num_quads (f_ele F))%nat -> moduli_at F g info c q = (E0, nu)) -> traction_moduli g info = (E0, nu) ->
  0 < det 3 (fun i j => G i j + eye i j) ->
  derivable_pt_lim (fun t => compute_energy_dns F g info (affine_field F b (fun i j => G i j + t * (v i * delta j 2) / Lz))) 0
    (sumN 3 (fun k => v k * dns_traction F g info P_fn loc (affine_field F b G) k)).
Proof.
  intros HB Hx Hy Hz H1 H2 H3 Hm Hn HE Hl HP Hmo Htm Hd.
  eapply dl_eq; [|intros t; symmetry; exact (box_dns_energy B HB F Nx Ny Nz Lx Ly Lz Hx Hy Hz H1 H2 H3 Hm Hn HE b _ g info E0 nu Hmo)|].
  - apply dl_scal. apply (psi_E_path P_fn E0 nu (fun t i j => G i j + t * (v i * delta j 2) / Lz + eye i j) (fun i j => v i * delta j 2 / Lz) HP).
    + intros i j _ _. eapply dl_eq; [apply (dl_line (G i j + eye i j) (v i * delta j 2 / Lz))|intros t; cbn beta; field; lra|reflexivity].
    + eapply Rlt_le_trans; [exact Hd|]. right. cbn [det]. unfold Rdiv. rewrite !Rmult_0_l, !Rplus_0_r. reflexivity.
  - transitivity (sumN 3 (fun k => v k * (P_fn E0 nu (fun i j => G i j + eye i j) k 2%nat * (Lx * Ly)))).
    + unfold ddot. rewrite <- sumN_scal. apply sumN_ext. intros k Hk.
      rewrite (sumN_ext 3 _ (fun j => P_fn E0 nu (fun i j => G i j + eye i j) k j * v k / Lz * delta j 2)).
      * rewrite sumN_delta by lia. field. lra.
      * intros j Hj. rewrite (P_ext P_fn E0 nu _ (fun i j => G i j + eye i j) HP); [field; lra| |exact Hd|exact Hk|exact Hj]. intros i d _ _. field. lra.
    + apply sumN_ext. intros k Hk. f_equal.
      pose proof (box_dns_force B HB F Nx Ny Nz Lx Ly Lz Hx Hy Hz H1 H2 H3 Hm Hn HE loc true b G g info P_fn Hl HP Hd k Hk) as Ef. rewrite Htm in Ef. symmetry. exact Ef.
Qed.
(** ** any sample: energy and forces on the nodes *)
Section Dns.
Variable F : fem R.
Variables (g : ms_args) (info : dns) (P_fn : R -> R -> mat -> mat).
Lemma dns_is_rve vars G i j : dns_tensor_map P_fn vars G i j = rve_tensor_map P_fn mzero vars G i j.
Proof.
  unfold dns_tensor_map, rve_tensor_map. destruct vars as [|a [|b [|c vars]]]; try reflexivity. f_equal. extensionality x. extensionality y. unfold mzero. ring.
Qed.
Lemma dns_energy_is_rve u : compute_energy_dns F g info u = compute_energy_rve F g info mzero u.
Proof.
  unfold compute_energy_dns, compute_energy_rve. apply sumN_ext. intros c _. apply sumN_ext. intros q _. f_equal. apply psi_ext3. intros i j _ _. unfold mzero. ring.
Qed.
Lemma dns_map : dns_tensor_map P_fn = rve_tensor_map P_fn mzero.
Proof. extensionality vars. extensionality G. extensionality i. extensionality j. apply dns_is_rve. Qed.
Hypothesis HP : psi_contract P_fn.
Hypothesis Hwf : wf_mesh F.
Hypothesis Hdim : dim F = 3%nat.
Hypothesis Hvec : vec F = 3%nat.
Hypothesis Hcells : (0 < num_cells F)%nat.
Variable inds : list (list (nat * nat)).
Hypothesis Hsel : forall sel, In sel inds -> faces_ok F sel.
Hypothesis Ho : only_internal F (moduli_vars F g info).
Hypothesis Ht : tensor_map F = Some (dns_tensor_map P_fn).
Lemma dns_energy_rate u u' : nodal_path u u' -> orientation F mzero (u 0) ->
  exists r, compute_residual_vars F inds (u 0) (moduli_vars F g info) = Ok r /\
  derivable_pt_lim (fun t => compute_energy_dns F g info (u t)) 0 (sumN (num_total_nodes F) (fun n => sumN 3 (fun k => u' n k * r n k))).
Proof.
  intros Hu Hor. rewrite dns_map in Ht.
  destruct (rve_work F g info P_fn Hwf Hdim Hvec Hcells inds Hsel mzero (u 0) Ht Ho) as (r & Hr & He). exists r. split; [exact Hr|]. rewrite He.
  eapply dl_eq; [apply (energy_rate F g info P_fn HP (fun _ => mzero) mzero u u'); [intros i j _ _; apply dl_const|exact Hu|exact Hor]|intros t; symmetry; apply dns_energy_is_rve|].
  apply sumN_ext. intros c _. apply sumN_ext. intros q _. f_equal. apply ddot_ext; [intros i j _ _; reflexivity|]. intros i j _ _. unfold mzero. ring.
Qed.
(** the tensile test: rate of the energy and sum of the forces on the nodes of the top *)
Variables (jac : nodal -> (nat -> nat -> nat -> R) -> (nat -> R) -> (nat -> nat -> nat -> R) -> list (nat -> R) -> list (nat -> R) -> jac4)
  (cjac : ((nat -> R) -> nat -> R) -> nodal -> (nat -> nat -> R) -> (nat -> R) -> jac4).
Variables (h rel : R) (eps : option R) (P : R -> problem).
Hypothesis HPt : forall t, fem_problem F inds (moduli_vars F g info) jac cjac (Some (tensile_dirichlet h (rel + t))) None eps = Ok (P t).
Local Notation locs := (fst (fst (tensile_dirichlet h rel))).
Lemma tensile_in t n k x : In ((n, k), x) (conditions (P t)) <-> (n < num_total_nodes F)%nat /\ exists i, (i < 6)%nat /\ k = nth i [0; 1; 2; 0; 1; 2]%nat 0%nat /\ nth i locs (fun _ => false) (points F n) = true /\
  x = nth i (snd (tensile_dirichlet h (rel + t))) (fun _ => 0) (points F n).
Proof.
  rewrite (fem_conditions F inds _ jac cjac _ _ _ None eps (P t) (HPt t)). rewrite in_flat_map. split.
  - intros (i & Hi & Hin). apply in_seq in Hi. apply in_map_iff in Hin as (n' & E & Hs). injection E as <- <- <-. apply in_sel in Hs as [Hn Hs]. split; [exact Hn|]. exists i. split; [exact (proj2 Hi)|]. auto.
  - intros (Hn & i & Hi & -> & Hs & ->). exists i. split; [apply in_seq; cbn; clear - Hi; lia|]. apply in_map_iff. exists n. split; [reflexivity|]. apply in_sel. auto.
Qed.
Lemma castigliano u u' : nodal_path u u' -> orientation F mzero (u 0) -> (forall t, constraints_hold (P t) (u t)) -> in_equilibrium (P 0) (u 0) ->
  exists r, compute_residual_vars F inds (u 0) (moduli_vars F g info) = Ok r /\
  derivable_pt_lim (fun t => compute_energy_dns F g info (u t)) 0
    (h * sumN (num_total_nodes F) (fun n => if on_plane 2 h (points F n) then r n 2%nat else 0)).
Proof.
  intros Hu Hor Hc (r & ijv & Hr & He). destruct (dns_energy_rate u u' Hu Hor) as (r0 & Hr0 & Hd).
  destruct (fem_problem_fields F inds _ jac cjac _ _ _ None eps (P 0) (HPt 0)) as (_ & _ & HN & HV & HU & _). rewrite HU in Hr.
  pose proof Ho as (_ & _ & Hnb & _).
  destruct (newton_spec F Hwf jac cjac inds (u 0) (moduli_vars F g info)) as (r' & ijv' & H1 & H2 & _); [apply moduli_sized|exact Hcells|unfold neumann_ok; now rewrite Hnb|exact Hsel|].
  assert (r' = r) by congruence. subst r'. assert (r0 = r) by congruence. subst r0.
  exists r. split; [exact H2|]. eapply dl_eq; [exact Hd|reflexivity|]. rewrite <- sumN_scal. apply sumN_ext. intros n Hn.
  assert (Hat : forall i, (i < 6)%nat -> nth i locs (fun _ => false) (points F n) = true -> forall t, u t n (nth i [0; 1; 2; 0; 1; 2]%nat 0%nat) = nth i (snd (tensile_dirichlet h (rel + t))) (fun _ => 0) (points F n)).
  { intros i Hi Hl t. apply (proj1 (Hc t)). apply tensile_in. split; [exact Hn|]. exists i. auto. }
  assert (Hzero : forall i, (i < 5)%nat -> nth i locs (fun _ => false) (points F n) = true -> u' n (nth i [0; 1; 2; 0; 1; 2]%nat 0%nat) = 0).
  { intros i Hi Hl. eapply dl_unique; [apply Hu|]. eapply dl_eq; [apply (dl_const 0)|intros t; symmetry; rewrite (Hat i ltac:(lia) Hl t)|reflexivity]. destruct i as [|[|[|[|[|i]]]]]; try lia; reflexivity. }
  assert (Hfree : forall k, (k < 3)%nat -> (forall i, (i < 6)%nat -> k = nth i [0; 1; 2; 0; 1; 2]%nat 0%nat -> nth i locs (fun _ => false) (points F n) = false) -> r n k = 0).
  { intros k Hk Hno. apply He; [split; [now rewrite HN|now rewrite HV, Hvec]|]. unfold prescribed. destruct (find _ _) as [[[n' k'] x]|] eqn:Ef; [|reflexivity]. exfalso.
    apply find_some in Ef as [Hin Heq]. apply in_rev in Hin. cbn [fst snd] in Heq. apply andb_true_iff in Heq as [E1 E2]. apply Nat.eqb_eq in E1, E2. subst n' k'.
    apply tensile_in in Hin as (_ & i & Hi & Ek & Hl & _). rewrite (Hno i Hi Ek) in Hl. discriminate. }
  destruct (on_plane 2 h (points F n)) eqn:Etop.
  - assert (H5 : u' n 2%nat = h).
    { eapply dl_unique; [apply Hu|]. eapply dl_eq; [apply (dl_line (rel * h) h)|intros t; symmetry; etransitivity; [exact (Hat 5%nat ltac:(lia) Etop t)|cbn [nth snd tensile_dirichlet]; ring]|reflexivity]. }
    pose proof (Hzero 3%nat ltac:(lia) Etop) as H3. pose proof (Hzero 4%nat ltac:(lia) Etop) as H4. cbn [nth] in H3, H4. unfold sumN. cbn [seq sumR]. rewrite H3, H4, H5. ring.
  - destruct (on_plane 2 0 (points F n)) eqn:Ebot.
    + pose proof (Hzero 0%nat ltac:(lia) Ebot) as H3. pose proof (Hzero 1%nat ltac:(lia) Ebot) as H4. pose proof (Hzero 2%nat ltac:(lia) Ebot) as H5. cbn [nth] in H3, H4, H5. unfold sumN. cbn [seq sumR]. rewrite H3, H4, H5. ring.
    + rewrite Rmult_0_r. apply sumN_zero. intros k Hk. rewrite Hfree; [ring|exact Hk|]. intros i Hi _. destruct i as [|[|[|[|[|[|i]]]]]]; try lia; cbn [nth fst tensile_dirichlet]; assumption.
Qed.
End Dns.
Close Scope R_scope.
