(** * Theorems about location functions with a tolerance and about time steps of the Thermal class. *)
From Coq Require Import String Lra Lia.
From Verif Require Import Prelude PreludeFacts FemModel FemFacts FemSpec FemAsmProofs FemMatProofs BasisModel BasisSpec BasisProps BasisExamples MatModel MatSpec SolverModel SolverSpec SolverFemProofs SolverExamples RveModel RveSpec RveExamples BoxSpec BoxProofs BoxExamples WellSpec WellMainProofs MaxSpec MaxExamples ManProofs HeatModel HeatSpec HeatWellProofs HeatStepProofs HeatMainProofs HeatPickProofs HeatLayerProofs HeatBoxProofs HeatExamples.
From Verif Require MeshModel.
Open Scope R_scope.
Open Scope list_scope.

(** ** C173: np.isclose(point[d], x, atol=1e-5) picks exactly the nodes of a side if and only if the cells are thicker than the tolerance *)
Theorem tolerance_picks_side : forall V (F : fem V) B Nx Ny Nz Lx Ly Lz d (hi : bool), box_hex F B Nx Ny Nz Lx Ly Lz -> (d < 3)%nat ->
  let x := if hi then along Lx Ly Lz d else 0 in
  (forall n, (n < num_total_nodes F)%nat -> (isclose (points F n d) x = true <-> points F n d = x))
  <-> / 100000 * (1 + x) < along Lx Ly Lz d / INR (along Nx Ny Nz d).
Proof. intros V F B Nx Ny Nz Lx Ly Lz d hi HF Hd x. exact (isclose_iff F B Nx Ny Nz Lx Ly Lz HF d hi Hd). Qed.
Print Assumptions tolerance_picks_side.
(** the mesh of the demo is too fine for the tolerance at the top and at the bottom; cells of 5 cm are not *)
Example demo_tolerance_case : forall dt fluxes, let F := slab 0 50 20 5 demo_L dt fluxes in
  ~ picks_plane F (top (5 / 100000)) 2 (5 / 100000) /\ ~ picks_plane F bottom 2 0
  /\ picks_plane (slab 0 5 2 2 (/ 10, / 10, / 10) dt fluxes) (top (/ 10)) 2 (/ 10).
Proof.
  intros dt fluxes F. split; [|split].
  - intros H. pose proof (proj1 (tolerance_picks_side _ F ex_basix 50 20 5 _ _ _ 2 true (demo_hex dt fluxes) ltac:(lia)) H) as H'. cbn [along INR] in H'. lra.
  - intros H. pose proof (proj1 (tolerance_picks_side _ F ex_basix 50 20 5 _ _ _ 2 false (demo_hex dt fluxes) ltac:(lia)) H) as H'. cbn [along INR] in H'. lra.
  - refine (proj2 (tolerance_picks_side _ (slab 0 5 2 2 (/ 10, / 10, / 10) dt fluxes) ex_basix 5 2 2 (/ 10) (/ 10) (/ 10) 2 true (slab_hex 5 2 2 (/ 10) (/ 10) (/ 10) dt fluxes ltac:(lia) ltac:(lia) ltac:(lia) ltac:(lra) ltac:(lra) ltac:(lra)) ltac:(lia)) _).
    cbn [along INR]. lra.
Qed.

(** ** C174: a uniform flux through the top brings the area of the top times the flux *)
Theorem thick_top_refuted : forall F B Nx Ny Nz Lx Ly Lz dt g T_old T,
  box_hex F B Nx Ny Nz Lx Ly Lz -> (2 <= Nz)%nat -> Lz / INR Nz <= / 100000 * (1 + Lz) < 2 * (Lz / INR Nz) ->
  thermal_class F dt (Some [fun _ _ _ => g]) -> dt <> 0 ->
  let inds := [boundary_inds F (top Lz)] in
  List.length (boundary_inds F (top Lz)) = (7 * (Nx * Ny))%nat /\
  exists r, compute_residual_vars F inds T (thermal_vars F inds T_old) = Ok r /\
  sumN (num_cells F) (fun c => sumN (num_quads (f_ele F)) (fun q => JxW F c q * (8440 * 588 * (at_quad F T c q 0%nat - at_quad F T_old c q 0%nat))))
  = dt * (sumN (num_total_nodes F) (fun n => r n 0%nat) + g * (3 * (Lx * Ly) + 2 * (Lz / INR Nz) * (INR Nx * Ly + INR Ny * Lx))).
Proof.
  intros F B Nx Ny Nz Lx Ly Lz dt g T_old T HF H2 Hth HT Hdt inds. split; [exact (thick_count F B Nx Ny Nz Lx Ly Lz HF Hth H2)|].
  destruct (uniform_heat F B Nx Ny Nz Lx Ly Lz HF dt g (top Lz) T_old T HT Hdt) as (r & Hr & Hb). exists r. split; [exact Hr|]. rewrite Hb. now rewrite (thick_area F B Nx Ny Nz Lx Ly Lz HF Hth H2).
Qed.
Print Assumptions thick_top_refuted.
(** and with cells above the tolerance it does *)
Theorem thin_top_heat : forall F B Nx Ny Nz Lx Ly Lz dt g T_old T,
  box_hex F B Nx Ny Nz Lx Ly Lz -> / 100000 * (1 + Lz) < Lz / INR Nz -> thermal_class F dt (Some [fun _ _ _ => g]) -> dt <> 0 ->
  let inds := [boundary_inds F (top Lz)] in
  List.length (boundary_inds F (top Lz)) = (Nx * Ny)%nat /\
  exists r, compute_residual_vars F inds T (thermal_vars F inds T_old) = Ok r /\
  sumN (num_cells F) (fun c => sumN (num_quads (f_ele F)) (fun q => JxW F c q * (8440 * 588 * (at_quad F T c q 0%nat - at_quad F T_old c q 0%nat))))
  = dt * (sumN (num_total_nodes F) (fun n => r n 0%nat) + g * (Lx * Ly)).
Proof.
  intros F B Nx Ny Nz Lx Ly Lz dt g T_old T HF Hth HT Hdt inds. pose proof HF as (HB & Hq & Hx & Hy & Hz & H1 & H2 & H3 & Hm & Hn & HE).
  pose proof (proj2 (isclose_iff F B Nx Ny Nz Lx Ly Lz HF 2 true ltac:(lia)) Hth) as Hp.
  split; [pose proof (box_count B HB F Nx Ny Nz Lx Ly Lz Hx Hy Hz H1 H2 H3 Hm Hn HE (top Lz) 2 true Hp ltac:(lia)) as Hc; cbn [along] in Hc; lia|].
  destruct (uniform_heat F B Nx Ny Nz Lx Ly Lz HF dt g (top Lz) T_old T HT Hdt) as (r & Hr & Hb). exists r. split; [exact Hr|]. rewrite Hb.
  pose proof (box_area B HB F Nx Ny Nz Lx Ly Lz Hx Hy Hz H1 H2 H3 Hm Hn HE (top Lz) 2 true Hp ltac:(lia)) as Ha. cbn [along] in Ha. now rewrite Ha.
Qed.
Print Assumptions thin_top_heat.
(** the mesh of the demo: 7000 faces in place of 1000, and seven times the area of the top *)
Example demo_top_case : forall dt g T, dt <> 0 -> let F := slab 0 50 20 5 demo_L dt (Some [fun _ _ _ => g]) in let inds := [boundary_inds F (top (5 / 100000))] in
  List.length (boundary_inds F (top (5 / 100000))) = 7000%nat /\
  exists r, compute_residual_vars F inds T (thermal_vars F inds (fun _ _ => 300)) = Ok r /\
  sumN (num_cells F) (fun c => sumN (num_quads (f_ele F)) (fun q => JxW F c q * (8440 * 588 * (at_quad F T c q 0%nat - at_quad F (fun _ _ => 300) c q 0%nat))))
  = dt * (sumN (num_total_nodes F) (fun n => r n 0%nat) + 7 * (g * (5 / 10000 * (2 / 10000)))).
Proof.
  intros dt g T Hdt F inds. destruct (thick_top_refuted F ex_basix 50 20 5 _ _ _ dt g (fun _ _ => 300) T (demo_hex dt _) ltac:(lia) demo_thick (slab_class _ _ _ _ _ _ _) Hdt) as (Hl & r & Hr & Hb).
  split; [etransitivity; [exact Hl|reflexivity]|]. exists r. split; [exact Hr|]. rewrite Hb. do 2 f_equal. rewrite !INR_IZR_INZ. cbn [Z.of_nat Pos.of_succ_nat Pos.succ]. lra.
Qed.

(** ** C175: one time step, and the damage problem, on any mesh of hexahedra *)
Theorem thermal_step_solved : forall F B dt fluxes inds T_old jac cjac locs vecs fns eps P,
  hex_mesh F B -> thermal_class F dt fluxes -> 0 < dt -> neumann_ok F inds -> (forall s, In s inds -> faces_ok F s) ->
  exact_jacobians F (thermal_vars F inds T_old) jac -> fem_problem F inds (thermal_vars F inds T_old) jac cjac (Some (locs, vecs, fns)) None eps = Ok P -> Forall (fun k => (k < vec F)%nat) vecs ->
  (forall use_petsc, solvable_problem P use_petsc <-> covered F locs vecs) /\
  (covered F locs vecs -> forall ev grad fuel precond guess use_petsc, exact_solvers ev -> exact_floats ev ->
   (exists u, solver ev P grad fuel true precond guess use_petsc = Some (Ok u) /\ discrete_solution F locs vecs fns inds (thermal_vars F inds T_old) u /\
      forall w, discrete_solution F locs vecs fns inds (thermal_vars F inds T_old) w -> same_field F w u) /\
   (exists u r, solver ev P grad 1 false precond guess use_petsc = Some (Ok u) /\ compute_residual_vars F inds u (thermal_vars F inds T_old) = Ok r /\
      forall n k, (n < num_total_nodes F)%nat -> (k < vec F)%nat -> (~ fixed F locs vecs n k -> Rabs (r n k) <= / 1000000) /\
        forall i, last_applying F locs vecs i n k -> Rabs (u n k - nth i fns (fun _ => 0) (points F n)) <= / 1000000)).
Proof.
  intros F B dt fluxes inds T_old jac cjac locs vecs fns eps P HM HT Hdt Hneu Hfc Hjac HP Hvecs. pose proof (thermal_reactive F dt fluxes HT) as HR. pose proof HT as (_ & _ & _ & _ & Hcau & _).
  assert (Hk : 0 <= 15) by lra. assert (Hs : forall c q, (c < num_cells F)%nat -> (q < num_quads (f_ele F))%nat -> 0 < slope (thermal_slope dt) (thermal_vars F inds T_old) c q).
  { intros c q Hc _. rewrite thermal_slope_at by exact Hc. apply Rdiv_lt_0_compat; lra. }
  assert (Hl : loads_ok F inds (thermal_vars F inds T_old)) by (split; [apply thermal_sized|auto]).
  split; [intros use_petsc; exact (reactive_solvable_iff F 15 _ HR inds _ B HM Hk Hs Hcau Hl jac cjac Hjac locs vecs fns eps P HP Hvecs use_petsc)|].
  intros Hcov ev grad fuel precond guess use_petsc Hex Hfl. split.
  - exact (reactive_solved F 15 _ HR inds _ B HM Hk Hs Hcau Hl jac cjac Hjac locs vecs fns eps P HP Hvecs Hcov ev grad fuel precond guess use_petsc Hex Hfl).
  - destruct (reactive_newton F 15 _ HR inds _ B HM Hk Hs Hcau Hl jac cjac Hjac locs vecs fns eps P HP Hvecs Hcov ev grad precond guess use_petsc Hex Hfl) as (u & Hu & r & Hr & Hb).
    exists u, r. split; [exact Hu|]. split; [exact Hr|exact Hb].
Qed.
Print Assumptions thermal_step_solved.
Theorem damage_step_solved : forall F B inds history body nv jac cjac locs vecs fns eps P,
  let iv := mkIv [map history (seq 0 (num_cells F))] [] body nv in
  hex_mesh F B -> damage_problem F inds -> (forall c q, 0 <= history c q) ->
  exact_jacobians F iv jac -> fem_problem F inds iv jac cjac (Some (locs, vecs, fns)) None eps = Ok P -> Forall (fun k => (k < vec F)%nat) vecs ->
  (forall use_petsc, solvable_problem P use_petsc <-> covered F locs vecs) /\
  (covered F locs vecs -> forall ev grad fuel precond guess use_petsc, exact_solvers ev -> exact_floats ev ->
   (exists u, solver ev P grad fuel true precond guess use_petsc = Some (Ok u) /\ discrete_solution F locs vecs fns inds iv u /\
      forall w, discrete_solution F locs vecs fns inds iv w -> same_field F w u) /\
   (exists u r, solver ev P grad 1 false precond guess use_petsc = Some (Ok u) /\ compute_residual_vars F inds u iv = Ok r /\
      forall n k, (n < num_total_nodes F)%nat -> (k < vec F)%nat -> (~ fixed F locs vecs n k -> Rabs (r n k) <= / 1000000) /\
        forall i, last_applying F locs vecs i n k -> Rabs (u n k - nth i fns (fun _ => 0) (points F n)) <= / 1000000)).
Proof.
  intros F B inds history body nv jac cjac locs vecs fns eps P iv HM HD Hh Hjac HP Hvecs. pose proof (damage_reactive F inds HD) as HR. pose proof HD as (_ & _ & _ & _ & _ & Hcau & Hneu & Hfc). rewrite Forall_forall in Hfc.
  assert (Hk : 0 <= G_c * fr_l) by (unfold G_c, fr_l; lra). assert (Hs : forall c q, (c < num_cells F)%nat -> (q < num_quads (f_ele F))%nat -> 0 < slope damage_slope iv c q).
  { intros c q Hc _. unfold slope, iv. cbn [iv_mass]. rewrite vars_one by exact Hc. cbn [map damage_slope]. specialize (Hh c q). unfold G_c, fr_l. lra. }
  assert (Hl : loads_ok F inds iv) by (split; [split; [constructor; [cbn; now rewrite map_length, seq_length|constructor]|constructor]|auto]).
  split; [intros use_petsc; exact (reactive_solvable_iff F _ _ HR inds _ B HM Hk Hs Hcau Hl jac cjac Hjac locs vecs fns eps P HP Hvecs use_petsc)|].
  intros Hcov ev grad fuel precond guess use_petsc Hex Hfl. split.
  - exact (reactive_solved F _ _ HR inds _ B HM Hk Hs Hcau Hl jac cjac Hjac locs vecs fns eps P HP Hvecs Hcov ev grad fuel precond guess use_petsc Hex Hfl).
  - destruct (reactive_newton F _ _ HR inds _ B HM Hk Hs Hcau Hl jac cjac Hjac locs vecs fns eps P HP Hvecs Hcov ev grad precond guess use_petsc Hex Hfl) as (u & Hu & r & Hr & Hb).
    exists u, r. split; [exact Hu|]. split; [exact Hr|exact Hb].
Qed.
Print Assumptions damage_step_solved.
(** two cells, laser on the top: the system is regular, and with one more node that belongs to no cell it is not *)
Example chip_case : solvable_problem (chip_problem 0) false /\ ~ solvable_problem (chip_problem 1) false /\
  exists u, solver exact_env (chip_problem 0) (fun _ _ => vzero) 5 true true None false = Some (Ok u) /\
  discrete_solution (chip 0) [bottom] [0%nat] [thermal_dirichlet_bottom] chip_inds (chip_vars 0) u.
Proof.
  assert (S : forall more, _) by (intros more; exact (thermal_step_solved (chip more) ex_basix (2 / 1000000) _ chip_inds (fun _ _ => 300) (chip_jac more) cjac0 [bottom] [0%nat] [thermal_dirichlet_bottom] None (chip_problem more)
    (chip_mesh more) (slab_class _ _ _ _ _ _ _) ltac:(lra) (proj1 (chip_loads more)) (proj2 (chip_loads more)) (chip_jac_exact more) (chip_ok more) ltac:(repeat constructor))).
  pose proof (box_covered (chip 0) ex_basix 1 1 2 _ _ _ chip_hex [bottom] [0%nat]) as Hcov.
  split; [|split].
  - apply (proj1 (S 0%nat)). exact Hcov.
  - intros H. apply (proj1 (S 1%nat)) in H. destruct (H 12%nat ltac:(cbn; lia)) as [(c & a & Hc & Ha & He)|(i & Hi & _ & Hb)].
    + assert (Hlt : (cell_node (chip 0) c a < 12)%nat). { change 12%nat with (num_total_nodes (chip 0)). apply FemAsmProofs.cell_node_lt; [exact (hex_wf (chip 0) ex_basix 1 1 2 _ _ _ chip_hex)|exact Hc|exact Ha]. }
      change (cell_node (chip 0) c a) with (cell_node (chip 1) c a) in Hlt. lia.
    + cbn in Hi. assert (i = 0%nat) by lia. subst i. cbn [nth] in Hb. unfold bottom, isclose in Hb. apply Rleb_true in Hb. change (points (chip 1) 12%nat 2%nat) with 1 in Hb. rewrite Rminus_0_r, Rabs_R0, Rabs_R1 in Hb. lra.
  - destruct (proj1 (proj2 (S 0%nat) Hcov exact_env (fun _ _ => vzero) 5%nat true None false (proj1 exact_env_ok) (proj2 exact_env_ok))) as (u & Hu & Hd & _). exists u. auto.
Qed.

(** ** C176: heating from the top never cools the material below its uniform initial temperature *)
Theorem heating_cools_refuted : forall F B Nx Ny Nz Lx Ly Lz dt laser_center switch T,
  box_hex F B Nx Ny Nz Lx Ly Lz -> nonneg_rule B quadrilateral 2 -> / 100000 * (1 + Lz) < Lz / INR Nz ->
  thermal_class F dt (Some (demo_fluxes laser_center switch)) -> 0 < switch -> 0 < dt -> 90 * dt < 8440 * 588 * (Lz / INR Nz) ^ 2 ->
  let inds := [boundary_inds F (top Lz); boundary_inds F (walls Lx Ly)] in
  discrete_solution F [bottom] [0%nat] [thermal_dirichlet_bottom] inds (thermal_vars F inds (fun _ _ => 300)) T ->
  forall d, (d < Nz)%nat -> exists n, (n < num_total_nodes F)%nat /\ points F n 2%nat = Lz - INR d * (Lz / INR Nz) /\ 0 < (- 1) ^ d * (T n 0%nat - 300).
Proof.
  intros F B Nx Ny Nz Lx Ly Lz dt lc sw T HF Hw Hfine HT Hsw Hdt Hsmall inds HS d Hd.
  exact (node_sign F B Nx Ny Nz Lx Ly Lz HF Hw lc sw dt HT Hdt Hsw Hfine Hsmall T HS d Hd).
Qed.
Print Assumptions heating_cools_refuted.
(** two cells of 50 micrometres, a time step of 2 microseconds: the solver returns a node in the middle that is colder than 300 *)
Example chip_cools_case : exists u n, solver exact_env (chip_problem 0) (fun _ _ => vzero) 5 true true None false = Some (Ok u) /\ (n < 12)%nat /\ points (chip 0) n 2%nat = / 20000 /\ u n 0%nat < 300.
Proof.
  destruct chip_case as (_ & _ & u & Hu & Hd).
  assert (Hf : / 100000 * (1 + / 10000) < / 10000 / INR 2) by (cbn [INR]; lra).
  assert (Hs : 90 * (2 / 1000000) < 8440 * 588 * (/ 10000 / INR 2) ^ 2) by (cbn [INR]; lra).
  destruct (heating_cools_refuted (chip 0) ex_basix 1 1 2 (/ 10000) (/ 10000) (/ 10000) (2 / 1000000) (fun _ => 0) 1 u chip_hex ex_nonneg4 Hf (slab_class _ _ _ _ _ _ _) ltac:(lra) ltac:(lra) Hs Hd 1%nat ltac:(lia)) as (n & Hn & Hp & Hl).
  exists u, n. split; [exact Hu|]. split; [exact Hn|]. split; [rewrite Hp; cbn [INR]; lra|]. cbn [pow] in Hl. lra.
Qed.

(** ** C177: without fluxes the distance to 300 never grows, whatever the time step *)
Theorem insulated_steps_contract : forall F B dt fluxes locs vecs T later, hex_mesh F B -> thermal_class F dt fluxes -> 0 < dt ->
  insulated_run F locs vecs T later -> Forall (fun T' => heat_norm F T' <= heat_norm F T) later.
Proof.
  intros F B dt fluxes locs vecs T later HM HT Hdt Hrun. pose proof HM as (HB & Hq & Hw & HE & Hwf & Hnc & Hd). destruct (tables_meet_fem_assumptions _ F B "HEX8" HB ltac:(cbn; tauto) HE) as (T1 & T2 & _ & _).
  refine (run_stable F dt fluxes HT Hdt Hwf Hnc T1 T2 eq_refl _ locs vecs later T Hrun). intros c q Hc Hq'. exact (mesh_jxw F B HM c q Hc Hq').
Qed.
Print Assumptions insulated_steps_contract.
(** from 400 everywhere, bottom kept at 300: there is a next field, and it is no farther from 300 *)
Example cooling_case : exists T', insulated_run (chip 0) [bottom] [0%nat] (fun _ _ => 400) [T'] /\ heat_norm (chip 0) T' <= / 100000000.
Proof.
  set (iv := thermal_vars (chip 0) [] (fun _ _ => 400)).
  destruct (fem_problem (chip 0) [] iv (chip_jac 0) cjac0 (Some ([bottom], [0%nat], [fun _ => 300])) None None) as [P|] eqn:EP; [|discriminate EP].
  destruct (thermal_step_solved (chip 0) ex_basix (2 / 1000000) _ [] (fun _ _ => 400) (chip_jac 0) cjac0 [bottom] [0%nat] [fun _ => 300] None P
    (chip_mesh 0) (slab_class _ _ _ _ _ _ _) ltac:(lra) ltac:(cbn; lia) ltac:(intros s []) (diff_jac_exact (chip 0) 15 (thermal_slope (2 / 1000000)) (thermal_reactive _ _ _ (slab_class _ _ _ _ _ _ _)) iv) EP ltac:(repeat constructor)) as (_ & S).
  destruct (proj1 (S (box_covered (chip 0) ex_basix 1 1 2 _ _ _ chip_hex [bottom] [0%nat]) exact_env (fun _ _ => vzero) 5%nat true None false (proj1 exact_env_ok) (proj2 exact_env_ok))) as (u & _ & Hu & _).
  exists u. assert (Hrun : insulated_run (chip 0) [bottom] [0%nat] (fun _ _ => 400) [u]) by (split; [exact Hu|exact I]). split; [exact Hrun|].
  pose proof (insulated_steps_contract (chip 0) ex_basix (2 / 1000000) _ [bottom] [0%nat] (fun _ _ => 400) [u] (chip_mesh 0) (slab_class _ _ _ _ _ _ _) ltac:(lra) Hrun) as H. inversion H as [|? ? Hle _]. eapply Rle_trans; [exact Hle|]. right.
  unfold heat_norm. destruct (tables_meet_fem_assumptions _ (chip 0) ex_basix "HEX8" ex_documented ltac:(cbn; tauto) hex_E_ok) as (T1 & _).
  rewrite (sumN_ext (num_cells (chip 0)) _ (fun _ => / 2 / 100000000)).
  - rewrite sumN_const. change (num_cells (chip 0)) with 2%nat. cbn [INR]. lra.
  - intros c Hc. rewrite (sumN_ext _ _ (fun q => / 2 / 100000000 * quad_weights (f_ele (chip 0)) q)).
    + rewrite sumN_scal. change (f_ele (chip 0)) with hex_E. unfold sumN. cbn. lra.
    + intros q Hq. rewrite (jxw (chip 0) ex_basix 1 1 2 _ _ _ chip_hex c q Hc).
      assert (E4 : at_quad (chip 0) (fun _ _ => 400) c q 0%nat = 400).
      { unfold at_quad, convert_from_dof_to_quad. rewrite sumN_scal, (T1 q Hq : sumN (num_nodes (f_ele (chip 0))) (shape_vals (f_ele (chip 0)) q) = 1). ring. }
      rewrite E4. unfold hh. cbn [along INR]. field.
Qed.
Close Scope R_scope.
