(** * Properties C18 - C21, C24, C74: grain segmentation, initial orientations, layered meshes *)
From Verif Require Import Prelude PreludeFacts GrainModel GrainSpec GrainProofs GrainVolProofs.
From Coq Require Import Lra.

(** C18 *)
Theorem grains_are_connected_components :
  forall Nx Ny Nz solid ori num_oris,
  length solid = Nx * Ny * Nz -> length ori = Nx * Ny * Nz -> (forall o, In o ori -> o < num_oris) ->
  exists adj by_ori, compute_edges_in_order Nx Ny Nz = Ok adj /\
    BFS_grains adj solid ori num_oris = Some (Ok by_ori) /\
    BFS adj solid ori num_oris = Some (Ok (concat by_ori)) /\
    length by_ori = num_oris /\
    NoDup (concat (concat by_ori)) /\
    (forall n, In n (concat (concat by_ori)) <-> is_solid solid n) /\
    (forall g, In g (concat by_ori) -> g <> [] /\
       forall n m, In n g -> (In m g <-> connected (face_neighbours Nx Ny Nz) solid ori n m)) /\
    (forall o gs g n, nth_error by_ori o = Some gs -> In g gs -> In n g -> nth_error ori n = Some o).
Proof. exact grid_bfs_ok. Qed.
Print Assumptions grains_are_connected_components.

(** The same for any symmetric neighbour table. *)
Theorem grains_of_any_graph :
  forall (edges : list (list nat)) solid ori num_oris,
  length edges = length solid -> length ori = length solid ->
  (forall n m, In m (nth n edges []) -> m < length solid) ->
  (forall n m, In m (nth n edges []) -> In n (nth m edges [])) ->
  (forall o, In o ori -> o < num_oris) ->
  exists by_ori, BFS_grains edges solid ori num_oris = Some (Ok by_ori) /\
    BFS edges solid ori num_oris = Some (Ok (concat by_ori)) /\
    length by_ori = num_oris /\
    NoDup (concat (concat by_ori)) /\
    (forall n, In n (concat (concat by_ori)) <-> is_solid solid n) /\
    (forall g, In g (concat by_ori) -> g <> [] /\
       forall n m, In n g -> (In m g <-> connected (fun n m => In m (nth n edges [])) solid ori n m)) /\
    (forall o gs g n, nth_error by_ori o = Some gs -> In g gs -> In n g -> nth_error ori n = Some o).
Proof. exact BFS_ok. Qed.
Print Assumptions grains_of_any_graph.

Example grains_example :
  exists adj, compute_edges_in_order 3 2 1 = Ok adj /\
  BFS adj [true; false; true; true; true; true] [0; 0; 1; 0; 1; 1] 2 = Some (Ok [[0; 3]; [2; 5; 4]]).
Proof. eexists. split; reflexivity. Qed.

(** C19 *)
Theorem adjacency_is_face_neighbours :
  forall Nx Ny Nz, exists adj, compute_edges_in_order Nx Ny Nz = Ok adj /\
  length adj = Nx * Ny * Nz /\
  forall n, NoDup (nth n adj []) /\ forall m, In m (nth n adj []) <-> face_neighbours Nx Ny Nz n m.
Proof. exact edges_in_order_ok. Qed.
Print Assumptions adjacency_is_face_neighbours.

Theorem face_neighbours_symmetric :
  forall Nx Ny Nz n m, face_neighbours Nx Ny Nz n m -> face_neighbours Nx Ny Nz m n.
Proof. exact face_neighbours_sym. Qed.
Print Assumptions face_neighbours_symmetric.

Example adjacency_example : compute_edges_in_order 2 2 2 =
  Ok [[1; 2; 4]; [0; 3; 5]; [3; 0; 6]; [2; 1; 7]; [5; 6; 0]; [4; 7; 1]; [7; 4; 2]; [6; 5; 3]].
Proof. reflexivity. Qed.

(** C20 *)
Theorem grain_volumes_add_up :
  forall pca Nx Ny Nz num_oris T Tl ori dv cents,
  length T = (Nx * Ny * Nz)%nat -> length ori = (Nx * Ny * Nz)%nat -> length cents = (Nx * Ny * Nz)%nat ->
  (forall o, In o ori -> (o < num_oris)%nat) ->
  let solid := map (fun t => Rltb t Tl) T in
  let w := (dv / INR (Nx * Ny * Nz))%R in
  exists adj grains vols ratios,
    compute_edges_in_order Nx Ny Nz = Ok adj /\
    BFS adj solid ori num_oris = Some (Ok grains) /\
    process_eta pca Nx Ny Nz num_oris T Tl ori dv cents = Some (Ok (vols, ratios)) /\
    vols = map (fun g => (INR (length g) * w)%R) grains /\
    length ratios = length grains /\
    (forall i g, nth_error grains i = Some g -> (length g < 5)%nat -> nth_error ratios i = Some 1%R) /\
    sum_list vols = (INR (count_true solid) * w)%R.
Proof. exact process_eta_ok. Qed.
Print Assumptions grain_volumes_add_up.

Example grain_volumes_hypotheses :
  let T := [300; 400; 2000; 300]%R in let ori := [0; 0; 1; 1] in
  length T = 2 * 2 * 1 /\ length ori = 2 * 2 * 1 /\ (forall o, In o ori -> o < 2) /\
  count_true (map (fun t => Rltb t 1600%R) T) = 3.
Proof.
  cbn [length In map]. repeat split; [intros o [<-|[<-|[<-|[<-|[]]]]]; lia|].
  assert (E1 : Rltb 300 1600 = true) by (apply Rltb_true; lra).
  assert (E2 : Rltb 400 1600 = true) by (apply Rltb_true; lra).
  assert (E3 : Rltb 2000 1600 = false) by (apply Rltb_false; lra).
  now rewrite E1, E2, E3.
Qed.

(** C21 *)
Theorem initial_state_one_hot :
  forall num_grains num_oris phys grain_oris,
  phys <> [] -> (forall p, In p phys -> 1 <= p <= num_grains) -> In num_grains phys ->
  length grain_oris = num_grains -> (forall o, In o grain_oris -> o < num_oris) ->
  exists ori, cell_orientations num_grains phys grain_oris = Ok ori /\
    length ori = length phys /\
    (forall n p, nth_error phys n = Some p -> nth_error ori n = nth_error grain_oris (p - 1)) /\
    length (ini_cond num_oris ori) = length phys /\
    (forall n p, nth_error phys n = Some p -> exists o, nth_error grain_oris (p - 1) = Some o /\
        one_hot num_oris (nth n (ini_cond num_oris ori) []) o).
Proof.
  intros ng no phys go Hne Hp Hm Hl Ho. eexists. split; [exact (cell_orientations_ok ng phys go Hne Hp Hm Hl)|].
  assert (K : forall n p, nth_error phys n = Some p ->
     exists o, nth_error go (p - 1) = Some o /\ o < no /\ nth_error (map (fun p => nth (p - 1) go 0) phys) n = Some o).
  { intros n p H. pose proof (Hp p (nth_error_In _ _ H)) as Hr. assert (p - 1 < length go) by lia.
    exists (nth (p - 1) go 0). rewrite (nth_error_nth' go 0) by assumption. split; [reflexivity|].
    split; [apply Ho, nth_In; assumption|]. now rewrite nth_error_map, H. }
  split; [apply map_length|]. split; [|split].
  - intros n p H. destruct (K n p H) as (o & E1 & _ & E2). congruence.
  - unfold ini_cond. now rewrite !map_length.
  - intros n p H. destruct (K n p H) as (o & E1 & Hlt & E2). exists o. split; [exact E1|]. now apply ini_cond_row.
Qed.
Print Assumptions initial_state_one_hot.

Theorem wrong_grain_count_rejected :
  forall num_grains phys grain_oris,
  (forall p, In p phys -> 1 <= p < num_grains) -> phys <> [] ->
  cell_orientations num_grains phys grain_oris = Err AssertionError.
Proof. exact cell_orientations_wrong_count. Qed.
Print Assumptions wrong_grain_count_rejected.

Example initial_state_example :
  cell_orientations 3 [1; 2; 1; 3; 2] [4; 0; 4] = Ok [4; 0; 4; 4; 0] /\
  ini_cond 2 [1; 0] = [[0; 1]; [1; 0]]%R.
Proof. split; reflexivity. Qed.

(** C24 *)
Theorem layered_mesh_consistent :
  forall h P C base nexts, p_points base = P -> p_cells base = C ->
  (forall q, In q nexts -> p_points q = P /\ p_cells q = C) ->
  let m := stack_layers h base 1 nexts in
  length (p_points m) = S (length nexts) * length P /\
  length (p_cells m) = S (length nexts) * length C /\
  forall l c cell, l <= length nexts -> nth_error C c = Some cell ->
    nth_error (p_cells m) (in_layer (length C) l c) = Some (map (in_layer (length P) l) cell) /\
    forall n p, nth_error P n = Some p -> nth_error (p_points m) (in_layer (length P) l n) = Some (layer_point h l p).
Proof. exact stack_from_base. Qed.
Print Assumptions layered_mesh_consistent.

(** Layers of different size: the node offset uses the size of the new layer only, so a cell can
    refer to a point that does not exist. *)
Theorem layered_mesh_unequal_layers_refuted :
  exists h base next c n, let m := generate_new_mesh h next base 1 in
    (forall cell k, In cell (p_cells base) -> In k cell -> k < length (p_points base)) /\
    (forall cell k, In cell (p_cells next) -> In k cell -> k < length (p_points next)) /\
    In c (p_cells m) /\ In n c /\ nth_error (p_points m) n = Some (0, 0, 7)%R /\ base <> m /\
    ~ In (0, 0, 7)%R (map (layer_point h 1) (p_points next)).
Proof.
  set (P3 := [(0, 0, 0); (0, 0, 5); (0, 0, 7)]%R).
  exists 10%R, (mkPoly P3 [[0; 1; 2]] [1] [1] [0] [0] []), (mkPoly [(0, 0, 0); (0, 0, 1)]%R [[0; 1]] [1] [1] [0] [0] []), [2; 3], 2.
  cbn. repeat split.
  - intros cell k [<-|[]] [<-|[<-|[<-|[]]]]; lia.
  - intros cell k [<-|[]] [<-|[<-|[]]]; lia.
  - right. now left.
  - now left.
  - discriminate.
  - intros [H|[H|[]]]; apply pair_equal_spec in H; destruct H as [_ H]; lra.
Qed.
Print Assumptions layered_mesh_unequal_layers_refuted.

Example layered_example :
  p_cells (stack_layers 10%R (mkPoly [(0,0,0); (0,0,1)]%R [[0; 1]] [1] [1] [0] [0] []) 1
             [mkPoly [(0,0,0); (0,0,1)]%R [[0; 1]] [1] [1] [0] [1] []; mkPoly [(0,0,0); (0,0,1)]%R [[0; 1]] [1] [1] [0] [2] []])
  = [[0; 1]; [2; 3]; [4; 5]].
Proof. reflexivity. Qed.

(** C74, finding: the grain numbers of stacked layers are not renumbered, so cells of different
    grains (in different layers, with different orientations) carry the same grain number. *)
Theorem stacked_grain_numbers_unique_refuted :
  exists base next n m o o', let s := stack_layers 1%R base 1 [next] in
    p_points base = p_points next /\ p_cells base = p_cells next /\
    nth_error (p_grain s) n = nth_error (p_grain s) m /\ nth_error (p_grain s) n = Some 0 /\
    nth_error (p_ori s) n = Some o /\ nth_error (p_ori s) m = Some o' /\ o <> o'.
Proof.
  exists (mkPoly [(0,0,0)]%R [[0]] [1] [1] [0] [3] []), (mkPoly [(0,0,0)]%R [[0]] [1] [1] [0] [4] []), 0, 1, 3, 4.
  cbn. repeat split; auto; lia.
Qed.
Print Assumptions stacked_grain_numbers_unique_refuted.
