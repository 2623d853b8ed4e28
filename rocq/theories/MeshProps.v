(** * Properties C01, C02, C03, C04, C51 (structured meshes, lattice numbering)

    Statements use only the model functions under study and [MeshSpec]. *)
From Verif Require Import Prelude MeshModel MeshSpec MeshProofs.
From Coq Require Import Lra.

(** C01 *)
Theorem box_mesh_valid :
  forall (Nx Ny Nz : nat) (Lx Ly Lz : R), 0 < Nx -> 0 < Ny -> 0 < Nz ->
  let m := box_mesh Nx Ny Nz Lx Ly Lz in
  length (points m) = (Nx + 1) * (Ny + 1) * (Nz + 1) /\
  length (cells m) = Nx * Ny * Nz /\
  forall i j k, i < Nx -> j < Ny -> k < Nz ->
    exists cell, nth_error (cells m) (i * Ny * Nz + j * Nz + k) = Some cell /\
      length cell = 8 /\ NoDup cell /\
      forall c, c < 8 -> exists n, nth_error cell c = Some n /\
        let '(a, b, d) := vtk_hex_offset c in
        nth_error (points m) n = Some (grid_pt3 Nx Ny Nz Lx Ly Lz (i + a) (j + b) (k + d)).
Proof. exact box_mesh_valid_L. Qed.
Print Assumptions box_mesh_valid.

Example box_mesh_valid_case :
  (0 < 2 /\ 0 < 1 /\ 0 < 1) /\
  cells (box_mesh 2 1 1 1 1 1) = [[0; 4; 6; 2; 1; 5; 7; 3]; [4; 8; 10; 6; 5; 9; 11; 7]].
Proof. split; [lia | reflexivity]. Qed.

(** C02 *)
Theorem rectangle_mesh_valid :
  forall (Nx Ny : nat) (Lx Ly : R), 0 < Nx -> 0 < Ny ->
  let m := rectangle_mesh Nx Ny Lx Ly in
  length (points m) = (Nx + 1) * (Ny + 1) /\
  length (cells m) = Nx * Ny /\
  (forall i j, i < Nx -> j < Ny ->
    exists cell, nth_error (cells m) (i * Ny + j) = Some cell /\
      length cell = 4 /\ NoDup cell /\
      (forall c, c < 4 -> exists n, nth_error cell c = Some n /\
        let '(a, b) := vtk_quad_offset c in
        nth_error (points m) n = Some (grid_pt2 Nx Ny Lx Ly (i + a) (j + b))) /\
      cell_area (points m) cell = (Lx / INR Nx * (Ly / INR Ny))%R).
Proof. exact rectangle_mesh_valid_L. Qed.
Print Assumptions rectangle_mesh_valid.

Theorem rectangle_mesh_conforming :
  forall (Nx Ny : nat) (Lx Ly : R), 0 < Nx -> 0 < Ny -> Lx <> 0%R -> Ly <> 0%R ->
  let m := rectangle_mesh Nx Ny Lx Ly in
  NoDup (points m) /\
  (forall i j n cell, i < Nx -> j < Ny ->
    nth_error (cells m) (i * Ny + j) = Some cell ->
    (In n cell <-> exists a b, a <= 1 /\ b <= 1 /\
       nth_error (points m) n = Some (grid_pt2 Nx Ny Lx Ly (i + a) (j + b)))).
Proof. exact rectangle_mesh_conforming_L. Qed.
Print Assumptions rectangle_mesh_conforming.

Example rectangle_mesh_valid_case :
  (0 < 2 /\ 0 < 2 /\ (2 <> 0)%R) /\
  cells (rectangle_mesh 2 2 2 2) = [[0; 3; 4; 1]; [1; 4; 5; 2]; [3; 6; 7; 4]; [4; 7; 8; 5]].
Proof. split; [repeat split; try lia; lra | reflexivity]. Qed.

(** C03 *)
Theorem box_mesh_conforming :
  forall (Nx Ny Nz : nat) (Lx Ly Lz : R), 0 < Nx -> 0 < Ny -> 0 < Nz ->
  Lx <> 0%R -> Ly <> 0%R -> Lz <> 0%R ->
  let m := box_mesh Nx Ny Nz Lx Ly Lz in
  NoDup (points m) /\
  (forall n, n < length (points m) -> exists c cell, nth_error (cells m) c = Some cell /\ In n cell) /\
  (forall i j k n cell, i < Nx -> j < Ny -> k < Nz ->
    nth_error (cells m) (i * Ny * Nz + j * Nz + k) = Some cell ->
    (In n cell <-> exists a b d, a <= 1 /\ b <= 1 /\ d <= 1 /\
       nth_error (points m) n = Some (grid_pt3 Nx Ny Nz Lx Ly Lz (i + a) (j + b) (k + d)))).
Proof. exact box_mesh_conforming_L. Qed.
Print Assumptions box_mesh_conforming.

Theorem box_mesh_volume :
  forall (Nx Ny Nz : nat) (Lx Ly Lz : R), 0 < Nx -> 0 < Ny -> 0 < Nz ->
  let m := box_mesh Nx Ny Nz Lx Ly Lz in
  sumR (cells m) (cell_volume (points m)) = (Lx * Ly * Lz)%R /\
  ((0 < Lx)%R -> (0 < Ly)%R -> (0 < Lz)%R ->
    forall cell, In cell (cells m) -> (0 < cell_volume (points m) cell)%R).
Proof. exact box_mesh_volume_L. Qed.
Print Assumptions box_mesh_volume.

Example box_mesh_conforming_case :
  (0 < 2 /\ (1 <> 0)%R) /\ In 5 (nth 0 (cells (box_mesh 2 1 1 1 1 1)) []) /\
  In 5 (nth 1 (cells (box_mesh 2 1 1 1 1 1)) []).
Proof. split; [split; [lia | lra] | split; cbn; tauto]. Qed.

(** C04 *)
Theorem lattice_id_roundtrip :
  forall Nx Ny Nz n, n < Nx * Ny * Nz ->
  let '(x, y, z) := to_id_xyz Ny Nz n in
  x < Nx /\ y < Ny /\ z < Nz /\ to_id Ny Nz x y z = n.
Proof. exact to_id_to_id_xyz. Qed.
Print Assumptions lattice_id_roundtrip.

Theorem lattice_xyz_roundtrip :
  forall Nx Ny Nz x y z, x < Nx -> y < Ny -> z < Nz ->
  to_id Ny Nz x y z < Nx * Ny * Nz /\ to_id_xyz Ny Nz (to_id Ny Nz x y z) = (x, y, z).
Proof. exact to_id_xyz_to_id. Qed.
Print Assumptions lattice_xyz_roundtrip.

Theorem vmapped_kernel_lands_on_own_cell :
  forall (A : Type) (d : A) Nx Ny Nz (kernel : nat -> A) x y z,
  x < Nx -> y < Ny -> z < Nz ->
  at3 (shape_wrapper_vmap d Nx Ny Nz kernel) x y z = kernel (to_id Ny Nz x y z).
Proof. exact @shape_wrapper_places. Qed.
Print Assumptions vmapped_kernel_lands_on_own_cell.

(** The centroid stored for lattice id (x,y,z) is the middle of cell (x,y,z). *)
Theorem centroid_of_lattice_cell :
  forall (Nx Ny Nz : nat) (Lx Ly Lz : R), 0 < Nx -> 0 < Ny -> 0 < Nz ->
  forall i j k, i < Nx -> j < Ny -> k < Nz ->
  nth_error (compute_cell_centroid (box_mesh Nx Ny Nz Lx Ly Lz)) (i * Ny * Nz + j * Nz + k) =
  Some ((INR i + 1/2) * Lx / INR Nx, (INR j + 1/2) * Ly / INR Ny, (INR k + 1/2) * Lz / INR Nz)%R.
Proof. exact box_centroid_L. Qed.
Print Assumptions centroid_of_lattice_cell.

Example lattice_case : 17 < 2 * 3 * 4 /\ to_id_xyz 3 4 17 = (1, 1, 1) /\ to_id 3 4 1 1 1 = 17.
Proof. split; [cbn; lia | split; reflexivity]. Qed.

(** C51 *)
Theorem cylinder_renumbering_coherent :
  forall (P : Type) (pts : list P) (c : nat), c <> 0 -> c <> 14 -> c < length pts ->
  (0 <= cylinder_renumber (Z.of_nat c) < Z.of_nat (length (cylinder_points pts)))%Z /\
  nth_error (cylinder_points pts) (Z.to_nat (cylinder_renumber (Z.of_nat c))) = nth_error pts c.
Proof. exact @cylinder_renumber_ok. Qed.
Print Assumptions cylinder_renumbering_coherent.

Example cylinder_case : 20 <> 0 /\ 20 <> 14 /\ 20 < length (seq 100 30) /\
  nth_error (cylinder_points (seq 100 30)) 18 = Some 120.
Proof. cbn. repeat split; lia. Qed.
