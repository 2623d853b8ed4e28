(** * Structured meshes of [jax_am/common.py] and centroids / lattice numbering
    of [jax_am/lbm/utils.py].  Definitions only. *)
From Verif Require Import Prelude.

Record mesh (P : Type) : Type := mkMesh { points : list P; cells : list (list nat) }.
Arguments mkMesh {P}. Arguments points {P}. Arguments cells {P}.

Definition pt3 : Type := (R * R * R)%type.
Definition pt2 : Type := (R * R)%type.

(** jax_am/common.py:36-40: three [linspace]s, [meshgrid(indexing='ij')],
    [stack(axis=3)]: element [i,j,k] is [(x[i], y[j], z[k])]. *)
Definition points_xyz (Nx Ny Nz : nat) (Lx Ly Lz : R) : arr3 pt3 :=
  let x := linspace 0 Lx (Nx + 1) in
  let y := linspace 0 Ly (Ny + 1) in
  let z := linspace 0 Lz (Nz + 1) in
  mkArr3 (length x) (length y) (length z)
         (fun i j k => (nth i x 0%R, nth j y 0%R, nth k z 0%R)).

(** jax_am/common.py:34-55 [box_mesh].  [points.reshape(-1,3)] is [ravel3];
    [arange(len(points)).reshape(Nx+1,Ny+1,Nz+1)] and the eight slices follow
    lines 42-51 one by one; the [meshio.Mesh] object is the pair (points, cells). *)
Definition box_mesh (Nx Ny Nz : nat) (domain_x domain_y domain_z : R) : mesh pt3 :=
  let pts := ravel3 (points_xyz Nx Ny Nz domain_x domain_y domain_z) in
  let points_inds := seq 0 (length pts) in
  let a := reshape3 0 (Nx + 1) (Ny + 1) (Nz + 1) points_inds in
  let inds1 := slice3 Init Init Init a in
  let inds2 := slice3 Tail Init Init a in
  let inds3 := slice3 Tail Tail Init a in
  let inds4 := slice3 Init Tail Init a in
  let inds5 := slice3 Init Init Tail a in
  let inds6 := slice3 Tail Init Tail a in
  let inds7 := slice3 Tail Tail Tail a in
  let inds8 := slice3 Init Tail Tail a in
  mkMesh pts (ravel3 (stack3 [inds1; inds2; inds3; inds4; inds5; inds6; inds7; inds8])).

(** jax_am/common.py:60-64 *)
Definition points_xy (Nx Ny : nat) (Lx Ly : R) : arr2 pt2 :=
  let x := linspace 0 Lx (Nx + 1) in
  let y := linspace 0 Ly (Ny + 1) in
  mkArr2 (length x) (length y) (fun i j => (nth i x 0%R, nth j y 0%R)).

(** jax_am/common.py:58-73 [rectangle_mesh]. *)
Definition rectangle_mesh (Nx Ny : nat) (domain_x domain_y : R) : mesh pt2 :=
  let pts := ravel2 (points_xy Nx Ny domain_x domain_y) in
  let points_inds := seq 0 (length pts) in
  let a := reshape2 0 (Nx + 1) (Ny + 1) points_inds in
  let inds1 := slice2 Init Init a in
  let inds2 := slice2 Tail Init a in
  let inds3 := slice2 Tail Tail a in
  let inds4 := slice2 Init Tail a in
  mkMesh pts (ravel2 (stack2 [inds1; inds2; inds3; inds4])).

(** jax_am/lbm/utils.py:26-30 [compute_cell_centroid]: mean of [points[cells]]
    over the corner axis. Corner numbers out of range do not occur for
    [box_mesh]; the default is the origin. *)
Definition compute_cell_centroid (m : mesh pt3) : list pt3 :=
  map (fun c =>
         let p := map (fun n => nth n (points m) (0, 0, 0)%R) c in
         let k := INR (length c) in
         ((sumR p (fun q => fst (fst q)) / k)%R,
          (sumR p (fun q => snd (fst q)) / k)%R,
          (sumR p (fun q => snd q) / k)%R))
      (cells m).

(** jax_am/lbm/utils.py:33-34 [to_id]. *)
Definition to_id (Ny Nz idx idy idz : nat) : nat := idx * Ny * Nz + idy * Nz + idz.

(** jax_am/lbm/utils.py:37-42 [to_id_xyz]. *)
Definition to_id_xyz (Ny Nz lattice_id : nat) : nat * nat * nat :=
  let id_z := lattice_id mod Nz in
  let l := lattice_id / Nz in
  let id_y := l mod Ny in
  let id_x := l / Ny in
  (id_x, id_y, id_z).

(** jax_am/lbm/utils.py:45-49 [shape_wrapper] applied to a [vmap] over
    [lattice_ids = arange(Nx*Ny*Nz)] (lbm/core.py:577): the batch axis is
    reshaped to (Nx, Ny, Nz).  [dflt] is only seen outside the shape. *)
Definition shape_wrapper_vmap {A : Type} (dflt : A) (Nx Ny Nz : nat) (f : nat -> A) : arr3 A :=
  reshape3 dflt Nx Ny Nz (map f (seq 0 (Nx * Ny * Nz))).

(** Cylinder mesh post-processing, jax_am/fem/generate_mesh.py:225-226:
    points[1:14] stacked on points[15:], cells renumbered. Cell numbers are
    integers (numpy int), so [0 - 1 = -1] is kept as an integer. *)
Definition cylinder_points {P : Type} (pts : list P) : list P :=
  firstn 13 (skipn 1 pts) ++ skipn 15 pts.
Definition cylinder_renumber (c : Z) : Z := if (14 <? c)%Z then (c - 2)%Z else (c - 1)%Z.
Definition cylinder_cells (cs : list (list Z)) : list (list Z) := map (map cylinder_renumber) cs.
