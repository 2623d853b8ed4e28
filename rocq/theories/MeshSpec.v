(** * Independent vocabulary for the mesh theorems *)
From Verif Require Import Prelude.

(** Offsets of the eight corners of a hexahedron in VTK / meshio order. *)
Definition vtk_hex_offset (c : nat) : nat * nat * nat :=
  match c with
  | 0 => (0,0,0) | 1 => (1,0,0) | 2 => (1,1,0) | 3 => (0,1,0)
  | 4 => (0,0,1) | 5 => (1,0,1) | 6 => (1,1,1) | _ => (0,1,1)
  end.

(** Offsets of the four corners of a quadrilateral, counter-clockwise. *)
Definition vtk_quad_offset (c : nat) : nat * nat :=
  match c with 0 => (0,0) | 1 => (1,0) | 2 => (1,1) | _ => (0,1) end.

(** The point with grid coordinates (i,j,k) of the box. *)
Definition grid_pt3 (Nx Ny Nz : nat) (Lx Ly Lz : R) (i j k : nat) : R * R * R :=
  (INR i * Lx / INR Nx, INR j * Ly / INR Ny, INR k * Lz / INR Nz)%R.
Definition grid_pt2 (Nx Ny : nat) (Lx Ly : R) (i j : nat) : R * R :=
  (INR i * Lx / INR Nx, INR j * Ly / INR Ny)%R.

(** Signed volume of the parallelepiped spanned at corner 0 by the edges to
    corners 1, 3 and 4 (exact volume for a brick). *)
Definition signed_volume (p0 p1 p3 p4 : R * R * R) : R :=
  let '(x0,y0,z0) := p0 in let '(x1,y1,z1) := p1 in
  let '(x3,y3,z3) := p3 in let '(x4,y4,z4) := p4 in
  let ax := (x1 - x0)%R in let ay := (y1 - y0)%R in let az := (z1 - z0)%R in
  let bx := (x3 - x0)%R in let byy := (y3 - y0)%R in let bz := (z3 - z0)%R in
  let cx := (x4 - x0)%R in let cy := (y4 - y0)%R in let cz := (z4 - z0)%R in
  (ax * (byy * cz - bz * cy) - ay * (bx * cz - bz * cx) + az * (bx * cy - byy * cx))%R.

Definition signed_area (p0 p1 p3 : R * R) : R :=
  let '(x0,y0) := p0 in let '(x1,y1) := p1 in let '(x3,y3) := p3 in
  ((x1 - x0) * (y3 - y0) - (y1 - y0) * (x3 - x0))%R.

(** Volume of a cell of a mesh given by its corner numbers. *)
Definition cell_volume (pts : list (R * R * R)) (c : list nat) : R :=
  let p i := nth (nth i c 0) pts (0, 0, 0)%R in
  signed_volume (p 0) (p 1) (p 3) (p 4).
Definition cell_area (pts : list (R * R)) (c : list nat) : R :=
  let p i := nth (nth i c 0) pts (0, 0)%R in
  signed_area (p 0) (p 1) (p 3).
