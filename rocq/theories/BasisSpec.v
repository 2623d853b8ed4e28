(** * Reference elements: documented node positions and shape functions. Definitions only. *)
From Coq Require Import String QArith Qreals.
From Verif Require Import Prelude FemModel BasisModel.
Open Scope R_scope.

(** Positions are lists of doubled reference coordinates: 0, 1, 2 for 0, 1/2, 1. *)
Definition pos : Type := list nat.
Definition mid (l : list pos) : pos :=
  map (fun k => (fold_right (fun p acc => nth k p 0 + acc) 0 l / length l)%nat) (seq 0 (length (hd [] l))).
Definition mids (vertices : list pos) (sub : list (list nat)) : list pos :=
  map (fun e => mid (map (fun v => nth v vertices []) e)) sub.

(** ** basix (https://defelement.org): vertices, then edges, faces, interior; sub-entities are listed
    by their vertices *)
Definition basix_vertices (c : cell_type) : list pos :=
  match c with
  | interval => [[0]; [2]]
  | triangle => [[0; 0]; [2; 0]; [0; 2]]
  | quadrilateral => [[0; 0]; [2; 0]; [0; 2]; [2; 2]]
  | tetrahedron => [[0; 0; 0]; [2; 0; 0]; [0; 2; 0]; [0; 0; 2]]
  | hexahedron => [[0; 0; 0]; [2; 0; 0]; [0; 2; 0]; [2; 2; 0]; [0; 0; 2]; [2; 0; 2]; [0; 2; 2]; [2; 2; 2]]
  end%nat.
Definition basix_edges (c : cell_type) : list (list nat) :=
  match c with
  | interval => [[0; 1]]
  | triangle => [[1; 2]; [0; 2]; [0; 1]]
  | quadrilateral => [[0; 1]; [0; 2]; [1; 3]; [2; 3]]
  | tetrahedron => [[2; 3]; [1; 3]; [1; 2]; [0; 3]; [0; 2]; [0; 1]]
  | hexahedron => [[0; 1]; [0; 2]; [0; 4]; [1; 3]; [1; 5]; [2; 3]; [2; 6]; [3; 7]; [4; 5]; [4; 6]; [5; 7]; [6; 7]]
  end%nat.
Definition basix_faces (c : cell_type) : list (list nat) :=
  match c with
  | tetrahedron => [[1; 2; 3]; [0; 2; 3]; [0; 1; 3]; [0; 1; 2]]
  | hexahedron => [[0; 1; 2; 3]; [0; 1; 4; 5]; [0; 2; 4; 6]; [1; 3; 5; 7]; [2; 3; 6; 7]; [4; 5; 6; 7]]
  | _ => []
  end%nat.
Definition basix_facets (c : cell_type) : list (list nat) :=
  match c with tetrahedron | hexahedron => basix_faces c | interval => [[0%nat]; [1%nat]] | _ => basix_edges c end.
(** positions of the degrees of freedom: Lagrange of degree 1 and 2, serendipity of degree 2 *)
Definition basix_dofs (f : family) (c : cell_type) (degree : nat) : list pos :=
  let v := basix_vertices c in
  match f, degree with
  | P, 1%nat => v
  | P, 2%nat => v ++ mids v (basix_edges c) ++
      match c with
      | quadrilateral => [[1; 1]%nat]
      | hexahedron => mids v (basix_faces c) ++ [[1; 1; 1]%nat]
      | _ => []
      end
  | serendipity, 2%nat => v ++ mids v (basix_edges c)
  | _, _ => []
  end.

(** ** meshio (VTK / Abaqus) node order *)
Definition vtk_hex : list pos := [[0; 0; 0]; [2; 0; 0]; [2; 2; 0]; [0; 2; 0]; [0; 0; 2]; [2; 0; 2]; [2; 2; 2]; [0; 2; 2]]%nat.
Definition vtk_hex_edges : list (list nat) :=
  [[0; 1]; [1; 2]; [2; 3]; [3; 0]; [4; 5]; [5; 6]; [6; 7]; [7; 4]; [0; 4]; [1; 5]; [2; 6]; [3; 7]]%nat.
Definition vtk_hex_faces : list (list nat) := [[0; 4; 7; 3]; [1; 2; 6; 5]; [0; 1; 5; 4]; [3; 7; 6; 2]; [0; 3; 2; 1]; [4; 5; 6; 7]]%nat.
Definition vtk_tet : list pos := [[0; 0; 0]; [2; 0; 0]; [0; 2; 0]; [0; 0; 2]]%nat.
Definition vtk_tet_edges : list (list nat) := [[0; 1]; [1; 2]; [0; 2]; [0; 3]; [1; 3]; [2; 3]]%nat.
Definition vtk_quad : list pos := [[0; 0]; [2; 0]; [2; 2]; [0; 2]]%nat.
Definition vtk_quad_edges : list (list nat) := [[0; 1]; [1; 2]; [2; 3]; [3; 0]]%nat.
Definition vtk_tri : list pos := [[0; 0]; [2; 0]; [0; 2]]%nat.
Definition vtk_tri_edges : list (list nat) := [[0; 1]; [1; 2]; [2; 0]]%nat.
Definition mesh_nodes (ele_type : string) : list pos :=
  if String.eqb ele_type "HEX8" then vtk_hex
  else if String.eqb ele_type "HEX20" then vtk_hex ++ mids vtk_hex vtk_hex_edges
  else if String.eqb ele_type "HEX27" then vtk_hex ++ mids vtk_hex vtk_hex_edges ++ mids vtk_hex vtk_hex_faces ++ [[1; 1; 1]%nat]
  else if String.eqb ele_type "TET4" then vtk_tet
  else if String.eqb ele_type "TET10" then vtk_tet ++ mids vtk_tet vtk_tet_edges
  else if String.eqb ele_type "QUAD4" then vtk_quad
  else if String.eqb ele_type "QUAD8" then vtk_quad ++ mids vtk_quad vtk_quad_edges
  else if String.eqb ele_type "TRI3" then vtk_tri
  else if String.eqb ele_type "TRI6" then vtk_tri ++ mids vtk_tri vtk_tri_edges
  else [].
Definition supported : list string := ["HEX8"; "HEX27"; "HEX20"; "TET4"; "TET10"; "QUAD4"; "QUAD8"; "TRI3"; "TRI6"]%string.
(** the types whose basix element is of Lagrange type *)
Definition lagrange_types : list string := ["HEX8"; "HEX27"; "TET4"; "TET10"; "QUAD4"; "TRI3"; "TRI6"]%string.
Definition coord (p : pos) (d : nat) : R := INR (nth d p 0%nat) / 2.

(** ** Lagrange shape functions of a node, from its position *)
(** one-dimensional factors, and factors in a barycentric coordinate *)
Definition line_factor (degree c : nat) (x : R) : R :=
  match degree, c with
  | 1%nat, 0%nat => 1 - x | 1%nat, _ => x
  | _, 0%nat => (1 - x) * (1 - 2 * x) | _, 1%nat => 4 * x * (1 - x) | _, _ => x * (2 * x - 1)
  end.
Definition bary_factor (degree c : nat) (l : R) : R :=
  match degree, c with
  | _, 0%nat => 1 | 1%nat, _ => l
  | _, 1%nat => 2 * l | _, _ => l * (2 * l - 1)
  end.
Definition cell_dim (c : cell_type) : nat :=
  match c with interval => 1 | triangle | quadrilateral => 2 | tetrahedron | hexahedron => 3 end.
Definition simplex (c : cell_type) : bool := match c with triangle | tetrahedron => true | _ => false end.
Definition prodN (n : nat) (f : nat -> R) : R := fold_right (fun k acc => f k * acc) 1 (seq 0 n).
Definition lagrange (c : cell_type) (degree : nat) (p : pos) (x : point) : R :=
  let d := cell_dim c in
  if simplex c then
    bary_factor degree (2 - fold_right Nat.add 0%nat p) (1 - sumN d x) * prodN d (fun k => bary_factor degree (nth k p 0%nat) (x k))
  else prodN d (fun k => line_factor degree (nth k p 0%nat) (x k)).
Definition shift (x : point) (j : nat) (t : R) : point := fun k => if Nat.eqb k j then x k + t else x k.
Definition ref_volume (c : cell_type) : R :=
  match c with interval | quadrilateral | hexahedron => 1 | triangle => 1 / 2 | tetrahedron => 1 / 6 end.
(** a face point: coordinates of the face cell *)
Definition in_cell (c : cell_type) (x : point) : Prop :=
  (forall k, (k < cell_dim c)%nat -> 0 <= x k <= 1) /\ (simplex c = true -> sumN (cell_dim c) x <= 1).

(** Contract of basix: the documented vertices and facets; Lagrange elements of degree 1 and 2 are
    nodal at the documented positions; gradients are partial derivatives; quadrature weights add up
    to the volume, points lie in the cell; a facet Jacobian has the edges from the first facet vertex as columns; normals
    are unit and point outward. *)
Definition documented_basix (B : basix) : Prop :=
  (forall c, tdim B c = cell_dim c /\ facets B c = basix_facets c /\ length (geometry B c) = length (basix_vertices c) /\
     forall v d, (v < length (basix_vertices c))%nat -> nth v (geometry B c) origin d = coord (nth v (basix_vertices c) []) d) /\
  (forall f c degree, basix_dofs f c degree <> [] -> num_dofs B f c degree = length (basix_dofs f c degree)) /\
  (forall c degree x k, degree = 1%nat \/ degree = 2%nat -> (k < length (basix_dofs P c degree))%nat ->
     tabulate_vals B P c degree x k = lagrange c degree (nth k (basix_dofs P c degree) []) x) /\
  (forall f c degree x k j, (j < cell_dim c)%nat ->
     derivable_pt_lim (fun t => tabulate_vals B f c degree (shift x j t) k) 0 (tabulate_grads B f c degree x k j)) /\
  (forall c m, let (pts, w) := make_quadrature B c m in
     length pts = length w /\ sumR w (fun x => x) = ref_volume c /\ Forall (in_cell c) pts) /\
  (forall c f i v, (f < length (basix_facets c))%nat -> (v < cell_dim c - 1)%nat ->
     let fv := nth f (basix_facets c) [] in
     facet_jacobians B c f i v = coord (nth (nth (S v) fv 0%nat) (basix_vertices c) []) i - coord (nth (nth 0 fv 0%nat) (basix_vertices c) []) i) /\
  (forall c f, (f < length (basix_facets c))%nat ->
     let n := facet_outward_normals B c f in
     sumN (cell_dim c) (fun d => n d * n d) = 1 /\
     let fv := nth f (basix_facets c) [] in
     forall v, (v < length (basix_vertices c))%nat ->
       let h := sumN (cell_dim c) (fun d => n d * (coord (nth v (basix_vertices c) []) d - coord (nth (nth 0 fv 0%nat) (basix_vertices c) []) d)) in
       (In v fv -> h = 0) /\ (~ In v fv -> h < 0)).

(** ** The shape function of a mesh node, from the documentation *)
Definition cell_of (ele_type : string) : cell_type :=
  if String.prefix "HEX" ele_type then hexahedron else if String.prefix "TET" ele_type then tetrahedron
  else if String.prefix "QUAD" ele_type then quadrilateral else triangle.
Definition degree_of (ele_type : string) : nat :=
  if existsb (String.eqb ele_type) ["HEX27"; "HEX20"; "TET10"; "QUAD8"; "TRI6"]%string then 2 else 1.
Definition node_shape (ele_type : string) (i : nat) (x : point) : R :=
  lagrange (cell_of ele_type) (degree_of ele_type) (nth i (mesh_nodes ele_type) []) x.
Definition node_at (ele_type : string) (i : nat) : point := fun d => coord (nth i (mesh_nodes ele_type) []) d.
(** the node position p lies on facet f *)
Definition on_facet (c : cell_type) (f : nat) (p : pos) : Prop :=
  let fv := nth f (basix_facets c) [] in
  if simplex c then forall v, (v < length (basix_vertices c))%nat -> ~ In v fv ->
      match v with 0%nat => fold_right Nat.add 0%nat p = 2%nat | S k => nth k p 0%nat = 0%nat end
  else exists k s, (k < cell_dim c)%nat /\ (s = 0%nat \/ s = 2%nat) /\ (forall v, In v fv -> nth k (nth v (basix_vertices c) []) 0%nat = s) /\ nth k p 0%nat = s.

(** length or area of a facet of the reference cell *)
Definition facet_size (c : cell_type) (f : nat) : R :=
  match c, f with
  | triangle, 0%nat => sqrt 2 | tetrahedron, 0%nat => sqrt 3 / 2 | tetrahedron, _ => 1 / 2 | _, _ => 1
  end.
(** the facet vertices, and the point of a facet with facet coordinates y *)
Definition facet_vertex (c : cell_type) (f v : nat) : point := fun d => coord (nth (nth v (nth f (basix_facets c) []) 0%nat) (basix_vertices c) []) d.
Definition facet_point (c : cell_type) (f : nat) (y : point) : point := fun d =>
  facet_vertex c f 0 d + sumN (cell_dim c - 1) (fun k => y k * (facet_vertex c f (S k) d - facet_vertex c f 0 d)).
Definition face_cell (c : cell_type) : cell_type := match c with hexahedron => quadrilateral | tetrahedron => triangle | _ => interval end.

(** a cell whose nodes are the affine image b + A X of the reference nodes *)
Definition affine_cell {V : Type} (F : fem V) (ele_type : string) (c : nat) (A : mat) (b : point) : Prop :=
  forall a i, (a < length (mesh_nodes ele_type))%nat -> (i < cell_dim (cell_of ele_type))%nat ->
  physical_coos F c a i = b i + sumN (cell_dim (cell_of ele_type)) (fun j => A i j * node_at ele_type a j).

(** ** Polynomials with rational coefficients (list of coefficient and exponents), and their integrals
    over the reference cell: 1/((a+1)(b+1)(c+1)) on a box, a! b! c!/(a+b+c+d)! on a simplex *)
Definition poly : Type := list (Q * list nat).
Definition mono (d : nat) (e : list nat) (x : point) : R := prodN d (fun k => x k ^ nth k e 0%nat).
Definition peval (d : nat) (p : poly) (x : point) : R := sumR p (fun m => Q2R (fst m) * mono d (snd m) x).
Definition sum_nat (d : nat) (e : list nat) : nat := fold_right (fun k acc => (nth k e 0 + acc)%nat) 0%nat (seq 0 d).
Definition moment (c : cell_type) (e : list nat) : R :=
  let d := cell_dim c in
  if simplex c then prodN d (fun k => INR (fact (nth k e 0%nat))) / INR (fact (sum_nat d e + d))
  else prodN d (fun k => 1 / INR (S (nth k e 0%nat))).
Definition integral (c : cell_type) (p : poly) : R := sumR p (fun m => Q2R (fst m) * moment c (snd m)).
(** documented exactness of make_quadrature(cell, m): total degree m on simplices; degree m in every
    variable on boxes (Gauss-Jacobi products) *)
Definition degree_ok (c : cell_type) (m : nat) (e : list nat) : bool :=
  if simplex c then Nat.leb (sum_nat (cell_dim c) e) m else forallb (fun k => Nat.leb (nth k e 0%nat) m) (seq 0 (cell_dim c)).
Definition exact_rule (B : basix) (c : cell_type) (m : nat) : Prop :=
  forall e, degree_ok c m e = true ->
  let (pts, w) := make_quadrature B c m in
  sumN (length pts) (fun q => nth q w 0 * mono (cell_dim c) e (nth q pts origin)) = moment c e.
(** nodes of a meshio cell type *)
Definition meshio_num_nodes : list (string * nat) :=
  [("tetra", 4); ("tetra10", 10); ("hexahedron", 8); ("hexahedron27", 27); ("hexahedron20", 20); ("triangle", 3); ("triangle6", 6); ("quad", 4); ("quad8", 8)]%string%nat.
(** the finite-element mesh has these points and cells *)
Definition has_mesh3 {V : Type} (F : fem V) (pts : list (R * R * R)) (cs : list (list nat)) : Prop :=
  cells F = cs /\ forall n x y z, nth_error pts n = Some (x, y, z) -> points F n 0%nat = x /\ points F n 1%nat = y /\ points F n 2%nat = z.
Definition has_mesh2 {V : Type} (F : fem V) (pts : list (R * R)) (cs : list (list nat)) : Prop :=
  cells F = cs /\ forall n x y, nth_error pts n = Some (x, y) -> points F n 0%nat = x /\ points F n 1%nat = y.
(** edge from the first to another vertex of face f of cell c, in space *)
Definition face_edge {V : Type} (F : fem V) (c f k : nat) : point := fun i =>
  physical_coos F c (nth (S k) (nth f (face_inds (f_ele F)) []) 0%nat) i - physical_coos F c (nth 0 (nth f (face_inds (f_ele F)) []) 0%nat) i.
Close Scope R_scope.
