(** * Model of jax_am/fem/basis.py and of two functions of jax_am/fem/generate_mesh.py.
    Definitions only. The library basix is a record of functions. *)
From Coq Require Import String.
From Verif Require Import Prelude FemModel.
Open Scope R_scope.

Inductive cell_type : Type := interval | triangle | quadrilateral | tetrahedron | hexahedron.
Inductive family : Type := P | serendipity.

(** the calls of basix made by basis.py *)
Record basix : Type := mkBasix
  { make_quadrature : cell_type -> nat -> list point * list R;
    num_dofs : family -> cell_type -> nat -> nat;
    tabulate_vals : family -> cell_type -> nat -> point -> nat -> R;           (* element.tabulate(1, x)[0, x, dof, 0] *)
    tabulate_grads : family -> cell_type -> nat -> point -> nat -> nat -> R;   (* element.tabulate(1, x)[1 + d, x, dof, 0] *)
    geometry : cell_type -> list point;
    tdim : cell_type -> nat;                                                   (* len(geometry(cell)[0]) *)
    facets : cell_type -> list (list nat);                                     (* sub_entity_connectivity(cell)[dim-1][f][0] *)
    facet_jacobians : cell_type -> nat -> nat -> nat -> R;
    facet_outward_normals : cell_type -> nat -> nat -> R }.

(** get_elements, basis.py:19-93 *)
Definition get_elements (ele_type : string) : res (family * cell_type * cell_type * nat * nat * list nat) :=
  if String.eqb ele_type "HEX8" then Ok (P, hexahedron, quadrilateral, 2%nat, 1%nat, [0; 1; 3; 2; 4; 5; 7; 6]%nat)
  else if String.eqb ele_type "HEX27" then
    Ok (P, hexahedron, quadrilateral, 10%nat, 2%nat,
        [0; 1; 3; 2; 4; 5; 7; 6; 8; 11; 13; 9; 16; 18; 19; 17; 10; 12; 15; 14; 22; 23; 21; 24; 20; 25; 26]%nat)
  else if String.eqb ele_type "HEX20" then
    Ok (serendipity, hexahedron, quadrilateral, 2%nat, 2%nat, [0; 1; 3; 2; 4; 5; 7; 6; 8; 11; 13; 9; 16; 18; 19; 17; 10; 12; 15; 14]%nat)
  else if String.eqb ele_type "TET4" then Ok (P, tetrahedron, triangle, 0%nat, 1%nat, [0; 1; 2; 3]%nat)
  else if String.eqb ele_type "TET10" then Ok (P, tetrahedron, triangle, 2%nat, 2%nat, [0; 1; 2; 3; 9; 6; 8; 7; 5; 4]%nat)
  else if String.eqb ele_type "QUAD4" then Ok (P, quadrilateral, interval, 2%nat, 1%nat, [0; 1; 3; 2]%nat)
  else if String.eqb ele_type "QUAD8" then Ok (serendipity, quadrilateral, interval, 2%nat, 2%nat, [0; 1; 3; 2; 4; 6; 7; 5]%nat)
  else if String.eqb ele_type "TRI3" then Ok (P, triangle, interval, 0%nat, 1%nat, [0; 1; 2]%nat)
  else if String.eqb ele_type "TRI6" then Ok (P, triangle, interval, 2%nat, 2%nat, [0; 1; 2; 5; 3; 4]%nat)
  else Err NotImplementedError.

(** onp.argwhere(re_order == ind) *)
Definition positions (ind : nat) (re_order : list nat) : list nat :=
  filter (fun k => Nat.eqb (nth k re_order 0%nat) ind) (seq 0 (length re_order)).
(** reorder_inds, basis.py:96-101: the final array/reshape succeeds only when every entry is found exactly once *)
Definition reorder_inds (inds : list (list nat)) (re_order : list nat) : res (list (list nat)) :=
  mapM (mapM (fun ind => match positions ind re_order with [k] => Ok k | _ => Err ValueError end)) inds.

Section Tables.
Variable B : basix.
Definition origin : point := fun _ => 0.

(** get_shape_vals_and_grads, basis.py:104-123; indexing with re_order needs the entries to be existing dofs *)
Definition get_shape_vals_and_grads (ele_type : string) : res (nat * (nat -> nat -> R) * (nat -> nat -> nat -> R) * (nat -> R)) :=
  bind (get_elements ele_type) (fun '(fam, cell, _, gauss_order, degree, re_order) =>
  let (quad_points, weights) := make_quadrature B cell gauss_order in
  if forallb (fun k => Nat.ltb k (num_dofs B fam cell degree)) re_order then
    Ok (length quad_points,
        fun q i => tabulate_vals B fam cell degree (nth q quad_points origin) (nth i re_order 0%nat),
        fun q i d => tabulate_grads B fam cell degree (nth q quad_points origin) (nth i re_order 0%nat) d,
        fun q => nth q weights 0)
  else Err IndexError).

(** onp.sum(vertices[facet[0]] * vals[:, None], axis=0), basis.py:164 *)
Definition mapped_point (cell face_cell : cell_type) (facet : list nat) (p : point) : point := fun d =>
  sumN (length facet) (fun v => nth (nth v facet 0%nat) (geometry B cell) origin d * tabulate_vals B P face_cell 1 p v).
(** basis.py:169-173 *)
Definition size_jacobian (cell : cell_type) (f : nat) : R :=
  let J := facet_jacobians B cell f in
  if Nat.eqb (tdim B cell) 2 then sqrt (J 0%nat 0%nat ^ 2 + J 1%nat 0%nat ^ 2)
  else sqrt ((J 1%nat 0%nat * J 2%nat 1%nat - J 2%nat 0%nat * J 1%nat 1%nat) ^ 2
           + (J 2%nat 0%nat * J 0%nat 1%nat - J 0%nat 0%nat * J 2%nat 1%nat) ^ 2
           + (J 0%nat 0%nat * J 1%nat 1%nat - J 1%nat 0%nat * J 0%nat 1%nat) ^ 2).
(** get_face_shape_vals_and_grads, basis.py:126-185: face values, gradients, weights, normals, node
    lists. In 2-D the facet Jacobian has one column. *)
Definition get_face_shape_vals_and_grads (ele_type : string)
    : res (nat * (nat -> nat -> nat -> R) * (nat -> nat -> nat -> nat -> R) * (nat -> nat -> R) * (nat -> nat -> R) * list (list nat)) :=
  bind (get_elements ele_type) (fun '(fam, cell, face_cell, gauss_order, degree, re_order) =>
  let (pts, weights) := make_quadrature B face_cell gauss_order in
  let fs := facets B cell in
  let face_quad_point := fun f p => mapped_point cell face_cell (nth f fs []) (nth p pts origin) in
  bind (reorder_inds fs re_order) (fun face_inds =>
  if forallb (fun k => Nat.ltb k (num_dofs B fam cell degree)) re_order then
    Ok (length pts,
        fun f p i => tabulate_vals B fam cell degree (face_quad_point f p) (nth i re_order 0%nat),
        fun f p i d => tabulate_grads B fam cell degree (face_quad_point f p) (nth i re_order 0%nat) d,
        fun f p => nth p weights 0 * size_jacobian cell f,
        facet_outward_normals B cell,
        face_inds)
  else Err IndexError)).

(** the tables read by FEM.__post_init__, core.py:104-110 *)
Definition element_tables (ele_type : string) : res ele :=
  bind (get_elements ele_type) (fun '(_, cell, _, _, _, re_order) =>
  bind (get_shape_vals_and_grads ele_type) (fun '(nq, vals, grads, weights) =>
  bind (get_face_shape_vals_and_grads ele_type) (fun '(nfq, fvals, fgrads, fweights, normals, inds) =>
  Ok (mkEle (tdim B cell) nq (length re_order) nfq vals grads weights fvals fgrads fweights normals inds)))).
End Tables.

(** get_meshio_cell_type, generate_mesh.py:71-95 *)
Definition get_meshio_cell_type (ele_type : string) : res string :=
  if String.eqb ele_type "TET4" then Ok "tetra"%string
  else if String.eqb ele_type "TET10" then Ok "tetra10"%string
  else if String.eqb ele_type "HEX8" then Ok "hexahedron"%string
  else if String.eqb ele_type "HEX27" then Ok "hexahedron27"%string
  else if String.eqb ele_type "HEX20" then Ok "hexahedron20"%string
  else if String.eqb ele_type "TRI3" then Ok "triangle"%string
  else if String.eqb ele_type "TRI6" then Ok "triangle6"%string
  else if String.eqb ele_type "QUAD4" then Ok "quad"%string
  else if String.eqb ele_type "QUAD8" then Ok "quad8"%string
  else Err NotImplementedError.

(** quality, generate_mesh.py:60-66 *)
Definition quality (p1 p2 p3 p4 : point) : R :=
  let v1 := fun i => p2 i - p1 i in
  let v2 := fun i => p3 i - p1 i in
  let v3 := fun i => p4 i - p1 i in
  (v1 1%nat * v2 2%nat - v1 2%nat * v2 1%nat) * v3 0%nat
  + (v1 2%nat * v2 0%nat - v1 0%nat * v2 2%nat) * v3 1%nat
  + (v1 0%nat * v2 1%nat - v1 1%nat * v2 0%nat) * v3 2%nat.
(** check_mesh_TET4, generate_mesh.py:58-68; unpacking needs four nodes per cell *)
Definition check_mesh_TET4 (points : nat -> point) (cells : list (list nat)) : res (list R) :=
  mapM (fun c => match c with
    | [a; b; c; d] => Ok (quality (points a) (points b) (points c) (points d))
    | _ => Err ValueError
    end) cells.
Close Scope R_scope.
