(** * Model of the structured meshes of jax_am/cfd/cfd_am.py, lines 593-745. Definitions only.
    Reals for floats; index arrays as lists of natural numbers in C order. *)
From Verif Require Import Prelude.
Open Scope R_scope.

(** np.arange(a, b) *)
Definition arange (a b : nat) : list nat := seq a (b - a).

(** onp.pad(axis of length n, 1, "symmetric"): source position of entry p. *)
Definition padi (n p : nat) : nat :=
  if Nat.eqb p 0 then 0%nat else if Nat.leb p n then (p - 1)%nat else (n - 1)%nat.

(** ** mesh3d, cfd_am.py:668-745 *)
Record mesh3 := mkMesh3 { mNx : nat; mNy : nat; mNz : nat; mLx : R; mLy : R; mLz : R }.

(** cell_num, dX, dV, D, dS: lines 672, 684, 687-697 *)
Definition cell_num (m : mesh3) : nat := (mNx m * (mNy m * mNz m))%nat.
Definition dXx (m : mesh3) : R := mLx m / INR (mNx m).
Definition dXy (m : mesh3) : R := mLy m / INR (mNy m).
Definition dXz (m : mesh3) : R := mLz m / INR (mNz m).
Definition dV (m : mesh3) : R := dXx m * dXy m * dXz m.
Definition D3 (m : mesh3) : list R := [- dXx m; dXx m; - dXy m; dXy m; - dXz m; dXz m].
Definition dS3 (m : mesh3) : list R :=
  [- dXy m * dXz m; dXy m * dXz m;
   - dXz m * dXx m; dXz m * dXx m;
   - dXx m * dXy m; dXx m * dXy m].

(** Xc, lines 673-685: midpoints of the linspace coordinates. *)
Definition mid (L : R) (n i : nat) : R :=
  let x := linspace 0 L (n + 1) in (nth (i + 1) x 0 + nth i x 0) / 2.
Definition Xc (m : mesh3) : list (R * R * R) :=
  flat3 (mNx m) (mNy m) (mNz m) (fun i j k => (mid (mLx m) (mNx m) i, mid (mLy m) (mNy m) j, mid (mLz m) (mNz m) k)).

(** get_neighbor, lines 699-708 *)
Definition cell_idx (m : mesh3) (i j k : nat) : nat := (i * (mNy m * mNz m) + j * mNz m + k)%nat.
Definition cell_index (m : mesh3) (p q r : nat) : nat :=
  cell_idx m (padi (mNx m) p) (padi (mNy m) q) (padi (mNz m) r).
Definition cell_conn (m : mesh3) : list (list nat) :=
  flat3 (mNx m) (mNy m) (mNz m) (fun i j k =>
    [cell_index m (i + 1) (j + 1) (k + 1);
     cell_index m i (j + 1) (k + 1);
     cell_index m (i + 2) (j + 1) (k + 1);
     cell_index m (i + 1) j (k + 1);
     cell_index m (i + 1) (j + 2) (k + 1);
     cell_index m (i + 1) (j + 1) k;
     cell_index m (i + 1) (j + 1) (k + 2)]).

(** get_surface, lines 710-745 *)
Definition side_cells (m : mesh3) : list (list nat) :=
  [flat2 (mNy m) (mNz m) (fun j k => cell_idx m 0 j k);
   flat2 (mNy m) (mNz m) (fun j k => cell_idx m (mNx m - 1) j k);
   flat2 (mNx m) (mNz m) (fun i k => cell_idx m i 0 k);
   flat2 (mNx m) (mNz m) (fun i k => cell_idx m i (mNy m - 1) k);
   flat2 (mNx m) (mNy m) (fun i j => cell_idx m i j 0);
   flat2 (mNx m) (mNy m) (fun i j => cell_idx m i j (mNz m - 1))].
Definition surf_cell (m : mesh3) : list nat := concat (side_cells m).
Definition surf_sets (m : mesh3) : list (list nat) :=
  let yz := (mNy m * mNz m)%nat in
  let xz := (mNx m * mNz m)%nat in
  let xy := (mNx m * mNy m)%nat in
  [arange 0 yz;
   arange yz (yz * 2);
   arange (yz * 2) (yz * 2 + xz);
   arange (yz * 2 + xz) (yz * 2 + xz * 2);
   arange (yz * 2 + xz * 2) (yz * 2 + xz * 2 + xy);
   arange (yz * 2 + xz * 2 + xy) (yz * 2 + xz * 2 + xy * 2)].
Definition surf_set_num (m : mesh3) : list nat :=
  [mNy m * mNz m; mNy m * mNz m; mNx m * mNz m; mNx m * mNz m; mNy m * mNx m; mNy m * mNx m]%nat.
Definition surf_orient (m : mesh3) : list nat :=
  repeat 0%nat (mNy m * mNz m) ++ repeat 1%nat (mNy m * mNz m) ++ repeat 2%nat (mNx m * mNz m)
  ++ repeat 3%nat (mNx m * mNz m) ++ repeat 4%nat (mNy m * mNx m) ++ repeat 5%nat (mNy m * mNx m).
(** the six offsets added to the cell centres, lines 738-743 *)
Definition offsets (m : mesh3) : list (R * R * R) :=
  [(- (dXx m / 2), 0, 0); (dXx m / 2, 0, 0); (0, - (dXy m / 2), 0); (0, dXy m / 2, 0);
   (0, 0, - (dXz m / 2)); (0, 0, dXz m / 2)].
Definition add3 (p q : R * R * R) : R * R * R :=
  let '(a, b, c) := p in let '(a', b', c') := q in (a + a', b + b', c + c').
Definition surface (m : mesh3) : list (R * R * R) :=
  concat (map (fun so => map (fun n => add3 (nth n (Xc m) (0, 0, 0)) (snd so)) (fst so))
              (combine (side_cells m) (offsets m))).

(** ** mesh2d, cfd_am.py:602-665 *)
Record mesh2 := mkMesh2 { nNx : nat; nNy : nat; nLx : R; nLy : R }.
Definition cell_idx2 (m : mesh2) (i j : nat) : nat := (i * nNy m + j)%nat.
Definition cell_index2 (m : mesh2) (p q : nat) : nat := cell_idx2 m (padi (nNx m) p) (padi (nNy m) q).
Definition cell_conn2 (m : mesh2) : list (list nat) :=
  flat2 (nNx m) (nNy m) (fun i j =>
    [cell_index2 m (i + 1) (j + 1); cell_index2 m i (j + 1); cell_index2 m (i + 2) (j + 1);
     cell_index2 m (i + 1) j; cell_index2 m (i + 1) (j + 2)]).
Definition side_cells2 (m : mesh2) : list (list nat) :=
  [map (fun j => cell_idx2 m 0 j) (seq 0 (nNy m));
   map (fun j => cell_idx2 m (nNx m - 1) j) (seq 0 (nNy m));
   map (fun i => cell_idx2 m i 0) (seq 0 (nNx m));
   map (fun i => cell_idx2 m i (nNy m - 1)) (seq 0 (nNx m))].
Definition surf_cell2 (m : mesh2) : list nat := concat (side_cells2 m).
Definition surf_sets2 (m : mesh2) : list (list nat) :=
  [arange 0 (nNy m);
   arange (nNy m) (nNy m * 2);
   arange (nNy m * 2) (nNy m * 2 + nNx m);
   arange (nNy m * 2 + nNx m) (nNy m * 2 + nNx m * 2)].
