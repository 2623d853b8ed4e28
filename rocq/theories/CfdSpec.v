(** * Specification vocabulary for the CFD module. *)
From Verif Require Import Prelude CfdMeshModel CfdModel.
Open Scope R_scope.

(** A mesh with at least one cell and a positive extent in every direction. *)
Definition good_mesh (m : mesh3) : Prop :=
  (0 < mNx m)%nat /\ (0 < mNy m)%nat /\ (0 < mNz m)%nat /\ 0 < mLx m /\ 0 < mLy m /\ 0 < mLz m.

(** ** Ghost cells *)
(** The cell next to side s at face position (p, q). *)
Definition edge_value (nx ny nz : nat) (f : nat -> nat -> nat -> R) (s p q : nat) : R :=
  match s with
  | 0 => f 0 p q | 1 => f (nx - 1) p q
  | 2 => f p 0 q | 3 => f p (ny - 1) q
  | 4 => f p q 0 | _ => f p q (nz - 1)
  end%nat.
Definition width (g : grid) (s : nat) : R :=
  match s with 0%nat | 1%nat => gdx g | 2%nat | 3%nat => gdy g | _ => gdz g end.
(** Whether the condition on side s prescribes the value of component c on the face (otherwise
    it prescribes the derivative along the axis). *)
Definition value_given (k : bckind) (c : nat) : Prop :=
  match k with Dirichlet => True | Neumann => False | Marangoni => c = 2%nat end.
Definition slope_given (k : bckind) (c : nat) : Prop :=
  match k with Dirichlet => False | Neumann => True | Marangoni => (c < 2)%nat end.
(** One-sided derivative along the axis through face s, from the inner value and the ghost. *)
Definition face_slope (s : nat) (h inner ghost : R) : R :=
  if Nat.even s then (inner - ghost) / h else (ghost - inner) / h.

(** ** Sums over a box, and the discrete divergence of face velocities *)
Definition box_sum (nx ny nz : nat) (f : nat -> nat -> nat -> R) : R :=
  sumR (seq 0 nx) (fun i => sumR (seq 0 ny) (fun j => sumR (seq 0 nz) (fun k => f i j k))).
Definition face_div (g : grid) (uf vf wf : arr) (i j k : nat) : R :=
  (uf (i + 1)%nat j k - uf i j k) / gdx g + (vf i (j + 1)%nat k - vf i j k) / gdy g
  + (wf i j (k + 1)%nat - wf i j k) / gdz g.
(** No flow through the boundary. *)
Definition closed_box (g : grid) (uf vf wf : arr) : Prop :=
  (forall j k, (j < gNy g)%nat -> (k < gNz g)%nat -> uf 0%nat j k = 0 /\ uf (gNx g) j k = 0) /\
  (forall i k, (i < gNx g)%nat -> (k < gNz g)%nat -> vf i 0%nat k = 0 /\ vf i (gNy g) k = 0) /\
  (forall i j, (i < gNx g)%nat -> (j < gNy g)%nat -> wf i j 0%nat = 0 /\ wf i j (gNz g) = 0).

(** The central difference along x with the ghost value of the given boundary conditions. *)
Definition grad_x_with (g : grid) (B : bcs) (f : arr) (i j k : nat) : R :=
  ((if Nat.ltb (i + 1) (gNx g) then f (i + 1)%nat j k else get_GC g B 0 f 1 j k)
   - (if Nat.eqb i 0 then get_GC g B 0 f 0 j k else f (i - 1)%nat j k)) / (2 * gdx g).

(** ** Boundary conditions of the discrete equations *)
(** One entry per side, of type 0 (value) or 1 (flux), with one number per boundary face. *)
Definition good_bc (m : mesh3) (bc : bclist) : Prop :=
  length bc = 6%nat /\
  forall s ty vals, nth_error bc s = Some (ty, vals) -> (ty <= 1)%nat /\ nth_error (surf_set_num m) s = Some (length vals).
(** Face area and distance between cell centres across side s, both positive. *)
Definition area (m : mesh3) (s : nat) : R :=
  match s with 0%nat | 1%nat => dXy m * dXz m | 2%nat | 3%nat => dXz m * dXx m | _ => dXx m * dXy m end.
Definition spacing (m : mesh3) (s : nat) : R :=
  match s with 0%nat | 1%nat => dXx m | 2%nat | 3%nat => dXy m | _ => dXz m end.
(** Cells along side s in the order of the boundary values. *)
Definition side_list (m : mesh3) (s : nat) : list nat :=
  match s with
  | 0 => flat2 (mNy m) (mNz m) (fun j k => (0 * mNy m + j) * mNz m + k)
  | 1 => flat2 (mNy m) (mNz m) (fun j k => ((mNx m - 1) * mNy m + j) * mNz m + k)
  | 2 => flat2 (mNx m) (mNz m) (fun i k => (i * mNy m + 0) * mNz m + k)
  | 3 => flat2 (mNx m) (mNz m) (fun i k => (i * mNy m + (mNy m - 1)) * mNz m + k)
  | 4 => flat2 (mNx m) (mNy m) (fun i j => (i * mNy m + j) * mNz m + 0)
  | _ => flat2 (mNx m) (mNy m) (fun i j => (i * mNy m + j) * mNz m + (mNz m - 1))
  end%nat.
(** What enters the cell behind one boundary face: conductance over half a cell for a given value,
    the given flux times the area otherwise. [kappa] is the conductivity used at the face. *)
Definition face_gain (m : mesh3) (kappa : R -> R) (s ty : nat) (v u : R) : R :=
  match ty with
  | O => kappa v * (v - u) / (spacing m s / 2) * area m s
  | _ => v * area m s
  end.
Definition boundary_gain (m : mesh3) (kappa : R -> R) (bc : bclist) (U : fld) : R :=
  sumR (combine (seq 0 6) bc) (fun sb =>
    sumR (combine (snd (snd sb)) (side_list m (fst sb))) (fun vc =>
      face_gain m kappa (fst sb) (fst (snd sb)) (fst vc) (U (snd vc)))).
(** Conductivity at a boundary value. *)
Definition kappa_of (e : eqn) (v : R) : R :=
  match e_mufn e with Some k => k v | None => match e_mu e with Some mu => mu | None => 0 end end.

(** All conditions are fluxes with values satisfying P. *)
Definition all_flux (P : R -> Prop) (bc : bclist) : Prop :=
  forall ty vals, In (ty, vals) bc -> ty = 1%nat /\ forall v, In v vals -> P v.

(** Cell (i,j,k) is not in the index window. *)
Definition outside (w : window) (i j k : nat) : Prop :=
  let '(x, y, z) := w in
  ~ ((fst x <= i < snd x)%nat /\ (fst y <= j < snd y)%nat /\ (fst z <= k < snd z)%nat).

(** The starting point of the nonlinear solver. *)
Definition start (init : option fld) : fld := match init with None => fun _ => 0 | Some d => d end.
