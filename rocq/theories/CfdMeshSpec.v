(** * What the CFD mesh tables must say, in terms of cell coordinates only. *)
From Verif Require Import Prelude.
Open Scope R_scope.

(** The face neighbour of cell (i,j,k) across side s (0: x-, 1: x+, 2: y-, 3: y+, 4: z-, 5: z+)
    in an nx by ny by nz box; None on the boundary. *)
Definition across (nx ny nz s i j k : nat) : option (nat * nat * nat) :=
  match s with
  | 0 => if Nat.eqb i 0 then None else Some (i - 1, j, k)
  | 1 => if Nat.ltb (i + 1) nx then Some (i + 1, j, k) else None
  | 2 => if Nat.eqb j 0 then None else Some (i, j - 1, k)
  | 3 => if Nat.ltb (j + 1) ny then Some (i, j + 1, k) else None
  | 4 => if Nat.eqb k 0 then None else Some (i, j, k - 1)
  | _ => if Nat.ltb (k + 1) nz then Some (i, j, k + 1) else None
  end%nat.
Definition across2 (nx ny s i j : nat) : option (nat * nat) :=
  match s with
  | 0 => if Nat.eqb i 0 then None else Some (i - 1, j)
  | 1 => if Nat.ltb (i + 1) nx then Some (i + 1, j) else None
  | 2 => if Nat.eqb j 0 then None else Some (i, j - 1)
  | _ => if Nat.ltb (j + 1) ny then Some (i, j + 1) else None
  end%nat.

(** The opposite side. *)
Definition opposite (s : nat) : nat := if Nat.even s then (s + 1)%nat else (s - 1)%nat.

(** Cell number in C order. *)
Definition number (ny nz : nat) (c : nat * nat * nat) : nat :=
  let '(i, j, k) := c in ((i * ny + j) * nz + k)%nat.

(** Outward unit normal of side s. *)
Definition normal (s : nat) : R * R * R :=
  match s with
  | 0%nat => (-1, 0, 0) | 1%nat => (1, 0, 0) | 2%nat => (0, -1, 0) | 3%nat => (0, 1, 0)
  | 4%nat => (0, 0, -1) | _ => (0, 0, 1)
  end.

(** Centre of cell (i,j,k) for widths (hx,hy,hz), and of its face s. *)
Definition centre (hx hy hz : R) (i j k : nat) : R * R * R :=
  ((INR i + 1 / 2) * hx, (INR j + 1 / 2) * hy, (INR k + 1 / 2) * hz).
Definition face_centre (hx hy hz : R) (s i j k : nat) : R * R * R :=
  let '(x, y, z) := centre hx hy hz i j k in
  let '(a, b, c) := normal s in
  (x + a * (hx / 2), y + b * (hy / 2), z + c * (hz / 2)).
