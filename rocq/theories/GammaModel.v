(** * Model of jax_am/cfd/gamma.py (finite-difference heat conduction). Definitions only.
    Reals for floats. A temperature array of shape (n1,n2,n3) is a function of three indices; the
    outermost layer holds ghost values. Only indices in range matter. *)
From Verif Require Import Prelude.
Open Scope R_scope.

Definition garr : Type := nat -> nat -> nat -> R.
(** gamma_args, the keys read by the module *)
Record gargs := mkGargs
  { g_Ts : R; g_Tl : R; g_L : R; g_h : R; g_T0 : R; g_SB : R; g_eps : R; g_eta : R; g_r : R; g_rho : R }.

(** update_mat, gamma.py:9-16 *)
Definition mat_fl (a : gargs) (T : R) : R := (clipR T (g_Ts a) (g_Tl a) - g_Ts a) / (g_Tl a - g_Ts a).
Definition mat_k (a : gargs) (T : R) : R := 163 / 10000 * clipR T 300 (g_Tl a) + 45847 / 10000.
Definition mat_cp (a : gargs) (T : R) : R :=
  2441 / 10000 * clipR T 300 (g_Tl a) + 33839 / 100 + b2R (Rltb 0 (mat_fl a T)) * b2R (Rltb (mat_fl a T) 1) * g_L a.
Definition update_mat (a : gargs) (T : garr) : garr * garr * garr :=
  (fun i j k => mat_fl a (T i j k), fun i j k => mat_k a (T i j k), fun i j k => mat_cp a (T i j k)).

(** BC_thermal, gamma.py:19-43. All six q arrays are computed from the incoming T, then the six
    ghost layers are set one after the other; each reads only interior entries, which the
    assignments do not touch. x and y have the shape of the interior (n1-2, n2-2, n3-2), and only
    their last layer [:,:,-1] is read: xs i j is x[i,j,-1]. *)
Definition inner (n i : nat) : bool := Nat.leb 1 i && Nat.leb i (n - 2).
Definition loss (a : gargs) (Tf : R) : R :=
  g_h a * (Tf - g_T0 a) + g_SB a * g_eps a * (Tf ^ 4 - g_T0 a ^ 4).
Definition q_neg (a : gargs) (Tf : R) : R :=
  - g_h a * (Tf - g_T0 a) - g_SB a * g_eps a * (Tf ^ 4 - g_T0 a ^ 4).
Definition laser (a : gargs) (P xl yl x y : R) : R :=
  2 * P * g_eta a / PI / g_r a ^ 2 * exp (- 2 * ((x - xl) ^ 2 + (y - yl) ^ 2) / g_r a ^ 2).
Definition BC_thermal (a : gargs) (n1 n2 n3 : nat) (dx dy dz : R) (xs ys : nat -> nat -> R) (xl yl P : R)
    (T k : garr) : garr :=
  let face p q := (p + q) / 2 in
  let qxn j l := q_neg a (face (T 1%nat j l) (T 0%nat j l)) in
  let qxp j l := loss a (face (T (n1 - 2)%nat j l) (T (n1 - 1)%nat j l)) in
  let qyn i l := q_neg a (face (T i 1%nat l) (T i 0%nat l)) in
  let qyp i l := loss a (face (T i (n2 - 2)%nat l) (T i (n2 - 1)%nat l)) in
  let qzn i j := q_neg a (face (T i j 1%nat) (T i j 0%nat)) in
  let qzp i j := loss a (face (T i j (n3 - 2)%nat) (T i j (n3 - 1)%nat))
                 - laser a P xl yl (xs (i - 1)%nat (j - 1)%nat) (ys (i - 1)%nat (j - 1)%nat) in
  let T := fun i j l => if Nat.eqb i 0 && inner n2 j && inner n3 l
                        then T 1%nat j l + qxn j l / k 1%nat j l * dx else T i j l in
  let T := fun i j l => if Nat.eqb i (n1 - 1) && inner n2 j && inner n3 l
                        then T (n1 - 2)%nat j l - qxp j l / k (n1 - 2)%nat j l * dx else T i j l in
  let T := fun i j l => if inner n1 i && Nat.eqb j 0 && inner n3 l
                        then T i 1%nat l + qyn i l / k i 1%nat l * dy else T i j l in
  let T := fun i j l => if inner n1 i && Nat.eqb j (n2 - 1) && inner n3 l
                        then T i (n2 - 2)%nat l - qyp i l / k i (n2 - 2)%nat l * dy else T i j l in
  let T := fun i j l => if inner n1 i && inner n2 j && Nat.eqb l 0
                        then T i j 1%nat + qzn i j / k i j 1%nat * dz else T i j l in
  let T := fun i j l => if inner n1 i && inner n2 j && Nat.eqb l (n3 - 1)
                        then T i j (n3 - 2)%nat - qzp i j / k i j (n3 - 2)%nat * dz else T i j l in
  T.

(** laplace, gamma.py:46-52, at the interior index (i,j,l) *)
Definition second (f : nat -> R) (d : R) (i : nat) : R := (f (i - 1)%nat - 2 * f i + f (i + 1)%nat) / d ^ 2.
Definition laplace (dx dy dz : R) (f : garr) (i j l : nat) : R :=
  second (fun i => f i j l) dx i + second (fun j => f i j l) dy j + second (fun l => f i j l) dz l.

(** update_T, gamma.py:55-61 *)
Definition update_T (a : gargs) (n1 n2 n3 : nat) (dx dy dz dt : R) (xs ys : nat -> nat -> R) (xl yl P : R) (T : garr) : garr :=
  let '(fl, k, cp) := update_mat a T in
  let T := BC_thermal a n1 n2 n3 dx dy dz xs ys xl yl P T k in
  fun i j l => if inner n1 i && inner n2 j && inner n3 l
               then T i j l + dt * (k i j l / g_rho a / cp i j l * laplace dx dy dz T i j l)
               else T i j l.

(** applications call update_T repeatedly with a laser position and power per step *)
Fixpoint gamma_run (a : gargs) (n1 n2 n3 : nat) (dx dy dz dt : R) (xs ys : nat -> nat -> R)
    (path : list (R * R * R)) (T : garr) : garr :=
  match path with
  | [] => T
  | (xl, yl, P) :: r => gamma_run a n1 n2 n3 dx dy dz dt xs ys r (update_T a n1 n2 n3 dx dy dz dt xs ys xl yl P T)
  end.

(** Scan direction of one toolpath segment, applications/cfd/gamma/example.py:90-92: the first
    component is overwritten with its normalised value before the second one is divided by the
    norm of the (already changed) pair. None: a 0/0 (NaN). *)
Definition scan_direction (p q : R * R) : option (R * R) :=
  let u := fst q - fst p in
  let v := snd q - snd p in
  let n := sqrt (u ^ 2 + v ^ 2) in
  if Reqb n 0 then None
  else let u := u / n in
       let m := sqrt (u ^ 2 + v ^ 2) in
       if Reqb m 0 then None else Some (u, v / m).
