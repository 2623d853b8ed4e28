(** * Model of jax_am/fem/mma.py (method of moving asymptotes). Definitions only.
    Reals for floats; column vectors are functions of the index, matrices of two indices.
    numpy.linalg.solve, the k-d tree and the objective and constraint handles are arguments.
    Printing and timing are left out. *)
From Verif Require Import Prelude FemModel.
Open Scope R_scope.

Definition vct : Type := nat -> R.
Definition mtx : Type := nat -> nat -> R.
(** numpy.max of a non-empty list, and of the entries of a column vector *)
Definition maxl (l : list R) : R := match l with [] => 0 | x :: r => fold_left Rmax r x end.
Definition entries (n : nat) (v : vct) : list R := map v (seq 0 n).
Definition norm2 (l : list R) : R := sqrt (sumR l (fun r => r * r)).

(** the arguments of subsolv *)
Record subproblem : Type := mkSub
  { sp_m : nat; sp_n : nat; low : vct; upp : vct; alfa : vct; beta : vct; p0 : vct; q0 : vct;
    PP : mtx; QQ : mtx; a0 : R; aa : vct; bb : vct; cc : vct; dd : vct }.
(** the iterate of subsolv, and a direction *)
Record iterate : Type := mkIt
  { x_ : vct; y_ : vct; z_ : R; lam_ : vct; xsi_ : vct; eta_ : vct; mu_ : vct; zet_ : R; s_ : vct }.

Section Subsolv.
(** numpy.linalg.solve on a square matrix of the given size *)
Variable solve : nat -> mtx -> vct -> res vct.
Variable sp : subproblem.
Local Notation m := (sp_m sp).
Local Notation n := (sp_n sp).

Definition plam (it : iterate) : vct := fun j => p0 sp j + sumN m (fun i => PP sp i j * lam_ it i).
Definition qlam (it : iterate) : vct := fun j => q0 sp j + sumN m (fun i => QQ sp i j * lam_ it i).
Definition gvec (it : iterate) : vct := fun i =>
  sumN n (fun j => PP sp i j * (1 / (upp sp j - x_ it j))) + sumN n (fun j => QQ sp i j * (1 / (x_ it j - low sp j))).
Definition dpsidx (it : iterate) : vct := fun j =>
  plam it j / ((upp sp j - x_ it j) * (upp sp j - x_ it j)) - qlam it j / ((x_ it j - low sp j) * (x_ it j - low sp j)).
(** the residual blocks, mma.py:236-249 and 359-372 *)
Definition rex it : vct := fun j => dpsidx it j - xsi_ it j + eta_ it j.
Definition rey it : vct := fun i => cc sp i + dd sp i * y_ it i - mu_ it i - lam_ it i.
Definition rez it : R := a0 sp - zet_ it - sumN m (fun i => aa sp i * lam_ it i).
Definition relam it : vct := fun i => gvec it i - aa sp i * z_ it - y_ it i + s_ it i - bb sp i.
Definition rexsi (epsi : R) it : vct := fun j => xsi_ it j * (x_ it j - alfa sp j) - epsi.
Definition reeta (epsi : R) it : vct := fun j => eta_ it j * (beta sp j - x_ it j) - epsi.
Definition remu (epsi : R) it : vct := fun i => mu_ it i * y_ it i - epsi.
Definition rezet (epsi : R) it : R := zet_ it * z_ it - epsi.
Definition res_ (epsi : R) it : vct := fun i => lam_ it i * s_ it i - epsi.
Definition residu (epsi : R) (it : iterate) : list R :=
  entries n (rex it) ++ entries m (rey it) ++ [rez it] ++
  entries m (relam it) ++ entries n (rexsi epsi it) ++ entries n (reeta epsi it) ++ entries m (remu epsi it) ++ [rezet epsi it] ++ entries m (res_ epsi it).
Definition residumax (l : list R) : R := maxl (map Rabs l).

(** the Newton direction, mma.py:258-323 *)
Definition GG (it : iterate) : mtx := fun i j =>
  1 / ((upp sp j - x_ it j) * (upp sp j - x_ it j)) * PP sp i j - 1 / ((x_ it j - low sp j) * (x_ it j - low sp j)) * QQ sp i j.
Definition delx epsi it : vct := fun j => dpsidx it j - epsi / (x_ it j - alfa sp j) + epsi / (beta sp j - x_ it j).
Definition dely epsi it : vct := fun i => cc sp i + dd sp i * y_ it i - lam_ it i - epsi / y_ it i.
Definition delz epsi it : R := a0 sp - sumN m (fun i => aa sp i * lam_ it i) - epsi / z_ it.
Definition dellam epsi it : vct := fun i => gvec it i - aa sp i * z_ it - y_ it i - bb sp i + epsi / lam_ it i.
Definition diagx it : vct := fun j =>
  let ux1 := upp sp j - x_ it j in
  let xl1 := x_ it j - low sp j in
  2 * (plam it j / (ux1 * (ux1 * ux1)) + qlam it j / (xl1 * (xl1 * xl1)))
  + xsi_ it j / (x_ it j - alfa sp j) + eta_ it j / (beta sp j - x_ it j).
Definition diagy it : vct := fun i => dd sp i + mu_ it i / y_ it i.
Definition diaglamyi it : vct := fun i => s_ it i / lam_ it i + 1 / diagy it i.
(** concatenation of a block matrix [[A, u], [u2, w]] of size k+1 *)
Definition bordered (k : nat) (A : mtx) (u u2 : vct) (w : R) : mtx := fun i j =>
  if Nat.ltb i k then (if Nat.ltb j k then A i j else u i) else (if Nat.ltb j k then u2 j else w).
Definition appended (k : nat) (v : vct) (w : R) : vct := fun i => if Nat.ltb i k then v i else w.
Definition diagonal (v : vct) : mtx := fun i j => if Nat.eqb i j then v i else 0.
(** dx, dz, dlam *)
Definition direction_xzl (epsi : R) (it : iterate) : res (vct * R * vct) :=
  if Nat.ltb m n then
    let blam := fun i => dellam epsi it i + dely epsi it i / diagy it i - sumN n (fun j => GG it i j * (delx epsi it j / diagx it j)) in
    let Alam := fun i k => diagonal (diaglamyi it) i k + sumN n (fun j => 1 / diagx it j * GG it i j * GG it k j) in
    bind (solve (S m) (bordered m Alam (aa sp) (aa sp) (- zet_ it / z_ it)) (appended m blam (delz epsi it))) (fun solut =>
    let dlam := solut in
    let dz := solut m in
    let dx := fun j => - delx epsi it j / diagx it j - sumN m (fun i => GG it i j * dlam i) / diagx it j in
    Ok (dx, dz, dlam))
  else
    let dellamyi := fun i => dellam epsi it i + dely epsi it i / diagy it i in
    let Axx := fun j k => diagonal (diagx it) j k + sumN m (fun i => 1 / diaglamyi it i * GG it i j * GG it i k) in
    let azz := zet_ it / z_ it + sumN m (fun i => aa sp i * (aa sp i / diaglamyi it i)) in
    let axz := fun j => sumN m (fun i => - GG it i j * (aa sp i / diaglamyi it i)) in
    let bx := fun j => delx epsi it j + sumN m (fun i => GG it i j * (dellamyi i / diaglamyi it i)) in
    let bz := delz epsi it - sumN m (fun i => aa sp i * (dellamyi i / diaglamyi it i)) in
    bind (solve (S n) (bordered n Axx axz axz azz) (appended n (fun j => - bx j) (- bz))) (fun solut =>
    let dx := solut in
    let dz := solut n in
    let dlam := fun i => sumN n (fun j => GG it i j * dx j) / diaglamyi it i - dz * (aa sp i / diaglamyi it i) + dellamyi i / diaglamyi it i in
    Ok (dx, dz, dlam)).
Definition direction (epsi : R) (it : iterate) : res iterate :=
  bind (direction_xzl epsi it) (fun '(dx, dz, dlam) =>
  let dy := fun i => - dely epsi it i / diagy it i + dlam i / diagy it i in
  Ok (mkIt dx dy dz dlam
    (fun j => - xsi_ it j + epsi / (x_ it j - alfa sp j) - xsi_ it j * dx j / (x_ it j - alfa sp j))
    (fun j => - eta_ it j + epsi / (beta sp j - x_ it j) + eta_ it j * dx j / (beta sp j - x_ it j))
    (fun i => - mu_ it i + epsi / y_ it i - mu_ it i * dy i / y_ it i)
    (- zet_ it + epsi / z_ it - zet_ it * dz / z_ it)
    (fun i => - s_ it i + epsi / lam_ it i - s_ it i * dlam i / lam_ it i))).
(** the starting step length, mma.py:324-335 *)
Definition positives (it : iterate) : list R :=
  entries m (y_ it) ++ [z_ it] ++ entries m (lam_ it) ++ entries n (xsi_ it) ++ entries n (eta_ it) ++ entries m (mu_ it) ++ [zet_ it] ++ entries m (s_ it).
Definition first_step (it d : iterate) : R :=
  let stepxx := map (fun t => -1.01 * snd t / fst t) (combine (positives it) (positives d)) in
  let stepalfa := entries n (fun j => -1.01 * x_ d j / (x_ it j - alfa sp j)) in
  let stepbeta := entries n (fun j => 1.01 * x_ d j / (beta sp j - x_ it j)) in
  1 / Rmax (Rmax (Rmax (maxl stepalfa) (maxl stepbeta)) (maxl stepxx)) 1.
(** old + steg*d, mma.py:352-360 *)
Definition moved (old : iterate) (steg : R) (d : iterate) : iterate :=
  mkIt (fun j => x_ old j + steg * x_ d j) (fun j => y_ old j + steg * y_ d j) (z_ old + steg * z_ d)
       (fun j => lam_ old j + steg * lam_ d j) (fun j => xsi_ old j + steg * xsi_ d j) (fun j => eta_ old j + steg * eta_ d j)
       (fun j => mu_ old j + steg * mu_ d j) (zet_ old + steg * zet_ d) (fun j => s_ old j + steg * s_ d j).
(** the line search, mma.py:347-384: at most [k] halvings; returns the iterate, its residual list and norm *)
Fixpoint line_search (k : nat) (epsi : R) (old d : iterate) (residunorm resinew steg : R) (it : iterate) (rs : list R)
    : iterate * list R * R :=
  if Rltb residunorm resinew then
    match k with
    | O => (it, rs, resinew)
    | S k =>
      let it := moved old steg d in
      let rs := residu epsi it in
      line_search k epsi old d residunorm (norm2 rs) (steg / 2) it rs
    end
  else (it, rs, resinew).
(** one pass of the Newton loop, mma.py:256-388 *)
Definition newton_step (epsi : R) (it : iterate) (rs : list R) (residunorm : R) : res (iterate * list R * R) :=
  bind (direction epsi it) (fun d =>
  Ok (line_search 50 epsi it d residunorm (2 * residunorm) (first_step it d) it rs)).
(** the Newton loop, mma.py:255-389, at most [k] passes *)
Fixpoint newton_loop (k : nat) (epsi : R) (it : iterate) (rs : list R) (residunorm : R) : res iterate :=
  if Rltb (0.9 * epsi) (residumax rs) then
    match k with
    | O => Ok it
    | S k => bind (newton_step epsi it rs residunorm) (fun '(it, rs, nrm) => newton_loop k epsi it rs nrm)
    end
  else Ok it.
(** the outer loop, mma.py:225-391; [None]: still running when the fuel is used up *)
Fixpoint outer_loop (fuel : nat) (epsimin epsi : R) (it : iterate) : option (res iterate) :=
  if Rltb epsimin epsi then
    match fuel with
    | O => None
    | S fuel =>
      let rs := residu epsi it in
      match newton_loop 200 epsi it rs (norm2 rs) with
      | Err e => Some (Err e)
      | Ok it => outer_loop fuel epsimin (0.1 * epsi) it
      end
    end
  else Some (Ok it).
(** mma.py:207-222 *)
Definition start : iterate :=
  let x := fun j => 0.5 * (alfa sp j + beta sp j) in
  mkIt x (fun _ => 1) 1 (fun _ => 1) (fun j => Rmax (1 / (x j - alfa sp j)) 1) (fun j => Rmax (1 / (beta sp j - x j)) 1)
       (fun i => Rmax 1 (0.5 * cc sp i)) 1 (fun _ => 1).
(** subsolv, mma.py:206-411 *)
Definition subsolv (fuel : nat) (epsimin : R) : option (res iterate) := outer_loop fuel epsimin 1 start.
End Subsolv.

(** ** The MMA object, mma.py:67-203 *)
Record mma : Type := mkMma
  { numConstraints : nat; numDesignVariables : nat; epoch : nat; xold1 : vct; xold2 : vct; xmin : vct; xmax : vct;
    objectiveGradient : vct; constraint : vct; consGrad : mtx; lowAsymp : vct; upAsymp : vct;
    zconst : R; zscale : vct; ylinscale : vct; yquadscale : vct; moveLimit : R }.
(** the new asymptotes, mma.py:135-154 *)
Definition asymptotes (M : mma) (xval : vct) : vct * vct :=
  let rng := fun j => xmax M j - xmin M j in
  if Nat.leb (epoch M) 2 then (fun j => xval j - 0.5 * rng j, fun j => xval j + 0.5 * rng j)
  else
    let zzz := fun j => (xval j - xold1 M j) * (xold1 M j - xold2 M j) in
    let factor := fun j => if Rltb (zzz j) 0 then 0.7 else if Rltb 0 (zzz j) then 1.2 else 1 in
    let low := fun j => xval j - factor j * (xold1 M j - lowAsymp M j) in
    let upp := fun j => xval j + factor j * (upAsymp M j - xold1 M j) in
    (fun j => Rmin (Rmax (low j) (xval j - 10 * rng j)) (xval j - 0.01 * rng j),
     fun j => Rmax (Rmin (upp j) (xval j + 10 * rng j)) (xval j + 0.01 * rng j)).
(** the bounds, mma.py:156-163 *)
Definition bound_low (M : mma) (xval low : vct) : vct := fun j =>
  Rmax (Rmax (low j + 0.1 * (xval j - low j)) (xval j - moveLimit M * (xmax M j - xmin M j))) (xmin M j).
Definition bound_upp (M : mma) (xval upp : vct) : vct := fun j =>
  Rmin (Rmin (upp j - 0.1 * (upp j - xval j)) (xval j + moveLimit M * (xmax M j - xmin M j))) (xmax M j).
(** the subproblem, mma.py:164-198 *)
Definition raa0 : R := 0.00001.
Definition build (M : mma) (xval : vct) : subproblem :=
  let m := numConstraints M in
  let n := numDesignVariables M in
  let (low, upp) := asymptotes M xval in
  let xmamiinv := fun j => 1 / Rmax (xmax M j - xmin M j) 0.00001 in
  let ux1 := fun j => upp j - xval j in
  let xl1 := fun j => xval j - low j in
  let pos := fun g => Rmax g 0 in
  let pq := fun g j => 0.001 * (pos g + pos (- g)) + raa0 * xmamiinv j in
  let pcoef := fun g j => (pos g + pq g j) * (ux1 j * ux1 j) in
  let qcoef := fun g j => (pos (- g) + pq g j) * (xl1 j * xl1 j) in
  let df0dx := objectiveGradient M in
  let P := fun i j => pcoef (consGrad M i j) j in
  let Q := fun i j => qcoef (consGrad M i j) j in
  let b := fun i => sumN n (fun j => P i j * (1 / ux1 j)) + sumN n (fun j => Q i j * (1 / xl1 j)) - constraint M i in
  mkSub m n low upp (bound_low M xval low) (bound_upp M xval upp)
        (fun j => pcoef (df0dx j) j) (fun j => qcoef (df0dx j) j) P Q (zconst M) (zscale M) b (ylinscale M) (yquadscale M).
(** MMA.mmasub, mma.py:113-203: returns xmma and the stored asymptotes *)
Definition epsimin : R := 0.0000001.
Definition mmasub (solve : nat -> mtx -> vct -> res vct) (fuel : nat) (M : mma) (xval : vct) : option (res (vct * vct * vct)) :=
  match subsolv solve (build M xval) fuel epsimin with
  | None => None
  | Some (Err e) => Some (Err e)
  | Some (Ok it) => Some (Ok (x_ it, low (build M xval), upp (build M xval)))
  end.

(** ** Sensitivity filter *)
(** what compute_filter_kd_tree reads; [cells] and [flex_inds] are the index arrays *)
Record design_mesh : Type := mkDM
  { dm_dim : nat; dm_points : nat -> nat -> R; dm_cells : list (list nat); dm_volume : R (* np.sum(problem.JxW) *); flex_inds : list nat }.
(** scipy.spatial.KDTree.query(p, k) for the tree of the given points: [k] pairs of distance
    ([None]: infinite) and index, the index being the number of points for missing neighbours *)
Definition query : Type := list (nat -> R) -> (nat -> R) -> nat -> list (option R * nat).
Definition centroid (D : design_mesh) (c : list nat) : nat -> R :=
  fun k => sumR c (fun a => dm_points D a k) / INR (length c).
Definition flex_centroids (D : design_mesh) : list (nat -> R) :=
  map (fun i => centroid D (nth i (dm_cells D) [])) (flex_inds D).
Definition rmin (D : design_mesh) : R := 1.5 * Rpower (dm_volume D / INR (length (dm_cells D))) (1 / INR (dm_dim D)).
Definition weight (r : R) (d : option R) : R := match d with None => 0 | Some d => if Rltb 0 (r - d) then r - d else 0 end.
(** np.take(flex_cell_centroids, ii, axis=0) raises for an index out of range *)
Definition take_ok (n : nat) (ii : list nat) : bool := forallb (fun i => Nat.ltb i n) ii.
(** the triplets of row i and their sum, mma.py:43-53 *)
Definition filter_row (q : query) (D : design_mesh) (i : nat) : res (list (nat * R)) :=
  let pts := flex_centroids D in
  let nb := q pts (nth i pts (fun _ => 0)) 20%nat in
  if take_ok (length pts) (map snd nb) then Ok (map (fun t => (snd t, weight (rmin D) (fst t))) nb) else Err IndexError.
(** compute_filter_kd_tree, mma.py:23-57: H (size flex_num_cells) and its row sums *)
Definition compute_filter_kd_tree (q : query) (D : design_mesh) : res (mtx * vct) :=
  let n := length (flex_inds D) in
  bind (mapM (filter_row q D) (seq 0 n)) (fun rows =>
  let H := fun i j => sumR (nth i rows []) (fun t => if Nat.eqb (fst t) j then snd t else 0) in
  Ok (H, fun i => sumN n (fun j => H i j))).
(** one column of applySensitivityFilter, mma.py:60-63 (the same formula for dJ and for each dvc) *)
Definition apply_filter (n : nat) (H : mtx) (Hs : vct) (rho g : vct) : vct := fun i =>
  sumN n (fun j => H i j * (rho j * g j / Rmax 0.001 (rho j) / Hs j)).

(** ** optimize, mma.py:414-483. The design has [k] columns per flexible cell and is kept flat:
    entry (cell, column) is at cell*k + column. The handles get the design, and the constraint
    handle the loop number; the list returned second collects the designs they were called with. *)
Section Optimize.
Variable solve : nat -> mtx -> vct -> res vct.
Variable fuel : nat.
Variables (ncell kcol m : nat).
Variable H : mtx.
Variable Hs : vct.
Variable objectiveHandle : vct -> R * vct.
Variable consHandle : vct -> nat -> vct * mtx.
Variable movelimit : R.
Definition filter_flat (rho g : vct) : vct := fun e =>
  apply_filter ncell H Hs (fun c => rho (c * kcol + e mod kcol)%nat) (fun c => g (c * kcol + e mod kcol)%nat) (e / kcol)%nat.
(** the MMA object as set up before and in pass [loop] of the loop *)
Definition mma_at (loop : nat) (xval xold1 xold2 low upp : vct) (dJ vc : vct) (dvc : mtx) : mma :=
  mkMma m (ncell * kcol) loop xold1 xold2 (fun _ => 0) (fun _ => 1) dJ vc dvc low upp 1 (fun _ => 0) (fun _ => 10000 * 1) (fun _ => 0) movelimit.
Fixpoint optimize_loop (passes loop : nat) (xval xold1 xold2 low upp : vct) (seen : list vct) : option (res (vct * list vct)) :=
  match passes with
  | O => Some (Ok (xval, seen))
  | S passes =>
    let loop := S loop in
    let rho := xval in
    let (J, dJ) := objectiveHandle rho in
    let (vc, dvc) := consHandle rho loop in
    let M := mma_at loop xval xold1 xold2 low upp (filter_flat rho dJ) vc (fun i => filter_flat rho (dvc i)) in
    match mmasub solve fuel M xval with
    | None => None
    | Some (Err e) => Some (Err e)
    | Some (Ok (xmma, low, upp)) => optimize_loop passes loop xmma xval xold1 low upp (seen ++ [rho])
    end
  end.
Definition optimize_with (maxIters : nat) (rho_ini : vct) : option (res (vct * list vct)) :=
  optimize_loop maxIters 0 rho_ini rho_ini rho_ini (fun _ => 1) (fun _ => 1) [].
End Optimize.
Definition optimize solve fuel (q : query) (D : design_mesh) kcol m objectiveHandle consHandle movelimit maxIters rho_ini : option (res (vct * list vct)) :=
  match compute_filter_kd_tree q D with
  | Err e => Some (Err e)
  | Ok (H, Hs) => optimize_with solve fuel (length (flex_inds D)) kcol m H Hs objectiveHandle consHandle movelimit maxIters rho_ini
  end.
Close Scope R_scope.
