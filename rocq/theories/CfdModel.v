(** * Model of the operators, equations, solvers and driver of jax_am/cfd/cfd_am.py.
    Definitions only. Reals for floats. A cell array of shape (Nx,Ny,Nz[,1]) is a function of the
    three cell numbers; a vector array has the component number in front; a flattened array is a
    function of the cell number. Only arguments in range matter. *)
From Verif Require Import Prelude CfdMeshModel.
Open Scope R_scope.

Definition arr : Type := nat -> nat -> nat -> R.
Definition fld : Type := nat -> R.

(** ** Ghost cells, cfd_am.py:14-34. Kinds 0, 1 and 2; any other code makes ghost_cell return
    None and is not modelled. [c] is the component number (0 for scalar arrays). *)
Inductive bckind := Dirichlet | Neumann | Marangoni.
Definition ghost_cell (k : bckind) (c : nat) (value dx neighbor : R) : R :=
  match k with
  | Dirichlet => 2 * value - neighbor
  | Neumann => neighbor + dx * value
  | Marangoni => if Nat.ltb c 2 then neighbor + dx * value else 2 * value - neighbor
  end.

(** BCs = [types, values]; values may vary along the face: [bval side c p q]. *)
Record bcs := mkBcs { bkind : nat -> bckind; bval : nat -> nat -> nat -> nat -> R }.
(** the default of lines 38, 55, 84, 96, 117 *)
Definition default_BCs : bcs := mkBcs (fun _ => Neumann) (fun _ _ _ _ => 0).

Record grid := mkGrid { gNx : nat; gNy : nat; gNz : nat; gdx : R; gdy : R; gdz : R }.

(** get_GC_values, lines 26-34; (p, q) are the two indices along the face. *)
Definition get_GC (g : grid) (B : bcs) (c : nat) (f : arr) (side p q : nat) : R :=
  match side with
  | 0 => ghost_cell (bkind B 0) c (bval B 0 c p q) (- gdx g) (f 0 p q)
  | 1 => ghost_cell (bkind B 1) c (bval B 1 c p q) (gdx g) (f (gNx g - 1) p q)
  | 2 => ghost_cell (bkind B 2) c (bval B 2 c p q) (- gdy g) (f p 0 q)
  | 3 => ghost_cell (bkind B 3) c (bval B 3 c p q) (gdy g) (f p (gNy g - 1) q)
  | 4 => ghost_cell (bkind B 4) c (bval B 4 c p q) (- gdz g) (f p q 0)
  | _ => ghost_cell (bkind B 5) c (bval B 5 c p q) (gdz g) (f p q (gNz g - 1))
  end%nat.

(** np.diff(f, append=g1) and np.diff(f, prepend=g0) along one axis of length n *)
Definition diff_app (n : nat) (f : nat -> R) (g1 : R) (i : nat) : R :=
  (if Nat.ltb (i + 1) n then f (i + 1)%nat else g1) - f i.
Definition diff_pre (f : nat -> R) (g0 : R) (i : nat) : R :=
  f i - (if Nat.eqb i 0 then g0 else f (i - 1)%nat).
(** np.concatenate((g0, f, g1)) and np.concatenate((g0, g0, f, g1, g1)) along one axis *)
Definition ext1 (n : nat) (g0 : R) (f : nat -> R) (g1 : R) (p : nat) : R :=
  if Nat.ltb p 1 then g0 else if Nat.ltb p (n + 1) then f (p - 1)%nat else g1.
Definition ext2 (n : nat) (g0 : R) (f : nat -> R) (g1 : R) (p : nat) : R :=
  if Nat.ltb p 2 then g0 else if Nat.ltb p (n + 2) then f (p - 2)%nat else g1.

(** ** laplace (module level), lines 36-51; BCs None, so default ghosts. *)
Definition laplace_const (g : grid) (miu : R) (f : arr) (i j k : nat) : R :=
  let gc := get_GC g default_BCs 0 f in
  ((diff_app (gNx g) (fun i => f i j k) (gc 1%nat j k) i - diff_pre (fun i => f i j k) (gc 0%nat j k) i)
     / gdx g * gdy g * gdz g
   + (diff_app (gNy g) (fun j => f i j k) (gc 3%nat i k) j - diff_pre (fun j => f i j k) (gc 2%nat i k) j)
     / gdy g * gdz g * gdx g
   + (diff_app (gNz g) (fun k => f i j k) (gc 5%nat i j) k - diff_pre (fun k => f i j k) (gc 4%nat i j) k)
     / gdz g * gdx g * gdy g) * miu.
(** the face-coefficient branch, lines 45-50: mx i j k is miu[0][i,j,k], faces 0..Nx, etc. *)
Definition laplace_var (g : grid) (mx my mz : arr) (f : arr) (i j k : nat) : R :=
  let gc := get_GC g default_BCs 0 f in
  (diff_app (gNx g) (fun i => f i j k) (gc 1%nat j k) i * mx (i + 1)%nat j k
     - diff_pre (fun i => f i j k) (gc 0%nat j k) i * mx i j k) / gdx g * gdy g * gdz g
  + (diff_app (gNy g) (fun j => f i j k) (gc 3%nat i k) j * my i (j + 1)%nat k
     - diff_pre (fun j => f i j k) (gc 2%nat i k) j * my i j k) / gdy g * gdz g * gdx g
  + (diff_app (gNz g) (fun k => f i j k) (gc 5%nat i j) k * mz i j (k + 1)%nat
     - diff_pre (fun k => f i j k) (gc 4%nat i j) k * mz i j k) / gdz g * gdx g * gdy g.

(** ** div, lines 53-80; f_face at face i (0..n) of an axis of length n *)
Definition f_face (theta : R) (n : nat) (g0 : R) (f : nat -> R) (g1 u : R) (i : nat) : R :=
  let fx := ext2 n g0 f g1 in
  theta * (fx (i + 1)%nat / 2 + fx (i + 2)%nat / 2)
  + (1 - theta) * (3 * fx (i + 1)%nat / 2 - fx i / 2) * b2R (Rleb 0 u)
  + (1 - theta) * (3 * fx (i + 2)%nat / 2 - fx (i + 3)%nat / 2) * b2R (Rltb u 0).
Definition div (g : grid) (theta : R) (B : bcs) (f uf vf wf : arr) (i j k : nat) : R :=
  let gc := get_GC g B 0 f in
  let fx p := f_face theta (gNx g) (gc 0%nat j k) (fun i => f i j k) (gc 1%nat j k) (uf p j k) p in
  let fy p := f_face theta (gNy g) (gc 2%nat i k) (fun j => f i j k) (gc 3%nat i k) (vf i p k) p in
  let fz p := f_face theta (gNz g) (gc 4%nat i j) (fun k => f i j k) (gc 5%nat i j) (wf i j p) p in
  (fx (i + 1)%nat * uf (i + 1)%nat j k - fx i * uf i j k) / gdx g
  + (fy (j + 1)%nat * vf i (j + 1)%nat k - fy j * vf i j k) / gdy g
  + (fz (k + 1)%nat * wf i j (k + 1)%nat - fz k * wf i j k) / gdz g.

(** ** gradient, lines 82-92: the argument BCs is not used, line 85 passes the default again. *)
Definition gradient (g : grid) (B : option bcs) (f : arr) (c i j k : nat) : R :=
  let gc := get_GC g default_BCs 0 f in
  match c with
  | 0%nat => (diff_app (gNx g) (fun i => f i j k) (gc 1%nat j k) i + diff_pre (fun i => f i j k) (gc 0%nat j k) i) / gdx g / 2
  | 1%nat => (diff_app (gNy g) (fun j => f i j k) (gc 3%nat i k) j + diff_pre (fun j => f i j k) (gc 2%nat i k) j) / gdy g / 2
  | _ => (diff_app (gNz g) (fun k => f i j k) (gc 5%nat i j) k + diff_pre (fun k => f i j k) (gc 4%nat i j) k) / gdz g / 2
  end.

(** ** get_face_vels, lines 94-113: component c on the faces normal to axis c *)
Definition face_avg (n : nat) (g0 : R) (f : nat -> R) (g1 : R) (i : nat) : R :=
  (ext1 n g0 f g1 (i + 1) + ext1 n g0 f g1 i) / 2.
Definition face_u (g : grid) (B : bcs) (vel : nat -> arr) : arr := fun i j k =>
  let gc := get_GC g B 0 (vel 0%nat) in
  face_avg (gNx g) (gc 0%nat j k) (fun i => vel 0%nat i j k) (gc 1%nat j k) i.
Definition face_v (g : grid) (B : bcs) (vel : nat -> arr) : arr := fun i j k =>
  let gc := get_GC g B 1 (vel 1%nat) in
  face_avg (gNy g) (gc 2%nat i k) (fun j => vel 1%nat i j k) (gc 3%nat i k) j.
Definition face_w (g : grid) (B : bcs) (vel : nat -> arr) : arr := fun i j k =>
  let gc := get_GC g B 2 (vel 2%nat) in
  face_avg (gNz g) (gc 4%nat i j) (fun k => vel 2%nat i j k) (gc 5%nat i j) k.

(** get_face_vel_component, lines 115-139, of the component array [vel] (component number [c] for
    the boundary values). Axis 2 passes the whole list vel_gc to concatenate: TypeError. Any other
    axis returns None. *)
Definition get_face_vel_component (g : grid) (B : bcs) (c : nat) (vel : arr) (axis : nat) : res (option arr) :=
  let gc := get_GC g B c vel in
  match axis with
  | 0 => Ok (Some (fun i j k => face_avg (gNx g) (gc 0 j k) (fun i => vel i j k) (gc 1 j k) i))
  | 1 => Ok (Some (fun i j k => face_avg (gNy g) (gc 2 i k) (fun j => vel i j k) (gc 3 i k) j))
  | 2 => Err TypeError
  | _ => Ok None
  end%nat.

(** ** poisson, cfd_am.py:388-492 *)
(** The argument [nonlinear] is compared with == False and == True; energy_eqn passes 'True'. *)
Inductive pyflag := PyTrue | PyFalse | PyStr.
Definition eq_false (f : pyflag) : bool := match f with PyFalse => true | _ => false end.
Definition eq_true (f : pyflag) : bool := match f with PyTrue => true | _ => false end.

(** The object: attributes mu and mu_fn exist only when set (None: attribute missing). The source
    takes the cell number for the per-cell extra arguments. *)
Record eqn := mkEqn { e_mesh : mesh3; e_flag : pyflag; e_mu : option R; e_mufn : option (R -> R);
                      e_src : nat -> R -> R }.
(** __init__, lines 389-411 *)
Definition mk_poisson (m : mesh3) (nonlinear : pyflag) (mu : option R) (mu_fn : option (R -> R))
    (src : option (nat -> R -> R)) : res eqn :=
  let s := match src with Some s => s | None => fun _ _ => 0 end in
  if eq_false nonlinear
  then match mu with Some v => Ok (mkEqn m nonlinear (Some v) None s) | None => Err AssertionError end
  else match mu_fn with Some f => Ok (mkEqn m nonlinear None (Some f) s) | None => Err AssertionError end.

(** U[self.msh.cell_conn][n, l] *)
Definition nb (m : mesh3) (n l : nat) : nat := nth l (nth n (cell_conn m) []) 0%nat.

(** linear_laplace_kernel / nonlinear_laplace_kernel, lines 413-419 *)
Definition harmonic (k : R -> R) (a b : R) : R := 2 * k a * k b / (k b + k a).
Definition face_mu (e : eqn) (up un : R) : R :=
  match e_mufn e with Some k => harmonic k up un | None => match e_mu e with Some v => v | None => 0 end end.
Definition laplace_kernel (e : eqn) (up : R) (un : nat -> R) : R :=
  sumR (seq 0 6) (fun l => (un l - up) / nth l (D3 (e_mesh e)) 0 * face_mu e up (un l) * nth l (dS3 (e_mesh e)) 0).
(** laplace, lines 421-423 *)
Definition laplace (e : eqn) (U : fld) : fld := fun n =>
  laplace_kernel e (U (nb (e_mesh e) n 0)) (fun l => U (nb (e_mesh e) n (S l))).

(** residual.at[idx].add(vals) *)
Definition scatter_add (base : fld) (idx : list nat) (vals : list R) : fld := fun n =>
  base n + sumR (combine idx vals) (fun iv => if Nat.eqb (fst iv) n then snd iv else 0).

(** apply_BC_to_residual, lines 428-447. bc: None, or the list of (type, values). A list of
    values whose length is not that of the side, or a total that does not match surf_cell, does
    not broadcast: ValueError. *)
Definition bclist := list (nat * list R).
Definition side_of (m : mesh3) (i : nat) : list nat :=
  map (fun p => nth p (surf_cell m) 0%nat) (nth i (surf_sets m) []).
Definition bc_mu (e : eqn) (v : R) : res R :=
  if eq_true (e_flag e)
  then match e_mufn e with Some k => Ok (k v) | None => Err AttributeError end
  else match e_mu e with Some mu => Ok mu | None => Err AttributeError end.
Definition flux_side (e : eqn) (U : fld) (i : nat) (b : nat * list R) : res (list R) :=
  let '(ty, vals) := b in
  let m := e_mesh e in
  match ty with
  | 0 => if Nat.eqb (length vals) (length (side_of m i))
         then match vals with
              | [] => bind (bc_mu e 0) (fun _ => Ok [])
              | _ => mapM (fun vc => bind (bc_mu e (fst vc)) (fun mu =>
                     Ok (mu * 2 * (fst vc - U (snd vc)) / nth i (D3 m) 0%R * nth i (dS3 m) 0%R)))%R
                     (combine vals (side_of m i))
              end
         else Err ValueError
  | 1 => Ok (map (fun v => v * Rabs (nth i (dS3 m) 0))%R vals)
  | _ => Ok []
  end%nat.
Fixpoint fluxes (e : eqn) (U : fld) (i : nat) (bc : bclist) : res (list R) :=
  match bc with
  | [] => Ok []
  | b :: r => bind (flux_side e U i b) (fun x => bind (fluxes e U (S i) r) (fun y => Ok (x ++ y)))
  end.
Definition apply_BC_to_residual (e : eqn) (bc : option bclist) (U residual : fld) : res fld :=
  match bc with
  | None => Ok residual
  | Some l => bind (fluxes e U 0 l) (fun flux =>
      if Nat.eqb (length flux) (length (surf_cell (e_mesh e)))
      then Ok (scatter_add residual (surf_cell (e_mesh e)) (map Ropp flux))
      else Err ValueError)
  end.

(** compute_residual_kernel and compute_residual, lines 449-457 *)
Definition residual_kernel (e : eqn) (n : nat) (u : nat -> R) : R :=
  - laplace_kernel e (u 0%nat) (fun l => u (S l)) - e_src e n (u 0%nat) * dV (e_mesh e).
Definition compute_residual (e : eqn) (bc : option bclist) (U : fld) : res fld :=
  apply_BC_to_residual e bc U (fun n => - laplace e U n - e_src e n (U n) * dV (e_mesh e)).

(** newton_update, lines 475-483. jax.jacrev of the kernel is external; this is its closed form
    given the derivatives [dk] of mu_fn and [ds] of the source (proved to be the derivative). *)
Definition dface_p (e : eqn) (dk : R -> R) (up un : R) : R :=
  match e_mufn e with Some k => 2 * dk up * k un ^ 2 / (k un + k up) ^ 2 | None => 0 end.
Definition dface_n (e : eqn) (dk : R -> R) (up un : R) : R :=
  match e_mufn e with Some k => 2 * dk un * k up ^ 2 / (k un + k up) ^ 2 | None => 0 end.
Definition kernel_grad (e : eqn) (dk : R -> R) (ds : nat -> R -> R) (n : nat) (u : nat -> R) (c : nat) : R :=
  let w l := nth l (dS3 (e_mesh e)) 0 / nth l (D3 (e_mesh e)) 0 in
  match c with
  | O => sumR (seq 0 6) (fun l =>
           w l * (face_mu e (u 0%nat) (u (S l)) - (u (S l) - u 0%nat) * dface_p e dk (u 0%nat) (u (S l))))
         - ds n (u 0%nat) * dV (e_mesh e)
  | S l => - (w l * (face_mu e (u 0%nat) (u (S l)) + (u (S l) - u 0%nat) * dface_n e dk (u 0%nat) (u (S l))))
  end.
(** apply_BC_to_matrix, lines 459-473: (locations, values) of the Dirichlet sides *)
Fixpoint dirichlet_entries (e : eqn) (i : nat) (bc : bclist) : res (list (nat * R)) :=
  match bc with
  | [] => Ok []
  | (ty, vals) :: r =>
      bind (match ty with
            | O => if Nat.eqb (length vals) (length (side_of (e_mesh e) i))
                   then match vals with
                        | [] => bind (bc_mu e 0) (fun _ => Ok [])
                        | _ => mapM (fun vc => bind (bc_mu e (fst vc)) (fun mu =>
                                 Ok (snd vc, mu * 2 / nth i (D3 (e_mesh e)) 0 * nth i (dS3 (e_mesh e)) 0)))
                               (combine vals (side_of (e_mesh e) i))
                        end
                   else Err ValueError
            | _ => Ok []
            end)
           (fun x => bind (dirichlet_entries e (S i) r) (fun y => Ok (x ++ y)))
  end.
Definition newton_values (e : eqn) (dk : R -> R) (ds : nat -> R -> R) (bc : option bclist) (U : fld) : res (nat -> nat -> R) :=
  let v n c := kernel_grad e dk ds n (fun l => U (nb (e_mesh e) n l)) c in
  match bc with
  | None => Ok v
  | Some l => bind (dirichlet_entries e 0 l) (fun en =>
      Ok (fun n c => if Nat.eqb c 0 then scatter_add (fun n => v n 0%nat) (map fst en) (map snd en) n else v n c))
  end.
(** precond_values, line 483; compute_linearized_residual, lines 485-486; jacobi, lines 488-490 *)
Definition precond_values (m : mesh3) (values : nat -> nat -> R) : fld := fun n =>
  sumR (seq 0 7) (fun l => b2R (Nat.eqb (nb m n l) n) * values n l).
Definition linearized_residual (m : mesh3) (values : nat -> nat -> R) (U : fld) : fld := fun n =>
  sumR (seq 0 7) (fun l => values n l * U (nb m n l)).
Definition jacobi (m : mesh3) (values : nat -> nat -> R) (U : fld) : fld := fun n =>
  1 / precond_values m values n * U n.

(** ** solver_linear, lines 748-777 (relative=False): inc is what bicgstab returns. *)
Definition solver_linear (bicgstab : (fld -> fld) -> fld -> fld) (m : mesh3) (values : nat -> nat -> R) (res0 : fld) : fld :=
  let b := fun n => - res0 n in
  let inc := bicgstab (linearized_residual m values) b in
  fun n => 0 + inc n.

(** ** solver_nonlinear, lines 780-813. The residual function and the Newton increment (matrix
    assembly followed by bicgstab) are arguments. A 0/0 in the ratio is NaN, which compares false;
    x/0 with x > 0 is inf, which compares true. *)
Definition norm2 (N : nat) (b : fld) : R := sqrt (sumR (seq 0 N) (fun n => b n ^ 2)).
Definition ratio_gt (x y tol : R) : bool :=
  if Reqb y 0 then Rltb 0 x else Rltb tol (x / y).
Section Nonlinear.
Variables (N : nat) (residual : fld -> fld) (step : fld -> fld -> fld) (tol relaxation : R) (max_it : nat).
Fixpoint nl_loop (fuel : nat) (res_init : R) (dofs b : fld) (it : nat) : fld * fld * nat :=
  match fuel with
  | O => (dofs, b, it)
  | S fuel' =>
      if ratio_gt (norm2 N b) (Rabs res_init) tol && Nat.ltb it max_it
      then let inc := step dofs b in
           let dofs' := fun n => dofs n + inc n * relaxation in
           nl_loop fuel' res_init dofs' (fun n => - residual dofs' n) (it + 1)
      else (dofs, b, it)
  end.
Definition solver_nonlinear (init : option fld) : fld * nat :=
  let dofs := match init with None => fun _ => 0 | Some d => d end in
  let b := fun n => - residual dofs n in
  let '(d, _, it) := nl_loop (S max_it) (norm2 N b) dofs b 0 in
  (d, it).
End Nonlinear.

(** ** Driver: AM_3d, cfd_am.py:140-385 *)
(** self.args as used by the driver *)
Record amargs := mkAm
  { a_mesh : mesh3; a_local : mesh3;
    a_dt : R; a_speed : R; a_X0 : R * R * R; a_P : R; a_tOFF : R; a_eta : R; a_rb : R; a_phi : R;
    a_Ts : R; a_Tl : R; a_h : R; a_sb : R; a_emis : R; a_Tref : R; a_marangoni : R; a_visco : R;
    a_rho : R; a_latent : R; a_cp : R -> R; a_k : R -> R; a_heat_source : nat }.

(** toolpath, lines 280-285 *)
Definition toolpath (a : amargs) (t : R) : R * R * R * R :=
  let '(x, y, z) := a_X0 a in
  (x + t * a_speed a, y, z, a_P a * b2R (Rltb t (a_tOFF a))).

(** Python's round: half to even *)
Definition py_round (x : R) : Z :=
  let f := Int_part x in
  let r := x - IZR f in
  if Rltb r (1 / 2) then f else if Rltb (1 / 2) r then (f + 1)%Z else if Z.even f then f else (f + 1)%Z.

(** get_moving_box_boundary, lines 237-252 *)
Definition box_axis (x dx : R) (n nloc : nat) : Z * Z :=
  let x0 := (py_round (x / dx) - py_round (INR nloc / 2))%Z in
  let x0 := clipZ x0 0 (Z.of_nat n - Z.of_nat nloc) in
  (x0, x0 + Z.of_nat nloc)%Z.
Definition moving_box (a : amargs) (t : R) : Z * Z * (Z * Z) * (Z * Z) :=
  let '(xl, yl, zl, _) := toolpath a t in
  let m := a_mesh a in let l := a_local a in
  (box_axis xl (dXx m) (mNx m) (mNx l),
   box_axis yl (dXy m) (mNy m) (mNy l),
   (Z.of_nat (mNz m) - Z.of_nat (mNz l), Z.of_nat (mNz m))%Z).

(** get_body_heat_source, lines 223-235. All parameters are Python numbers (read from JSON), so a
    zero depth d, speed or radius raises ZeroDivisionError. *)
Definition body_heat_source (a : amargs) (t : R) : res (R -> R -> R -> R) :=
  let '(xl, yl, zl, P) := toolpath a t in
  if Reqb (a_speed a) 0 then Err ZeroDivisionError
  else if Reqb (a_rb a ^ 2) 0 then Err ZeroDivisionError
  else let d := a_phi a * P / a_speed a / a_rb a ^ 2 in
       if Reqb d 0 then Err ZeroDivisionError
       else Ok (fun xc yc zc =>
              2 * P * a_eta a / d / PI / a_rb a ^ 2
              * exp (- 2 * ((xc - xl) ^ 2 + (yc - yl) ^ 2) / a_rb a ^ 2)
              * b2R (Rleb (zl - zc) d)).

(** fluid_frac, lines 360-363 *)
Definition fluid_frac (a : amargs) (T : R) : R := (clipR T (a_Ts a) (a_Tl a) - a_Ts a) / (a_Tl a - a_Ts a).

(** energe_bc, lines 325-358: the six sides; [Ttop i j] is T[:,:,-1,0]. *)
Definition top_flux (a : amargs) (t Ttop xc yc : R) : R :=
  let '(xl, yl, zl, P) := toolpath a t in
  let q := - (a_h a * (Ttop - a_Tref a)) - a_sb a * a_emis a * (Ttop ^ 4 - a_Tref a ^ 4) in
  if Nat.eqb (a_heat_source a) 0
  then q + 2 * P * a_eta a / PI / a_rb a ^ 2 * exp (- 2 * ((xc - xl) ^ 2 + (yc - yl) ^ 2) / a_rb a ^ 2)
  else q.
Definition energy_bc (a : amargs) (t : R) (Ttop : nat -> nat -> R) : bclist :=
  let m := a_mesh a in
  map (fun n => (1%nat, repeat 0 n)) (firstn 5 (surf_set_num m))
  ++ [(1%nat, flat2 (mNx m) (mNy m) (fun i j =>
         top_flux a t (Ttop i j)
           (fst (fst (nth (nth (i * mNy m + j) (nth 5 (surf_sets m) []) 0%nat) (surface m) (0, 0, 0))))
           (snd (fst (nth (nth (i * mNy m + j) (nth 5 (surf_sets m) []) 0%nat) (surface m) (0, 0, 0))))))].

(** energy_eqn, lines 495-507: apparent heat capacity and the source *)
Definition cp_fn (a : amargs) (T : R) : R :=
  a_cp a T + a_latent a / (a_Tl a - a_Ts a) * b2R (Rltb (a_Ts a) T) * b2R (Rltb T (a_Tl a)).
Definition energy_src (a : amargs) (T0 conv Q : fld) : nat -> R -> R := fun n T =>
  - a_rho a * (T - T0 n) * cp_fn a (T0 n) / a_dt a - a_rho a * cp_fn a (T0 n) * conv n + Q n.
Definition energy_eqn (a : amargs) (T0 conv Q : fld) : res eqn :=
  mk_poisson (a_mesh a) PyStr None (Some (a_k a)) (Some (energy_src a T0 conv Q)).

(** velocity_eqn, lines 528-546 *)
Definition vel_src (a : amargs) (u0 conv gradp fl : fld) : nat -> R -> R := fun n u =>
  - a_rho a * (u - u0 n) / a_dt a - a_rho a * conv n - gradp n
  - 10 ^ 7 * a_rho a * (1 - fl n) ^ 2 / (fl n ^ 3 + 1 / 10 ^ 5) * u.
Definition vel_eqn (a : amargs) (u0 conv gradp fl : fld) : res eqn :=
  mk_poisson (a_local a) PyFalse (Some (a_visco a)) None (Some (vel_src a u0 conv gradp fl)).
Definition pressure_eqn (a : amargs) (div_v : fld) : res eqn :=
  mk_poisson (a_local a) PyFalse (Some 1) None (Some (fun n _ => - div_v n)).

Definition grid_of (m : mesh3) : grid := mkGrid (mNx m) (mNy m) (mNz m) (dXx m) (dXy m) (dXz m).
(** marangoni_effect and vel_bc, lines 287-304: the vector form *)
Definition marangoni_effect (a : amargs) (Ttop : nat -> nat -> R) (c i j : nat) : R :=
  let l := a_local a in
  let fl := fluid_frac a (Ttop i j) in
  let Tp p q := Ttop (padi (mNx l) p) (padi (mNy l) q) in
  match c with
  | O => (Tp (i + 2)%nat (j + 1)%nat - Tp i (j + 1)%nat) / 2 / dXx l * a_marangoni a / a_visco a * fl
  | S O => (Tp (i + 1)%nat (j + 2)%nat - Tp (i + 1)%nat j) / 2 / dXy l * a_marangoni a / a_visco a * fl
  | _ => 0
  end.
Definition vel_BCs (a : amargs) (T : arr) : bcs :=
  mkBcs (fun side => if Nat.ltb side 5 then Dirichlet else Marangoni)
        (fun side c p q => if Nat.ltb side 5 then 0
                           else marangoni_effect a (fun i j => T i j (mNz (a_local a) - 1)%nat) c p q).
(** scalar form for component i, lines 306-320 *)
Definition vel_bc_scalar (a : amargs) (T : arr) (i : nat) : bclist :=
  let l := a_local a in
  map (fun n => (0%nat, repeat 0 n)) (firstn 5 (surf_set_num l))
  ++ [((if Nat.ltb i 2 then 1%nat else 0%nat),
       flat2 (mNx l) (mNy l) (fun p q => marangoni_effect a (fun i j => T i j (mNz l - 1)%nat) i p q * a_visco a))].

(** velocity_eqn.update, lines 553-590: div_vel of the predicted velocity, and the correction
    with a pressure p (both solves are external). *)
Definition div_vel (a : amargs) (B : bcs) (vel : nat -> arr) : arr := fun i j k =>
  let g := grid_of (a_local a) in
  ((face_u g B vel (i + 1)%nat j k - face_u g B vel i j k) / gdx g
   + (face_v g B vel i (j + 1)%nat k - face_v g B vel i j k) / gdy g
   + (face_w g B vel i j (k + 1)%nat - face_w g B vel i j k) / gdz g) / a_dt a * a_rho a.
Definition correct_vel (a : amargs) (vel : nat -> arr) (p : arr) : nat -> arr := fun c i j k =>
  vel c i j k - a_dt a * gradient (grid_of (a_local a)) None p c i j k / a_rho a.
Definition correct_gradp (a : amargs) (gradp0 : nat -> arr) (p : arr) : nat -> arr := fun c i j k =>
  gradp0 c i j k + gradient (grid_of (a_local a)) None p c i j k.
Definition flat (m : mesh3) (f : arr) : fld := fun n =>
  f (n / mNz m / mNy m)%nat ((n / mNz m) mod mNy m)%nat (n mod mNz m)%nat.
Definition unflat (m : mesh3) (f : fld) : arr := fun i j k => f (cell_idx m i j k).
(** predicted velocity component: solver_linear on vel_eqn (external: [solve_v]); pressure:
    solver_linear on pressure_eqn (external: [solve_p]). *)
Definition vel_update (a : amargs) (solve_v : nat -> fld -> fld -> fld -> fld -> bclist -> fld) (solve_p : fld -> fld)
    (vel0 conv0 gradp0 : nat -> arr) (fl T : arr) : (nat -> arr) * bcs * (nat -> arr) :=
  let l := a_local a in
  let vel := fun c => unflat l (solve_v c (flat l (vel0 c)) (flat l (conv0 c)) (flat l (gradp0 c)) (flat l fl)
                                        (vel_bc_scalar a T c)) in
  let B := vel_BCs a T in
  let p := unflat l (solve_p (flat l (div_vel a B vel))) in
  (correct_vel a vel p, B, correct_gradp a gradp0 p).

(** update_convective_terms, lines 254-259: mesh widths of the global mesh, local arrays *)
Definition conv_grid (a : amargs) : grid :=
  mkGrid (mNx (a_local a)) (mNy (a_local a)) (mNz (a_local a)) (dXx (a_mesh a)) (dXy (a_mesh a)) (dXz (a_mesh a)).
Definition update_convective_terms (a : amargs) (T : arr) (vel : nat -> arr) (B : bcs) : arr * (nat -> arr) :=
  let g := conv_grid a in
  let uf := face_u g B vel in let vf := face_v g B vel in let wf := face_w g B vel in
  (div g (1 / 8) default_BCs T uf vf wf, fun c => div g (1 / 8) default_BCs (vel c) uf vf wf).

(** time_integration, lines 167-193. eqn_T.update (external nonlinear solve) and the two linear
    solves are arguments. Slicing with the window of a local mesh larger than the global one is
    not modelled (Z.to_nat of a negative start). *)
Record state := mkSt { s_t : R; s_T : arr; s_solidID : arr; s_vel : nat -> arr;
                       s_gradp : nat -> arr; s_conv : nat -> arr; s_convT : arr }.
Definition window : Type := nat * nat * (nat * nat) * (nat * nat).
Definition window_at (a : amargs) (t : R) : window :=
  let '(x, y, z) := moving_box a t in
  ((Z.to_nat (fst x), Z.to_nat (snd x)), (Z.to_nat (fst y), Z.to_nat (snd y)), (Z.to_nat (fst z), Z.to_nat (snd z))).
Definition cut (w : window) (f : arr) : arr := fun i j k =>
  let '(x, y, z) := w in f (fst x + i)%nat (fst y + j)%nat (fst z + k)%nat.
Definition inb (x : nat * nat) (i : nat) : bool := Nat.leb (fst x) i && Nat.ltb i (snd x).
Definition paste (w : window) (f v : arr) : arr := fun i j k =>
  let '(x, y, z) := w in
  if inb x i && inb y j && inb z k then v (i - fst x)%nat (j - fst y)%nat (k - fst z)%nat else f i j k.
Section Driver.
Variables (a : amargs)
  (update_T : arr -> arr -> arr -> R -> arr)
  (solve_v : nat -> fld -> fld -> fld -> fld -> bclist -> fld) (solve_p : fld -> fld).
Definition time_integration (s : state) : res state :=
  bind (if Nat.eqb (a_heat_source a) 1
        then bind (body_heat_source a (s_t s)) (fun q =>
               Ok (fun i j k => let '(x, y, z) := nth (cell_idx (a_mesh a) i j k) (Xc (a_mesh a)) (0, 0, 0) in q x y z))
        else Ok (fun i j k => s_T s i j k * 0))
  (fun Q =>
    let T := update_T (s_T s) (s_convT s) Q (s_t s) in
    let fl0 := fun i j k => fluid_frac a (T i j k) in
    let solidID := fun i j k => Rmax (s_solidID s i j k) (fl0 i j k) in
    let w := window_at a (s_t s) in
    let '(vel, B, gradp) := vel_update a solve_v solve_p (fun c => cut w (s_vel s c)) (fun c => cut w (s_conv s c))
                              (fun c => cut w (s_gradp s c)) (cut w fl0) (cut w T) in
    let '(convT, conv) := update_convective_terms a (cut w T) vel B in
    Ok (mkSt (s_t s + a_dt a) T solidID
          (fun c => paste w (s_vel s c) (vel c)) (fun c => paste w (s_gradp s c) (gradp c))
          (fun c => paste w (s_conv s c) (conv c)) (paste w (s_convT s) convT))).
Fixpoint run (n : nat) (s : state) : res state :=
  match n with O => Ok s | S n' => bind (run n' s) time_integration end.
End Driver.
(** eqn_T_init and eqn_V_init, lines 261-278 *)
Definition init_state (a : amargs) : state :=
  mkSt 0 (fun _ _ _ => 0 + a_Tref a) (fun _ _ _ => 0) (fun _ _ _ _ => 0) (fun _ _ _ _ => 0) (fun _ _ _ _ => 0)
       (fun _ _ _ => 0).

(** ** The external solves instantiated with the code's equations; only bicgstab (and the
    derivative [dk] of the conductivity, which JAX computes) stays external. *)
Definition ok_or {A} (d : A) (r : res A) : A := match r with Ok x => x | Err _ => d end.
Section Real.
Variables (a : amargs) (bicg : (fld -> fld) -> fld -> fld) (dk : R -> R).
(** energy_eqn.update, lines 515-525 (tol 1e-5, max_it 50, relaxation 1) *)
Definition energy_residual (T0 conv Q : fld) (bc : bclist) (T : fld) : res fld :=
  bind (energy_eqn a T0 conv Q) (fun e => compute_residual e (Some bc) T).
Definition energy_step (T0 conv Q : fld) (bc : bclist) (dofs b : fld) : fld :=
  match energy_eqn a T0 conv Q with
  | Ok e => match newton_values e dk (fun n _ => - a_rho a * cp_fn a (T0 n) / a_dt a) (Some bc) dofs with
            | Ok v => bicg (linearized_residual (a_mesh a) v) b
            | Err _ => fun _ => 0
            end
  | Err _ => fun _ => 0
  end.
Definition energy_update (T0 conv Q : arr) (t : R) : arr :=
  let m := a_mesh a in
  let bc := energy_bc a t (fun i j => T0 i j (mNz m - 1)%nat) in
  unflat m (fst (solver_nonlinear (cell_num m)
    (fun T => ok_or (fun _ => 0) (energy_residual (flat m T0) (flat m conv) (flat m Q) bc T))
    (energy_step (flat m T0) (flat m conv) (flat m Q) bc) (1 / 10 ^ 5) 1 50 (Some (flat m T0)))).
(** the prediction solves, lines 560-570 *)
Definition vel_solve (c : nat) (u0 conv gradp fl : fld) (bc : bclist) : fld :=
  match vel_eqn a u0 conv gradp fl with
  | Ok e =>
      match compute_residual e (Some bc) (fun _ => 0),
            newton_values e (fun _ => 0) (fun n _ => - a_rho a / a_dt a - 10 ^ 7 * a_rho a * (1 - fl n) ^ 2 / (fl n ^ 3 + 1 / 10 ^ 5))
              (Some bc) (fun _ => 0) with
      | Ok r, Ok v => solver_linear bicg (a_local a) v r
      | _, _ => fun _ => 0
      end
  | Err _ => fun _ => 0
  end.
(** the pressure solve, lines 580-584; the matrix was built in __init__ with div_v = 0 *)
Definition p_solve (div_v : fld) : fld :=
  match pressure_eqn a div_v with
  | Ok e =>
      match compute_residual e None (fun _ => 0), newton_values e (fun _ => 0) (fun _ _ => 0) None (fun _ => 0) with
      | Ok r, Ok v => solver_linear bicg (a_local a) v r
      | _, _ => fun _ => 0
      end
  | Err _ => fun _ => 0
  end.
Definition cfd_run (n : nat) : res state := run a energy_update vel_solve p_solve n (init_state a).
End Real.
