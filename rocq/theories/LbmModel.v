(** * Model of jax_am/lbm/core.py ([simulation]) over the reals. Definitions only.

    Common simplifications
    - floats are reals, see DESIGN.md;
    - a per-lattice kernel [k lattice_id] is modelled as a function of the cell
      position [to_id_xyz lattice_id] (lbm/utils.py:37-42); the vmap + reshape
      that stores kernel results at [x,y,z] is property C04
      ([vmapped_lattice_kernel] in LbmProps);
    - an array of shape (Nx,Ny,Nz,...) is a total function of the cell; only
      cells of the grid are ever summed over. *)
From Verif Require Import Prelude.
Open Scope R_scope.

(** jax_am/lbm/utils.py:8-12 class State (0, 1, 2, 3). *)
Inductive phase_t := LIQUID | LG | GAS | WALL.
Definition phase_eqb (a b : phase_t) : bool :=
  match a, b with
  | LIQUID, LIQUID | LG, LG | GAS, GAS | WALL, WALL => true
  | _, _ => false
  end.

Definition cell : Type := (Z * Z * Z)%type.
Definition field (A : Type) : Type := cell -> A.
Definition vec3 : Type := (R * R * R)%type.
Definition dist : Type := nat -> R.         (* one value per lattice direction *)

Record dims := mkDims { NX : Z; NY : Z; NZ : Z }.

(** ** Lattice tables, lbm/core.py:578-587 *)
Definition vels_x : list Z := [0; 1; -1; 0;  0; 0;  0; 1; -1; 1; -1; 1; -1; -1;  1; 0;  0;  0;  0]%Z.
Definition vels_y : list Z := [0; 0;  0; 1; -1; 0;  0; 1; -1; -1;  1; 0;  0;  0;  0; 1; -1;  1; -1]%Z.
Definition vels_z : list Z := [0; 0;  0; 0;  0; 1; -1; 0;  0;  0;  0; 1; -1;  1; -1; 1; -1; -1;  1]%Z.
Definition rev_tab : list nat := [0; 2; 1; 4; 3; 6; 5; 8; 7; 10; 9; 12; 11; 14; 13; 16; 15; 18; 17]%nat.
Definition weights_tab : list R :=
  [1/3; 1/18; 1/18; 1/18; 1/18; 1/18; 1/18; 1/36; 1/36; 1/36;
   1/36; 1/36; 1/36; 1/36; 1/36; 1/36; 1/36; 1/36; 1/36].
Definition Ns : nat := 19.
Definition cs_sq : R := 1/3.
Definition m_half : R := 1/2.      (* m = 0.5, line 585 *)
Definition theta : R := 1/1000.    (* line 588 *)
Definition dt : R := 1.            (* line 591 *)
Definition rho0 : R := 1.          (* line 592 *)
Definition T0 : R := 1.            (* line 593 *)
Definition rho_g : R := rho0.      (* line 641 *)

Definition vx (q : nat) : Z := nth q vels_x 0%Z.
Definition vy (q : nat) : Z := nth q vels_y 0%Z.
Definition vz (q : nat) : Z := nth q vels_z 0%Z.
Definition rev (q : nat) : nat := nth q rev_tab 0%nat.
Definition weight (q : nat) : R := nth q weights_tab 0.
Definition dirs : list nat := seq 0 Ns.

(** Parameters derived from lbm_args (lines 610-640); each theorem quantifies over
    all values it does not restrict. *)
Record params := mkParams
  { tau_nu : R; tau_l : R; tau_s : R; heat_capacity : R;
    T_solidus : R; T_liquidus : R; enthalpy_s : R; enthalpy_l : R }.

(** ** Cell access, lbm/core.py:48-58 (JAX gather: see [jax_index]) *)
Definition nb (d : dims) (c : cell) (q : nat) : cell :=
  let '(x, y, z) := c in
  (jax_index (NX d) (vx q + x), jax_index (NY d) (vy q + y), jax_index (NZ d) (vz q + z)).
Definition extract_local {A} (d : dims) (values : field A) (c : cell) : nat -> A :=
  fun q => values (nb d c q).
Definition extract_income (d : dims) (values : field dist) (c : cell) : dist :=
  fun q => values (nb d c q) (rev q).
Definition extract_self {A} (values : field A) (c : cell) : A := values c.

(** ** Vector helpers *)
Definition vadd (a b : vec3) : vec3 :=
  let '(a1,a2,a3) := a in let '(b1,b2,b3) := b in (a1 + b1, a2 + b2, a3 + b3).
Definition vscale (s : R) (a : vec3) : vec3 := let '(a1,a2,a3) := a in (s * a1, s * a2, s * a3).
Definition dot (a b : vec3) : R :=
  let '(a1,a2,a3) := a in let '(b1,b2,b3) := b in a1 * b1 + a2 * b2 + a3 * b3.
Definition velR (q : nat) : vec3 := (IZR (vx q), IZR (vy q), IZR (vz q)).
Definition sumQ (f : nat -> R) : R := sumR dirs f.

(** lbm/core.py:61-64 *)
Definition equilibrium_f (q : nat) (rho : R) (u : vec3) : R :=
  let vel_dot_u := dot (velR q) u in
  let u_sq := dot u u in
  weight q * rho * (1 + vel_dot_u / cs_sq + vel_dot_u ^ 2 / (2 * cs_sq ^ 2) - u_sq / (2 * cs_sq)).

(** lbm/core.py:69-74 *)
Definition equilibrium_h (p : params) (q : nat) (enthalpy T : R) (u : vec3) : R :=
  let u_sq := dot u u in
  let vel_dot_u := dot (velR q) u in
  let result := weight q * heat_capacity p * T *
     (1 + vel_dot_u / cs_sq + vel_dot_u ^ 2 / (2 * cs_sq ^ 2) - u_sq / (2 * cs_sq)) in
  let result0 := enthalpy - heat_capacity p * T +
     weight 0 * heat_capacity p * T * (1 - u_sq / (2 * cs_sq)) in
  if Nat.eqb q 0 then result0 else result.

(** lbm/core.py:79-81 *)
Definition f_forcing (p : params) (q : nat) (u volume_force : vec3) : R :=
  let ei := velR q in
  (1 - 1 / (2 * tau_nu p)) * weight q *
  dot (vadd (vscale (1 / cs_sq) (vadd ei (vscale (-1) u))) (vscale (dot ei u / cs_sq ^ 2) ei)) volume_force.

(** lbm/core.py:86-87 *)
Definition h_forcing (volume_power rho : R) (q : nat) : R := volume_power / rho * weight q.

(** lbm/core.py:91-98 *)
Definition compute_rho (f : field dist) : field R := fun c => sumQ (f c).
Definition compute_enthalpy (h : field dist) : field R := fun c => sumQ (h c).

(** lbm/core.py:101-105 *)
Definition compute_T1 (p : params) (e : R) : R :=
  if Rltb e (enthalpy_s p) then e / heat_capacity p
  else if Rltb e (enthalpy_l p)
       then T_solidus p + (e - enthalpy_s p) / (enthalpy_l p - enthalpy_s p) * (T_liquidus p - T_solidus p)
       else T_liquidus p + (e - enthalpy_l p) / heat_capacity p.
Definition compute_T (p : params) (e : field R) : field R := fun c => compute_T1 p (e c).

(** lbm/core.py:108-112: three successive [where]s. *)
Definition compute_vof1 (rho : R) (ph : phase_t) (mass : R) : R :=
  let v := if phase_eqb ph LIQUID then rho else mass in
  let v := if phase_eqb ph GAS then 0 else v in
  if phase_eqb ph WALL then rho0 else v.
Definition compute_vof (rho : field R) (phase : field phase_t) (mass : field R) : field R :=
  fun c => compute_vof1 (rho c) (phase c) (mass c).

(** lbm/core.py:202-207.  [np.where(rho == 0., 1., rho)] guards the division. *)
Definition momentum (f : dist) : vec3 :=
  (sumQ (fun q => f q * IZR (vx q)), sumQ (fun q => f q * IZR (vy q)), sumQ (fun q => f q * IZR (vz q))).
Definition compute_u1 (p : params) (f : dist) (rho T : R) (src : vec3) : vec3 :=
  let den := if Reqb rho 0 then 1 else rho in
  let u := vscale (1 / den) (vadd (momentum f) (vscale (dt * m_half) src)) in
  let u := if Reqb rho 0 then (0, 0, 0) else u in
  if Rltb T (T_solidus p) then (0, 0, 0) else u.
Definition compute_u (p : params) (f : field dist) (rho T : field R) (src : field vec3) : field vec3 :=
  fun c => compute_u1 p (f c) (rho c) (T c) (src c).

Definition is_gas_or_wall (ph : phase_t) : bool := phase_eqb ph GAS || phase_eqb ph WALL.

(** lbm/core.py:240-264 *)
Definition collide_f (p : params) (d : dims) (f : field dist) (rho T : field R) (u : field vec3)
    (phase : field phase_t) (src : field vec3) : field dist := fun c =>
  let f_self := extract_self f c in
  let rho_self := extract_self rho c in
  let u_self := extract_self u c in
  let phase_local := extract_local d phase c in
  let T_self := extract_self T c in
  let src_self := extract_self src c in
  if is_gas_or_wall (phase_local 0%nat) then fun _ => 0
  else fun q =>
    if Rltb T_self (T_solidus p) then weight q * rho_self
    else 1 / tau_nu p * (equilibrium_f q rho_self u_self - f_self q) + f_self q
         + f_forcing p q u_self src_self * dt.

(** lbm/core.py:269-295 *)
Definition collide_h (p : params) (d : dims) (h : field dist) (enthalpy T rho : field R) (u : field vec3)
    (phase : field phase_t) (hsrc : field R) : field dist := fun c =>
  let h_self := extract_self h c in
  let phase_local := extract_local d phase c in
  let T_self := extract_self T c in
  if is_gas_or_wall (phase_local 0%nat) then fun _ => 0
  else fun q =>
    let tau := if Rltb T_self (T_solidus p) then tau_s p else tau_l p in
    1 / tau * (equilibrium_h p q (enthalpy c) T_self (u c) - h_self q) + h_self q
    + h_forcing (hsrc c) (rho c) q * dt.

(** lbm/core.py:313-327: one streamed value of a liquid or interface cell. *)
Definition stream_f (d : dims) (f : field dist) (u : field vec3) (phase : field phase_t) (c : cell) (q : nat) : R :=
  let f_self := extract_self f c in
  let f_income := extract_income d f c in
  let u_self := extract_self u c in
  let phase_local := extract_local d phase c in
  match phase_local (rev q) with
  | GAS => equilibrium_f (rev q) rho_g u_self + equilibrium_f q rho_g u_self - f_self (rev q)
  | WALL => f_self (rev q)
  | _ => f_income (rev q)
  end.

(** lbm/core.py:333-349 *)
Definition mass_change (d : dims) (f : field dist) (phase : field phase_t) (vof : field R) (c : cell) (q : nat) : R :=
  let f_in := extract_income d f c q in
  let f_out := extract_self f c q in
  match extract_local d phase c q with
  | LIQUID => f_in - f_out
  | LG => (f_in - f_out) * (extract_local d vof c q + extract_local d vof c 0%nat) / 2
  | _ => 0
  end.

(** lbm/core.py:300-357 (returns f_distribute, mass) *)
Definition update_f (d : dims) (f : field dist) (rho : field R) (u : field vec3) (phase : field phase_t)
    (mass vof : field R) : field (dist * R) := fun c =>
  let phase_local := extract_local d phase c in
  if is_gas_or_wall (phase_local 0%nat) then (fun _ => 0, 0)
  else
    let streamed := stream_f d f u phase c in
    if phase_eqb (phase_local 0%nat) LIQUID then (streamed, extract_self rho c)
    else (streamed, sumQ (mass_change d f phase vof c) + extract_self mass c).

(** lbm/core.py:363-392 *)
Definition update_h (p : params) (d : dims) (h : field dist) (u : field vec3) (phase : field phase_t)
    : field dist := fun c =>
  let h_self := extract_self h c in
  let h_income := extract_income d h c in
  let phase_local := extract_local d phase c in
  if is_gas_or_wall (phase_local 0%nat) then fun _ => 0
  else fun q =>
    match phase_local (rev q) with
    | GAS => h_self (rev q)
    | WALL => equilibrium_h p q (T0 * heat_capacity p) T0 (0, 0, 0)
    | _ => h_income (rev q)
    end.

(** ** Interface re-initialisation *)
Definition nbdirs : list nat := seq 1 (Ns - 1).   (* phase_local[1:] *)

(** lbm/core.py:398-406 *)
Definition reini_lg_to_liquid (f : field dist) (phase : field phase_t) (mass : field R) : field phase_t := fun c =>
  let rho_self := sumQ (f c) in
  if phase_eqb (phase c) LG && Rltb ((1 + theta) * rho_self) (mass c) then LIQUID else phase c.

(** lbm/core.py:411-438: the averages over liquid / interface neighbours
    (including the cell itself, whose flag is 0 because it is gas). *)
Definition nb_liquid_flag (ph : phase_t) : R := b2R (phase_eqb ph LIQUID || phase_eqb ph LG).
Definition nb_avg (d : dims) (phase : field phase_t) (v : field R) (c : cell) : R :=
  sumQ (fun q => nb_liquid_flag (extract_local d phase c q) * extract_local d v c q)
  / sumQ (fun q => nb_liquid_flag (extract_local d phase c q)).
Definition nb_avg3 (d : dims) (phase : field phase_t) (v : field vec3) (c : cell) : vec3 :=
  (nb_avg d phase (fun c => fst (fst (v c))) c,
   nb_avg d phase (fun c => snd (fst (v c))) c,
   nb_avg d phase (fun c => snd (v c)) c).
Record lstate := mkL { lf : field dist; lh : field dist; lphase : field phase_t; lmass : field R }.

Definition gas_to_lg_flag (d : dims) (phase : field phase_t) (c : cell) : bool :=
  phase_eqb (extract_local d phase c 0%nat) GAS &&
  existsb (fun q => phase_eqb (extract_local d phase c q) LIQUID) nbdirs.

Definition reini_gas_to_lg (p : params) (d : dims) (s : lstate) (rho : field R) (u : field vec3)
    (enthalpy T : field R) : lstate :=
  let flag := gas_to_lg_flag d (lphase s) in
  let ph := lphase s in
  mkL (fun c => if flag c then fun q => equilibrium_f q (nb_avg d ph rho c) (nb_avg3 d ph u c) else lf s c)
      (fun c => if flag c then fun q => equilibrium_h p q (nb_avg d ph enthalpy c) (nb_avg d ph T c) (nb_avg3 d ph u c) else lh s c)
      (fun c => if flag c then LG else extract_local d ph c 0%nat)
      (fun c => if flag c then 0 else lmass s c).

(** lbm/core.py:443-451 *)
Definition reini_lg_to_gas (f : field dist) (phase : field phase_t) (mass : field R) : field phase_t := fun c =>
  let rho_self := sumQ (f c) in
  if phase_eqb (phase c) LG && Rltb (mass c) ((0 - theta) * rho_self) then GAS else phase c.

(** lbm/core.py:456-468 (returns phase, mass) *)
Definition liquid_to_lg_flag (d : dims) (phase : field phase_t) (c : cell) : bool :=
  phase_eqb (extract_local d phase c 0%nat) LIQUID &&
  existsb (fun q => phase_eqb (extract_local d phase c q) GAS) nbdirs.
Definition reini_liquid_to_lg (d : dims) (f : field dist) (phase : field phase_t) (mass : field R)
    : field phase_t * field R :=
  (fun c => if liquid_to_lg_flag d phase c then LG else extract_local d phase c 0%nat,
   fun c => if liquid_to_lg_flag d phase c then sumQ (f c) else mass c).

(** lbm/core.py:473-484 *)
Definition adhoc_step (d : dims) (phase : field phase_t) : field phase_t := fun c =>
  let phase_local := extract_local d phase c in
  let gas_nb_flag := forallb (fun q => phase_eqb (phase_local q) WALL
        || (phase_eqb (phase_local q) GAS || phase_eqb (phase_local q) LG)) nbdirs in
  let gas_flag := phase_eqb (phase_local 0%nat) LG && gas_nb_flag in
  let liquid_nb_flag := forallb (fun q => phase_eqb (phase_local q) WALL
        || (phase_eqb (phase_local q) LIQUID || phase_eqb (phase_local q) LG)) nbdirs in
  let liquid_flag := phase_eqb (phase_local 0%nat) LG && liquid_nb_flag in
  if gas_flag then GAS else if liquid_flag then LIQUID else phase_local 0%nat.

(** lbm/core.py:489-500 *)
Definition refresh_for_output (s : lstate) : lstate :=
  let z c := is_gas_or_wall (lphase s c) in
  mkL (fun c => if z c then fun _ => 0 else lf s c)
      (fun c => if z c then fun _ => 0 else lh s c)
      (lphase s)
      (fun c => if z c then 0 else lmass s c).

(** lbm/core.py:505-516 *)
Definition cell_mass (f : field dist) (phase : field phase_t) (mass : field R) : field R := fun c =>
  if phase_eqb (phase c) LIQUID then sumQ (f c)
  else if phase_eqb (phase c) LG then mass c else 0.

(** The list of all lattice positions (lattice_ids = arange(Nx*Ny*Nz), line 656,
    decoded by to_id_xyz). *)
Definition grid (d : dims) : list cell :=
  flat3 (Z.to_nat (NX d)) (Z.to_nat (NY d)) (Z.to_nat (NZ d))
        (fun i j k => (Z.of_nat i, Z.of_nat j, Z.of_nat k)).

(** lbm/core.py:660, 711: np.sum(compute_total_mass_vmap(...)) *)
Definition total_mass (d : dims) (f : field dist) (phase : field phase_t) (mass : field R) : R :=
  sumR (grid d) (cell_mass f phase mass).

(** lbm/core.py:711-712: distribute the mass defect over the interface cells. *)
Definition lg_count (d : dims) (phase : field phase_t) : R :=
  sumR (grid d) (fun c => b2R (phase_eqb (phase c) LG)).
Definition correct_mass (d : dims) (target : R) (f : field dist) (phase : field phase_t) (mass : field R) : field R :=
  let calculated_mass := total_mass d f phase mass in
  fun c => if phase_eqb (phase c) LG then mass c + (target - calculated_mass) / lg_count d phase else mass c.

(** ** Initial state, lbm/core.py:648-660 *)
Definition init_f : field dist := fun _ q => weight q * rho0.
Definition init_h (p : params) : field dist := fun _ q => weight q * T0 * heat_capacity p.
Definition init_state (p : params) (d : dims) (initial_phase : field phase_t) : lstate :=
  let f := init_f in
  let h := init_h p in
  let mass : field R := fun c => sumQ (f c) in
  let rho := compute_rho f in
  let u : field vec3 := fun _ => (0, 0, 0) in
  let enthalpy := compute_enthalpy h in
  let T := compute_T p enthalpy in
  let s := reini_gas_to_lg p d (mkL f h initial_phase mass) rho u enthalpy T in
  mkL (lf s) (lh s) (lphase s)
      (fun c => if phase_eqb (lphase s c) LG then 1/2 * sumQ (lf s c) else lmass s c).
Definition init_total_mass (p : params) (d : dims) (initial_phase : field phase_t) : R :=
  let s := init_state p d initial_phase in total_mass d (lf s) (lphase s) (lmass s).

(** ** One time step, lbm/core.py:671-717.
    The momentum source (curvature, Marangoni, recoil: lines 678-681) and heat
    source (line 682) are arbitrary functions of the state; they are modelled
    in LbmAuxModel (model_sources). *)
Record sources := mkSrc
  { f_src : lstate -> field R -> field R -> field R -> field vec3;   (* rho vof T *)
    h_src : lstate -> field R -> field R -> field R }.               (* vof T *)

Record sim := mkSim { st : lstate; melted : field R }.

(** lines 674-689 *)
Definition T_of (p : params) (s : lstate) : field R := compute_T p (compute_enthalpy (lh s)).
Definition physics (p : params) (d : dims) (src : sources) (s : lstate)
   : lstate * (field R * field vec3 * field R * field R) :=
  let rho := compute_rho (lf s) in
  let enthalpy := compute_enthalpy (lh s) in
  let T := compute_T p enthalpy in
  let vof := compute_vof rho (lphase s) (lmass s) in
  let fsrc := f_src src s rho vof T in
  let hsrc := h_src src s vof T in
  let u := compute_u p (lf s) rho T fsrc in
  let f1 := collide_f p d (lf s) rho T u (lphase s) fsrc in
  let h1 := collide_h p d (lh s) enthalpy T rho u (lphase s) hsrc in
  let fm := update_f d f1 rho u (lphase s) (lmass s) vof in
  let h2 := update_h p d h1 u (lphase s) in
  (mkL (fun c => fst (fm c)) h2 (lphase s) (fun c => snd (fm c)), (rho, u, enthalpy, T)).

(** lines 694-709 *)
Definition reinit (p : params) (d : dims) (s : lstate) (rho : field R) (u : field vec3) (enthalpy T : field R) : lstate :=
  let ph1 := reini_lg_to_liquid (lf s) (lphase s) (lmass s) in
  let s2 := reini_gas_to_lg p d (mkL (lf s) (lh s) ph1 (lmass s)) rho u enthalpy T in
  let ph3 := reini_lg_to_gas (lf s2) (lphase s2) (lmass s2) in
  let pm4 := reini_liquid_to_lg d (lf s2) ph3 (lmass s2) in
  let ph5 := adhoc_step d (fst pm4) in
  mkL (lf s2) (lh s2) ph5 (snd pm4).

(** lines 671-672: [fluid_only] resets the enthalpy distribution. *)
Definition pre (p : params) (fluid_only : bool) (s : lstate) : lstate :=
  if fluid_only then mkL (lf s) (fun _ q => weight q * (enthalpy_l p + 1)) (lphase s) (lmass s) else s.

Definition step (p : params) (d : dims) (src : sources) (fluid_only : bool) (target : R) (x : sim) : sim :=
  let s0 := pre p fluid_only (st x) in
  let '(s1, (rho, u, enthalpy, T)) := physics p d src s0 in
  let s2 := reinit p d s1 rho u enthalpy T in
  let s3 := mkL (lf s2) (lh s2) (lphase s2) (correct_mass d target (lf s2) (lphase s2) (lmass s2)) in
  let s4 := refresh_for_output s3 in
  mkSim s4 (fun c => if Rltb (T_solidus p) (T c) then 1 else melted x c).

(** The heat and force sources may differ from step to step (laser position):
    a run is a list of sources, one per step. *)
Definition run (p : params) (d : dims) (fluid_only : bool) (target : R) (srcs : list sources) (x : sim) : sim :=
  fold_left (fun x src => step p d src fluid_only target x) srcs x.

Definition init_sim (p : params) (d : dims) (initial_phase : field phase_t) : sim :=
  mkSim (init_state p d initial_phase) (fun _ => 0).

Definition simulate (p : params) (d : dims) (fluid_only : bool) (initial_phase : field phase_t) (srcs : list sources) : sim :=
  run p d fluid_only (init_total_mass p d initial_phase) srcs (init_sim p d initial_phase).
Close Scope R_scope.
