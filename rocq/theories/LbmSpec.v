(** * Specification vocabulary for the LBM properties (C05 - C15). *)
From Verif Require Import Prelude LbmModel.
Open Scope R_scope.

(** ** Tensor components *)
Inductive axis := AX | AY | AZ.
Definition comp (a : axis) (v : vec3) : R :=
  let '(x, y, z) := v in match a with AX => x | AY => y | AZ => z end.
Definition delta (a b : axis) : R :=
  match a, b with AX, AX | AY, AY | AZ, AZ => 1 | _, _ => 0 end.
Definition vneg (v : vec3) : vec3 := let '(x, y, z) := v in (- x, - y, - z).

(** ** The D3Q19 stencil: all offsets with entries in -1..1 and at most two nonzero. *)
Definition d3q19_offset (e : cell) : Prop :=
  let '(x, y, z) := e in
  (Z.abs x <= 1 /\ Z.abs y <= 1 /\ Z.abs z <= 1 /\ Z.abs x + Z.abs y + Z.abs z <= 2)%Z.
Definition cadd (c e : cell) : cell :=
  let '(x, y, z) := c in let '(a, b, g) := e in (x + a, y + b, z + g)%Z.

(** Two different cells at a D3Q19 distance. *)
Definition adjacent (c n : cell) : Prop :=
  c <> n /\ exists e, d3q19_offset e /\ n = cadd c e.

(** ** Domains *)
Definition in_grid (d : dims) (c : cell) : Prop :=
  let '(x, y, z) := c in (0 <= x < NX d /\ 0 <= y < NY d /\ 0 <= z < NZ d)%Z.
Definition on_border (d : dims) (c : cell) : Prop :=
  let '(x, y, z) := c in
  (x = 0 \/ x = NX d - 1 \/ y = 0 \/ y = NY d - 1 \/ z = 0 \/ z = NZ d - 1)%Z.

(** The domain is enclosed by wall cells. *)
Definition closed (d : dims) (phase : field phase_t) : Prop :=
  forall c, in_grid d c -> on_border d c -> phase c = WALL.

Definition no_liquid_gas_contact (d : dims) (phase : field phase_t) : Prop :=
  forall c n, in_grid d c -> in_grid d n -> adjacent c n -> phase c = LIQUID -> phase n <> GAS.

(** ** Mass of the system: what liquid cells hold in their distributions plus
    what interface cells hold in their mass variable. *)
Definition density (f : dist) : R := sumR (seq 0 19) f.
Definition system_mass (d : dims) (s : lstate) : R :=
  sumR (seq 0 (Z.to_nat (NX d))) (fun i =>
  sumR (seq 0 (Z.to_nat (NY d))) (fun j =>
  sumR (seq 0 (Z.to_nat (NZ d))) (fun k =>
    let c := (Z.of_nat i, Z.of_nat j, Z.of_nat k) in
    match lphase s c with
    | LIQUID => density (lf s c)
    | LG => lmass s c
    | _ => 0
    end))).

(** ** Enthalpy of the system: everything stored in liquid and interface cells. *)
Definition fluid (ph : phase_t) : bool := match ph with LIQUID | LG => true | _ => false end.

(** ** Fill level rules *)
Definition filled (s : lstate) (c : cell) : Prop :=
  lphase s c = LG /\ (1 + 1/1000) * density (lf s c) < lmass s c.
Definition emptied (s : lstate) (c : cell) : Prop :=
  lphase s c = LG /\ lmass s c < - (1/1000) * density (lf s c).

(** ** Enthalpy / temperature curve with a melting range *)
Definition consistent (p : params) : Prop :=
  0 < heat_capacity p /\ enthalpy_s p = heat_capacity p * T_solidus p /\
  ((enthalpy_s p < enthalpy_l p /\ T_solidus p < T_liquidus p) \/
   (enthalpy_s p = enthalpy_l p /\ T_solidus p = T_liquidus p)).
Close Scope R_scope.
