(** * Stretched cells: the maximum principle fails on every box of 2 x 2 x 2 cells that are not cubes. *)
From Coq Require Import String Classical Lra Lia.
From Verif Require Import Prelude PreludeFacts FemModel FemFacts FemSpec FemGeoProofs FemAsmProofs BasisModel BasisSpec BasisProofs MatModel MatSpec MatProofs RveMeanProofs SolverModel SolverSpec SolverFemProofs SolverAdProofs BoxSpec BoxProofs BoxPatchProofs WellSpec WellProofs WellBoxProofs WellMainProofs InfMainProofs ManSpec ManProofs MaxSpec MaxProofs.
From Verif Require MeshModel.
Open Scope R_scope.
Open Scope list_scope.

Definition mid (d : nat) : nat := match d with 0%nat => 4 | 1%nat => 10 | _ => 12 end.
Definition trial (x : R) (d n : nat) : R := if Nat.eqb n 13 then x else if Nat.eqb n (mid d) then 1 else 0.
Definition delta13 (n : nat) : R := if Nat.eqb n 13 then 1 else 0.
Definition node2 (i j k a : nat) : nat := node 2 2 (i + off a 0) (j + off a 1) (k + off a 2).
Lemma centre_row x d0 d : (d0 < 3)%nat -> (d < 3)%nat ->
  sumN 2 (fun i => sumN 2 (fun j => sumN 2 (fun k => sumN 8 (fun a => sumN 8 (fun b => trial x d0 (node2 i j k a) * delta13 (node2 i j k b) * kab d a b)))))
  = 8 / 9 * x + (if Nat.eqb d d0 then - 4 / 9 else 2 / 9).
Proof.
  intros H0 Hd. 
  assert (Hb : forall i j k, (i < 2)%nat -> (j < 2)%nat -> (k < 2)%nat -> sumN 8 (fun a => sumN 8 (fun b => trial x d0 (node2 i j k a) * delta13 (node2 i j k b) * kab d a b))
    = sumN 8 (fun a => trial x d0 (node2 i j k a) * sumN 8 (fun b => delta13 (node2 i j k b) * kab d a b))).
  { intros i j k _ _ _. apply sumN_ext. intros a _. rewrite <- sumN_scal. apply sumN_ext. intros b _. ring. }
  rewrite (sumN_ext 2 _ (fun i => sumN 2 (fun j => sumN 2 (fun k => sumN 8 (fun a => trial x d0 (node2 i j k a) * sumN 8 (fun b => delta13 (node2 i j k b) * kab d a b)))))).
  2: { intros i Hi. apply sumN_ext. intros j Hj. apply sumN_ext. intros k Hk. now apply Hb. }
  unfold sumN. cbn [seq sumR]. unfold node2, node, trial, delta13, mid, kab, mm, sgn_of, off, vtk_hex.
  destruct d0 as [|[|[|d0]]]; try lia; (destruct d as [|[|[|d]]]; try lia); cbn; field.
Qed.

Section Two.
Context {V : Type}.
Variable F : fem V.
Local Notation E := (f_ele F).
Variables (B : basix) (Lx Ly Lz : R).
Hypothesis HF : box_hex F B 2 2 2 Lx Ly Lz.
Local Notation h := (hh 2 2 2 Lx Ly Lz).
Local Notation L := (along Lx Ly Lz).
Hypothesis Hvec : vec F = 1%nat.
Hypothesis Htm : tensor_map F = Some (fun _ => poisson_map).
Variable iv : internal_vars V.
Lemma centre_energy u x d0 : (d0 < 3)%nat -> (forall n, (n < 27)%nat -> u n 0%nat = trial x d0 n) ->
  energy_form F iv u (fun n _ => delta13 n) = h 0%nat * h 1%nat * h 2%nat * sumN 3 (fun d => / h d ^ 2 * (8 / 9 * x + (if Nat.eqb d d0 then - 4 / 9 else 2 / 9))).
Proof.
  intros H0 Hu. pose proof HF as (HB & Hq & Hx & Hy & Hz & H1 & H2 & H3 & Hm & Hn & HE). rewrite (poisson_form B HB F HE Htm iv). rewrite Hvec.
  rewrite (sumN_ext (num_cells F) _ (fun c => sumN 3 (fun d => h 0%nat * h 1%nat * h 2%nat / h d ^ 2 * sumN 8 (fun a => sumN 8 (fun b => u (cell_node F c a) 0%nat * delta13 (cell_node F c b) * kab d a b))))).
  2: { intros c Hc. unfold sumN at 1. cbn [seq sumR]. rewrite Rplus_0_r. apply sumN_ext. intros d Hd. now rewrite (cell_energy F B 2 2 2 Lx Ly Lz HF). }
  rewrite sumN_swap, <- sumN_scal. apply sumN_ext. intros d Hd. rewrite sumN_scal. unfold Rdiv at 1. rewrite Rmult_assoc. f_equal. f_equal.
  rewrite (box_sum F 2 2 2 Lx Ly Lz Hx Hy Hz Hm). rewrite <- (centre_row x d0 d H0 Hd). apply sumN_ext. intros i Hi. apply sumN_ext. intros j Hj. apply sumN_ext. intros k Hk. apply sumN_ext. intros a Ha. apply sumN_ext. intros b Hb.
  rewrite !(cell_node_at F 2 2 2 Lx Ly Lz Hx Hy Hz Hm Hn) by assumption. fold (node2 i j k a) (node2 i j k b). rewrite Hu; [reflexivity|].
  unfold node2, node. pose proof (off1 a 0). pose proof (off1 a 1). pose proof (off1 a 2). lia.
Qed.
(** the value 1 in the middle of the low side d, 0 on the rest of the surface *)
Definition outer (p : point) : bool := existsb (fun s => Reqb (p (fst s)) (side_coord Lx Ly Lz s)) six_sides.
Definition spot (d : nat) (p : point) : R := if forallb (fun e => Reqb (p e) (if Nat.eqb e d then 0 else L e / 2)) [0; 1; 2]%nat then 1 else 0.
Lemma L2_pos e : 0 < L e.
Proof. pose proof HF as (_ & _ & _ & _ & _ & H1 & H2 & H3 & _). destruct e as [|[|e]]; assumption. Qed.
Lemma two_point i j k e : (i <= 2)%nat -> (j <= 2)%nat -> (k <= 2)%nat -> (e < 3)%nat -> points F (node 2 2 i j k) e = INR (along i j k e) * (L e / 2).
Proof.
  intros Hi Hj Hk He. pose proof HF as (HB & Hq & Hx & Hy & Hz & H1 & H2 & H3 & Hm & Hn & HE). rewrite (node_point F 2 2 2 Lx Ly Lz Hx Hy Hz Hm Hn) by assumption. destruct e as [|[|e]]; cbn [along INR]; field.
Qed.
Lemma reqb_scaled (m m' : nat) e : Reqb (INR m * (L e / 2)) (INR m' * (L e / 2)) = Nat.eqb m m'.
Proof.
  pose proof (L2_pos e). destruct (Nat.eqb_spec m m') as [->|Hne]; [now apply Reqb_true|]. unfold Reqb. destruct (Req_EM_T _ _) as [Heq|]; [|reflexivity]. exfalso. apply Hne, INR_eq. apply Rmult_eq_reg_r with (L e / 2); lra.
Qed.
Lemma spot_node d i j k : (d < 3)%nat -> (i <= 2)%nat -> (j <= 2)%nat -> (k <= 2)%nat -> spot d (points F (node 2 2 i j k)) = if Nat.eqb (node 2 2 i j k) (mid d) then 1 else 0.
Proof.
  intros Hd Hi Hj Hk. unfold spot. cbn [forallb]. rewrite !two_point by (assumption || lia).
  assert (Hr : forall e, (if Nat.eqb e d then 0 else L e / 2) = INR (if Nat.eqb e d then 0 else 1) * (L e / 2)) by (intros e; destruct (Nat.eqb e d); cbn [INR]; ring).
  rewrite !Hr, !reqb_scaled. destruct d as [|[|[|d]]]; try lia;
    (destruct i as [|[|[|i]]]; [| | |lia]); (destruct j as [|[|[|j]]]; [| | |lia]); (destruct k as [|[|[|k]]]; [| | |lia]); reflexivity.
Qed.
Lemma outer_node i j k : (i <= 2)%nat -> (j <= 2)%nat -> (k <= 2)%nat -> outer (points F (node 2 2 i j k)) = negb (Nat.eqb (node 2 2 i j k) 13).
Proof.
  intros Hi Hj Hk. unfold outer, six_sides, side_coord. cbn [existsb fst snd]. rewrite !two_point by (assumption || lia).
  assert (H0 : forall m e, Reqb (INR m * (L e / 2)) 0 = Nat.eqb m 0) by (intros m e; rewrite <- (reqb_scaled m 0 e); cbn [INR]; now rewrite Rmult_0_l).
  assert (H2 : forall m e, Reqb (INR m * (L e / 2)) (L e) = Nat.eqb m 2) by (intros m e; rewrite <- (reqb_scaled m 2 e); f_equal; cbn [INR]; field).
  rewrite !H0, !H2. (destruct i as [|[|[|i]]]; [| | |lia]); (destruct j as [|[|[|j]]]; [| | |lia]); (destruct k as [|[|[|k]]]; [| | |lia]); reflexivity.
Qed.
Hypothesis Hmass : mass_map F = None.
Hypothesis Hcau : cauchy_bc_info F = None.
Variable inds : list (list (nat * nat)).
Hypothesis Hloads : loads_ok F inds iv.
Hypothesis Hzero : loads_sign F iv 1 0 /\ loads_sign F iv (-1) 0.
Lemma no_work v : load_work F inds iv v = 0.
Proof.
  destruct Hzero as [[B1 T1] [B2 T2]]. unfold load_work, body_power, neumann_power.
  rewrite (sumN_zero (num_cells F)). 2: { intros c _. apply sumN_zero. intros q _. unfold dot_vec. rewrite Hvec. unfold sumN. cbn [seq sumR]. specialize (B1 c q). specialize (B2 c q). replace (body_load F iv c q 0%nat) with 0 by lra. ring. }
  rewrite sumR_zero; [ring|]. intros [i sel] _. apply sumR_zero. intros [j s] _. apply sumN_zero. intros p _. cbn [fst snd]. unfold dot_vec. rewrite Hvec. unfold sumN. cbn [seq sumR].
  specialize (T1 i j s p). specialize (T2 i j s p). replace (traction F iv i j s p 0%nat) with 0 by lra. ring.
Qed.
Lemma centre_value d0 u : (d0 < 3)%nat -> discrete_solution F [outer] [0%nat] [spot d0] inds iv u ->
  sumN 3 (fun d => / h d ^ 2 * (8 / 9 * u 13%nat 0%nat + (if Nat.eqb d d0 then - 4 / 9 else 2 / 9))) = 0.
Proof.
  intros H0 [Hv Hr]. pose proof HF as (HB & Hq & Hx & Hy & Hz & H1 & H2 & H3 & Hm & Hn & HE). destruct Hloads as (Hiv & Hneu & Hfc).
  assert (H27 : num_total_nodes F = 27%nat) by (rewrite Hn, MeshProofs.box_points_length by assumption; reflexivity).
  assert (Hu : forall n, (n < 27)%nat -> u n 0%nat = trial (u 13%nat 0%nat) d0 n).
  { intros n Hl. unfold trial. destruct (Nat.eqb_spec n 13) as [->|Hne]; [reflexivity|].
    destruct (node_surj F 2 2 2 Lx Ly Lz Hn n ltac:(lia)) as (i & j & k & Hi & Hj & Hk & ->). rewrite <- (spot_node d0 i j k H0 Hi Hj Hk). apply (Hv 0%nat (node 2 2 i j k) 0%nat ltac:(lia)). split.
    - split; [cbn; lia|]. split; [reflexivity|]. cbn [nth]. rewrite outer_node by assumption. now apply negb_true_iff, Nat.eqb_neq.
    - intros i' Hi' (Hlt & _). cbn in Hlt. lia. }
  assert (Hadm : admissible F [outer] [0%nat] (fun n _ => delta13 n)).
  { intros n k Hl Hk (i & Hi & _ & Ho). unfold delta13. destruct (Nat.eqb_spec n 13) as [->|]; [|reflexivity]. exfalso. destruct i as [|i]; [|cbn in Hi; lia]. cbn [nth] in Ho.
    change 13%nat with (node 2 2 1 1 1) in Ho. rewrite outer_node in Ho by lia. discriminate. }
  pose proof (solution_weak F Hmass Hcau inds iv (hex_wf F B 2 2 2 Lx Ly Lz HF) Hiv (hex_cells F B 2 2 2 Lx Ly Lz HF) Hneu Hfc [outer] [0%nat] [spot d0] u _ (Logic.conj Hv Hr) Hadm) as Hw.
  rewrite no_work, (centre_energy u _ d0 H0 Hu) in Hw. pose proof (h_pos F B 2 2 2 Lx Ly Lz HF) as Hp. pose proof (Hp 0%nat). pose proof (Hp 1%nat). pose proof (Hp 2%nat).
  assert (HV : 0 < h 0%nat * h 1%nat * h 2%nat) by (apply Rmult_lt_0_compat; [apply Rmult_lt_0_compat|]; assumption).
  apply Rmult_integral in Hw. destruct Hw as [Hw|Hw]; [lra|exact Hw].
Qed.
Lemma centre_below d0 u : (d0 < 3)%nat -> 2 * / h d0 ^ 2 < sumN 3 (fun e => if Nat.eqb e d0 then 0 else / h e ^ 2) ->
  discrete_solution F [outer] [0%nat] [spot d0] inds iv u -> u 13%nat 0%nat < 0.
Proof.
  intros H0 Hh Hu. pose proof (centre_value d0 u H0 Hu) as Hw. pose proof (h_pos F B 2 2 2 Lx Ly Lz HF) as Hp.
  assert (Hi : forall e, 0 < / h e ^ 2) by (intros e; apply Rinv_0_lt_compat, pow_lt, Hp). pose proof (Hi 0%nat). pose proof (Hi 1%nat). pose proof (Hi 2%nat).
  unfold sumN in Hw, Hh. cbn [seq sumR] in Hw, Hh. set (x := u 13%nat 0%nat) in *. set (i0 := / h 0%nat ^ 2) in *. set (i1 := / h 1%nat ^ 2) in *. set (i2 := / h 2%nat ^ 2) in *.
  destruct (Rlt_le_dec x 0) as [Hlt|Hge]; [exact Hlt|exfalso]. assert (0 <= (i0 + i1 + i2) * x) by (apply Rmult_le_pos; lra).
  destruct d0 as [|[|[|d0]]]; try lia; cbn [Nat.eqb] in Hw, Hh; fold i0 i1 i2 in Hh; lra.
Qed.
Lemma longest : ~ cubes 2 2 2 Lx Ly Lz -> exists d0, (d0 < 3)%nat /\ 2 * / h d0 ^ 2 < sumN 3 (fun e => if Nat.eqb e d0 then 0 else / h e ^ 2).
Proof.
  intros Hn. pose proof (h_pos F B 2 2 2 Lx Ly Lz HF) as Hp. pose proof (Hp 0%nat) as P0. pose proof (Hp 1%nat) as P1. pose proof (Hp 2%nat) as P2.
  assert (Hinj : forall a b, / h a ^ 2 = / h b ^ 2 -> h a = h b).
  { intros a b Heq. apply (f_equal Rinv) in Heq. rewrite !Rinv_inv in Heq. pose proof (Hp a). pose proof (Hp b). apply Rsqr_inj; unfold Rsqr; nra. }
  assert (Hne : ~ (/ h 0%nat ^ 2 = / h 1%nat ^ 2 /\ / h 1%nat ^ 2 = / h 2%nat ^ 2)).
  { intros [E1 E2]. apply Hn. apply Hinj in E1, E2. unfold hh in E1, E2. cbn [along] in E1, E2. split; assumption. }
  unfold sumN. cbn [seq sumR]. set (i0 := / h 0%nat ^ 2) in *. set (i1 := / h 1%nat ^ 2) in *. set (i2 := / h 2%nat ^ 2) in *.
  destruct (Rle_lt_dec i0 i1), (Rle_lt_dec i1 i2), (Rle_lt_dec i0 i2).
  all: first [ exists 0%nat; split; [lia|]; cbn [Nat.eqb]; fold i0; destruct (Req_EM_T i0 i1), (Req_EM_T i1 i2), (Req_EM_T i0 i2); first [exfalso; apply Hne; split; lra|lra] | exists 1%nat; split; [lia|]; cbn [Nat.eqb]; fold i1; lra | exists 2%nat; split; [lia|]; cbn [Nat.eqb]; fold i2; lra].
Qed.
End Two.
Close Scope R_scope.
