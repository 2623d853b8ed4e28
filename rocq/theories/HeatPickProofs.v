(** * Location functions with a tolerance on box meshes: what they pick, and the heat that enters. *)
From Coq Require Import String FunctionalExtensionality Lra Lia.
From Verif Require Import Prelude PreludeFacts FemModel FemFacts FemSpec FemAsmProofs FemGeoProofs BasisModel BasisSpec BasisProofs BasisMeshProofs BoxSpec BoxProofs BoxPatchProofs BoxRveProofs RveModel MatModel MatSpec WellSpec WellMainProofs HeatModel HeatSpec HeatWellProofs HeatMainProofs.
From Verif Require MeshModel ManProofs WellProofs.
Open Scope R_scope.
Open Scope list_scope.

Section Pick.
Context {V : Type}.
Variable F : fem V.
Local Notation E := (f_ele F).
Variables (B : basix) (Nx Ny Nz : nat) (Lx Ly Lz : R).
Hypothesis HF : box_hex F B Nx Ny Nz Lx Ly Lz.
Local Notation N := (along Nx Ny Nz).
Local Notation L := (along Lx Ly Lz).
Local Notation node := (node Ny Nz).
Local Notation cellno := (cellno Ny Nz).
Local Notation hh := (hh Nx Ny Nz Lx Ly Lz).
Local Notation farea := (farea Nx Ny Nz Lx Ly Lz).
(** a node of the side or of the layer next to it *)
Definition lay (d : nat) (x : nat) : nat := along (node x 0 0) (node 0 x 0) (node 0 0 x) d.
Lemma isclose_iff d hi : (d < 3)%nat ->
  (picks_plane F (on_plane d (side_coord Lx Ly Lz (d, hi))) d (side_coord Lx Ly Lz (d, hi)) <-> / 100000 * (1 + side_coord Lx Ly Lz (d, hi)) < L d / INR (N d)).
Proof.
  intros Hd. pose proof HF as (HB & Hq & Hx & Hy & Hz & H1 & H2 & H3 & Hm & Hn & HE).
  assert (HN : (0 < N d)%nat) by (destruct d as [|[|d']]; assumption). assert (HL : 0 < L d) by (destruct d as [|[|d']]; assumption).
  assert (HI : 0 < INR (N d)) by (now apply lt_0_INR).
  set (h := L d / INR (N d)) in *. assert (Hh : 0 < h) by (now apply Rdiv_lt_0_compat). assert (HNh : INR (N d) * h = L d) by (unfold h; field; lra).
  assert (HI1 : 1 <= INR (N d)) by (change 1 with (INR 1); apply le_INR; lia).
  split.
  - intros Hp. apply Rnot_le_lt. intros Hle.
    set (x := if hi then (N d - 1)%nat else 1%nat). assert (Hx1 : (x <= N d)%nat) by (unfold x; destruct hi; lia).
    assert (Hlt : (lay d x < num_total_nodes F)%nat) by (unfold lay; destruct d as [|[|[|d']]]; try lia; cbn [along] in *; apply (node_lt F Nx Ny Nz Lx Ly Lz Hx Hy Hz Hn); lia).
    assert (Hpt : points F (lay d x) d = INR x * h).
    { unfold lay, h. destruct d as [|[|[|d']]]; try lia; cbn [along] in *; rewrite (node_point F Nx Ny Nz Lx Ly Lz Hx Hy Hz Hm Hn) by lia; cbn [along]; field; lra. }
    specialize (Hp _ Hlt). unfold on_plane in Hp. rewrite Hpt in Hp.
    assert (Hx2 : INR x = if hi then INR (N d) - 1 else 1) by (unfold x; destruct hi; [rewrite minus_INR by lia; reflexivity|reflexivity]).
    assert (Hs : INR x * h = side_coord Lx Ly Lz (d, hi)).
    { apply Hp. unfold isclose. rewrite Rleb_true. unfold side_coord in *. cbn [fst snd] in *. rewrite Hx2. destruct hi.
      - rewrite (Rabs_pos_eq (L d)) by lra. replace ((INR (N d) - 1) * h - L d) with (- h) by (rewrite <- HNh; ring). rewrite Rabs_Ropp, Rabs_pos_eq by lra. lra.
      - rewrite Rabs_R0, Rminus_0_r, Rmult_1_l, Rabs_pos_eq by lra. lra. }
    rewrite Hx2 in Hs. unfold side_coord in Hs. cbn [fst snd] in Hs. destruct hi; [|lra]. rewrite <- HNh in Hs. lra.
  - intros Hf n Hlt. destruct (node_surj F Nx Ny Nz Lx Ly Lz Hn n Hlt) as (i & j & k & Hi & Hj & Hk & ->).
    unfold on_plane. rewrite (node_point F Nx Ny Nz Lx Ly Lz Hx Hy Hz Hm Hn i j k d Hi Hj Hk Hd). set (x := along i j k d).
    assert (Hxn : (x <= N d)%nat) by (unfold x; destruct d as [|[|d']]; assumption).
    replace (INR x * L d / INR (N d)) with (INR x * h) by (unfold h; field; lra).
    unfold isclose. rewrite Rleb_true. unfold side_coord in *. cbn [fst snd] in *. destruct hi.
    + rewrite (Rabs_pos_eq (L d)) by lra. split.
      * intros Hc. destruct (Nat.eq_dec x (N d)) as [-> | Hne]; [exact HNh|]. exfalso. assert (Hle : (x + 1 <= N d)%nat) by lia. apply le_INR in Hle. rewrite plus_INR in Hle. cbn [INR] in Hle.
        rewrite Rabs_left1 in Hc by nra. nra.
      * intros ->. rewrite Rminus_diag_eq, Rabs_R0 by reflexivity. lra.
    + rewrite Rminus_0_r, Rabs_R0, Rmult_0_r, Rplus_0_r. split.
      * intros Hc. destruct (Nat.eq_dec x 0) as [-> | Hne]; [cbn [INR]; ring|]. exfalso. assert (Hle : (1 <= x)%nat) by lia. apply le_INR in Hle. cbn [INR] in Hle.
        rewrite Rabs_pos_eq in Hc by nra. nra.
      * intros ->. rewrite Rabs_R0. lra.
Qed.
(** ** a top that is two layers thick *)
Hypothesis Hthick : Lz / INR Nz <= / 100000 * (1 + Lz) < 2 * (Lz / INR Nz).
Lemma thick_node i j k : (i <= Nx)%nat -> (j <= Ny)%nat -> (k <= Nz)%nat -> top Lz (points F (node i j k)) = Nat.leb (Nz - 1) k.
Proof.
  intros Hi Hj Hk. pose proof HF as (HB & Hq & Hx & Hy & Hz & H1 & H2 & H3 & Hm & Hn & HE).
  unfold top. rewrite (node_point F Nx Ny Nz Lx Ly Lz Hx Hy Hz Hm Hn i j k 2 Hi Hj Hk ltac:(lia)). cbn [along].
  assert (HI : 0 < INR Nz) by (now apply lt_0_INR). set (h := Lz / INR Nz) in *. replace (INR k * Lz / INR Nz) with (INR k * h) by (unfold h; field; lra).
  assert (Hh : 0 < h) by (now apply Rdiv_lt_0_compat). assert (HNh : INR Nz * h = Lz) by (unfold h; field; lra).
  assert (Habs : Rabs (INR k * h - Lz) = INR (Nz - k) * h).
  { rewrite minus_INR by exact Hk. apply le_INR in Hk. rewrite Rabs_left1 by nra. rewrite <- HNh. ring. }
  unfold isclose. rewrite (Rabs_pos_eq Lz) by lra. rewrite Habs.
  destruct (Nat.leb_spec (Nz - 1) k) as [Hle|Hlt].
  - apply Rleb_true. assert (Hs : (Nz - k <= 1)%nat) by lia. apply le_INR in Hs. cbn [INR] in Hs. nra.
  - apply Bool.not_true_is_false. rewrite Rleb_true. intros Hc. assert (Hs : (2 <= Nz - k)%nat) by lia. apply le_INR in Hs. cbn [INR] in Hs. nra.
Qed.
Lemma thick_flag i j k f : (i < Nx)%nat -> (j < Ny)%nat -> (k < Nz)%nat -> (f < 6)%nat ->
  boundary_flag F (top Lz) (cellno i j k) f = Nat.eqb (k + 1) Nz || (Nat.eqb f 5 && Nat.eqb (k + 2) Nz).
Proof.
  intros Hi Hj Hk Hf. pose proof HF as (HB & Hq & Hx & Hy & Hz & H1 & H2 & H3 & Hm & Hn & HE). unfold boundary_flag. rewrite (box_faces B HB F HE).
  assert (Hin : forall a, In a (nth f hex_faces []) -> (a < 8)%nat).
  { intros a Ha. do 6 (destruct f as [|f]; [cbn in Ha; lia|]). lia. }
  transitivity (forallb (fun a => Nat.leb (Nz - 1) (k + off a 2)) (nth f hex_faces [])).
  { revert Hin. generalize (nth f hex_faces []) as l. induction l as [|a l IH]; intros Hin; [reflexivity|]. cbn [forallb]. rewrite IH by (intros; apply Hin; now right). f_equal.
    unfold physical_coos. assert (Ha : (a < 8)%nat) by (apply Hin; now left). rewrite (cell_node_at F Nx Ny Nz Lx Ly Lz Hx Hy Hz Hm Hn) by assumption.
    pose proof (ManProofs.off1 a 0). pose proof (ManProofs.off1 a 1). pose proof (ManProofs.off1 a 2). apply thick_node; lia. }
  assert (E0 : Nat.leb (Nz - 1) (k + 0) = Nat.eqb (k + 1) Nz) by (destruct (Nat.leb_spec (Nz - 1) (k + 0)); destruct (Nat.eqb_spec (k + 1) Nz); try reflexivity; lia).
  assert (E1 : Nat.leb (Nz - 1) (k + 1) = Nat.eqb (k + 1) Nz || Nat.eqb (k + 2) Nz) by (destruct (Nat.leb_spec (Nz - 1) (k + 1)); destruct (Nat.eqb_spec (k + 1) Nz); destruct (Nat.eqb_spec (k + 2) Nz); try reflexivity; lia).
  clear Hin. do 6 (destruct f as [|f]; [unfold hex_faces, off, vtk_hex; cbn [nth forallb Nat.eqb]; rewrite ?E0, ?E1; cbn [andb]; destruct (Nat.eqb (k + 1) Nz), (Nat.eqb (k + 2) Nz); reflexivity|]). lia.
Qed.
Hypothesis Htwo : (2 <= Nz)%nat.
Lemma thick_sum g : sumR (boundary_inds F (top Lz)) g = sumN Nx (fun i => sumN Ny (fun j => sumN 6 (fun f => g (cellno i j (Nz - 1), f)) + g (cellno i j (Nz - 2), 5%nat))).
Proof.
  pose proof HF as (HB & Hq & Hx & Hy & Hz & H1 & H2 & H3 & Hm & Hn & HE).
  unfold boundary_inds. rewrite sumR_keep, sumR_flat2. cbn [fst snd]. fold (sumN (num_cells F) (fun c => sumR (seq 0 (length (face_inds E))) (fun f => if boundary_flag F (top Lz) c f then g (c, f) else 0))).
  rewrite (box_sum F Nx Ny Nz Lx Ly Lz Hx Hy Hz Hm). apply sumN_ext. intros i Hi. apply sumN_ext. intros j Hj.
  rewrite (sumN_ext Nz _ (fun k => (if Nat.eqb k (Nz - 1) then 1 else 0) * sumN 6 (fun f => g (cellno i j k, f)) + (if Nat.eqb k (Nz - 2) then 1 else 0) * g (cellno i j k, 5%nat))).
  - rewrite sumN_add. rewrite (WellProofs.sumN_ind Nz (Nz - 1) (fun k => sumN 6 (fun f => g (cellno i j k, f)))), (WellProofs.sumN_ind Nz (Nz - 2) (fun k => g (cellno i j k, 5%nat))) by lia. reflexivity.
  - intros k Hk. rewrite (box_faces B HB F HE). change (length hex_faces) with 6%nat. fold (sumN 6 (fun f => if boundary_flag F (top Lz) (cellno i j k) f then g (cellno i j k, f) else 0)).
    rewrite (sumN_ext 6 _ (fun f => if Nat.eqb (k + 1) Nz || (Nat.eqb f 5 && Nat.eqb (k + 2) Nz) then g (cellno i j k, f) else 0)) by (intros f Hf; now rewrite thick_flag).
    destruct (Nat.eqb_spec k (Nz - 1)) as [->|Ha].
    + rewrite (proj2 (Nat.eqb_eq (Nz - 1 + 1) Nz)) by lia. rewrite (proj2 (Nat.eqb_neq (Nz - 1) (Nz - 2))) by lia. cbn [orb]. rewrite Rmult_0_l, Rplus_0_r, Rmult_1_l. reflexivity.
    + rewrite (proj2 (Nat.eqb_neq (k + 1) Nz)) by lia. cbn [orb]. destruct (Nat.eqb_spec k (Nz - 2)) as [->|Hb].
      * rewrite (proj2 (Nat.eqb_eq (Nz - 2 + 2) Nz)) by lia. unfold sumN. cbn [seq sumR Nat.eqb andb]. ring.
      * rewrite (proj2 (Nat.eqb_neq (k + 2) Nz)) by lia. unfold sumN. cbn [seq sumR Nat.eqb andb]. ring.
Qed.
Lemma thick_count : length (boundary_inds F (top Lz)) = (7 * (Nx * Ny))%nat.
Proof.
  apply INR_eq. rewrite <- (Rmult_1_r (INR (length _))), <- sumR_const, thick_sum.
  rewrite (sumN_ext Nx _ (fun _ => INR Ny * 7)) by (intros; rewrite sumN_const; unfold sumN; cbn [seq sumR]; ring). rewrite sumN_const, !mult_INR. cbn [INR]. ring.
Qed.
Lemma face_measure c f : (c < num_cells F)%nat -> (f < 6)%nat -> sumN (num_face_quads E) (fun p => nanson_scale F (c, f) p * 1) = farea (fdir f).
Proof.
  intros Hc Hf. pose proof HF as (HB & Hq & Hx & Hy & Hz & H1 & H2 & H3 & Hm & Hn & HE).
  rewrite (sumN_ext _ _ (fun q => farea (fdir f) * nth q (snd (make_quadrature B quadrilateral 2)) 0)) by (intros q _; rewrite (box_nanson B HB F Nx Ny Nz Lx Ly Lz Hx Hy Hz H1 H2 H3 Hm Hn HE) by assumption; ring).
  rewrite sumN_scal. replace (num_face_quads E) with (length (fst (make_quadrature B quadrilateral 2))) by (rewrite (hex_tables B HB E HE); reflexivity).
  rewrite (weights_sum B HB). cbn [ref_volume]. ring.
Qed.
Lemma thick_area : face_integral F (top Lz) (fun _ _ => 1) = 3 * (Lx * Ly) + 2 * (Lz / INR Nz) * (INR Nx * Ly + INR Ny * Lx).
Proof.
  pose proof HF as (HB & Hq & Hx & Hy & Hz & H1 & H2 & H3 & Hm & Hn & HE). unfold face_integral. rewrite thick_sum.
  rewrite (sumN_ext Nx _ (fun _ => INR Ny * (2 * farea 0 + 2 * farea 1 + 3 * farea 2))).
  - rewrite sumN_const. assert (INR Nx <> 0) by (apply not_0_INR; lia). assert (INR Ny <> 0) by (apply not_0_INR; lia). assert (INR Nz <> 0) by (apply not_0_INR; lia).
    unfold BoxProofs.farea, BoxProofs.hh. cbn [along]. field. auto.
  - intros i Hi. rewrite <- sumN_const. apply sumN_ext. intros j Hj.
    assert (Hc1 : (cellno i j (Nz - 1) < num_cells F)%nat) by (apply (cellno_lt F Nx Ny Nz Lx Ly Lz Hx Hy Hz Hm Hn); lia).
    assert (Hc2 : (cellno i j (Nz - 2) < num_cells F)%nat) by (apply (cellno_lt F Nx Ny Nz Lx Ly Lz Hx Hy Hz Hm Hn); lia).
    rewrite (sumN_ext 6 _ (fun f => farea (fdir f))) by (intros f Hf; now apply face_measure). rewrite face_measure by (assumption || lia).
    unfold sumN, fdir. cbn [seq sumR nth]. ring.
Qed.
End Pick.
Close Scope R_scope.
