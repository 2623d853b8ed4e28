From Verif Require Import Prelude PreludeFacts MeshModel MeshSpec.
From Coq Require Import Lra.

Lemma linspace_length a b n : length (linspace a b n) = n.
Proof. unfold linspace. now rewrite map_length, seq_length. Qed.

Lemma linspace_nth0 L N i : 0 < N -> i <= N -> nth i (linspace 0 L (N + 1)) 0%R = (INR i * L / INR N)%R.
Proof.
  intros HN Hi. unfold linspace.
  rewrite nth_indep with (d' := (0 + INR 0 * ((L - 0) / INR (N + 1 - 1)))%R)
    by (rewrite map_length, seq_length; lia).
  rewrite (map_nth (fun i => (0 + INR i * ((L - 0) / INR (N + 1 - 1)))%R)).
  rewrite seq_nth by lia. replace (N + 1 - 1) with N by lia. cbn [Nat.add].
  assert (INR N <> 0)%R by (apply not_0_INR; lia). field. assumption.
Qed.

  Lemma coord_inj N L i i' : 0 < N -> L <> 0%R ->
    (INR i * L / INR N = INR i' * L / INR N)%R -> i = i'.
  Proof.
    intros HN HL E. apply INR_eq.
    assert (INR N <> 0)%R by (apply not_0_INR; lia).
    apply (Rmult_eq_reg_r (L / INR N)); [unfold Rdiv in *; lra|].
    unfold Rdiv. apply Rmult_integral_contrapositive_currified; [assumption|].
    now apply Rinv_neq_0_compat.
  Qed.

Section Box.
  Variables (Nx Ny Nz : nat) (Lx Ly Lz : R).
  Hypotheses (Hx : 0 < Nx) (Hy : 0 < Ny) (Hz : 0 < Nz).
  Let m := box_mesh Nx Ny Nz Lx Ly Lz.
  Let num i j k := i * ((Ny + 1) * (Nz + 1)) + j * (Nz + 1) + k.

  Lemma box_points_eq :
    points m = flat3 (Nx + 1) (Ny + 1) (Nz + 1)
      (fun i j k => (nth i (linspace 0 Lx (Nx + 1)) 0%R, nth j (linspace 0 Ly (Ny + 1)) 0%R,
                     nth k (linspace 0 Lz (Nz + 1)) 0%R)).
  Proof. unfold m, box_mesh, ravel3, points_xyz; cbn. now rewrite !linspace_length. Qed.

  Lemma box_points_length : length (points m) = (Nx + 1) * ((Ny + 1) * (Nz + 1)).
  Proof. rewrite box_points_eq. apply flat3_length. Qed.

  Lemma box_point_at i j k : i <= Nx -> j <= Ny -> k <= Nz ->
    nth_error (points m) (num i j k) = Some (grid_pt3 Nx Ny Nz Lx Ly Lz i j k).
  Proof.
    intros. rewrite box_points_eq. unfold num. rewrite nth_error_flat3 by lia.
    rewrite !linspace_nth0 by assumption. reflexivity.
  Qed.

  Lemma box_cells_eq :
    cells m = flat3 Nx Ny Nz (fun i j k =>
      [num i j k; num (S i) j k; num (S i) (S j) k; num i (S j) k;
       num i j (S k); num (S i) j (S k); num (S i) (S j) (S k); num i (S j) (S k)]).
  Proof.
    unfold m, box_mesh. cbn -[flat3 Nat.mul Nat.add Nat.sub nth seq length].
    fold (points_xyz Nx Ny Nz Lx Ly Lz).
    assert (El : length (ravel3 (points_xyz Nx Ny Nz Lx Ly Lz)) = (Nx + 1) * ((Ny + 1) * (Nz + 1)))
      by exact box_points_length.
    rewrite El.
    unfold ravel3; cbn -[flat3 Nat.mul Nat.add Nat.sub nth seq length].
    unfold sl_len. replace (Nx + 1 - 1) with Nx by lia. replace (Ny + 1 - 1) with Ny by lia.
    replace (Nz + 1 - 1) with Nz by lia.
    assert (Hnum : forall a b c, a <= Nx -> b <= Ny -> c <= Nz ->
      nth (a * ((Ny + 1) * (Nz + 1)) + b * (Nz + 1) + c)
          (seq 0 ((Nx + 1) * ((Ny + 1) * (Nz + 1)))) 0 = num a b c).
    { intros. rewrite seq_nth; [reflexivity|]. apply encode3_lt; lia. }
    apply nth_ext with (d := []) (d' := []); [now rewrite !flat3_length|].
    intros n Hn. rewrite flat3_length in Hn.
    destruct (decode3 _ _ _ _ Hn) as (Hi & Hj & Hk & E).
    set (i := n / Nz / Ny) in *. set (j := (n / Nz) mod Ny) in *. set (k := n mod Nz) in *.
    rewrite <- E. 
    erewrite !nth_error_nth; [reflexivity | |].
    - rewrite nth_error_flat3 by assumption. reflexivity.
    - rewrite nth_error_flat3 by assumption. f_equal.
      rewrite !Hnum by lia. repeat f_equal; lia.
  Qed.

  Lemma box_cells_length : length (cells m) = Nx * (Ny * Nz).
  Proof. rewrite box_cells_eq. apply flat3_length. Qed.

  Lemma box_cell_at i j k : i < Nx -> j < Ny -> k < Nz ->
    nth_error (cells m) (i * (Ny * Nz) + j * Nz + k) =
    Some [num i j k; num (S i) j k; num (S i) (S j) k; num i (S j) k;
       num i j (S k); num (S i) j (S k); num (S i) (S j) (S k); num i (S j) (S k)].
  Proof. intros. rewrite box_cells_eq. now rewrite nth_error_flat3. Qed.

  Lemma num_inj i j k i' j' k' : j <= Ny -> k <= Nz -> j' <= Ny -> k' <= Nz ->
    num i j k = num i' j' k' -> i = i' /\ j = j' /\ k = k'.
  Proof. intros ? ? ? ? E. apply encode3_inj in E; lia. Qed.

  Lemma box_cell_nodup i j k : i < Nx -> j < Ny -> k < Nz ->
    NoDup [num i j k; num (S i) j k; num (S i) (S j) k; num i (S j) k;
       num i j (S k); num (S i) j (S k); num (S i) (S j) (S k); num i (S j) (S k)].
  Proof.
    intros Hi Hj Hk.
    repeat (apply NoDup_cons; [cbn [In]; intros C;
      repeat (destruct C as [C|C]; [apply num_inj in C; lia|]); exact C|]).
    apply NoDup_nil.
  Qed.

  Theorem box_mesh_valid_L :
    length (points m) = (Nx + 1) * (Ny + 1) * (Nz + 1) /\
    length (cells m) = Nx * Ny * Nz /\
    forall i j k, i < Nx -> j < Ny -> k < Nz ->
      exists cell, nth_error (cells m) (i * Ny * Nz + j * Nz + k) = Some cell /\
        length cell = 8 /\ NoDup cell /\
        forall c, c < 8 -> exists n, nth_error cell c = Some n /\
          let '(a, b, d) := vtk_hex_offset c in
          nth_error (points m) n = Some (grid_pt3 Nx Ny Nz Lx Ly Lz (i + a) (j + b) (k + d)).
  Proof.
    split; [rewrite box_points_length; lia|]. split; [rewrite box_cells_length; lia|].
    intros i j k Hi Hj Hk. rewrite <- (Nat.mul_assoc i Ny Nz).
    eexists. split; [apply box_cell_at; assumption|].
    split; [reflexivity|]. split; [apply box_cell_nodup; assumption|].
    intros c Hc.
    do 8 (destruct c as [|c];
      [eexists; split; [reflexivity|]; cbn [vtk_hex_offset];
       rewrite ?Nat.add_0_r, ?Nat.add_1_r; apply box_point_at; lia|]). lia.
  Qed.

  (** *** Conformity *)
  Hypotheses (HLx : Lx <> 0%R) (HLy : Ly <> 0%R) (HLz : Lz <> 0%R).

  Lemma grid_pt3_inj i j k i' j' k' :
    grid_pt3 Nx Ny Nz Lx Ly Lz i j k = grid_pt3 Nx Ny Nz Lx Ly Lz i' j' k' ->
    i = i' /\ j = j' /\ k = k'.
  Proof.
    unfold grid_pt3. intros E. apply pair_equal_spec in E. destruct E as [E E3].
    apply pair_equal_spec in E. destruct E as [E1 E2].
    repeat split; (eapply coord_inj; [ | | eassumption]; assumption).
  Qed.

  Lemma box_point_inv n p : nth_error (points m) n = Some p ->
    exists i j k, i <= Nx /\ j <= Ny /\ k <= Nz /\ n = num i j k /\
      p = grid_pt3 Nx Ny Nz Lx Ly Lz i j k.
  Proof.
    intros E. assert (Hn : n < (Nx + 1) * ((Ny + 1) * (Nz + 1))).
    { rewrite <- box_points_length. apply nth_error_Some. congruence. }
    destruct (decode3 _ _ _ _ Hn) as (Hi & Hj & Hk & En).
    do 3 eexists. rewrite <- En in E.
    split; [|split; [|split; [|split]]];
      [| | | unfold num; symmetry; exact En |]; try lia.
    fold (num (n / (Nz + 1) / (Ny + 1)) ((n / (Nz + 1)) mod (Ny + 1)) (n mod (Nz + 1))) in E.
    rewrite box_point_at in E by lia. congruence.
  Qed.

  Theorem box_mesh_conforming_L :
    NoDup (points m) /\
    (forall n, n < length (points m) -> exists c cell, nth_error (cells m) c = Some cell /\ In n cell) /\
    (forall i j k n cell, i < Nx -> j < Ny -> k < Nz ->
      nth_error (cells m) (i * Ny * Nz + j * Nz + k) = Some cell ->
      (In n cell <-> exists a b d, a <= 1 /\ b <= 1 /\ d <= 1 /\
         nth_error (points m) n = Some (grid_pt3 Nx Ny Nz Lx Ly Lz (i + a) (j + b) (k + d)))).
  Proof.
    split; [|split].
    - apply NoDup_nth_error. intros n n' Hn E.
      destruct (nth_error (points m) n) as [p|] eqn:Ep;
        [|apply nth_error_None in Ep; lia].
      symmetry in E. apply box_point_inv in Ep, E.
      destruct Ep as (i & j & k & _ & _ & _ & -> & ->).
      destruct E as (i' & j' & k' & _ & _ & _ & -> & Eg).
      apply grid_pt3_inj in Eg. now destruct Eg as (-> & -> & ->).
    - intros n Hn. destruct (nth_error (points m) n) as [p|] eqn:Ep;
        [|apply nth_error_None in Ep; lia].
      apply box_point_inv in Ep. destruct Ep as (i & j & k & Hi & Hj & Hk & -> & _).
      set (i0 := if Nat.eqb i Nx then i - 1 else i).
      set (j0 := if Nat.eqb j Ny then j - 1 else j).
      set (k0 := if Nat.eqb k Nz then k - 1 else k).
      assert (i0 < Nx /\ (i = i0 \/ i = S i0)) by (unfold i0; destruct (Nat.eqb_spec i Nx); lia).
      assert (j0 < Ny /\ (j = j0 \/ j = S j0)) by (unfold j0; destruct (Nat.eqb_spec j Ny); lia).
      assert (k0 < Nz /\ (k = k0 \/ k = S k0)) by (unfold k0; destruct (Nat.eqb_spec k Nz); lia).
      clearbody i0 j0 k0.
      eexists _, _. split; [apply (box_cell_at i0 j0 k0); tauto|].
      destruct H as [_ [->| ->]]; destruct H0 as [_ [->| ->]]; destruct H1 as [_ [->| ->]]; cbn; tauto.
    - intros i j k n cell Hi Hj Hk E. rewrite <- (Nat.mul_assoc i Ny Nz) in E.
      rewrite box_cell_at in E by assumption. injection E as <-. split.
      + intros H. 
        assert (exists a b d, a <= 1 /\ b <= 1 /\ d <= 1 /\ n = num (i + a) (j + b) (k + d)) as
          (a & b & d & Ha & Hb & Hd & ->).
        { cbn [In] in H. repeat (destruct H as [<- | H]); [..|destruct H];
            [exists 0,0,0|exists 1,0,0|exists 1,1,0|exists 0,1,0|exists 0,0,1|exists 1,0,1|exists 1,1,1|exists 0,1,1];
            rewrite ?Nat.add_0_r, ?Nat.add_1_r; repeat split; (reflexivity || lia). }
        exists a, b, d. repeat split; try lia. apply box_point_at; lia.
      + intros (a & b & d & Ha & Hb & Hd & E). apply box_point_inv in E.
        destruct E as (i' & j' & k' & _ & _ & _ & -> & Eg).
        apply grid_pt3_inj in Eg. destruct Eg as (<- & <- & <-).
        assert (Ea : a = 0 \/ a = 1) by lia. assert (Eb : b = 0 \/ b = 1) by lia.
        assert (Ed : d = 0 \/ d = 1) by lia.
        destruct Ea as [-> | ->]; destruct Eb as [-> | ->]; destruct Ed as [-> | ->];
          rewrite ?Nat.add_0_r, ?Nat.add_1_r; cbn; tauto.
  Qed.

  (** *** Volume *)
  Lemma cell_volume_at i j k cell : i < Nx -> j < Ny -> k < Nz ->
    nth_error (cells m) (i * Ny * Nz + j * Nz + k) = Some cell ->
    cell_volume (points m) cell = (Lx / INR Nx * (Ly / INR Ny) * (Lz / INR Nz))%R.
  Proof.
    intros Hi Hj Hk E. rewrite <- (Nat.mul_assoc i Ny Nz) in E.
    rewrite box_cell_at in E by assumption. injection E as <-.
    unfold cell_volume; cbn [nth].
    assert (G : forall a b c, a <= Nx -> b <= Ny -> c <= Nz ->
      nth (num a b c) (points m) (0,0,0)%R = grid_pt3 Nx Ny Nz Lx Ly Lz a b c)
      by (intros; apply nth_error_nth, box_point_at; assumption).
    rewrite !G by lia. unfold grid_pt3, signed_volume. rewrite !S_INR.
    assert (INR Nx <> 0)%R by (apply not_0_INR; lia).
    assert (INR Ny <> 0)%R by (apply not_0_INR; lia).
    assert (INR Nz <> 0)%R by (apply not_0_INR; lia). field. auto.
  Qed.

  Lemma in_cells_at cell : In cell (cells m) -> exists i j k, i < Nx /\ j < Ny /\ k < Nz /\
    nth_error (cells m) (i * Ny * Nz + j * Nz + k) = Some cell.
  Proof.
    intros H. apply In_nth_error in H. destruct H as [n E].
    assert (Hn : n < Nx * (Ny * Nz)) by (rewrite <- box_cells_length; apply nth_error_Some; congruence).
    destruct (decode3 _ _ _ _ Hn) as (Hi & Hj & Hk & En).
    do 3 eexists. split; [exact Hi|]. split; [exact Hj|]. split; [exact Hk|].
    rewrite <- Nat.mul_assoc. now rewrite En.
  Qed.

  Theorem box_mesh_volume_L :
    sumR (cells m) (cell_volume (points m)) = (Lx * Ly * Lz)%R /\
    ((0 < Lx)%R -> (0 < Ly)%R -> (0 < Lz)%R ->
      forall cell, In cell (cells m) -> (0 < cell_volume (points m) cell)%R).
  Proof.
    assert (INR Nx <> 0)%R by (apply not_0_INR; lia).
    assert (INR Ny <> 0)%R by (apply not_0_INR; lia).
    assert (INR Nz <> 0)%R by (apply not_0_INR; lia).
    split.
    - rewrite (sumR_ext _ _ (fun _ => Lx / INR Nx * (Ly / INR Ny) * (Lz / INR Nz))%R).
      + rewrite sumR_const, box_cells_length, !mult_INR. field. auto.
      + intros cell Hc. apply in_cells_at in Hc. destruct Hc as (i & j & k & ? & ? & ? & E).
        eapply cell_volume_at; eauto.
    - intros P1 P2 P3 cell Hc. apply in_cells_at in Hc. destruct Hc as (i & j & k & ? & ? & ? & E).
      rewrite (cell_volume_at i j k) by assumption.
      assert (0 < INR Nx)%R by (apply lt_0_INR; lia).
      assert (0 < INR Ny)%R by (apply lt_0_INR; lia).
      assert (0 < INR Nz)%R by (apply lt_0_INR; lia).
      repeat apply Rmult_lt_0_compat; try assumption; now apply Rinv_0_lt_compat.
  Qed.

  (** *** Centroids *)
  Theorem box_centroid_L i j k : i < Nx -> j < Ny -> k < Nz ->
    nth_error (compute_cell_centroid m) (i * Ny * Nz + j * Nz + k) =
    Some ((INR i + 1/2) * Lx / INR Nx, (INR j + 1/2) * Ly / INR Ny, (INR k + 1/2) * Lz / INR Nz)%R.
  Proof.
    intros Hi Hj Hk. unfold compute_cell_centroid. rewrite nth_error_map.
    rewrite <- (Nat.mul_assoc i Ny Nz), box_cell_at by assumption. cbn [option_map].
    assert (G : forall a b c, a <= Nx -> b <= Ny -> c <= Nz ->
      nth (num a b c) (points m) (0,0,0)%R = grid_pt3 Nx Ny Nz Lx Ly Lz a b c)
      by (intros; apply nth_error_nth, box_point_at; assumption).
    cbn [map]. rewrite !G by lia. unfold grid_pt3. cbn [sumR fst snd length].
    rewrite !S_INR. cbn [INR].
    assert (INR Nx <> 0)%R by (apply not_0_INR; lia).
    assert (INR Ny <> 0)%R by (apply not_0_INR; lia).
    assert (INR Nz <> 0)%R by (apply not_0_INR; lia).
    f_equal. f_equal; [f_equal|]; field; auto.
  Qed.
End Box.

Section Rect.
  Variables (Nx Ny : nat) (Lx Ly : R).
  Hypotheses (Hx : 0 < Nx) (Hy : 0 < Ny).
  Let m := rectangle_mesh Nx Ny Lx Ly.
  Let num i j := i * (Ny + 1) + j.

  Lemma rect_points_eq :
    points m = flat2 (Nx + 1) (Ny + 1)
      (fun i j => (nth i (linspace 0 Lx (Nx + 1)) 0%R, nth j (linspace 0 Ly (Ny + 1)) 0%R)).
  Proof. unfold m, rectangle_mesh, ravel2, points_xy; cbn. now rewrite !linspace_length. Qed.

  Lemma rect_points_length : length (points m) = (Nx + 1) * (Ny + 1).
  Proof. rewrite rect_points_eq. apply flat2_length. Qed.

  Lemma rect_point_at i j : i <= Nx -> j <= Ny ->
    nth_error (points m) (num i j) = Some (grid_pt2 Nx Ny Lx Ly i j).
  Proof.
    intros. rewrite rect_points_eq. unfold num. rewrite nth_error_flat2 by lia.
    rewrite !linspace_nth0 by assumption. reflexivity.
  Qed.

  Lemma rect_cells_eq :
    cells m = flat2 Nx Ny (fun i j => [num i j; num (S i) j; num (S i) (S j); num i (S j)]).
  Proof.
    unfold m, rectangle_mesh. cbn -[flat2 Nat.mul Nat.add Nat.sub nth seq length].
    fold (points_xy Nx Ny Lx Ly).
    assert (El : length (ravel2 (points_xy Nx Ny Lx Ly)) = (Nx + 1) * (Ny + 1))
      by exact rect_points_length.
    rewrite El. unfold ravel2; cbn -[flat2 Nat.mul Nat.add Nat.sub nth seq length].
    unfold sl_len. replace (Nx + 1 - 1) with Nx by lia. replace (Ny + 1 - 1) with Ny by lia.
    assert (Hnum : forall a b, a <= Nx -> b <= Ny ->
      nth (a * (Ny + 1) + b) (seq 0 ((Nx + 1) * (Ny + 1))) 0 = num a b).
    { intros. rewrite seq_nth; [reflexivity|]. apply encode2_lt; lia. }
    apply nth_ext with (d := []) (d' := []); [now rewrite !flat2_length|].
    intros n Hn. rewrite flat2_length in Hn.
    destruct (decode2 _ _ _ Hn) as (Hi & Hj & E).
    set (i := n / Ny) in *. set (j := n mod Ny) in *. rewrite <- E.
    erewrite !nth_error_nth; [reflexivity | |].
    - rewrite nth_error_flat2 by assumption. reflexivity.
    - rewrite nth_error_flat2 by assumption. f_equal.
      rewrite !Hnum by lia. repeat f_equal; lia.
  Qed.

  Lemma rect_cell_at i j : i < Nx -> j < Ny ->
    nth_error (cells m) (i * Ny + j) = Some [num i j; num (S i) j; num (S i) (S j); num i (S j)].
  Proof. intros. rewrite rect_cells_eq. now rewrite nth_error_flat2. Qed.

  Lemma num2_inj i j i' j' : j <= Ny -> j' <= Ny -> num i j = num i' j' -> i = i' /\ j = j'.
  Proof. intros ? ? E. apply encode2_inj in E; lia. Qed.

  Theorem rectangle_mesh_valid_L :
    length (points m) = (Nx + 1) * (Ny + 1) /\
    length (cells m) = Nx * Ny /\
    (forall i j, i < Nx -> j < Ny ->
      exists cell, nth_error (cells m) (i * Ny + j) = Some cell /\
        length cell = 4 /\ NoDup cell /\
        (forall c, c < 4 -> exists n, nth_error cell c = Some n /\
          let '(a, b) := vtk_quad_offset c in
          nth_error (points m) n = Some (grid_pt2 Nx Ny Lx Ly (i + a) (j + b))) /\
        cell_area (points m) cell = (Lx / INR Nx * (Ly / INR Ny))%R).
  Proof.
    split; [apply rect_points_length|].
    split; [rewrite rect_cells_eq; apply flat2_length|].
    intros i j Hi Hj. eexists. split; [apply rect_cell_at; assumption|].
    split; [reflexivity|]. split; [|split].
    - repeat (apply NoDup_cons; [cbn [In]; intros C;
        repeat (destruct C as [C|C]; [apply num2_inj in C; lia|]); exact C|]).
      apply NoDup_nil.
    - intros c Hc. do 4 (destruct c as [|c];
      [eexists; split; [reflexivity|]; cbn [vtk_quad_offset];
       rewrite ?Nat.add_0_r, ?Nat.add_1_r; apply rect_point_at; lia|]). lia.
    - unfold cell_area; cbn [nth].
      assert (G : forall a b, a <= Nx -> b <= Ny ->
        nth (num a b) (points m) (0,0)%R = grid_pt2 Nx Ny Lx Ly a b)
        by (intros; apply nth_error_nth, rect_point_at; assumption).
      rewrite !G by lia. unfold grid_pt2, signed_area. rewrite !S_INR.
      assert (INR Nx <> 0)%R by (apply not_0_INR; lia).
      assert (INR Ny <> 0)%R by (apply not_0_INR; lia). field. auto.
  Qed.

  Theorem rectangle_mesh_conforming_L : Lx <> 0%R -> Ly <> 0%R ->
    NoDup (points m) /\
    (forall i j n cell, i < Nx -> j < Ny ->
      nth_error (cells m) (i * Ny + j) = Some cell ->
      (In n cell <-> exists a b, a <= 1 /\ b <= 1 /\
         nth_error (points m) n = Some (grid_pt2 Nx Ny Lx Ly (i + a) (j + b)))).
  Proof.
    intros HLx HLy.
    assert (Pinv : forall n p, nth_error (points m) n = Some p ->
      exists i j, i <= Nx /\ j <= Ny /\ n = num i j /\ p = grid_pt2 Nx Ny Lx Ly i j).
    { intros n p E. assert (Hn : n < (Nx + 1) * (Ny + 1)).
      { rewrite <- rect_points_length. apply nth_error_Some. congruence. }
      destruct (decode2 _ _ _ Hn) as (Hi & Hj & En).
      exists (n / (Ny + 1)), (n mod (Ny + 1)). rewrite <- En in E at 1.
      split; [lia|]. split; [lia|]. split; [unfold num; auto|].
      fold (num (n / (Ny + 1)) (n mod (Ny + 1))) in E.
      rewrite rect_point_at in E by lia. congruence. }
    assert (Ginj : forall i j i' j', grid_pt2 Nx Ny Lx Ly i j = grid_pt2 Nx Ny Lx Ly i' j' -> i = i' /\ j = j').
    { unfold grid_pt2. intros * E. apply pair_equal_spec in E. destruct E as [E1 E2]. split; (eapply coord_inj; [ | | eassumption]; assumption). }
    split.
    - apply NoDup_nth_error. intros n n' Hn E.
      destruct (nth_error (points m) n) as [p|] eqn:Ep; [|apply nth_error_None in Ep; lia].
      symmetry in E. apply Pinv in Ep, E.
      destruct Ep as (i & j & _ & _ & -> & ->). destruct E as (i' & j' & _ & _ & -> & Eg).
      apply Ginj in Eg. now destruct Eg as (-> & ->).
    - intros i j n cell Hi Hj E. rewrite rect_cell_at in E by assumption. injection E as <-. split.
      + intros H.
        assert (exists a b, a <= 1 /\ b <= 1 /\ n = num (i + a) (j + b)) as (a & b & Ha & Hb & ->).
        { cbn [In] in H. repeat (destruct H as [<- | H]); [..|destruct H];
            [exists 0,0|exists 1,0|exists 1,1|exists 0,1];
            rewrite ?Nat.add_0_r, ?Nat.add_1_r; repeat split; (reflexivity || lia). }
        exists a, b. repeat split; try lia. apply rect_point_at; lia.
      + intros (a & b & Ha & Hb & E). apply Pinv in E.
        destruct E as (i' & j' & _ & _ & -> & Eg). apply Ginj in Eg. destruct Eg as (<- & <-).
        assert (Ea : a = 0 \/ a = 1) by lia. assert (Eb : b = 0 \/ b = 1) by lia.
        destruct Ea as [-> | ->]; destruct Eb as [-> | ->];
          rewrite ?Nat.add_0_r, ?Nat.add_1_r; cbn; tauto.
  Qed.
End Rect.

(** ** Lattice numbering *)
Lemma to_id_to_id_xyz Nx Ny Nz n : n < Nx * Ny * Nz ->
  let '(x, y, z) := to_id_xyz Ny Nz n in
  x < Nx /\ y < Ny /\ z < Nz /\ to_id Ny Nz x y z = n.
Proof.
  intros H. unfold to_id_xyz, to_id.
  rewrite <- Nat.mul_assoc in H. destruct (decode3 _ _ _ _ H) as (Hx & Hy & Hz & E).
  repeat split; try assumption. rewrite <- E at 4. lia.
Qed.

Lemma to_id_xyz_to_id Nx Ny Nz x y z : x < Nx -> y < Ny -> z < Nz ->
  to_id Ny Nz x y z < Nx * Ny * Nz /\ to_id_xyz Ny Nz (to_id Ny Nz x y z) = (x, y, z).
Proof.
  intros Hx Hy Hz. unfold to_id, to_id_xyz.
  assert (Hlt : x * Ny * Nz + y * Nz + z < Nx * Ny * Nz).
  { rewrite <- !Nat.mul_assoc. now apply encode3_lt. }
  split; [assumption|].
  assert (E1 : (x * Ny * Nz + y * Nz + z) / Nz = x * Ny + y).
  { replace (x * Ny * Nz + y * Nz + z) with ((x * Ny + y) * Nz + z) by lia.
    rewrite Nat.div_add_l by lia. rewrite (Nat.div_small z) by assumption. lia. }
  assert (E2 : (x * Ny * Nz + y * Nz + z) mod Nz = z).
  { replace (x * Ny * Nz + y * Nz + z) with (z + (x * Ny + y) * Nz) by lia.
    rewrite Nat.mod_add by lia. now apply Nat.mod_small. }
  rewrite E1, E2. rewrite Nat.div_add_l by lia. rewrite (Nat.div_small y) by assumption.
  rewrite (Nat.add_comm (x * Ny)), Nat.mod_add by lia. rewrite Nat.mod_small by assumption.
  f_equal. f_equal. lia.
Qed.

Lemma shape_wrapper_places {A} (d : A) Nx Ny Nz (f : nat -> A) x y z :
  x < Nx -> y < Ny -> z < Nz ->
  at3 (shape_wrapper_vmap d Nx Ny Nz f) x y z = f (to_id Ny Nz x y z).
Proof.
  intros Hx Hy Hz. unfold shape_wrapper_vmap, reshape3; cbn [at3].
  assert (Hlt : x * (Ny * Nz) + y * Nz + z < Nx * Ny * Nz).
  { rewrite <- (Nat.mul_assoc Nx). now apply encode3_lt. }
  apply nth_error_nth. rewrite nth_error_map, nth_error_seq0 by assumption.
  unfold to_id. cbn. now rewrite Nat.mul_assoc.
Qed.

(** ** Cylinder renumbering *)
Lemma cylinder_renumber_ok {P} (pts : list P) (c : nat) :
  c <> 0 -> c <> 14 -> c < length pts ->
  (0 <= cylinder_renumber (Z.of_nat c) < Z.of_nat (length (cylinder_points pts)))%Z /\
  nth_error (cylinder_points pts) (Z.to_nat (cylinder_renumber (Z.of_nat c))) = nth_error pts c.
Proof.
  intros H0 H14 Hc.
  assert (Hlen : 14 < c -> length (firstn 13 (skipn 1 pts)) = 13).
  { intros. rewrite firstn_length, skipn_length. lia. }
  assert (Hnth : forall (l : list P) a b, nth_error (skipn a l) b = nth_error l (a + b)).
  { intros l a; revert l; induction a; intros l b; [reflexivity|].
    destruct l; cbn; [now destruct b|]. apply IHa. }
  unfold cylinder_renumber, cylinder_points. rewrite app_length.
  destruct (Z.ltb_spec 14 (Z.of_nat c)).
  - rewrite Hlen by lia. rewrite skipn_length.
    replace (Z.to_nat (Z.of_nat c - 2)) with (c - 2) by lia. split; [lia|].
    rewrite nth_error_app2; rewrite Hlen; try lia.
    rewrite Hnth. f_equal. lia.
  - replace (Z.to_nat (Z.of_nat c - 1)) with (c - 1) by lia.
    assert (length (firstn 13 (skipn 1 pts)) > c - 1).
    { rewrite firstn_length, skipn_length. lia. }
    split; [lia|]. rewrite nth_error_app1 by lia.
    assert (Hf : forall (l : list P) n i, i < n -> nth_error (firstn n l) i = nth_error l i).
    { induction l as [|a l IHl]; intros n i Hi; destruct n, i; cbn; try lia; auto.
      apply IHl. lia. }
    rewrite Hf by lia. rewrite Hnth. f_equal. lia.
Qed.
