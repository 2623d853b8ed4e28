From Coq Require Import Lra Lia FunctionalExtensionality.
From Verif Require Import Prelude PreludeFacts FemModel FemFacts FemSpec FemProofs FemAsmProofs FemMatProofs MatModel MatProofs WellSpec WellProofs NumModel NumSpec.
Open Scope R_scope.

(** ** the loops as lists *)
Lemma num_stress_eq G : num_stress G = linear_elastic_stress 3 G.
Proof. reflexivity. Qed.
Definition push (l : list (nat * nat * R)) (st : triplets) : triplets := fold_left (fun st t => append (fst (fst t)) (snd (fst t)) (snd t) st) l st.
Lemma for_push n (body : nat -> triplets -> triplets) f : (forall x st, body x st = push (f x) st) -> forall st, for_range n body st = push (flat_map f (seq 0 n)) st.
Proof.
  intros H. unfold for_range. generalize (seq 0 n). intros l. induction l as [|x l IH]; intros st; [reflexivity|].
  cbn [fold_left flat_map]. rewrite IH, H. unfold push. now rewrite fold_left_app.
Qed.
Lemma push_eq l : forall Il Jl Vl, push l (Il, Jl, Vl) = (Il ++ map (fun t => fst (fst t)) l, Jl ++ map (fun t => snd (fst t)) l, Vl ++ map snd l).
Proof.
  induction l as [|t l IH]; intros Il Jl Vl; [cbn; now rewrite !app_nil_r|]. cbn [push fold_left append map]. fold (push l).
  change (fold_left _ l ?s) with (push l s). rewrite IH, <- !app_assoc. reflexivity.
Qed.
Lemma for_sum n f : forall a, for_range n (fun q val => val + f q) a = a + sumN n f.
Proof.
  unfold for_range, sumN. generalize (seq 0 n). intros l. induction l as [|x l IH]; intros a; cbn [fold_left sumR]; [ring|]. rewrite IH. ring.
Qed.
Definition num_jac (g : nat -> nat -> nat -> nat -> R) (w : nat -> nat -> R) (nq c : nat) : jac4 := fun i v j u =>
  sumN nq (fun q => sum33 (construct_phi_grad (g c q i) v) (num_stress (construct_phi_grad (g c q j) u)) * w c q).
Definition entries (cs : list (list nat)) (j : nat -> jac4) (nn vec : nat) : list (nat * nat * R) :=
  flat_map (fun c => flat_map (fun i => flat_map (fun v => flat_map (fun i' => map (fun v' =>
    ((vec * nth i (nth c cs []) 0 + v)%nat, (vec * nth i' (nth c cs []) 0 + v')%nat, j c i v i' v')) (seq 0 vec)) (seq 0 nn)) (seq 0 vec)) (seq 0 nn)) (seq 0 (length cs)).
Lemma map_flat_single {A B} (f : A -> B) l : map f l = flat_map (fun x => [f x]) l.
Proof. induction l; cbn; congruence. Qed.
Lemma assemble_eq cs g w nn vec nq :
  let l := entries cs (num_jac g w nq) nn vec in assemble cs g w nn vec nq = (map (fun t => fst (fst t)) l, map (fun t => snd (fst t)) l, map snd l).
Proof.
  intros l. transitivity (push l ([], [], [])); [|now rewrite push_eq]. unfold assemble, l, entries.
  apply for_push. intros c st. apply for_push. intros i st1. apply for_push. intros v st2. apply for_push. intros j st3. rewrite map_flat_single.
  apply for_push. intros u st4. cbn [push fold_left fst snd]. unfold to_dof_ind, num_jac. rewrite for_sum, Rplus_0_l. reflexivity.
Qed.
Lemma combine_split3 {A B C} (l : list (A * B * C)) : combine (combine (map (fun t => fst (fst t)) l) (map (fun t => snd (fst t)) l)) (map snd l) = l.
Proof. induction l as [|[[a b] c] l IH]; cbn; [reflexivity|]. now rewrite IH. Qed.
Lemma sum_entries cs j nn vec f : sumR (entries cs j nn vec) f = sumN (length cs) (fun c => sumN nn (fun i => sumN vec (fun v => sumN nn (fun i' => sumN vec (fun v' =>
  f ((vec * nth i (nth c cs []) 0 + v)%nat, (vec * nth i' (nth c cs []) 0 + v')%nat, j c i v i' v')))))).
Proof.
  unfold entries, sumN. rewrite sumR_flat_map. apply sumR_ext. intros c _. rewrite sumR_flat_map. apply sumR_ext. intros i _. rewrite sumR_flat_map. apply sumR_ext. intros v _.
  rewrite sumR_flat_map. apply sumR_ext. intros i' _. now rewrite sumR_map.
Qed.
Lemma scatter_sum l : forall x r, vec_at_add x (map (fun t : nat * nat * R => fst (fst t)) l) (map (fun t => snd t) l) r = x r + sumR l (fun t => if Nat.eqb (fst (fst t)) r then snd t else 0).
Proof.
  unfold vec_at_add. induction l as [|t l IH]; intros x r; cbn [map combine fold_left sumR]; [ring|]. rewrite IH. cbn [fst snd].
  rewrite (Nat.eqb_sym r). destruct (Nat.eqb _ r); ring.
Qed.

(** ** symmetry *)
Lemma num_jac_swap g w nq c i v j u : (v < 3)%nat -> (u < 3)%nat -> num_jac g w nq c i v j u = num_jac g w nq c j u i v.
Proof.
  intros Hv Hu. unfold num_jac. apply sumN_ext. intros q _. f_equal. unfold sum33, num_stress, trace, construct_phi_grad, eye, sumN. cbn [seq sumR].
  destruct v as [|[|[|v]]]; [| | |lia]; (destruct u as [|[|[|u]]]; [| | |lia]); cbn [Nat.eqb]; field.
Qed.
Lemma entry_sum cs g w nn nq r c : coo_entry (assemble cs g w nn 3 nq) r c = sumR (entries cs (num_jac g w nq) nn 3) (fun t => if Nat.eqb (fst (fst t)) r && Nat.eqb (snd (fst t)) c then snd t else 0).
Proof. rewrite assemble_eq. unfold coo_entry. now rewrite combine_split3. Qed.
Lemma num_symmetric cs g w nn nq r c : coo_entry (assemble cs g w nn 3 nq) r c = coo_entry (assemble cs g w nn 3 nq) c r.
Proof.
  rewrite !entry_sum, !sum_entries. apply sumN_ext. intros e _.
  rewrite (sumN_ext nn _ (fun i => sumN nn (fun i' => sumN 3 (fun v => sumN 3 (fun v' => if Nat.eqb (3 * nth i (nth e cs []) 0%nat + v)%nat r && Nat.eqb (3 * nth i' (nth e cs []) 0%nat + v')%nat c then num_jac g w nq e i v i' v' else 0))))).
  2: { intros i _. now rewrite sumN_swap. }
  rewrite sumN_swap. apply sumN_ext. intros i _. rewrite (sumN_swap 3 nn). apply sumN_ext. intros i' _. rewrite sumN_swap. apply sumN_ext. intros v Hv. apply sumN_ext. intros v' Hv'.
  cbn [fst snd]. rewrite andb_comm, num_jac_swap by assumption. reflexivity.
Qed.
Lemma entries_length cs j nn vec : length (entries cs j nn vec) = (length cs * (nn * vec * (nn * vec)))%nat.
Proof.
  unfold entries. rewrite flat_map_const_length with (c := (nn * vec * (nn * vec))%nat); [now rewrite seq_length|]. intros c _.
  rewrite flat_map_const_length with (c := (vec * (nn * vec))%nat); [rewrite seq_length; lia|]. intros i _.
  rewrite flat_map_const_length with (c := (nn * vec)%nat); [rewrite seq_length; lia|]. intros v _.
  rewrite flat_map_const_length with (c := vec); [rewrite seq_length; lia|]. intros i' _. now rewrite map_length, seq_length.
Qed.
Lemma num_length cs g w nn vec nq : length (fst (fst (assemble cs g w nn vec nq))) = (length cs * (nn * vec * (nn * vec)))%nat
  /\ length (snd (fst (assemble cs g w nn vec nq))) = (length cs * (nn * vec * (nn * vec)))%nat /\ length (snd (assemble cs g w nn vec nq)) = (length cs * (nn * vec * (nn * vec)))%nat.
Proof. rewrite assemble_eq. cbn [fst snd]. rewrite !map_length, entries_length. auto. Qed.

(** ** the quadratic form *)
Lemma ns_lin a G H r d : num_stress (fun i j => a * G i j + H i j) r d = a * num_stress G r d + num_stress H r d.
Proof. unfold num_stress, trace, sumN. cbn [seq sumR]. field. Qed.
Lemma ns_ext G H r d : (forall i j, (i < 3)%nat -> (j < 3)%nat -> G i j = H i j) -> (r < 3)%nat -> (d < 3)%nat -> num_stress G r d = num_stress H r d.
Proof. intros HG Hr Hd. unfold num_stress, trace, sumN. cbn [seq sumR]. rewrite !HG by lia. reflexivity. Qed.
Lemma ns_zero r d : num_stress (fun _ _ => 0) r d = 0.
Proof. unfold num_stress, trace, sumN. cbn [seq sumR]. field. Qed.
Lemma ns_sum n (a : nat -> R) (G : nat -> mat) r d : (r < 3)%nat -> (d < 3)%nat -> num_stress (fun i j => sumN n (fun b => a b * G b i j)) r d = sumN n (fun b => a b * num_stress (G b) r d).
Proof.
  intros Hr Hd. induction n as [|n IH]; [unfold sumN at 2; cbn [seq sumR]; apply ns_zero|]. rewrite sumN_S, <- IH.
  transitivity (num_stress (fun i j => a n * G n i j + sumN n (fun b => a b * G b i j)) r d); [|rewrite ns_lin; ring].
  apply ns_ext; [|exact Hr|exact Hd]. intros i j _ _. rewrite sumN_S. ring.
Qed.
Lemma s33_ext A B A' B' : (forall i j, (i < 3)%nat -> (j < 3)%nat -> A i j = A' i j) -> (forall i j, (i < 3)%nat -> (j < 3)%nat -> B i j = B' i j) -> sum33 A B = sum33 A' B'.
Proof. intros HA HB. unfold sum33. apply sumN_ext. intros i Hi. apply sumN_ext. intros j Hj. now rewrite HA, HB. Qed.
Lemma s33_suml n (a : nat -> R) G B : sum33 (fun i j => sumN n (fun b => a b * G b i j)) B = sumN n (fun b => a b * sum33 (G b) B).
Proof.
  induction n as [|n IH].
  - unfold sum33, sumN. cbn [seq sumR]. ring.
  - rewrite sumN_S, <- IH. unfold sum33. rewrite <- sumN_scal, <- sumN_add. apply sumN_ext. intros i _. rewrite <- sumN_scal, <- sumN_add. apply sumN_ext. intros j _. rewrite sumN_S. ring.
Qed.
Lemma s33_sumr n (a : nat -> R) G A : sum33 A (fun i j => sumN n (fun b => a b * G b i j)) = sumN n (fun b => a b * sum33 A (G b)).
Proof.
  rewrite <- (sumN_ext n (fun b => a b * sum33 (G b) A)).
  - rewrite <- s33_suml. unfold sum33. apply sumN_ext. intros i _. apply sumN_ext. intros j _. ring.
  - intros b _. f_equal. unfold sum33. apply sumN_ext. intros i _. apply sumN_ext. intros j _. ring.
Qed.
Lemma phi_sum conn g nn (x : nat -> R) k d : (k < 3)%nat ->
  table_grad conn g nn (of_dofs 3 x) k d = sumN nn (fun a => 1 * sumN 3 (fun v => x (3 * nth a conn 0 + v)%nat * construct_phi_grad (g a) v k d)).
Proof.
  intros Hk. unfold table_grad, of_dofs. apply sumN_ext. intros a _. unfold sumN, construct_phi_grad. cbn [seq sumR].
  destruct k as [|[|[|k]]]; [| | |lia]; cbn [Nat.eqb]; ring.
Qed.
Lemma elem_form conn g nn x y :
  sumN nn (fun i => sumN 3 (fun v => sumN nn (fun j => sumN 3 (fun u =>
    y (3 * nth i conn 0 + v)%nat * (sum33 (construct_phi_grad (g i) v) (num_stress (construct_phi_grad (g j) u)) * x (3 * nth j conn 0 + u)%nat)))))
  = sum33 (table_grad conn g nn (of_dofs 3 y)) (num_stress (table_grad conn g nn (of_dofs 3 x))).
Proof.
  set (X := num_stress (table_grad conn g nn (of_dofs 3 x))).
  rewrite (s33_ext _ X (fun k d => sumN nn (fun a => 1 * sumN 3 (fun v => y (3 * nth a conn 0 + v)%nat * construct_phi_grad (g a) v k d))) X).
  2: { intros k d Hk _. now apply phi_sum. } 2: { reflexivity. }
  rewrite (s33_suml nn (fun _ => 1)). apply sumN_ext. intros i _. rewrite Rmult_1_l, s33_suml. apply sumN_ext. intros v _.
  rewrite (s33_ext _ X (construct_phi_grad (g i) v) (fun r d => sumN nn (fun j => 1 * sumN 3 (fun u => x (3 * nth j conn 0 + u)%nat * num_stress (construct_phi_grad (g j) u) r d)))).
  2: { reflexivity. }
  2: { intros r d Hr Hd. unfold X. rewrite (ns_ext _ (fun k d => sumN nn (fun a => 1 * sumN 3 (fun v => x (3 * nth a conn 0 + v)%nat * construct_phi_grad (g a) v k d)))) by (try assumption; intros; now apply phi_sum).
       rewrite (ns_sum nn (fun _ => 1)) by assumption. apply sumN_ext. intros j _. f_equal. now apply ns_sum. }
  rewrite (s33_sumr nn (fun _ => 1)), <- sumN_scal. apply sumN_ext. intros j _. rewrite Rmult_1_l, s33_sumr, <- sumN_scal. apply sumN_ext. intros u _. change (fun i0 j0 : nat => num_stress (construct_phi_grad (g j) u) i0 j0) with (num_stress (construct_phi_grad (g j) u)). ring.
Qed.
Lemma entries_range cs j nn N t : nodes_below cs nn N -> In t (entries cs j nn 3) -> (fst (fst t) < 3 * N)%nat /\ (snd (fst t) < 3 * N)%nat.
Proof.
  intros HN Ht. unfold entries in Ht. apply in_flat_map in Ht. destruct Ht as (c & Hc & Ht). apply in_flat_map in Ht. destruct Ht as (i & Hi & Ht). apply in_flat_map in Ht. destruct Ht as (v & Hv & Ht).
  apply in_flat_map in Ht. destruct Ht as (i' & Hi' & Ht). apply in_map_iff in Ht. destruct Ht as (v' & <- & Hv'). apply in_seq in Hc, Hi, Hv, Hi', Hv'. cbn [fst snd].
  pose proof (HN c i ltac:(lia) ltac:(lia)). pose proof (HN c i' ltac:(lia) ltac:(lia)). lia.
Qed.
Lemma mul_sum cs g w nn nq N x r : nodes_below cs nn N ->
  coo_mul (3 * N) (assemble cs g w nn 3 nq) x r = sumR (entries cs (num_jac g w nq) nn 3) (fun t => if Nat.eqb (fst (fst t)) r then snd t * x (snd (fst t)) else 0).
Proof.
  intros HN. rewrite assemble_eq. rewrite coo_mul_eq; [now rewrite combine_split3|now rewrite !map_length|].
  apply Forall_map, Forall_forall. intros t Ht. now apply (entries_range _ _ _ _ _ HN) in Ht.
Qed.
Lemma num_form cs g w nn nq N x y : nodes_below cs nn N ->
  sumN (3 * N) (fun r => y r * coo_mul (3 * N) (assemble cs g w nn 3 nq) x r)
  = sumN (length cs) (fun c => sumN nq (fun q => w c q * sum33 (table_grad (nth c cs []) (g c q) nn (of_dofs 3 y)) (linear_elastic_stress 3 (table_grad (nth c cs []) (g c q) nn (of_dofs 3 x))))).
Proof.
  intros HN. rewrite (sumN_ext (3 * N) _ (fun r => sumR (entries cs (num_jac g w nq) nn 3) (fun t => if Nat.eqb (fst (fst t)) r then y r * (snd t * x (snd (fst t))) else 0))).
  2: { intros r _. rewrite mul_sum, <- sumR_scal by exact HN. apply sumR_ext. intros t _. destruct (Nat.eqb _ r); ring. }
  rewrite sumN_sumR_swap.
  rewrite (sumR_ext _ _ (fun t => y (fst (fst t)) * (snd t * x (snd (fst t))))).
  2: { intros t Ht. apply (entries_range _ _ _ _ _ HN) in Ht. apply (sumN_pick' (3 * N) (fst (fst t)) (fun r => y r * (snd t * x (snd (fst t))))). tauto. }
  rewrite sum_entries. apply sumN_ext. intros c _. cbn [fst snd].
  rewrite (sumN_ext nq _ (fun q => sumN nn (fun i => sumN 3 (fun v => sumN nn (fun j => sumN 3 (fun u => w c q *
    (y (3 * nth i (nth c cs []) 0 + v)%nat * (sum33 (construct_phi_grad (g c q i) v) (num_stress (construct_phi_grad (g c q j) u)) * x (3 * nth j (nth c cs []) 0 + u)%nat)))))))).
  2: { intros q _. rewrite <- num_stress_eq, <- elem_form, <- sumN_scal. apply sumN_ext. intros i _. rewrite <- sumN_scal. apply sumN_ext. intros v _.
       rewrite <- sumN_scal. apply sumN_ext. intros j _. rewrite <- sumN_scal. reflexivity. }
  symmetry. rewrite sumN_swap. apply sumN_ext. intros i _. rewrite sumN_swap. apply sumN_ext. intros v _. rewrite sumN_swap. apply sumN_ext. intros j _. rewrite sumN_swap. apply sumN_ext. intros u _.
  unfold num_jac. rewrite <- sumN_scal_r, <- sumN_scal. apply sumN_ext. intros q _. ring.
Qed.

(** ** agreement with the core *)
Section Core.
Context {V : Type}.
Variable F : fem V.
Local Notation E := (f_ele F).
Local Notation nn := (num_nodes (f_ele F)).
Local Notation nq := (num_quads (f_ele F)).
Hypothesis HF : elastic_problem F.
Hypothesis Hwf : wf_mesh F.
Local Notation NJ := (num_jac (shape_grads F) (JxW F) nq).
Lemma el_lin : linear_tensor F (fun _ => linear_elastic_stress 3).
Proof. intros vars a G H k d Hk Hd. rewrite <- !num_stress_eq. apply ns_lin. Qed.
Lemma wf_below : nodes_below (cells F) nn (num_total_nodes F).
Proof.
  intros c a Hc Ha. unfold wf_mesh in Hwf. rewrite Forall_forall in Hwf. destruct (Hwf _ (nth_In _ [] Hc)) as (Hl & Hn). rewrite Forall_forall in Hn. apply Hn, nth_In. lia.
Qed.
Lemma entries_pairs j : entries (cells F) j nn (vec F) = flat_map (fun c => map (fun pq => (gdof F (nth c (cells F) []) (fst pq), gdof F (nth c (cells F) []) (snd pq), j c (fst (fst pq)) (snd (fst pq)) (fst (snd pq)) (snd (snd pq)))) (pairs F)) (all_cells F).
Proof.
  unfold entries, all_cells, num_cells. apply flat_map_ext. intros c. unfold pairs. rewrite map_flat_map. unfold ldofs at 2. rewrite flat_map_flat_map. apply flat_map_ext. intros a.
  rewrite flat_map_map. apply flat_map_ext. intros i. rewrite map_map. cbn. unfold ldofs. rewrite map_flat_map. apply flat_map_ext. intros b. rewrite map_map. reflexivity.
Qed.
Lemma flat_map_In_ext {A B} (f g : A -> list B) l : (forall x, In x l -> f x = g x) -> flat_map f l = flat_map g l.
Proof. induction l as [|x l IH]; intros H; [reflexivity|]. cbn. rewrite H by now left. rewrite IH; [reflexivity|]. intros y Hy. apply H. now right. Qed.
Lemma assemble_blocks : assemble (cells F) (shape_grads F) (JxW F) nn (vec F) nq = (flat_map (block_I F) (cells F), flat_map (block_J F) (cells F), flat_map (block_V F) (map NJ (all_cells F))).
Proof.
  rewrite assemble_eq, entries_pairs, !map_flat_map.
  assert (L : forall c, In c (all_cells F) -> length (nth c (cells F) []) = nn).
  { intros c Hc. apply in_seq in Hc. unfold wf_mesh in Hwf. rewrite Forall_forall in Hwf. apply Hwf, nth_In. unfold num_cells in Hc. lia. }
  f_equal; [f_equal|].
  - transitivity (flat_map (block_I F) (map (fun c => nth c (cells F) []) (all_cells F))); [|f_equal; symmetry; apply (cells_as_map F)]. rewrite flat_map_map. apply flat_map_In_ext. intros c Hc. rewrite map_map, block_I_eq by (now apply L). reflexivity.
  - transitivity (flat_map (block_J F) (map (fun c => nth c (cells F) []) (all_cells F))); [|f_equal; symmetry; apply (cells_as_map F)]. rewrite flat_map_map. apply flat_map_In_ext. intros c Hc. rewrite map_map, block_J_eq by (now apply L). reflexivity.
  - rewrite flat_map_map. apply flat_map_In_ext. intros c Hc. rewrite map_map, block_V_eq. reflexivity.
Qed.
(** the force that a unit displacement of one degree of freedom causes *)
Lemma unit_force iv c a k b l : (a < nn)%nat -> (k < 3)%nat -> (b < nn)%nat -> (l < 3)%nat ->
  kernel F (one_dof b l) (shape_grads F c) (JxW F c) (v_grads_JxW F c) (vars_at (iv_mass iv) c) (vars_at (iv_laplace iv) c) a k = NJ c a k b l.
Proof.
  intros Ha Hk Hb Hl. destruct HF as (Htm & Hmm & _ & _ & Hdim). unfold kernel. rewrite Htm, Hmm, Rplus_0_r. unfold laplace_kernel, num_jac. apply sumN_ext. intros q _.
  rewrite Hdim. set (S := num_stress (construct_phi_grad (shape_grads F c q b) l)).
  transitivity (sumN 3 (fun d => shape_grads F c q a d * S k d) * JxW F c q).
  - rewrite <- sumN_scal_r. apply sumN_ext. intros d Hd. unfold v_grads_JxW.
    match goal with |- ?X * _ = _ => replace X with (S k d); [ring|] end. symmetry. apply ns_ext; [|exact Hk|exact Hd].
    intros i j _ _. unfold one_dof, construct_phi_grad.
    rewrite (sumN_ext nn _ (fun a0 => if Nat.eqb a0 b then (if Nat.eqb i l then shape_grads F c q a0 j else 0) else 0)).
    + now rewrite (sumN_pick nn b (fun a0 => if Nat.eqb i l then shape_grads F c q a0 j else 0) Hb).
    + intros a0 _. destruct (Nat.eqb a0 b), (Nat.eqb i l); cbn [andb]; ring.
  - f_equal. unfold sum33. symmetry. rewrite (sumN_ext 3 _ (fun r => if Nat.eqb r k then sumN 3 (fun d => shape_grads F c q a d * S r d) else 0)).
    + apply (sumN_pick 3 k (fun r => sumN 3 (fun d => shape_grads F c q a d * S r d)) Hk).
    + intros r _. unfold construct_phi_grad. destruct (Nat.eqb r k); [reflexivity|]. apply sumN_zero. intros. ring.
Qed.
Variable iv : internal_vars V.
Variable jac : nodal -> (nat -> nat -> nat -> R) -> (nat -> R) -> (nat -> nat -> nat -> R) -> list (nat -> V) -> list (nat -> V) -> jac4.
Variable cjac : ((nat -> R) -> nat -> R) -> nodal -> (nat -> nat -> R) -> (nat -> R) -> jac4.
Hypothesis Hjac : exact_jacobians F iv jac.
Lemma force_lin a u w c b k : (k < 3)%nat -> cell_force F iv (fun n k => a * u n k + w n k) c b k = a * cell_force F iv u c b k + cell_force F iv w c b k.
Proof. intros Hk. destruct HF as (Htm & Hmm & Hca & Hvec & Hdim). apply (force_comb F _ Htm el_lin Hmm iv). now rewrite Hvec. Qed.
Lemma jac_entry sol c a k b l : (c < num_cells F)%nat -> (a < nn)%nat -> (k < 3)%nat -> (b < nn)%nat -> (l < 3)%nat -> cell_jac F jac iv sol c a k b l = NJ c a k b l.
Proof.
  intros Hc Ha Hk Hb Hl. destruct HF as (Htm & Hmm & Hca & Hvec & Hdim). rewrite <- (unit_force iv c a k b l) by assumption.
  pose proof (Hjac sol c Hc (one_dof b l) a k Ha ltac:(now rewrite Hvec)) as H1.
  assert (U : exact_jacobians F iv (unit_jac F)).
  { apply (unit_jac_exact F _ Htm el_lin Hmm). intros vars G H k0 d HG Hk0 Hd. rewrite Hvec in *. rewrite Hdim in *. now apply ns_ext. }
  pose proof (U sol c Hc (one_dof b l) a k Ha ltac:(now rewrite Hvec)) as H2. pose proof (dl_unique _ _ _ _ H1 H2) as H3.
  assert (P : forall j, jac_mul F j (one_dof b l) a k = j a k b l).
  { intros j. unfold jac_mul. rewrite Hvec. rewrite (sumN_ext nn _ (fun b0 => if Nat.eqb b0 b then j a k b0 l else 0)).
    - apply (sumN_pick nn b (fun b0 => j a k b0 l) Hb).
    - intros b0 _. unfold one_dof. rewrite (sumN_ext 3 _ (fun l0 => if Nat.eqb l0 l then (if Nat.eqb b0 b then j a k b0 l0 else 0) else 0)).
      + now rewrite (sumN_pick 3 l (fun l0 => if Nat.eqb b0 b then j a k b0 l0 else 0) Hl).
      + intros l0 _. destruct (Nat.eqb b0 b), (Nat.eqb l0 l); cbn [andb]; ring. }
  rewrite !P in H3. exact H3.
Qed.
Lemma num_newton inds sol : loads_ok F inds iv -> (0 < num_cells F)%nat -> exists r, compute_residual_vars F inds sol iv = Ok r /\
  compute_newton_vars F inds sol iv jac cjac = Ok (r, assemble (cells F) (shape_grads F) (JxW F) nn 3 nq).
Proof.
  intros (Hiv & Hn & Hs) H0. destruct HF as (Htm & Hmm & Hca & Hvec & Hdim). destruct (neumann_eq F Hwf inds iv Hn Hs) as (nm & Hnm & _).
  unfold compute_newton_vars, split_and_compute_cell_jac, compute_residual_vars. rewrite !split_the_inputs by assumption. cbn [bind fst snd]. rewrite !map_map. cbn [fst snd].
  unfold compute_residual_vars_helper. rewrite Hnm. cbn [bind]. rewrite Hca. eexists. split; [reflexivity|].
  assert (EV : flat_map (block_V F) (map (fun x => jac (cells_sol F sol x) (shape_grads F x) (JxW F x) (v_grads_JxW F x) (vars_at (iv_mass iv) x) (vars_at (iv_laplace iv) x)) (all_cells F)) = flat_map (block_V F) (map NJ (all_cells F))).
  { rewrite !flat_map_map. apply flat_map_In_ext. intros c Hc. apply in_seq in Hc.
    rewrite !block_V_eq. apply map_ext_in. intros pq Hpq. unfold pairs in Hpq. apply in_flat_map in Hpq. destruct Hpq as (p & Hp & Hq). apply in_map_iff in Hq. destruct Hq as (q & <- & Hq).
    apply in_ldofs in Hp, Hq. rewrite Hvec in Hp, Hq. cbn [fst snd]. apply (jac_entry sol); tauto || lia. }
  unfold newton_IJV. cbn [fst snd flat_map]. rewrite !app_nil_r, EV. rewrite <- Hvec, assemble_blocks. reflexivity.
Qed.
Lemma num_residual_eq inds sol : iv = mkIv [] [] None (fun _ => []) -> loads_ok F inds iv -> (0 < num_cells F)%nat -> exists r r', numba_residual F inds sol = Ok r' /\ compute_residual_vars F inds sol iv = Ok r /\
  forall n k, (k < 3)%nat -> r' n k = r n k.
Proof.
  intros Eiv (Hiv & Hn & Hs) H0. destruct HF as (Htm & Hmm & Hca & Hvec & Hdim). destruct (neumann_eq F Hwf inds iv Hn Hs) as (nm & Hnm & _).
  destruct (residual_eq F Hwf inds sol iv nm Hiv H0 Hnm) as (r & Hr & He). exists r.
  unfold numba_residual. destruct (assemble _ _ _ _ _ _) as [[Il Jl] Vl] eqn:EA. replace (fun _ : nat => @nil (nat -> nat -> V)) with (iv_neumann iv) by (now rewrite Eiv). rewrite Hnm. cbn [bind].
  eexists. split; [reflexivity|]. split; [exact Hr|]. intros n k Hk. rewrite He. assert (Eb : iv_body iv = None) by (now rewrite Eiv). rewrite Eb.
  f_equal. f_equal. unfold cauchy_faces. rewrite Hca. unfold corners at 2. cbn [sumR]. rewrite Rplus_0_r.
  assert (EM : of_dofs (vec F) (vec_at_add (fun _ => 0) Il (map (fun jv => to_dofs (vec F) sol (fst jv) * snd jv) (combine Jl Vl))) n k
    = coo_mul (num_total_nodes F * vec F) (Il, Jl, Vl) (flatten F sol) (vec F * n + k)).
  { rewrite <- EA, Hvec, (Nat.mul_comm _ 3), mul_sum by exact wf_below. rewrite Hvec, assemble_eq in EA. cbv zeta in EA. set (l := entries _ _ _ _) in *. injection EA as <- <- <-.
    unfold of_dofs, flatten, to_dofs. rewrite Hvec.
    assert (M : forall l : list (nat * nat * R), map (fun jv => sol (fst jv / 3)%nat (fst jv mod 3)%nat * snd jv) (combine (map (fun t => snd (fst t)) l) (map snd l))
       = map (fun t => snd t) (map (fun t => (fst t, snd t * sol (snd (fst t) / 3)%nat (snd (fst t) mod 3)%nat)) l)).
    { intros m. rewrite map_map. induction m as [|t m IH]; [reflexivity|]. cbn [map combine fst snd]. rewrite IH. f_equal. ring. }
    rewrite M. replace (map (fun t => fst (fst t)) l) with (map (fun t : nat * nat * R => fst (fst t)) (map (fun t => (fst t, snd t * sol (snd (fst t) / 3)%nat (snd (fst t) mod 3)%nat)) l)) by (now rewrite map_map).
    rewrite scatter_sum, Rplus_0_l, sumR_map. reflexivity. }
  rewrite EM, <- EA, assemble_blocks. rewrite (cells_as_map F).
  pose proof (assembled_mul F Hwf (all_cells F) (fun c => c) NJ sol n k (all_cells_lt F) ltac:(now rewrite Hvec)) as HA.
  change (seq 0 (num_cells F)) with (all_cells F). rewrite HA. unfold corners. apply sumR_ext. intros c Hc. apply in_seq in Hc. apply sumN_ext. intros a Ha. destruct (Nat.eqb _ n); [|reflexivity].
  pose proof (force_step F _ Htm el_lin Hmm iv jac Hjac (fun _ _ => 0) sol c a k ltac:(lia) Ha ltac:(now rewrite Hvec)) as HS.
  replace (add_step (fun _ _ => 0) 1 sol) with sol in HS.
  2: { apply functional_extensionality. intros m. apply functional_extensionality. intros j. unfold add_step. ring. }
  rewrite HS. assert (Z : cell_force F iv (fun _ _ => 0) c a k = 0).
  { pose proof (force_lin 0 (fun _ _ => 0) (fun _ _ => 0) c a k Hk) as H. pose proof (force_lin 1 (fun _ _ => 0) (fun _ _ => 0) c a k Hk) as H'. cbv beta in H, H'.
    replace (fun _ _ : nat => 1 * 0 + 0) with (fun _ _ : nat => 0) in H' by (apply functional_extensionality; intros; apply functional_extensionality; intros; ring). lra. }
  rewrite Z, Rplus_0_l. unfold jac_mul. rewrite Hvec. apply sumN_ext. intros b Hb. apply sumN_ext. intros l Hl. rewrite (jac_entry (fun _ _ => 0)) by (assumption || lia). reflexivity.
Qed.
End Core.
Close Scope R_scope.
Section Form.
Open Scope R_scope.
Variables (cs : list (list nat)) (g : nat -> nat -> nat -> nat -> R) (w : nat -> nat -> R) (nn nq N : nat).
Hypothesis HN : nodes_below cs nn N.
Local Notation A := (assemble cs g w nn 3 nq).
Lemma density G : sum33 G (linear_elastic_stress 3 G) = 525000 / 13 * (G 0%nat 0%nat + G 1%nat 1%nat + G 2%nat 2%nat)^2
  + 700000 / 13 * (G 0%nat 0%nat ^2 + G 1%nat 1%nat ^2 + G 2%nat 2%nat ^2) + 350000 / 13 * ((G 0%nat 1%nat + G 1%nat 0%nat)^2 + (G 0%nat 2%nat + G 2%nat 0%nat)^2 + (G 1%nat 2%nat + G 2%nat 1%nat)^2).
Proof. unfold sum33, linear_elastic_stress, trace, eye, sumN. cbn [seq sumR Nat.eqb]. field. Qed.
Lemma num_psd x : (forall c q, (c < length cs)%nat -> (q < nq)%nat -> 0 <= w c q) -> 0 <= sumN (3 * N) (fun r => x r * coo_mul (3 * N) A x r).
Proof.
  intros Hw. rewrite num_form by exact HN. apply sumN_nonneg. intros c Hc. apply sumN_nonneg. intros q Hq. apply Rmult_le_pos; [now apply Hw|]. rewrite density.
  repeat apply Rplus_le_le_0_compat; apply Rmult_le_pos; try lra; repeat apply Rplus_le_le_0_compat; apply pow2_ge_0.
Qed.
Lemma num_translation e r : (forall c q d, (c < length cs)%nat -> (q < nq)%nat -> (d < 3)%nat -> sumN nn (fun a => g c q a d) = 0) -> (r < 3 * N)%nat -> coo_mul (3 * N) A (fun i => e (i mod 3)%nat) r = 0.
Proof.
  intros Hg Hr. rewrite <- (sumN_ind (3 * N) r (coo_mul (3 * N) A (fun i => e (i mod 3)%nat)) Hr). rewrite num_form by exact HN.
  apply sumN_zero. intros c Hc. apply sumN_zero. intros q Hq. apply Rmult_eq_0_compat_l.
  assert (Z : forall k d, (k < 3)%nat -> (d < 3)%nat -> table_grad (nth c cs []) (g c q) nn (of_dofs 3 (fun i => e (i mod 3)%nat)) k d = 0).
  { intros k d Hk Hd. unfold table_grad, of_dofs. rewrite (sumN_ext nn _ (fun a => e k * g c q a d)).
    - rewrite sumN_scal, Hg by assumption. ring.
    - intros a _. f_equal. f_equal. rewrite Nat.add_comm, Nat.mul_comm, Nat.mod_add by lia. now apply Nat.mod_small. }
  unfold sum33. apply sumN_zero. intros i Hi. apply sumN_zero. intros j Hj. rewrite <- num_stress_eq, (ns_ext _ (fun _ _ => 0)), ns_zero by assumption. ring.
Qed.
End Form.
