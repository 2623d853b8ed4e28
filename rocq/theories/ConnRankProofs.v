(** * A field on a cell whose gradient vanishes at the quadrature points is constant. *)
From Coq Require Import String Lra Lia QArith Qreals.
From Verif Require Import Prelude PreludeFacts FemModel FemFacts FemSpec FemGeoProofs BasisModel BasisSpec BasisProofs BasisFaceProofs BasisQuadProofs MatModel MatSpec WellSpec WellProofs MaxSpec ConnSpec.
Open Scope R_scope.
Open Scope list_scope.
Local Notation peval := BasisSpec.peval.

(** ** moments and element matrices as rational numbers *)
Fixpoint factZ (n : nat) : Z := match n with 0%nat => 1%Z | S k => (Z.of_nat (S k) * factZ k)%Z end.
Lemma factZ_ok n : factZ n = Z.of_nat (fact n).
Proof. induction n as [|n IH]; [reflexivity|]. cbn [factZ fact]. rewrite IH. lia. Qed.
Definition prodQ (n : nat) (f : nat -> Q) : Q := fold_right (fun k acc => Qmult (f k) acc) 1%Q (seq 0 n).
Definition momentQ (c : cell_type) (e : list nat) : Q :=
  let d := cell_dim c in
  if simplex c then Qdiv (prodQ d (fun k => inject_Z (factZ (nth k e 0%nat)))) (inject_Z (factZ (sum_nat d e + d)))
  else prodQ d (fun k => Qinv (inject_Z (Z.of_nat (S (nth k e 0%nat))))).
Lemma Q2R_prod n f : Q2R (prodQ n f) = prodN n (fun k => Q2R (f k)).
Proof.
  unfold prodQ, prodN. generalize (seq 0 n) as l. induction l as [|x l IH]; cbn [fold_right]; [unfold Q2R; cbn; field|]. now rewrite Q2R_mult, IH.
Qed.
Lemma Q2R_fact n : Q2R (inject_Z (factZ n)) = INR (fact n).
Proof. rewrite factZ_ok. apply Q2R_nat. Qed.
Lemma fact_nz n : ~ (inject_Z (factZ n) == 0)%Q.
Proof. rewrite factZ_ok. unfold Qeq, inject_Z. cbn. pose proof (lt_O_fact n). lia. Qed.
Lemma momentQ_ok c e : Q2R (momentQ c e) = moment c e.
Proof.
  unfold momentQ, moment. destruct (simplex c).
  - rewrite Q2R_div by apply fact_nz. rewrite Q2R_prod, Q2R_fact. f_equal. apply prodN_ext. intros. apply Q2R_fact.
  - rewrite Q2R_prod. apply prodN_ext. intros k _. rewrite Q2R_inv by (unfold Qeq, inject_Z; cbn; lia). rewrite Q2R_nat. unfold Rdiv. ring.
Qed.
Definition sumQ (l : list Q) : Q := fold_right (fun x acc => Qred (x + acc)) 0%Q l.
Lemma Q2R_red q : Q2R (Qred q) = Q2R q.
Proof. apply Qeq_eqR, Qred_correct. Qed.
Lemma Q2R_0' : Q2R 0 = 0. Proof. unfold Q2R. cbn. field. Qed.
Lemma Q2R_sum {A} (l : list A) f : Q2R (sumQ (map f l)) = sumR l (fun x => Q2R (f x)).
Proof. induction l as [|x l IH]; cbn [map sumQ fold_right sumR]; [apply Q2R_0'|]. rewrite Q2R_red, Q2R_plus. f_equal. exact IH. Qed.
Definition integralQ (c : cell_type) (p : poly) : Q := sumQ (map (fun m => fst m * momentQ c (snd m))%Q p).
Lemma integralQ_ok c p : Q2R (integralQ c p) = integral c p.
Proof. unfold integralQ, integral. rewrite Q2R_sum. induction p as [|m p IH]; cbn [sumR]; [reflexivity|]. now rewrite IH, Q2R_mult, momentQ_ok. Qed.
(** like terms collected *)
Fixpoint padd1 (d : nat) (m : Q * list nat) (p : poly) : poly :=
  match p with
  | [] => [(fst m, map (fun k => nth k (snd m) 0%nat) (seq 0 d))]
  | m' :: r => if forallb (fun k => Nat.eqb (nth k (snd m) 0%nat) (nth k (snd m') 0%nat)) (seq 0 d) then (Qred (fst m + fst m'), snd m')%Q :: r else m' :: padd1 d m r
  end.
Definition collect (d : nat) (p : poly) : poly := fold_right (padd1 d) [] p.
Lemma mono_ext d e e' x : (forall k, (k < d)%nat -> nth k e 0%nat = nth k e' 0%nat) -> mono d e x = mono d e' x.
Proof. intros H. unfold mono. apply prodN_ext. intros k Hk. now rewrite H. Qed.
Lemma sum_nat_ext d e e' : (forall k, (k < d)%nat -> nth k e 0%nat = nth k e' 0%nat) -> sum_nat d e = sum_nat d e'.
Proof.
  intros H. unfold sum_nat. assert (G : forall l, (forall k, In k l -> (k < d)%nat) -> fold_right (fun k acc => (nth k e 0 + acc)%nat) 0%nat l = fold_right (fun k acc => (nth k e' 0 + acc)%nat) 0%nat l).
  { induction l as [|k l IH]; intros Hl; [reflexivity|]. cbn [fold_right]. rewrite H by (apply Hl; now left). rewrite IH; [reflexivity|]. intros; apply Hl; now right. }
  apply G. intros k Hk. apply in_seq in Hk. lia.
Qed.
Lemma moment_ext c e e' : (forall k, (k < cell_dim c)%nat -> nth k e 0%nat = nth k e' 0%nat) -> moment c e = moment c e'.
Proof.
  intros H. unfold moment. destruct (simplex c).
  - rewrite (sum_nat_ext _ e e' H). f_equal. apply prodN_ext. intros k Hk. now rewrite H.
  - apply prodN_ext. intros k Hk. now rewrite H.
Qed.
Lemma integral_padd1 c m p : integral c (padd1 (cell_dim c) m p) = Q2R (fst m) * moment c (snd m) + integral c p.
Proof.
  unfold integral. induction p as [|m' r IH]; cbn [padd1].
  - cbn [sumR fst snd]. f_equal. f_equal. apply moment_ext. intros k Hk. now rewrite nth_map_seq.
  - destruct (forallb _ _) eqn:E.
    + cbn [sumR fst snd]. rewrite Q2R_red, Q2R_plus. rewrite (moment_ext c (snd m) (snd m')); [ring|]. intros k Hk. rewrite forallb_forall in E. apply Nat.eqb_eq, E. apply in_seq. lia.
    + cbn [sumR]. rewrite IH. ring.
Qed.
Lemma integral_collect c p : integral c (collect (cell_dim c) p) = integral c p.
Proof. unfold collect. induction p as [|m p IH]; [reflexivity|]. cbn [fold_right]. rewrite integral_padd1, IH. reflexivity. Qed.
Lemma peval_padd1 d m p x : peval d (padd1 d m p) x = Q2R (fst m) * mono d (snd m) x + peval d p x.
Proof.
  unfold peval. induction p as [|m' r IH]; cbn [padd1].
  - cbn [sumR fst snd]. f_equal. f_equal. apply mono_ext. intros k Hk. now rewrite nth_map_seq.
  - destruct (forallb _ _) eqn:E.
    + cbn [sumR fst snd]. rewrite Q2R_red, Q2R_plus. rewrite (mono_ext d (snd m) (snd m')); [ring|]. intros k Hk. rewrite forallb_forall in E. apply Nat.eqb_eq, E. apply in_seq. lia.
    + cbn [sumR]. rewrite IH. ring.
Qed.
Lemma peval_collect d p x : peval d (collect d p) x = peval d p x.
Proof. unfold collect. induction p as [|m p IH]; [reflexivity|]. cbn [fold_right]. rewrite peval_padd1, IH. reflexivity. Qed.
Definition cgrad (t : string) (i a : nat) : poly := collect (cell_dim (cell_of t)) (pder (cell_dim (cell_of t)) i (pshape t a)).
Lemma cgrad_degree t a i : In t lagrange_types -> (a < length (mesh_nodes t))%nat -> (i < cell_dim (cell_of t))%nat ->
  deg_le (cell_of t) (gauss_of t / 2) (cgrad t i a) = true.
Proof.
  intros H Ha Hi.
  assert (Hall : forallb (fun a => forallb (fun i => deg_le (cell_of t) (gauss_of t / 2) (cgrad t i a)) (seq 0 (cell_dim (cell_of t)))) (seq 0 (length (mesh_nodes t))) = true).
  { clear Ha Hi. repeat (destruct H as [<- | H]; [vm_compute; reflexivity|]). destruct H. }
  rewrite forallb_forall in Hall. specialize (Hall a ltac:(apply in_seq; lia)). rewrite forallb_forall in Hall. apply Hall, in_seq. lia.
Qed.
(** stiffness matrix of the reference cell *)
Definition stiffQ (t : string) (a b : nat) : Q :=
  let d := cell_dim (cell_of t) in sumQ (map (fun i => integralQ (cell_of t) (pmul d (cgrad t i a) (cgrad t i b))) (seq 0 d)).
(** ** left inverse up to constants, by elimination *)
Definition rowQ := list Q.
Definition raxpy (c : Q) (x y : rowQ) : rowQ := map (fun p => Qred (c * fst p + snd p)) (combine x y).
Definition rscale (c : Q) (x : rowQ) : rowQ := map (fun v => Qred (c * v)) x.
(** Gauss-Jordan without exchanges: the pivot of step k is entry k of row k *)
Fixpoint eliminate (n k : nat) (rows : list rowQ) : list rowQ :=
  match n with
  | 0%nat => rows
  | S n' =>
    let r := nth k rows [] in
    let r' := rscale (Qinv (nth k r 0%Q)) r in
    eliminate n' (S k) (map (fun ir => if Nat.eqb (fst ir) k then r' else raxpy (Qopp (nth k (snd ir) 0%Q)) r' (snd ir)) (combine (seq 0 (length rows)) rows))
  end.
(** inverse of the matrix without the first row and column *)
Definition certificate (n : nat) (K : list rowQ) : list rowQ :=
  map (skipn n) (eliminate n 0 (map (fun a => skipn 1 (nth (S a) K []) ++ map (fun b => if Nat.eqb a b then 1%Q else 0%Q) (seq 0 n)) (seq 0 n))).
Definition certQ (Y : list rowQ) (c b : nat) : Q := match c, b with S c', S b' => nth b' (nth c' Y []) 0%Q | _, _ => 0%Q end.
Definition rank_check (n : nat) (K Y : list rowQ) : bool :=
  forallb (fun c => forallb (fun a =>
    Qeq_bool (sumQ (map (fun b => certQ Y c b * nth a (nth b K []) 0%Q)%Q (seq 0 n))) ((if Nat.eqb c a then 1 else 0) - (if Nat.eqb 0 a then 1 else 0))%Q) (seq 0 n)) (seq 0 n).
(** the same matrix from tables: gradients, and their integrals against the monomials of degree at most 2 in each variable *)
Fixpoint exps (d : nat) : list (list nat) := match d with 0%nat => [[]] | S d' => flat_map (fun i => map (cons i) (exps d')) (seq 0 3) end.
Fixpoint eqe (x y : list nat) : bool := match x, y with [], [] => true | a :: x', b :: y' => Nat.eqb a b && eqe x' y' | _, _ => false end.
Lemma eqe_ok x : forall y, eqe x y = true -> x = y.
Proof. induction x as [|a x IH]; intros [|b y] H; cbn in H; try discriminate; [reflexivity|]. apply andb_prop in H as [H1 H2]. apply Nat.eqb_eq in H1. now rewrite H1, (IH y H2). Qed.
Definition against (c : cell_type) (p : poly) (e : list nat) : Q := integralQ c (pmul (cell_dim c) p [(1%Q, e)]).
Definition table (c : cell_type) (p : poly) : list (list nat * Q) := map (fun e => (e, against c p e)) (exps (cell_dim c)).
Definition lookup (c : cell_type) (p : poly) (T : list (list nat * Q)) (e : list nat) : Q :=
  match nth_error T (fold_left (fun acc k => 3 * acc + k)%nat e 0%nat) with
  | Some (e', v) => if eqe e' e then v else against c p e
  | None => against c p e
  end.
Lemma lookup_ok c p e : lookup c p (table c p) e = against c p e.
Proof.
  unfold lookup, table. rewrite nth_error_map. destruct (nth_error _ _) as [e'|]; [|reflexivity]. cbn [option_map]. destruct (eqe e' e) eqn:E; [|reflexivity]. now rewrite (eqe_ok _ _ E).
Qed.
Lemma integral_app c p q : integral c (p ++ q) = integral c p + integral c q.
Proof. unfold integral. now rewrite sumR_app. Qed.
Lemma against_ok c p e : Q2R (against c p e) = sumR p (fun m => Q2R (fst m) * moment c (eadd (cell_dim c) (snd m) e)).
Proof.
  unfold against. rewrite integralQ_ok. induction p as [|m p IH]; [reflexivity|].
  change (pmul (cell_dim c) (m :: p) [(1%Q, e)]) with (((fst m * 1)%Q, eadd (cell_dim c) (snd m) e) :: pmul (cell_dim c) p [(1%Q, e)]).
  unfold integral in *. cbn [sumR fst snd]. rewrite IH, Q2R_mult, Q2R_1. ring.
Qed.
Lemma integral_mul c p q : integral c (pmul (cell_dim c) p q) = sumR q (fun m => Q2R (fst m) * Q2R (against c p (snd m))).
Proof.
  induction p as [|m p IH].
  - transitivity 0; [reflexivity|]. symmetry. induction q as [|m' q IHq]; cbn [sumR]; [reflexivity|]. rewrite IHq, against_ok. cbn [sumR]. ring.
  - change (pmul (cell_dim c) (m :: p) q) with (map (fun m' => (fst m * fst m', eadd (cell_dim c) (snd m) (snd m'))%Q) q ++ pmul (cell_dim c) p q).
    rewrite integral_app, IH. unfold integral. rewrite sumR_map, <- sumR_add. apply sumR_ext. intros m' _. rewrite !against_ok. cbn [sumR fst snd]. rewrite Q2R_mult. ring.
Qed.
Lemma nth_map_any {A B} (f : A -> B) (l : list A) i da db : (i < length l)%nat -> nth i (map f l) db = f (nth i l da).
Proof. intros H. rewrite (nth_indep _ db (f da)) by (rewrite map_length; exact H). apply map_nth. Qed.
Definition stiffK (t : string) : list rowQ :=
  let n := length (mesh_nodes t) in let c := cell_of t in
  let G := map (fun i => map (fun a => let g := cgrad t i a in (g, table c g)) (seq 0 n)) (seq 0 (cell_dim c)) in
  map (fun b => map (fun a => sumQ (map (fun Gi => let gb := nth b Gi ([], []) in sumQ (map (fun m => fst m * lookup c (fst gb) (snd gb) (snd m))%Q (fst (nth a Gi ([], []))))) G)) (seq 0 n)) (seq 0 n).
Lemma stiffK_ok t b a : (b < length (mesh_nodes t))%nat -> (a < length (mesh_nodes t))%nat -> Q2R (nth a (nth b (stiffK t) []) 0%Q) = Q2R (stiffQ t b a).
Proof.
  intros Hb Ha. unfold stiffK. set (n := length (mesh_nodes t)) in *. set (G := map _ (seq 0 (cell_dim _))).
  rewrite (nth_map_any _ (seq 0 n) b 0%nat) by (rewrite seq_length; exact Hb). rewrite (nth_map_any _ (seq 0 n) a 0%nat) by (rewrite seq_length; exact Ha). rewrite !seq_nth by assumption. cbn [Nat.add].
  unfold stiffQ. rewrite !Q2R_sum. unfold G. rewrite sumR_map. apply sumR_ext. intros i Hi.
  rewrite !(nth_map_any _ (seq 0 n) _ 0%nat) by (rewrite seq_length; assumption). rewrite !seq_nth by assumption. cbn [Nat.add fst snd]. cbv zeta. cbn [fst snd].
  rewrite Q2R_sum, integralQ_ok, integral_mul. apply sumR_ext. intros m _. now rewrite Q2R_mult, lookup_ok.
Qed.
(** the inverse for HEX27, lower half in units of 1/59136, as [certificate 26 (stiffK "HEX27")] computes it (slowly) *)
Definition cert27 : list (list Z) :=
  [[900352];
   [507520; 1015040];
   [392832; 507520; 900352];
   [392832; 430848; 392832; 900352];
   [507520; 507520; 430848; 507520; 1015040];
   [469504; 584192; 469504; 469504; 584192; 1053696];
   [430848; 507520; 507520; 507520; 507520; 584192; 1015040];
   [450176; 486560; 429216; 429216; 486560; 510272; 490944; 661936];
   [471136; 528480; 450176; 454560; 507520; 526848; 511904; 547688; 703856];
   [450176; 528480; 471136; 454560; 511904; 526848; 507520; 545536; 568648; 703856];
   [429216; 486560; 450176; 429216; 490944; 510272; 486560; 526728; 545536; 547688; 661936];
   [450176; 511904; 454560; 471136; 528480; 526848; 507520; 545536; 546920; 549520; 525960; 703856];
   [445792; 503136; 450176; 445792; 524096; 543424; 503136; 521576; 562112; 542536; 524176; 564264; 695088];
   [450176; 503136; 445792; 445792; 503136; 543424; 524096; 524176; 542536; 562112; 521576; 562112; 559880; 695088];
   [454560; 511904; 450176; 471136; 507520; 526848; 528480; 525960; 549520; 546920; 545536; 568648; 562112; 564264; 703856];
   [429216; 490944; 429216; 450176; 486560; 510272; 486560; 526728; 525960; 525960; 526728; 547688; 521576; 521576; 547688; 661936];
   [471136; 507520; 454560; 450176; 528480; 526848; 511904; 547688; 568648; 546920; 525960; 568648; 564264; 542536; 546920; 545536; 703856];
   [445792; 524096; 445792; 450176; 503136; 543424; 503136; 521576; 564264; 564264; 521576; 542536; 559880; 559880; 542536; 524176; 562112; 695088];
   [454560; 507520; 471136; 450176; 511904; 526848; 528480; 525960; 546920; 568648; 547688; 546920; 542536; 564264; 568648; 545536; 549520; 562112; 703856];
   [428448; 485792; 450176; 450176; 485792; 505120; 507520; 501144; 511828; 522104; 505876; 522104; 507444; 517720; 526836; 505876; 511828; 507444; 526836; 533954];
   [471904; 529248; 450176; 450176; 529248; 548576; 507520; 522872; 548564; 543832; 512596; 543832; 544180; 539448; 533556; 512596; 548564; 544180; 533556; 509594; 577410];
   [450176; 485792; 428448; 450176; 507520; 505120; 485792; 505876; 522104; 511828; 501144; 526836; 517720; 507444; 522104; 505876; 526836; 507444; 511828; 492892; 514620; 533954];
   [450176; 529248; 471904; 450176; 507520; 548576; 529248; 512596; 543832; 548564; 522872; 533556; 539448; 544180; 543832; 512596; 533556; 544180; 548564; 514620; 536348; 509594; 577410];
   [450176; 507520; 450176; 428448; 485792; 505120; 485792; 505876; 526836; 526836; 505876; 511828; 507444; 507444; 511828; 501144; 522104; 517720; 522104; 492892; 514620; 492892; 514620; 533954];
   [450176; 507520; 450176; 471904; 529248; 548576; 529248; 512596; 533556; 533556; 512596; 548564; 544180; 544180; 548564; 522872; 543832; 539448; 543832; 514620; 536348; 514620; 536348; 509594; 577410];
   [450176; 507520; 450176; 450176; 507520; 526848; 507520; 518476; 539436; 539436; 518476; 539436; 535052; 535052; 539436; 518476; 539436; 535052; 539436; 505604; 527332; 505604; 527332; 505604; 527332; 531021]]%Z.
Definition cert_of (t : string) (n : nat) (K : list rowQ) : list rowQ :=
  if String.eqb t "HEX27" then map (fun c => map (fun b => inject_Z (nth (Nat.min c b) (nth (Nat.max c b) cert27 []) 0%Z) / 59136)%Q (seq 0 26)) (seq 0 26) else certificate n K.
Definition rank_ok (t : string) : bool := let n := length (mesh_nodes t) in let K := stiffK t in rank_check n K (cert_of t (n - 1) K).
Lemma rank_all t : In t lagrange_types -> rank_ok t = true.
Proof. intros H. repeat (destruct H as [<- | H]; [vm_compute; reflexivity|]). destruct H. Qed.
Lemma rank_certificate t : In t lagrange_types -> exists Y : nat -> nat -> R, forall c a, (c < length (mesh_nodes t))%nat -> (a < length (mesh_nodes t))%nat ->
  sumN (length (mesh_nodes t)) (fun b => Y c b * Q2R (stiffQ t b a)) = (if Nat.eqb c a then 1 else 0) - (if Nat.eqb 0 a then 1 else 0).
Proof.
  intros H. pose proof (rank_all t H) as Hr. unfold rank_ok, rank_check in Hr. set (n := length (mesh_nodes t)) in *. set (Y := cert_of t (n - 1) (stiffK t)) in Hr.
  exists (fun c b => Q2R (certQ Y c b)). intros c a Hc Ha. rewrite forallb_forall in Hr. specialize (Hr c ltac:(apply in_seq; lia)). rewrite forallb_forall in Hr. specialize (Hr a ltac:(apply in_seq; lia)).
  apply Qeq_bool_eq in Hr. apply Qeq_eqR in Hr. rewrite Q2R_sum in Hr. unfold Qminus in Hr. rewrite Q2R_plus, Q2R_opp in Hr.
  replace ((if Nat.eqb c a then 1 else 0) - (if Nat.eqb 0 a then 1 else 0)) with (Q2R (if Nat.eqb c a then 1 else 0) + - Q2R (if Nat.eqb 0 a then 1 else 0))
    by (destruct (Nat.eqb c a); destruct (Nat.eqb 0 a); rewrite ?Q2R_1, ?Q2R_0'; ring).
  rewrite <- Hr. unfold sumN. apply sumR_ext. intros b Hb. apply in_seq in Hb. rewrite Q2R_mult, stiffK_ok by (subst n; lia). reflexivity.
Qed.

(** ** on a cell *)
Section Cell.
Variable B : basix.
Hypothesis HB : documented_basix B.
Variable t : string.
Hypothesis Ht : In t lagrange_types.
Hypothesis Hx : exact_rule B (cell_of t) (gauss_of t).
Variable E : ele.
Hypothesis HE : element_tables B t = Ok E.
Lemma t_nodes : num_nodes E = length (mesh_nodes t) /\ e_dim E = cell_dim (cell_of t).
Proof.
  destruct (lagrange_supported t Ht) as [Hs _]. destruct (tables_given B HB t E Hs HE) as (fi & _ & ->). destruct (order_facts t Hs) as (El & _). split; [exact El|reflexivity].
Qed.
Lemma stiff_table a b : (a < num_nodes E)%nat -> (b < num_nodes E)%nat ->
  sumN (e_dim E) (fun i => sumN (num_quads E) (fun q => quad_weights E q * (shape_grads_ref E q a i * shape_grads_ref E q b i))) = Q2R (stiffQ t a b).
Proof.
  intros Ha Hb. unfold stiffQ. rewrite Q2R_sum. destruct t_nodes as [En Ed]. rewrite En in Ha, Hb. rewrite Ed. unfold sumN at 1. apply sumR_ext. intros i Hi. apply in_seq in Hi.
  destruct (lagrange_supported t Ht) as [Hs _]. destruct (tables_given B HB t E Hs HE) as (fi & _ & EE). clear En Ed HE. subst E.
  cbn [num_nodes e_dim num_quads quad_weights shape_grads_ref tables] in *.
  rewrite integralQ_ok. rewrite <- (exact_poly B (cell_of t) (gauss_of t)); [|exact Hx|rewrite <- (gauss_even t Ht) at 1; apply deg_mul; apply cgrad_degree; lia || assumption].
  apply sumN_ext. intros q _. rewrite peval_mul. unfold cgrad. rewrite !peval_collect. f_equal. unfold quad_point. f_equal; apply shape_der; try lia; apply tabulated_grad; auto; lia.
Qed.
(** the gradient of v vanishes wherever the rule has weight *)
Definition flat (v : nat -> R) : Prop :=
  forall q i, (q < num_quads E)%nat -> (i < e_dim E)%nat -> quad_weights E q * sumN (num_nodes E) (fun a => v a * shape_grads_ref E q a i) = 0.
Lemma flat_constant v : flat v -> forall a, (a < num_nodes E)%nat -> v a = v 0%nat.
Proof.
  intros Hf c Hc. destruct t_nodes as [En Ed]. destruct (rank_certificate t Ht) as (Y & HY). rewrite <- En in HY.
  assert (Hpos : (0 < num_nodes E)%nat) by lia.
  assert (HK : forall b, (b < num_nodes E)%nat -> sumN (num_nodes E) (fun a => Q2R (stiffQ t b a) * v a) = 0).
  { intros b Hb.
    rewrite (sumN_ext (num_nodes E) _ (fun a => sumN (e_dim E) (fun i => sumN (num_quads E) (fun q => shape_grads_ref E q b i * (quad_weights E q * (v a * shape_grads_ref E q a i)))))).
    - rewrite sumN_swap. apply sumN_zero. intros i Hi. rewrite sumN_swap. apply sumN_zero. intros q Hq. rewrite sumN_scal, sumN_scal, (Hf q i Hq Hi). ring.
    - intros a Ha. rewrite <- (stiff_table b a Hb Ha), <- sumN_scal_r. apply sumN_ext. intros i _. rewrite <- sumN_scal_r. apply sumN_ext. intros q _. ring. }
  assert (H0 : sumN (num_nodes E) (fun a => ((if Nat.eqb a c then 1 else 0) - (if Nat.eqb a 0 then 1 else 0)) * v a) = 0).
  { rewrite (sumN_ext _ _ (fun a => sumN (num_nodes E) (fun b => Y c b * (Q2R (stiffQ t b a) * v a)))).
    - rewrite sumN_swap. apply sumN_zero. intros b Hb. rewrite sumN_scal, (HK b Hb). ring.
    - intros a Ha. rewrite (Nat.eqb_sym a c), (Nat.eqb_sym a 0), <- (HY c a Hc Ha), <- sumN_scal_r. apply sumN_ext. intros; ring. }
  rewrite (sumN_ext _ _ (fun a => (if Nat.eqb a c then 1 else 0) * v a - (if Nat.eqb a 0 then 1 else 0) * v a)) in H0 by (intros; ring).
  rewrite sumN_sub, (sumN_ind _ _ v Hc), (sumN_ind _ _ v Hpos) in H0. lra.
Qed.
End Cell.

(** ** in the mesh *)
Section Mesh.
Context {V : Type}.
Variable F : fem V.
Variables (B : basix) (t : string).
Hypothesis HM : lagrange_mesh F B t.
Local Notation E := (f_ele F).
Lemma lm_dim : small_dim (dim F).
Proof. pose proof HM as (HB & Ht & _ & _ & HE & _). destruct (dims B HB F t Ht HE) as (-> & _ & H). unfold small_dim. lia. Qed.
Lemma lm_weight q : (q < num_quads E)%nat -> 0 <= quad_weights E q.
Proof.
  intros _. pose proof HM as (HB & Ht & _ & Hw & HE & _). destruct (lagrange_supported t Ht) as [Hs _]. destruct (tables_given B HB t E Hs HE) as (fi & _ & EE).
  assert (Hq : quad_weights E q = nth q (snd (make_quadrature B (cell_of t) (gauss_of t))) 0) by (rewrite EE; reflexivity). rewrite Hq.
  destruct (Nat.lt_ge_cases q (length (snd (make_quadrature B (cell_of t) (gauss_of t))))) as [Hl|Hl]; [|rewrite nth_overflow by exact Hl; lra].
  unfold nonneg_rule in Hw. rewrite Forall_forall in Hw. apply Hw. now apply nth_In.
Qed.
Lemma lm_jxw c q : (c < num_cells F)%nat -> (q < num_quads E)%nat -> 0 <= JxW F c q.
Proof. intros Hc Hq. pose proof HM as (_ & _ & _ & _ & _ & _ & _ & Hd). unfold JxW. apply Rmult_le_pos; [apply Rlt_le; auto|now apply lm_weight]. Qed.
(** some quadrature point has a weight *)
Lemma lm_heavy : exists q, (q < num_quads E)%nat /\ 0 < quad_weights E q.
Proof.
  pose proof HM as (HB & Ht & _ & _ & HE & _). destruct (lagrange_supported t Ht) as [Hs _]. destruct (tables_given B HB t E Hs HE) as (fi & _ & EE).
  assert (S1 : sumN (num_quads E) (quad_weights E) = ref_volume (cell_of t)) by (rewrite EE; cbn [num_quads quad_weights tables]; apply (weights_sum B HB)).
  assert (Hp : 0 < ref_volume (cell_of t)) by (unfold ref_volume; destruct (cell_of t); lra).
  destruct (Classical_Prop.classic (exists q, (q < num_quads E)%nat /\ 0 < quad_weights E q)) as [H|H]; [exact H|]. exfalso.
  rewrite (sumN_zero (num_quads E)) in S1; [lra|]. intros q Hq. pose proof (lm_weight q Hq). destruct (Rle_lt_or_eq_dec _ _ H0) as [Hl|He]; [exfalso; apply H; eauto|now symmetry].
Qed.
(** the gradient on the reference cell from the one in space *)
Lemma ref_from_space u c q k j : (c < num_cells F)%nat -> (q < num_quads E)%nat -> (j < dim F)%nat ->
  sumN (num_nodes E) (fun a => u (cell_node F c a) k * shape_grads_ref E q a j) = sumN (dim F) (fun d => sol_to_grad F u c q k d * jacobian_dx_deta F c q d j).
Proof.
  intros Hc Hq Hj. pose proof HM as (_ & _ & _ & _ & _ & _ & _ & Hd). specialize (Hd c q Hc Hq). unfold jacobian_det in Hd.
  rewrite (sumN_ext (dim F) _ (fun d => sumN (num_nodes E) (fun a => u (cell_node F c a) k * (shape_grads F c q a d * jacobian_dx_deta F c q d j)))).
  - rewrite sumN_swap. apply sumN_ext. intros a Ha. rewrite sumN_scal. f_equal. unfold shape_grads.
    rewrite (sumN_ext (dim F) _ (fun d => sumN (dim F) (fun i => shape_grads_ref E q a i * (jacobian_deta_dx F c q i d * jacobian_dx_deta F c q d j)))) by (intros d _; rewrite <- sumN_scal_r; apply sumN_ext; intros; ring).
    rewrite sumN_swap. rewrite (sumN_ext (dim F) _ (fun i => shape_grads_ref E q a i * delta i j)).
    + symmetry. now apply sumN_delta.
    + intros i Hi. rewrite sumN_scal. f_equal. apply inv_mul_mat; [exact lm_dim|exact Hi|exact Hj|lra].
  - intros d _. unfold sol_to_grad. rewrite <- sumN_scal_r. apply sumN_ext. intros; ring.
Qed.
Lemma flat_cell u c k : (c < num_cells F)%nat -> (forall q d, (q < num_quads E)%nat -> (d < dim F)%nat -> 0 < quad_weights E q -> sol_to_grad F u c q k d = 0) ->
  forall a b, (a < num_nodes E)%nat -> (b < num_nodes E)%nat -> u (cell_node F c a) k = u (cell_node F c b) k.
Proof.
  intros Hc H. pose proof HM as (HB & Ht & Hx & _ & HE & _).
  assert (Hf : flat E (fun a => u (cell_node F c a) k)).
  { intros q i Hq Hi. destruct (Rle_lt_or_eq_dec _ _ (lm_weight q Hq)) as [Hp|<-]; [|ring]. rewrite (ref_from_space u c q k i Hc Hq Hi), sumN_zero; [ring|]. intros d Hd. rewrite H by assumption. ring. }
  intros a b Ha Hb. rewrite (flat_constant B HB t Ht Hx E HE _ Hf a Ha), (flat_constant B HB t Ht Hx E HE _ Hf b Hb). reflexivity.
Qed.
End Mesh.
Close Scope R_scope.
