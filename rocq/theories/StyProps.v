(** * Properties C208-C211: the style loss of applications/fem/aesthetic. *)
From Coq Require Import String Lra Lia.
From Verif Require Import Prelude PreludeFacts FemModel FemFacts StyModel StySpec StyProofs StyExamples.
Open Scope R_scope.
Open Scope list_scope.

(** ** C208: the Gram matrix *)
Theorem gram_form : forall x g, gram_matrix x = Ok g -> (forall a b, g a b = g b a)
  /\ forall v, sumN (i_c x) (fun a => sumN (i_c x) (fun b => v a * g a b * v b)) = sumN (i_h x) (fun i => sumN (i_w x) (fun j => sumN (i_c x) (fun a => v a * i_val x 0%nat a i j) ^ 2)) / INR (i_c x * i_h x * i_w x).
Proof.
  intros x g H. split; [intros a b; now apply (gram_sym x g a b)|]. intros v. rewrite (gram_psd x g v H). apply gram_ok in H. destruct H as [Hn _]. unfold size. rewrite Hn, Nat.mul_1_l. reflexivity.
Qed.
Print Assumptions gram_form.
Theorem gram_semidefinite : forall x g v, gram_matrix x = Ok g -> 0 <= sumN (i_c x) (fun a => sumN (i_c x) (fun b => v a * g a b * v b)).
Proof. exact gram_nonneg. Qed.
Print Assumptions gram_semidefinite.
Theorem gram_blind_to_mirrors : forall x g, gram_matrix x = Ok g ->
  (exists g', gram_matrix (mirror_v x) = Ok g' /\ forall a b, g' a b = g a b) /\ exists g', gram_matrix (mirror_h x) = Ok g' /\ forall a b, g' a b = g a b.
Proof. exact gram_mirror. Qed.
Print Assumptions gram_blind_to_mirrors.
Theorem gram_one_image : forall x, (exists g, gram_matrix x = Ok g) <-> i_n x = 1%nat.
Proof.
  intros x. split; [intros (g & H); apply gram_ok in H; apply H|]. intros H. unfold gram_matrix. rewrite H. eexists. reflexivity.
Qed.
Print Assumptions gram_one_image.
(** two channels (1, 2) and (3, 4) of one row of two pixels *)
Example gram_case : exists g, gram_matrix (mkImg 1 2 1 2 (fun _ c _ j => INR (2 * c + j + 1))) = Ok g /\ g 0%nat 0%nat = 5 / 4 /\ g 0%nat 1%nat = 11 / 4 /\ g 1%nat 1%nat = 25 / 4.
Proof. eexists. split; [reflexivity|]. unfold size, sumN. cbn [i_h i_w i_c i_n i_val seq sumR Nat.mul Nat.add INR]. repeat split; field. Qed.

(** ** C209: the network with its loss layers *)
Theorem vgg_layers_kept : forall N style content sl cl pooling es ls, augmented_vgg19 N style content sl cl pooling es = Ok ls ->
  (pooling = "avg" \/ pooling = "max")%string
  /\ exists full post, full = ls ++ post /\ filter (fun l => negb (is_loss l)) full = LNorm :: flat_map (vgg_layers (String.eqb pooling "avg")) es
     /\ flat_map tag ls = flat_map (chosen sl cl) (seq 1 (convs full)) /\ (List.length ls = 1%nat \/ exists a l, ls = a ++ [l] /\ is_loss l = true).
Proof.
  intros N S C sl cl p es ls H. destruct (vgg_full N S C sl cl p es ls H) as (Hp & full & post & E & Hn & Hl & _ & Hb & Ht). split; [exact Hp|]. exists full, post. split; [exact E|]. split; [exact Hb|]. split; [|exact Hl].
  rewrite <- Ht, E, flat_map_app, (no_tags post Hn). symmetry. apply app_nil_r.
Qed.
Print Assumptions vgg_layers_kept.
(** the loss layers do not change what passes through *)
Theorem loss_layers_transparent : forall N tr ls x y rs, run N tr ls x = Ok (y, rs) -> y = plain N tr (filter (fun l => negb (is_loss l)) ls) x /\ map (fun r => (r_style r, r_num r)) rs = flat_map tag ls.
Proof.
  intros N tr ls x y rs H. destruct (run_plain N tr ls x y rs H) as [-> Ht]. split; [|exact Ht]. clear. revert x. unfold plain. induction ls as [|l ls IH]; intros x; [reflexivity|]. cbn [fold_left filter]. rewrite IH. destruct l; reflexivity.
Qed.
Print Assumptions loss_layers_transparent.
(** every style loss compares the features of the tracked image with those of the style image after the same convolution *)
Theorem style_losses : forall N style content sl cl pooling es ls input y rs r, augmented_vgg19 N style content sl cl pooling es = Ok ls -> run N true ls input = Ok (y, rs) -> In r rs -> r_style r = true ->
  exists w pre post gx gs, sl (r_num r) = Some w /\ ls = pre ++ post /\ convs pre = r_num r
    /\ let X := plain N false pre (tracked N) in let Y := plain N false pre style in i_c X = i_c Y /\ gram_matrix X = Ok gx /\ gram_matrix Y = Ok gs
    /\ r_val r = w * (sumN (i_c X) (fun a => sumN (i_c X) (fun b => (gx a b - gs a b) ^ 2)) / INR (i_c X * i_c X)).
Proof.
  intros N S C sl cl p es ls input y rs r H Hr Hin Hs. rewrite (run_train N ls input (vgg_starts _ _ _ _ _ _ _ _ H)) in Hr. destruct (run_rec N false ls _ _ _ r Hr Hin) as (pre & l & post & r' & E & Ha & Hi & Hl).
  pose proof (vgg_good _ _ _ _ _ _ _ _ H pre l post E) as Hg. destruct l as [| | | |c g w n|t w n]; try discriminate Hl.
  - cbn [placed] in Hg. destruct Hg as (H1 & H2 & H3 & H4). cbn [apply_layer] in Ha. destruct (gram_matrix (plain N false pre (tracked N))) as [gx|e] eqn:Eg; cbn [bind] in Ha; [|discriminate Ha].
    destruct (Nat.eqb (i_c (plain N false pre (tracked N))) c) eqn:Ec; [|discriminate Ha]. apply Nat.eqb_eq in Ec. injection Ha as Ha. rewrite <- Ha in Hi. destruct Hi as [<-|[]]. cbn [r_num r_val].
    exists w, pre, (LStyle c g w n :: post), gx, g. cbv zeta. rewrite Eg, Ec. repeat split; try assumption; now symmetry.
  - cbn [apply_layer] in Ha. destruct (same_shape _ t); [|discriminate Ha]. injection Ha as Ha. rewrite <- Ha in Hi. destruct Hi as [<-|[]]. discriminate Hs.
Qed.
Print Assumptions style_losses.
Theorem content_losses : forall N style content sl cl pooling es ls input y rs r, augmented_vgg19 N style content sl cl pooling es = Ok ls -> run N true ls input = Ok (y, rs) -> In r rs -> r_style r = false ->
  exists w pre post, cl (r_num r) = Some w /\ ls = pre ++ post /\ convs pre = r_num r
    /\ let X := plain N false pre (tracked N) in let Y := plain N false pre content in (i_n X, i_c X, i_h X, i_w X) = (i_n Y, i_c Y, i_h Y, i_w Y)
    /\ r_val r = w * (sum_img X (fun n c i j => (i_val X n c i j - i_val Y n c i j) ^ 2) / INR (i_n X * i_c X * i_h X * i_w X)).
Proof.
  intros N S C sl cl p es ls input y rs r H Hr Hin Hs. rewrite (run_train N ls input (vgg_starts _ _ _ _ _ _ _ _ H)) in Hr. destruct (run_rec N false ls _ _ _ r Hr Hin) as (pre & l & post & r' & E & Ha & Hi & Hl).
  pose proof (vgg_good _ _ _ _ _ _ _ _ H pre l post E) as Hg. destruct l as [| | | |c g w n|t w n]; try discriminate Hl.
  - cbn [apply_layer] in Ha. destruct (gram_matrix (plain N false pre (tracked N))) as [gx|e]; cbn [bind] in Ha; [|discriminate Ha]. destruct (Nat.eqb _ c); [|discriminate Ha]. injection Ha as Ha. rewrite <- Ha in Hi. destruct Hi as [<-|[]]. discriminate Hs.
  - cbn [placed] in Hg. destruct Hg as (H1 & H2 & H3). cbn [apply_layer] in Ha. destruct (same_shape _ t) eqn:Es; [|discriminate Ha]. injection Ha as Ha. rewrite <- Ha in Hi. destruct Hi as [<-|[]]. cbn [r_num r_val].
    exists w, pre, (LContent t w n :: post). cbv zeta. rewrite <- H3. unfold same_shape in Es. rewrite !Bool.andb_true_iff, !Nat.eqb_eq in Es. destruct Es as (((E1 & E2) & E3) & E4). repeat split; try assumption; [now symmetry|congruence].
Qed.
Print Assumptions content_losses.
(** style 1, tracked image 2: the Gram matrices are 16 and 4, the second features 8 and 4 *)
Example vgg_case : augmented_vgg19 (net1 2) (pix 1) (pix 1) st1 co2 "max" file = Ok (ls1 1) /\ List.length (ls1 1) = 7%nat
  /\ exists y a b, run (net1 2) true (ls1 1) (pix 5) = Ok (y, [mkRec true 1 a; mkRec false 2 b]) /\ a = 1440 /\ b = 16 / 10.
Proof. split; [apply built|]. split; [reflexivity|]. destruct (ran 2 1 ltac:(lra) ltac:(lra)) as (y & a & b & H & -> & ->). exists y. eexists. eexists. split; [exact H|]. split; field. Qed.

(** ** C210: the loss is not negative and vanishes at the target *)
Theorem loss_nonneg : forall N wc ws style content sl cl pooling es ls input v, 0 <= wc -> 0 <= ws -> (forall n w, sl n = Some w -> 0 <= w) -> (forall n w, cl n = Some w -> 0 <= w) ->
  augmented_vgg19 N style content sl cl pooling es = Ok ls -> loss N wc ws ls input = Ok v -> 0 <= v.
Proof.
  intros N wc ws S C sl cl p es ls input v Hc Hs Hsl Hcl H Hv. unfold loss in Hv. destruct (run N true ls input) as [[y rs]|e] eqn:Er; cbn [bind snd] in Hv; [|discriminate Hv].
  destruct (reduce_loss_tree _) as [t|e] eqn:Et; cbn [bind] in Hv; [|discriminate Hv]. injection Hv as <-. apply reduce_sum in Et. rewrite Rplus_0_r, Et. unfold weighted_loss. apply sumR_nonneg. intros q Hq. apply in_map_iff in Hq. destruct Hq as (r & <- & Hr).
  apply Rmult_le_pos; [destruct (r_style r); assumption|]. destruct (run_rec N true ls _ _ _ r Er Hr) as (pre & l & post & r' & E & Ha & Hi & _). pose proof (vgg_good _ _ _ _ _ _ _ _ H pre l post E) as Hg.
  assert (Hw : match l with LStyle _ _ w _ | LContent _ w _ => 0 <= w | _ => True end) by (destruct l; try exact I; cbn [placed] in Hg; [apply (Hsl n), Hg|apply (Hcl n), Hg]).
  pose proof (apply_nonneg _ _ _ _ _ _ Ha Hw) as Hf. rewrite Forall_forall in Hf. now apply Hf.
Qed.
Print Assumptions loss_nonneg.
(** style_transfer reads style and content from the same file; at that image every loss is 0 *)
Theorem loss_zero_at_target : forall N wc ws image sl cl pooling es ls input, tracked N = image -> augmented_vgg19 N image image sl cl pooling es = Ok ls ->
  flat_map tag ls <> [] -> loss N wc ws ls input = Ok 0.
Proof.
  intros N wc ws image sl cl p es ls input Ht H Hne. destruct (vgg_zero N image image sl cl p es ls H eq_refl Ht input) as (y & rs & Hr & Hz). unfold loss. rewrite Hr. cbn [bind snd].
  destruct (run_plain N true ls input y rs Hr) as [_ Htag]. destruct (reduce_some (weighted_loss wc ws rs)) as (v & Hv).
  { unfold weighted_loss. intros E. apply map_eq_nil in E. subst rs. apply Hne. now rewrite <- Htag. }
  rewrite Hv. cbn [bind]. apply reduce_sum in Hv. subst v. f_equal. rewrite Rplus_0_r. unfold weighted_loss. clear - Hz. induction Hz as [|r rs Hr Hz IH]; [reflexivity|]. cbn [map sumR]. rewrite IH, Hr. ring.
Qed.
Print Assumptions loss_zero_at_target.
Example loss_case : augmented_vgg19 (net1 2) (pix 1) (pix 1) st1 co2 "max" file = Ok (ls1 1) /\ (exists v, loss (net1 2) 1 1 (ls1 1) (pix 5) = Ok v /\ v = 14416 / 10) /\ loss (net1 1) 1 1 (ls1 1) (pix 5) = Ok 0.
Proof.
  split; [apply built|]. split.
  - destruct (ran 2 1 ltac:(lra) ltac:(lra)) as (y & a & b & H & Ha & Hb). unfold loss. rewrite H. cbn [bind snd weighted_loss map r_style r_val reduce_loss_tree fold_left]. eexists. split; [reflexivity|]. rewrite Ha, Hb. field.
  - apply (loss_zero_at_target (net1 1) 1 1 (pix 1) st1 co2 "max" file); [reflexivity|apply built|discriminate].
Qed.

(** ** C211: what is reported and what is read *)
Theorem losses_add_up : forall wc ws rs c s v, calculate_losses wc ws rs = Ok (c, s) -> reduce_loss_tree (weighted_loss wc ws rs) = Ok v -> v = c + s.
Proof.
  intros wc ws rs c s v H Hv. apply reduce_sum in Hv. unfold calculate_losses in H. destruct (reduce_loss_tree (map r_val (filter (fun r => negb (r_style r)) rs))) as [a|e] eqn:Ea; cbn [bind] in H; [|discriminate H].
  destruct (reduce_loss_tree (map r_val (filter r_style rs))) as [b|e] eqn:Eb; cbn [bind] in H; [|discriminate H]. injection H as <- <-. apply reduce_sum in Ea, Eb. subst. apply split_sum.
Qed.
Print Assumptions losses_add_up.
(** the report fails if one kind of loss is missing, although the loss itself exists *)
Theorem report_needs_both_kinds : forall wc ws rs, (exists p, calculate_losses wc ws rs = Ok p) <-> (exists r, In r rs /\ r_style r = true) /\ exists r, In r rs /\ r_style r = false.
Proof.
  intros wc ws rs. unfold calculate_losses. split.
  - intros (p & H). destruct (filter (fun r => negb (r_style r)) rs) as [|a la] eqn:Ea; [discriminate H|]. cbn [map reduce_loss_tree bind] in H. destruct (filter r_style rs) as [|b lb] eqn:Eb; [discriminate H|]. split.
    + exists b. apply filter_In. rewrite Eb. now left.
    + exists a. assert (In a (filter (fun r => negb (r_style r)) rs)) as Hi by (rewrite Ea; now left). apply filter_In in Hi. destruct Hi as [Hi Hn]. split; [exact Hi|]. now destruct (r_style a).
  - intros ((b & Hb & Eb) & a & Ha & Ea). destruct (filter (fun r => negb (r_style r)) rs) as [|a' la] eqn:Fa.
    { assert (In a []) as []. rewrite <- Fa. apply filter_In. split; [exact Ha|]. now rewrite Ea. }
    destruct (filter r_style rs) as [|b' lb] eqn:Fb; [|eexists; reflexivity]. assert (In b []) as []. rewrite <- Fb. now apply filter_In.
Qed.
Print Assumptions report_needs_both_kinds.
Theorem report_total_refuted : exists wc ws rs v, reduce_loss_tree (weighted_loss wc ws rs) = Ok v /\ calculate_losses wc ws rs = Err TypeError.
Proof. exists 1, 1, [mkRec true 1 3], (1 * 3). split; reflexivity. Qed.
Print Assumptions report_total_refuted.
Example losses_case : exists c s, calculate_losses 2 5 [mkRec true 1 3; mkRec false 2 7; mkRec true 4 1] = Ok (c, s) /\ c = 14 /\ s = 20.
Proof. eexists. eexists. split; [reflexivity|]. cbn [r_val fold_left map filter r_style negb]. split; lra. Qed.
(** loaded images are black and white, and reverse exchanges the two *)
Theorem pixels_binary : forall reverse byte, (load_pixel reverse byte = 0 \/ load_pixel reverse byte = 1) /\ (load_pixel reverse byte = 1 <-> if reverse then byte < 255 / 2 else 255 / 2 <= byte).
Proof.
  intros rv b. unfold load_pixel. cbv zeta. assert (M0 : Rmax 0 (Rmin 1 0) = 0) by (rewrite Rmin_right, Rmax_left; lra). assert (M1 : Rmax 0 (Rmin 1 1) = 1) by (rewrite Rmin_left, Rmax_right; lra).
  destruct (Rltb (b / 255) (1 / 2)) eqn:E.
  - apply Rltb_true in E. rewrite M0. destruct rv; (split; [first [left; lra|right; lra]|split; intros; lra]).
  - apply Rltb_false in E. rewrite M1. destruct rv; (split; [first [left; lra|right; lra]|split; intros; lra]).
Qed.
Print Assumptions pixels_binary.
Example pixels_case : load_pixel false 200 = 1 /\ load_pixel true 200 = 0.
Proof. split; [apply (proj2 (pixels_binary false 200)); lra|]. destruct (pixels_binary true 200) as [[H|H] Hi]; [exact H|]. apply Hi in H. lra. Qed.
Close Scope R_scope.
