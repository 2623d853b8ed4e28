From Coq Require Import String Lra Lia Psatz.
From Verif Require Import Prelude PreludeFacts FemModel FemFacts StyModel StySpec.
Open Scope R_scope.
Open Scope list_scope.

(** ** the Gram matrix *)
Lemma sumN_last n f : sumN (S n) f = sumN n f + f n.
Proof. unfold sumN. rewrite seq_S, sumR_app. cbn [sumR Nat.add]. ring. Qed.
Lemma sumN_front n f : sumN (S n) f = f 0%nat + sumN n (fun i => f (S i)).
Proof. induction n as [|n IH]; [unfold sumN; cbn [seq sumR]; ring|]. rewrite sumN_last, IH, (sumN_last n (fun i => f (S i))). ring. Qed.
Lemma sumN_mirror n f : sumN n (fun i => f (n - 1 - i)%nat) = sumN n f.
Proof.
  induction n as [|n IH]; [reflexivity|]. rewrite sumN_front, sumN_last, <- IH. replace (S n - 1 - 0)%nat with n by lia.
  rewrite (sumN_ext n (fun i => f (S n - 1 - S i)%nat) (fun i => f (n - 1 - i)%nat)); [ring|]. intros i Hi. f_equal. lia.
Qed.
Lemma gram_ok x g : gram_matrix x = Ok g -> i_n x = 1%nat /\ g = fun a b => sumN (i_h x) (fun i => sumN (i_w x) (fun j => i_val x 0%nat a i j * i_val x 0%nat b i j)) / size x.
Proof. unfold gram_matrix. destruct (Nat.eqb (i_n x) 1) eqn:E; [|discriminate]. intros H. injection H as <-. split; [now apply Nat.eqb_eq|reflexivity]. Qed.
Lemma gram_sym x g a b : gram_matrix x = Ok g -> g a b = g b a.
Proof. intros H. apply gram_ok in H. destruct H as [_ ->]. f_equal. apply sumN_ext. intros i _. apply sumN_ext. intros j _. ring. Qed.
Lemma size_pos x : 0 <= size x.
Proof. unfold size. apply pos_INR. Qed.
Lemma div_nonneg a b : 0 <= a -> 0 <= b -> 0 <= a / b.
Proof. intros Ha Hb. destruct Hb as [Hb|<-]; [apply Rmult_le_pos; [exact Ha|left; now apply Rinv_0_lt_compat]|unfold Rdiv; rewrite Rinv_0; lra]. Qed.
Lemma gram_psd x g v : gram_matrix x = Ok g ->
  sumN (i_c x) (fun a => sumN (i_c x) (fun b => v a * g a b * v b)) = sumN (i_h x) (fun i => sumN (i_w x) (fun j => sumN (i_c x) (fun a => v a * i_val x 0%nat a i j) ^ 2)) / size x.
Proof.
  intros H. apply gram_ok in H. destruct H as [_ ->]. unfold Rdiv. rewrite <- sumN_scal_r.
  transitivity (sumN (i_c x) (fun a => sumN (i_c x) (fun b => sumN (i_h x) (fun i => sumN (i_w x) (fun j => v a * i_val x 0%nat a i j * (v b * i_val x 0%nat b i j) * / size x))))).
  { apply sumN_ext. intros a _. apply sumN_ext. intros b _. replace (v a * _ * v b) with (sumN (i_h x) (fun i => sumN (i_w x) (fun j => i_val x 0%nat a i j * i_val x 0%nat b i j)) * (v a * v b * / size x)) by ring.
    rewrite <- sumN_scal_r. apply sumN_ext. intros i _. rewrite <- sumN_scal_r. apply sumN_ext. intros j _. ring. }
  transitivity (sumN (i_c x) (fun a => sumN (i_h x) (fun i => sumN (i_w x) (fun j => sumN (i_c x) (fun b => v a * i_val x 0%nat a i j * (v b * i_val x 0%nat b i j) * / size x))))).
  { apply sumN_ext. intros a _. rewrite sumN_swap. apply sumN_ext. intros i _. apply sumN_swap. }
  rewrite sumN_swap. apply sumN_ext. intros i _. rewrite sumN_swap, <- sumN_scal_r. apply sumN_ext. intros j _.
  set (s := sumN (i_c x) (fun a => v a * i_val x 0%nat a i j)).
  transitivity (sumN (i_c x) (fun a => v a * i_val x 0%nat a i j * (s * / size x))).
  - apply sumN_ext. intros a _. unfold s. rewrite <- sumN_scal_r, <- sumN_scal. apply sumN_ext. intros b _. ring.
  - rewrite sumN_scal_r. fold s. ring.
Qed.
Lemma gram_nonneg x g v : gram_matrix x = Ok g -> 0 <= sumN (i_c x) (fun a => sumN (i_c x) (fun b => v a * g a b * v b)).
Proof. intros H. rewrite (gram_psd x g v H). apply div_nonneg; [|apply size_pos]. apply sumN_nonneg. intros i _. apply sumN_nonneg. intros j _. apply pow2_ge_0. Qed.
Lemma gram_mirror x g : gram_matrix x = Ok g -> (exists g', gram_matrix (mirror_v x) = Ok g' /\ forall a b, g' a b = g a b) /\ exists g', gram_matrix (mirror_h x) = Ok g' /\ forall a b, g' a b = g a b.
Proof.
  intros H. apply gram_ok in H. destruct H as [Hn ->]. unfold gram_matrix. cbn [i_n mirror_v mirror_h]. rewrite Hn. cbn [Nat.eqb]. split; eexists; (split; [reflexivity|]); intros a b; apply (f_equal (fun z => z / size x)).
  - apply (sumN_mirror (i_h x) (fun i => sumN (i_w x) (fun j => i_val x 0%nat a i j * i_val x 0%nat b i j))).
  - change (i_h (mirror_h x)) with (i_h x). apply sumN_ext. intros i _. apply (sumN_mirror (i_w x) (fun j => i_val x 0%nat a i j * i_val x 0%nat b i j)).
Qed.
(** ** running the layers *)
Section Run.
Variable N : net.
Lemma run_app tr a b x : run N tr (a ++ b) x = bind (run N tr a x) (fun yr => bind (run N tr b (fst yr)) (fun zs => Ok (fst zs, snd yr ++ snd zs))).
Proof.
  revert x. induction a as [|l a IH]; intros x; cbn [app run].
  - cbn [bind fst snd]. destruct (run N tr b x) as [[z s]|e]; reflexivity.
  - destruct (apply_layer N tr l x) as [[y r]|e]; cbn [bind fst snd]; [|reflexivity]. rewrite IH. destruct (run N tr a y) as [[z s]|e]; cbn [bind fst snd]; [|reflexivity].
    destruct (run N tr b z) as [[w t]|e]; cbn [bind fst snd]; [|reflexivity]. now rewrite app_assoc.
Qed.
Lemma run_one tr l x : run N tr [l] x = apply_layer N tr l x.
Proof. cbn [run]. destruct (apply_layer N tr l x) as [[y r]|e]; cbn [bind fst snd]; [now rewrite app_nil_r|reflexivity]. Qed.
Lemma apply_pass tr l x y r : apply_layer N tr l x = Ok (y, r) -> y = pass N tr x l /\ map (fun q => (r_style q, r_num q)) r = tag l.
Proof.
  destruct l; cbn [apply_layer pass tag]; intros H; try (injection H as <- <-; split; reflexivity).
  - destruct (gram_matrix x) as [g|e]; cbn [bind] in H; [|discriminate]. destruct (Nat.eqb _ _); [|discriminate]. injection H as <- <-. split; reflexivity.
  - destruct (same_shape x target); [|discriminate]. injection H as <- <-. split; reflexivity.
Qed.
Lemma run_plain tr ls : forall x y r, run N tr ls x = Ok (y, r) -> y = plain N tr ls x /\ map (fun q => (r_style q, r_num q)) r = flat_map tag ls.
Proof.
  induction ls as [|l ls IH]; intros x y r H; cbn [run] in H; [injection H as <- <-; split; reflexivity|].
  destruct (apply_layer N tr l x) as [[z s]|e] eqn:E; cbn [bind fst snd] in H; [|discriminate]. destruct (run N tr ls z) as [[w t]|e] eqn:E2; cbn [bind fst snd] in H; [|discriminate]. injection H as <- <-.
  destruct (apply_pass _ _ _ _ _ E) as [-> Hs]. destruct (IH _ _ _ E2) as [-> Ht]. split; [reflexivity|]. rewrite map_app, Hs, Ht. reflexivity.
Qed.
Lemma run_rec tr ls : forall x y rs r, run N tr ls x = Ok (y, rs) -> In r rs -> exists pre l post r', ls = pre ++ l :: post /\ apply_layer N tr l (plain N tr pre x) = Ok (plain N tr pre x, r') /\ In r r' /\ is_loss l = true.
Proof.
  induction ls as [|l ls IH]; intros x y rs r H Hr; cbn [run] in H; [injection H as <- <-; destruct Hr|].
  destruct (apply_layer N tr l x) as [[z s]|e] eqn:E; cbn [bind fst snd] in H; [|discriminate]. destruct (run N tr ls z) as [[w t]|e] eqn:E2; cbn [bind fst snd] in H; [|discriminate]. injection H as <- <-.
  apply in_app_or in Hr. destruct Hr as [Hr|Hr].
  - exists [], l, ls, s. split; [reflexivity|]. destruct (apply_pass _ _ _ _ _ E) as [Hz Ht]. cbn [plain fold_left].
    destruct l; cbn [tag] in Ht; try (destruct s; [destruct Hr|discriminate Ht]); cbn [pass] in Hz; subst z; (split; [exact E|split; [exact Hr|reflexivity]]).
  - destruct (IH _ _ _ _ E2 Hr) as (pre & l' & post & r' & -> & H1 & H2 & H3). exists (l :: pre), l', post, r'. split; [reflexivity|]. destruct (apply_pass _ _ _ _ _ E) as [-> _]. split; [exact H1|split; [exact H2|exact H3]].
Qed.
(** only the first layer looks at the flag *)
Lemma run_flag ls : Forall (fun l => l <> LNorm) ls -> forall tr tr' x, run N tr ls x = run N tr' ls x.
Proof.
  induction ls as [|l ls IH]; intros H tr tr' x; [reflexivity|]. inversion H as [|? ? Hl Hls]; subst. cbn [run]. assert (apply_layer N tr l x = apply_layer N tr' l x) as -> by (destruct l; [congruence|reflexivity..]).
  destruct (apply_layer N tr' l x) as [[y r]|e]; cbn [bind fst snd]; [|reflexivity]. now rewrite (IH Hls tr tr').
Qed.
Definition starts (ls : list layer) : Prop := exists rest, ls = LNorm :: rest /\ Forall (fun l => l <> LNorm) rest.
Lemma run_train ls x : starts ls -> run N true ls x = run N false ls (tracked N).
Proof. intros (rest & -> & Hr). cbn [run apply_layer bind fst snd]. rewrite (run_flag rest Hr true false). reflexivity. Qed.
Lemma plain_train ls x : starts ls -> plain N true ls x = plain N false ls (tracked N).
Proof.
  intros (rest & -> & Hr). unfold plain. cbn [fold_left pass]. change (normalize N true x) with (normalize N false (tracked N)). generalize (normalize N false (tracked N)). induction Hr as [|l ls Hl Hr IH]; intros y; [reflexivity|].
  cbn [fold_left]. rewrite <- IH. f_equal. destruct l; [congruence|reflexivity..].
Qed.
(** ** the loop *)
Variables (S C : img) (avg : bool) (sl cl : nat -> option R).
Definition placed (pre : list layer) (l : layer) : Prop :=
  match l with
  | LStyle c g w n => sl n = Some w /\ n = convs pre /\ gram_matrix (plain N false pre S) = Ok g /\ c = i_c (plain N false pre S)
  | LContent t w n => cl n = Some w /\ n = convs pre /\ t = plain N false pre C
  | _ => True
  end.
Definition good (ls : list layer) : Prop := forall pre l post, ls = pre ++ l :: post -> placed pre l.
Lemma good_snoc ls l : good ls -> placed ls l -> good (ls ++ [l]).
Proof.
  intros Hg Hp pre l' post H. destruct post as [|z post _] using rev_ind.
  - apply app_inj_tail in H. destruct H as [-> ->]. exact Hp.
  - change (pre ++ l' :: post ++ [z]) with (pre ++ (l' :: post) ++ [z]) in H. rewrite app_assoc in H. apply app_inj_tail in H. destruct H as [-> _]. now apply (Hg pre l' post).
Qed.
Lemma starts_snoc ls l : starts ls -> l <> LNorm -> starts (ls ++ [l]).
Proof. intros (rest & -> & Hr) Hl. exists (rest ++ [l]). split; [reflexivity|]. apply Forall_app. split; [exact Hr|constructor; [exact Hl|constructor]]. Qed.
Lemma convs_snoc ls l : convs (ls ++ [l]) = (convs ls + if is_conv l then 1 else 0)%nat.
Proof. unfold convs. rewrite filter_app, app_length. cbn [filter]. destruct (is_conv l); reflexivity. Qed.
Definition bare (ls : list layer) : list layer := filter (fun l => negb (is_loss l)) ls.
Lemma bare_snoc ls l : bare (ls ++ [l]) = bare ls ++ (if is_loss l then [] else [l]).
Proof. unfold bare. rewrite filter_app. cbn [filter]. destruct (is_loss l); reflexivity. Qed.
Lemma tags_snoc ls l : flat_map tag (ls ++ [l]) = flat_map tag ls ++ tag l.
Proof. rewrite flat_map_app. cbn [flat_map]. now rewrite app_nil_r. Qed.
(** the run on an image that is both the style and the content *)
Definition vanishing (ls : list layer) : Prop := S = C -> exists y rs, run N false ls S = Ok (y, rs) /\ Forall (fun r => r_val r = 0) rs.
Lemma van_snoc ls l : vanishing ls -> (S = C -> forall y rs, run N false ls S = Ok (y, rs) -> exists z r, apply_layer N false l y = Ok (z, r) /\ Forall (fun r => r_val r = 0) r) -> vanishing (ls ++ [l]).
Proof.
  intros Hv Hl E. destruct (Hv E) as (y & rs & Hr & Hz). destruct (Hl E y rs Hr) as (z & r & Ha & Hz'). exists z, (rs ++ r). rewrite run_app, Hr. cbn [bind fst snd]. rewrite run_one, Ha. cbn [bind fst snd]. split; [reflexivity|]. now apply Forall_app.
Qed.
Lemma van_plain ls l : is_loss l = false -> vanishing ls -> vanishing (ls ++ [l]).
Proof. intros Hl Hv. apply van_snoc; [exact Hv|]. intros _ y rs _. destruct l; try discriminate Hl; cbn [apply_layer]; eexists; eexists; (split; [reflexivity|constructor]). Qed.
Definition inv (ls : list layer) (n : nat) : Prop := starts ls /\ good ls /\ convs ls = n /\ vanishing ls.
Lemma zero_sum n f : (forall i, (i < n)%nat -> f i = 0) -> sumN n f = 0.
Proof. apply sumN_zero. Qed.
Lemma style_inv ls n ls' : inv ls n -> add_style N S sl ls n = Ok ls' -> inv ls' n /\ bare ls' = bare ls /\ flat_map tag ls' = flat_map tag ls ++ match sl n with Some _ => [(true, n)] | None => [] end.
Proof.
  intros (Hs & Hg & Hc & Hv) H. unfold add_style in H. destruct (sl n) as [w|] eqn:Ew; [|injection H as <-; split; [repeat split; assumption|split; [reflexivity|now rewrite app_nil_r]]].
  destruct (run N false ls S) as [[y r]|e] eqn:Er; cbn [bind fst] in H; [|discriminate]. destruct (gram_matrix y) as [g|e] eqn:Eg; cbn [bind] in H; [|discriminate]. injection H as <-.
  destruct (run_plain _ _ _ _ _ Er) as [Hy _]. split; [|split; [rewrite bare_snoc; cbn [is_loss]; apply app_nil_r|apply tags_snoc]]. repeat split.
  - apply starts_snoc; [exact Hs|discriminate].
  - apply good_snoc; [exact Hg|]. cbn [placed]. rewrite <- Hy. repeat split; [exact Ew|now rewrite Hc|exact Eg].
  - rewrite convs_snoc. cbn [is_conv]. lia.
  - apply van_snoc; [exact Hv|]. intros _ y' rs' Hr'. rewrite Er in Hr'. injection Hr' as <- <-. cbn [apply_layer]. rewrite Eg. cbn [bind]. rewrite Nat.eqb_refl. eexists. eexists. split; [reflexivity|].
    constructor; [|constructor]. cbn [r_val]. rewrite zero_sum; [unfold Rdiv; ring|]. intros a _. apply zero_sum. intros b _. ring.
Qed.
Lemma shape_refl x : same_shape x x = true.
Proof. unfold same_shape. now rewrite !Nat.eqb_refl. Qed.
Lemma content_inv ls n ls' : inv ls n -> add_content N C cl ls n = Ok ls' -> inv ls' n /\ bare ls' = bare ls /\ flat_map tag ls' = flat_map tag ls ++ match cl n with Some _ => [(false, n)] | None => [] end.
Proof.
  intros (Hs & Hg & Hc & Hv) H. unfold add_content in H. destruct (cl n) as [w|] eqn:Ew; [|injection H as <-; split; [repeat split; assumption|split; [reflexivity|now rewrite app_nil_r]]].
  destruct (run N false ls C) as [[y r]|e] eqn:Er; cbn [bind fst] in H; [|discriminate]. injection H as <-.
  destruct (run_plain _ _ _ _ _ Er) as [Hy _]. split; [|split; [rewrite bare_snoc; cbn [is_loss]; apply app_nil_r|apply tags_snoc]]. repeat split.
  - apply starts_snoc; [exact Hs|discriminate].
  - apply good_snoc; [exact Hg|]. cbn [placed]. repeat split; [exact Ew|now rewrite Hc|exact Hy].
  - rewrite convs_snoc. cbn [is_conv]. lia.
  - apply van_snoc; [exact Hv|]. intros E y' rs' Hr'. rewrite E, Er in Hr'. injection Hr' as <- <-. cbn [apply_layer]. rewrite shape_refl. eexists. eexists. split; [reflexivity|].
    constructor; [|constructor]. cbn [r_val]. unfold sum_img. rewrite zero_sum; [unfold Rdiv; ring|]. intros a _. apply zero_sum. intros b _. apply zero_sum. intros i _. apply zero_sum. intros j _. ring.
Qed.
Lemma plain_inv ls n l : inv ls n -> is_loss l = false -> l <> LNorm -> inv (ls ++ [l]) (n + if is_conv l then 1 else 0)%nat.
Proof.
  intros (Hs & Hg & Hc & Hv) Hl Hn. repeat split; [now apply starts_snoc| |now rewrite convs_snoc, Hc|now apply van_plain]. apply good_snoc; [exact Hg|]. destruct l; try exact I; discriminate Hl.
Qed.
Lemma entry_inv ls n e ls' n' : inv ls n -> add_entry N S C avg sl cl ls n e = Ok (ls', n') ->
  inv ls' n' /\ bare ls' = bare ls ++ vgg_layers avg e /\ flat_map tag ls' = flat_map tag ls ++ flat_map (chosen sl cl) (seq (n + 1) (n' - n)) /\ (n <= n')%nat.
Proof.
  intros Hi H. unfold add_entry in H. unfold vgg_layers. destruct (contains "pool" (e_name e)).
  - injection H as <- <-. rewrite Nat.sub_diag. split; [|split; [apply bare_snoc|split; [apply tags_snoc|lia]]]. rewrite <- (Nat.add_0_r n). apply (plain_inv ls n (LPool avg) Hi); [reflexivity|discriminate].
  - destruct (contains "conv" (e_name e)).
    + destruct (Nat.eqb (e_kw e) (e_kh e)); [|discriminate]. destruct (add_style _ _ _ _ _) as [ls1|ex] eqn:E1; cbn [bind] in H; [|discriminate]. destruct (add_content _ _ _ _ _) as [ls2|ex] eqn:E2; cbn [bind] in H; [|discriminate]. injection H as <- <-.
      pose proof (plain_inv ls n (LConv (e_conv e)) Hi eq_refl ltac:(discriminate)) as H0. cbn [is_conv] in H0. rewrite Nat.add_1_r in H0.
      destruct (style_inv _ _ _ H0 E1) as (H1 & B1 & T1). destruct (content_inv _ _ _ H1 E2) as (H2 & B2 & T2). split; [|split; [|split; [|lia]]].
      * rewrite <- (Nat.add_0_r (Datatypes.S n)). apply (plain_inv ls2 (Datatypes.S n) LRelu H2); [reflexivity|discriminate].
      * rewrite bare_snoc, B2, B1, bare_snoc. cbn [is_loss]. now rewrite <- app_assoc.
      * rewrite tags_snoc, T2, T1, tags_snoc. cbn [tag]. rewrite !app_nil_r. replace (Datatypes.S n - n)%nat with 1%nat by lia. cbn [seq flat_map]. unfold chosen. rewrite Nat.add_1_r, app_nil_r, app_assoc. reflexivity.
    + injection H as <- <-. rewrite Nat.sub_diag. cbn [seq flat_map]. rewrite !app_nil_r. split; [exact Hi|]. repeat split; lia.
Qed.
Lemma entries_inv es : forall ls n ls', inv ls n -> add_entries N S C avg sl cl ls n es = Ok ls' ->
  inv ls' (convs ls') /\ bare ls' = bare ls ++ flat_map (vgg_layers avg) es /\ flat_map tag ls' = flat_map tag ls ++ flat_map (chosen sl cl) (seq (n + 1) (convs ls' - n)) /\ (n <= convs ls')%nat.
Proof.
  induction es as [|e es IH]; intros ls n ls' Hi H; cbn [add_entries] in H.
  - injection H as <-. assert (Hc : convs ls = n) by apply Hi. rewrite Hc, Nat.sub_diag. cbn [seq flat_map]. rewrite !app_nil_r. split; [exact Hi|]. repeat split; lia.
  - destruct (add_entry _ _ _ _ _ _ _ _ _) as [[ls1 n1]|ex] eqn:E; cbn [bind fst snd] in H; [|discriminate]. destruct (entry_inv _ _ _ _ _ Hi E) as (H1 & B1 & T1 & L1). destruct (IH _ _ _ H1 H) as (H2 & B2 & T2 & L2).
    split; [exact H2|]. split; [rewrite B2, B1; cbn [flat_map]; now rewrite app_assoc|]. split; [|lia]. rewrite T2, T1, <- app_assoc, <- flat_map_app. f_equal. f_equal.
    replace (convs ls' - n)%nat with ((n1 - n) + (convs ls' - n1))%nat by lia. rewrite seq_app. replace (n + 1 + (n1 - n))%nat with (n1 + 1)%nat by lia. reflexivity.
Qed.
Lemma start_inv : inv [LNorm] 0.
Proof.
  repeat split; [exists []; split; [reflexivity|constructor]| |].
  - intros pre l post H. destruct pre as [|p pre]; [injection H as <- _; exact I|]. destruct pre; discriminate H.
  - intros _. eexists. eexists. split; [reflexivity|constructor].
Qed.
End Run.
(** ** cutting *)
Lemma cut_spec rl : rl <> [] -> exists post, rl = post ++ cut rl /\ (Forall (fun l => is_loss l = false) post) /\ (exists l rest, cut rl = l :: rest /\ (is_loss l = true \/ rest = [])).
Proof.
  induction rl as [|l rl IH]; intros H; [congruence|]. destruct rl as [|m rl].
  - exists []. split; [reflexivity|]. split; [constructor|]. exists l, []. split; [reflexivity|now right].
  - destruct (is_loss l) eqn:E.
    + exists []. replace (cut (l :: m :: rl)) with (l :: m :: rl) by (cbn [cut]; now rewrite E). split; [reflexivity|]. split; [constructor|]. exists l, (m :: rl). split; [reflexivity|now left].
    + replace (cut (l :: m :: rl)) with (cut (m :: rl)) by (cbn [cut]; now rewrite E). destruct (IH ltac:(discriminate)) as (post & H1 & H2 & H3). exists (l :: post). split; [cbn [app]; now rewrite <- H1|]. split; [now constructor|exact H3].
Qed.
Lemma cut_rev ls : ls <> [] -> exists post, ls = rev (cut (rev ls)) ++ post /\ Forall (fun l => is_loss l = false) post /\ (ls = rev (cut (rev ls)) ++ post -> (length (rev (cut (rev ls))) = 1%nat \/ exists a l, rev (cut (rev ls)) = a ++ [l] /\ is_loss l = true)).
Proof.
  intros H. destruct (cut_spec (rev ls)) as (post & H1 & H2 & l & rest & H3 & H4).
  { intros E. apply H. rewrite <- (rev_involutive ls), E. reflexivity. }
  exists (rev post). split; [rewrite <- rev_app_distr, <- H1; symmetry; apply rev_involutive|]. split; [apply Forall_forall; intros x Hx; rewrite Forall_forall in H2; apply H2; now apply in_rev|].
  intros _. rewrite H3. cbn [rev]. destruct H4 as [H4| ->]; [right; now exists (rev rest), l|left; reflexivity].
Qed.
Lemma no_tags post : Forall (fun l => is_loss l = false) post -> flat_map tag post = [].
Proof. induction 1 as [|l post Hl Hp IH]; [reflexivity|]. cbn [flat_map]. rewrite IH. destruct l; try reflexivity; discriminate Hl. Qed.
Section Vgg.
Variables (N : net) (S C : img) (sl cl : nat -> option R) (pooling : string) (es : list entry) (ls : list layer).
Hypothesis H : augmented_vgg19 N S C sl cl pooling es = Ok ls.
Lemma vgg_full : (pooling = "avg" \/ pooling = "max")%string /\ exists full post, full = ls ++ post /\ Forall (fun l => is_loss l = false) post /\ (length ls = 1%nat \/ exists a l, ls = a ++ [l] /\ is_loss l = true)
  /\ inv N S C sl cl full (convs full) /\ bare full = LNorm :: flat_map (vgg_layers (String.eqb pooling "avg")) es /\ flat_map tag full = flat_map (chosen sl cl) (seq 1 (convs full)).
Proof.
  unfold augmented_vgg19 in H. destruct (String.eqb pooling "avg" || String.eqb pooling "max")%bool eqn:E; [|discriminate H]. split.
  { apply Bool.orb_true_iff in E. destruct E as [E|E]; apply String.eqb_eq in E; tauto. }
  destruct (add_entries _ _ _ _ _ _ _ _ _) as [full|ex] eqn:Ef; cbn [bind] in H; [|discriminate H]. injection H as Hl.
  destruct (entries_inv N S C _ sl cl es [LNorm] 0 full (start_inv N S C sl cl) Ef) as (Hi & Hb & Ht & _). assert (Hne : full <> []) by (destruct Hi as ((rest & -> & _) & _); discriminate).
  destruct (cut_rev full Hne) as (post & H1 & H2 & H3). exists full, post. rewrite <- Hl. split; [exact H1|]. split; [exact H2|]. split; [exact (H3 H1)|]. split; [exact Hi|]. split; [exact Hb|]. rewrite Ht, Nat.sub_0_r. reflexivity.
Qed.
Lemma vgg_starts : starts ls.
Proof.
  destruct vgg_full as (_ & full & post & E & _ & Hne & ((rest & Hs & Hr) & _) & _). destruct ls as [|l m] eqn:El.
  - exfalso. destruct Hne as [Hne|(a & l & Hne & _)]; [discriminate Hne|]. destruct a; discriminate Hne.
  - rewrite E in Hs. cbn [app] in Hs. injection Hs as -> <-. exists m. split; [reflexivity|]. apply Forall_app in Hr. apply Hr.
Qed.
Lemma vgg_good : good N S C sl cl ls.
Proof. destruct vgg_full as (_ & full & post & E & _ & _ & (_ & Hg & _) & _). intros pre l q Hl. apply (Hg pre l (q ++ post)). now rewrite E, Hl, <- app_assoc. Qed.
Lemma vgg_zero : S = C -> tracked N = S -> forall x, exists y rs, run N true ls x = Ok (y, rs) /\ Forall (fun r => r_val r = 0) rs.
Proof.
  intros E Et x. rewrite (run_train N ls x vgg_starts), Et. destruct vgg_full as (_ & full & post & Ef & _ & _ & (_ & _ & _ & Hv) & _). destruct (Hv E) as (y & rs & Hr & Hz). rewrite Ef, run_app in Hr.
  destruct (run N false ls S) as [[z s]|e]; cbn [bind fst snd] in Hr; [|discriminate Hr]. destruct (run N false post z) as [[w t]|e]; cbn [bind fst snd] in Hr; [|discriminate Hr]. injection Hr as <- <-.
  exists z, s. split; [reflexivity|]. apply Forall_app in Hz. apply Hz.
Qed.
End Vgg.
(** ** sums of losses *)
Lemma fold_plus l : forall a, fold_left Rplus l a = a + sumR l (fun v => v).
Proof. induction l as [|x l IH]; intros a; cbn [fold_left sumR]; [ring|]. rewrite IH. ring. Qed.
Lemma reduce_sum l v : reduce_loss_tree l = Ok v -> v = sumR l (fun v => v).
Proof. destruct l as [|x l]; [discriminate|]. cbn [reduce_loss_tree]. intros H. injection H as <-. rewrite fold_plus. reflexivity. Qed.
Lemma reduce_some l : l <> [] -> exists v, reduce_loss_tree l = Ok v.
Proof. destruct l; [congruence|]. intros _. eexists. reflexivity. Qed.
Lemma split_sum wc ws rs : sumR (weighted_loss wc ws rs) (fun v => v) = wc * sumR (map r_val (filter (fun r => negb (r_style r)) rs)) (fun v => v) + ws * sumR (map r_val (filter r_style rs)) (fun v => v).
Proof. induction rs as [|r rs IH]; cbn [weighted_loss map filter sumR]; [ring|]. fold (weighted_loss wc ws rs). rewrite IH. destruct (r_style r); cbn [negb map sumR]; ring. Qed.
Lemma apply_nonneg N tr l x y r : apply_layer N tr l x = Ok (y, r) -> match l with LStyle _ _ w _ | LContent _ w _ => 0 <= w | _ => True end -> Forall (fun q => 0 <= r_val q) r.
Proof.
  destruct l; cbn [apply_layer]; intros H Hw; try (injection H as <- <-; constructor).
  - destruct (gram_matrix x) as [g|e]; cbn [bind] in H; [|discriminate]. destruct (Nat.eqb _ _); [|discriminate]. injection H as <- <-. constructor; [|constructor]. cbn [r_val]. apply Rmult_le_pos; [exact Hw|]. apply div_nonneg; [|apply pos_INR].
    apply sumN_nonneg. intros a _. apply sumN_nonneg. intros b _. apply pow2_ge_0.
  - destruct (same_shape x target); [|discriminate]. injection H as <- <-. constructor; [|constructor]. cbn [r_val]. apply Rmult_le_pos; [exact Hw|]. apply div_nonneg; [|apply size_pos].
    repeat (apply sumN_nonneg; intros ? _). apply pow2_ge_0.
Qed.
Close Scope R_scope.
