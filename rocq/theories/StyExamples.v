(** * A network of two convolutions on images of one pixel. *)
From Coq Require Import String Lra Lia.
From Verif Require Import Prelude PreludeFacts FemModel FemFacts StyModel StySpec StyProofs.
Open Scope R_scope.
Open Scope list_scope.

Definition pix (v : R) : img := mkImg 1 1 1 1 (fun _ _ _ _ => v).
Definition times (k : R) (x : img) : img := mkImg (i_n x) (i_c x) (i_h x) (i_w x) (fun n c i j => k * i_val x n c i j).
Definition positive (x : img) : img := mkImg (i_n x) (i_c x) (i_h x) (i_w x) (fun n c i j => Rmax 0 (i_val x n c i j)).
Definition net1 (t : R) : net := mkNet (fun x => x) (fun x => x) positive (fun _ => 0) (fun _ => 1) (pix t).
Definition file : list entry := [mkEntry "block1_conv1" 3 3 (times 2); mkEntry "block1_pool" 0 0 (fun x => x); mkEntry "block2_conv1" 3 3 (times 2); mkEntry "block2_pool" 0 0 (fun x => x); mkEntry "input_1" 0 0 (fun x => x)].
Definition st1 (n : nat) : option R := if Nat.eqb n 1 then Some 10 else None.
Definition co2 (n : nat) : option R := if Nat.eqb n 2 then Some (1 / 10) else None.
Ltac net_cbv := cbv beta iota zeta delta [Nat.eqb add_style st1 co2 add_content run apply_layer bind fst snd app gram_matrix same_shape i_n i_c i_h i_w i_val normalize pix times positive net1 avg_pool max_pool relu n_mean n_std tracked andb e_kh e_kw e_conv].
Definition ls1 (s : R) : list layer :=
  [LNorm; LConv (times 2); LStyle 1 (fun a b => sumN 1 (fun i => sumN 1 (fun j => 2 * ((s - 0) / 1) * (2 * ((s - 0) / 1)))) / INR 1) 10 1; LRelu; LPool false; LConv (times 2);
   LContent (times 2 (positive (times 2 (mkImg 1 1 1 1 (fun _ _ _ _ => (s - 0) / 1))))) (1 / 10) 2].
Lemma names : map (fun e => (contains "pool" (e_name e), contains "conv" (e_name e))) file = [(false, true); (true, false); (false, true); (true, false); (false, false)].
Proof. reflexivity. Qed.
Lemma step_conv N S C sl cl ls n e ls1 ls2 : contains "pool" (e_name e) = false -> contains "conv" (e_name e) = true -> e_kw e = e_kh e ->
  add_style N S sl (ls ++ [LConv (e_conv e)]) (Datatypes.S n) = Ok ls1 -> add_content N C cl ls1 (Datatypes.S n) = Ok ls2 -> add_entry N S C false sl cl ls n e = Ok (ls2 ++ [LRelu], Datatypes.S n).
Proof. intros H1 H2 H3 H4 H5. unfold add_entry. rewrite H1, H2, H3, Nat.eqb_refl, H4. cbn [bind]. rewrite H5. reflexivity. Qed.
Lemma built t s : augmented_vgg19 (net1 t) (pix s) (pix s) st1 co2 "max" file = Ok (ls1 s).
Proof.
  unfold augmented_vgg19. change (String.eqb "max" "avg" || String.eqb "max" "max")%bool with true. change (String.eqb "max" "avg") with false. cbv iota. unfold file. cbn [add_entries].
  rewrite (step_conv (net1 t) (pix s) (pix s) st1 co2 [LNorm] 0 _ (firstn 3 (ls1 s)) (firstn 3 (ls1 s))); [|reflexivity|reflexivity|reflexivity|net_cbv; reflexivity|reflexivity].
  cbn [bind fst snd]. unfold add_entry at 1. change (contains "pool" (e_name (mkEntry "block1_pool" 0 0 (fun x => x)))) with true. cbn [bind fst snd].
  rewrite (step_conv (net1 t) (pix s) (pix s) st1 co2 _ 1 _ (firstn 6 (ls1 s)) (ls1 s)); [|reflexivity|reflexivity|reflexivity|reflexivity|net_cbv; unfold ls1; cbn [firstn]; net_cbv; reflexivity].
  cbn [bind fst snd]. unfold add_entry. change (contains "pool" (e_name (mkEntry "block2_pool" 0 0 (fun x => x)))) with true. cbn [bind fst snd].
  change (contains "pool" (e_name (mkEntry "input_1" 0 0 (fun x => x)))) with false. change (contains "conv" (e_name (mkEntry "input_1" 0 0 (fun x => x)))) with false. cbn [bind fst snd]. reflexivity.
Qed.
Lemma ran t s : 0 <= t -> 0 <= s -> exists y a b, run (net1 t) true (ls1 s) (pix 5) = Ok (y, [mkRec true 1 a; mkRec false 2 b]) /\ a = 10 * (4 * t ^ 2 - 4 * s ^ 2) ^ 2 /\ b = 1 / 10 * (4 * t - 4 * s) ^ 2.
Proof.
  intros Ht Hs. eexists. eexists. eexists. split; [unfold ls1; net_cbv; reflexivity|]. unfold sum_img, size, sumN. cbn [i_h i_w i_c i_n i_val seq sumR Nat.mul Nat.add INR].
  rewrite !Rmax_right by (unfold Rdiv; lra). split; field.
Qed.
Close Scope R_scope.
