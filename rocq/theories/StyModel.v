(** * applications/fem/aesthetic (modules.py, models.py, tree_utils.py, image_utils.py, style_loss.py): the style loss of a design. *)
From Coq Require Import String.
From Verif Require Import Prelude FemModel.
Open Scope R_scope.
Open Scope list_scope.

(** an array in N-C-H-W format *)
Record img := mkImg { i_n : nat; i_c : nat; i_h : nat; i_w : nat; i_val : nat -> nat -> nat -> nat -> R }.
(** sum over all entries; jnp.mean divides by their number *)
Definition sum_img (s : img) (f : nat -> nat -> nat -> nat -> R) : R :=
  sumN (i_n s) (fun n => sumN (i_c s) (fun c => sumN (i_h s) (fun i => sumN (i_w s) (fun j => f n c i j)))).
Definition size (s : img) : R := INR (i_n s * i_c s * i_h s * i_w s).
(** gram_matrix, modules.py:12-23; reshape of one batch to c rows: row c holds the h * w pixels of channel c *)
Definition gram_matrix (x : img) : res (nat -> nat -> R) :=
  if Nat.eqb (i_n x) 1 then
    Ok (fun a b => sumN (i_h x) (fun i => sumN (i_w x) (fun j => i_val x 0%nat a i j * i_val x 0%nat b i j)) / size x)
  else Err AssertionError.
(** layers of the network; a loss layer keeps its target, its weight and the number of its convolution.
    The weights of a convolution and its biases are inside the function. *)
Inductive layer : Type :=
| LNorm
| LPool (avg : bool)
| LConv (f : img -> img)
| LRelu
| LStyle (channels : nat) (target_g : nat -> nat -> R) (weight : R) (n : nat)
| LContent (target : img) (weight : R) (n : nat).
(** a loss set by hk.set_state: is it a style loss, of which convolution, its value *)
Record rec := mkRec { r_style : bool; r_num : nat; r_val : R }.
(** haiku's pooling layers, the activation, the statistics of the normalisation and the image it tracks *)
Record net := mkNet { avg_pool : img -> img; max_pool : img -> img; relu : img -> img; n_mean : nat -> R; n_std : nat -> R; tracked : img }.
(** Normalization.__call__, modules.py:75-88 *)
Definition normalize (N : net) (is_training : bool) (x : img) : img :=
  let out := if is_training then tracked N else x in
  mkImg (i_n out) (i_c out) (i_h out) (i_w out) (fun n c i j => (i_val out n c i j - n_mean N c) / n_std N c).
(** one layer: StyleLoss.__call__ (modules.py:34-40), ContentLoss.__call__ (51-55). Arrays of different shapes are
    an error here; numpy would repeat an axis of length one. *)
Definition same_shape (x y : img) : bool := Nat.eqb (i_n x) (i_n y) && Nat.eqb (i_c x) (i_c y) && Nat.eqb (i_h x) (i_h y) && Nat.eqb (i_w x) (i_w y).
Definition apply_layer (N : net) (tr : bool) (l : layer) (x : img) : res (img * list rec) :=
  match l with
  | LNorm => Ok (normalize N tr x, [])
  | LPool avg => Ok ((if avg then avg_pool N else max_pool N) x, [])
  | LConv f => Ok (f x, [])
  | LRelu => Ok (relu N x, [])
  | LStyle c tg w n =>
      bind (gram_matrix x) (fun g =>
      if Nat.eqb (i_c x) c then
        Ok (x, [mkRec true n (w * (sumN c (fun a => sumN c (fun b => (g a b - tg a b) ^ 2)) / INR (c * c)))])
      else Err TypeError)
  | LContent t w n =>
      if same_shape x t then Ok (x, [mkRec false n (w * (sum_img x (fun n c i j => (i_val x n c i j - i_val t n c i j) ^ 2) / size x))])
      else Err TypeError
  end.
(** hk.Sequential.__call__; the state collects the losses in the order of the layers *)
Fixpoint run (N : net) (tr : bool) (ls : list layer) (x : img) : res (img * list rec) :=
  match ls with
  | [] => Ok (x, [])
  | l :: ls' => bind (apply_layer N tr l x) (fun yr => bind (run N tr ls' (fst yr)) (fun zs => Ok (fst zs, snd yr ++ snd zs)))
  end.
(** an entry of the file of weights: its name, the sides of the kernel, the convolution *)
Record entry := mkEntry { e_name : string; e_kh : nat; e_kw : nat; e_conv : img -> img }.
Definition contains (s k : string) : bool := match String.index 0 s k with Some _ => true | None => false end.
(** the loop of augmented_vgg19, models.py:86-140; style_layers and content_layers give the weight of "conv_n" by n *)
Section Build.
Variables (N : net) (style_image content_image : img) (avg : bool) (style_layers content_layers : nat -> option R).
Definition add_style (ls : list layer) (n : nat) : res (list layer) :=
  match style_layers n with
  | None => Ok ls
  | Some w => bind (run N false ls style_image) (fun yr => bind (gram_matrix (fst yr)) (fun g => Ok (ls ++ [LStyle (i_c (fst yr)) g w n])))
  end.
Definition add_content (ls : list layer) (n : nat) : res (list layer) :=
  match content_layers n with
  | None => Ok ls
  | Some w => bind (run N false ls content_image) (fun yr => Ok (ls ++ [LContent (fst yr) w n]))
  end.
Definition add_entry (ls : list layer) (n : nat) (e : entry) : res (list layer * nat) :=
  if contains "pool" (e_name e) then Ok (ls ++ [LPool avg], n)
  else if contains "conv" (e_name e) then
    if Nat.eqb (e_kw e) (e_kh e) then
      bind (add_style (ls ++ [LConv (e_conv e)]) (S n)) (fun ls1 =>
      bind (add_content ls1 (S n)) (fun ls2 => Ok (ls2 ++ [LRelu], S n)))
    else Err AssertionError
  else Ok (ls, n).
Fixpoint add_entries (ls : list layer) (n : nat) (es : list entry) : res (list layer) :=
  match es with
  | [] => Ok ls
  | e :: es' => bind (add_entry ls n e) (fun s => add_entries (fst s) (snd s) es')
  end.
End Build.
(** 145-153: cut after the last loss layer; without one the loop ends with n = 0 *)
Definition is_loss (l : layer) : bool := match l with LStyle _ _ _ _ | LContent _ _ _ => true | _ => false end.
Fixpoint cut (rev_ls : list layer) : list layer :=
  match rev_ls with
  | [] => []
  | [l] => [l]
  | l :: ls => if is_loss l then rev_ls else cut ls
  end.
Definition augmented_vgg19 (N : net) (style_image content_image : img) (style_layers content_layers : nat -> option R) (pooling : string) (es : list entry) : res (list layer) :=
  if String.eqb pooling "avg" || String.eqb pooling "max" then
    bind (add_entries N style_image content_image (String.eqb pooling "avg") style_layers content_layers [LNorm] 0 es) (fun ls => Ok (rev (cut (rev ls))))
  else Err ValueError.
(** tree_utils.py: tree_reduce without an initial value fails on an empty tree *)
Definition reduce_loss_tree (vs : list R) : res R := match vs with [] => Err TypeError | v :: vs' => Ok (fold_left Rplus vs' v) end.
Definition weighted_loss (wc ws : R) (rs : list rec) : list R := map (fun r => (if r_style r then ws else wc) * r_val r) rs.
Definition calculate_losses (wc ws : R) (rs : list rec) : res (R * R) :=
  bind (reduce_loss_tree (map r_val (filter (fun r => negb (r_style r)) rs))) (fun c =>
  bind (reduce_loss_tree (map r_val (filter r_style rs))) (fun s => Ok (wc * c, ws * s))).
(** loss, style_loss.py:82-101; smooth_loss returns 0 (line 79). style_transfer reads both images from one file. *)
Definition loss (N : net) (wc ws : R) (ls : list layer) (input : img) : res R :=
  bind (run N true ls input) (fun zr => bind (reduce_loss_tree (weighted_loss wc ws (snd zr))) (fun v => Ok (v + 0))).
(** a pixel of load_image, image_utils.py:27-36 *)
Definition load_pixel (reverse : bool) (byte : R) : R :=
  let v := byte / 255 in let v := if Rltb v (1 / 2) then 0 else 1 in let v := Rmax 0 (Rmin 1 v) in if reverse then 1 - v else v.
Close Scope R_scope.
