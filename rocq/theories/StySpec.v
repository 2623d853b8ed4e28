(** * Vocabulary for the statements about the style loss. *)
From Coq Require Import String.
From Verif Require Import Prelude FemModel StyModel.
Open Scope R_scope.
Open Scope list_scope.

(** the network without its loss layers *)
Definition pass (N : net) (tr : bool) (x : img) (l : layer) : img :=
  match l with
  | LNorm => normalize N tr x
  | LPool avg => (if avg then avg_pool N else max_pool N) x
  | LConv f => f x
  | LRelu => relu N x
  | _ => x
  end.
Definition plain (N : net) (tr : bool) (ls : list layer) (x : img) : img := fold_left (pass N tr) ls x.
Definition is_conv (l : layer) : bool := match l with LConv _ => true | _ => false end.
Definition convs (ls : list layer) : nat := length (filter is_conv ls).
(** the layers that an entry of the file stands for *)
Definition vgg_layers (avg : bool) (e : entry) : list layer :=
  if contains "pool" (e_name e) then [LPool avg] else if contains "conv" (e_name e) then [LConv (e_conv e); LRelu] else [].
(** kind and number of the loss layers *)
Definition tag (l : layer) : list (bool * nat) := match l with LStyle _ _ _ n => [(true, n)] | LContent _ _ n => [(false, n)] | _ => [] end.
Definition chosen (style_layers content_layers : nat -> option R) (n : nat) : list (bool * nat) :=
  (match style_layers n with Some _ => [(true, n)] | None => [] end) ++ (match content_layers n with Some _ => [(false, n)] | None => [] end).
(** the image upside down and from right to left *)
Definition mirror_v (x : img) : img := mkImg (i_n x) (i_c x) (i_h x) (i_w x) (fun n c i j => i_val x n c (i_h x - 1 - i)%nat j).
Definition mirror_h (x : img) : img := mkImg (i_n x) (i_c x) (i_h x) (i_w x) (fun n c i j => i_val x n c i (i_w x - 1 - j)%nat).
Close Scope R_scope.
