(** * Python / numpy vocabulary shared by all models

    This file contains definitions only.  Nothing in it mirrors a function of
    the repository; it fixes how the Python, numpy and JAX primitives used by
    the repository are read. *)
From Coq Require Export List Arith ZArith Lia Bool.
From Coq Require Export Reals.
Export ListNotations.

(** ** Exceptions as values *)
Inductive exn : Type :=
| ZeroDivisionError
| AssertionError
| ValueError
| IndexError
| AttributeError
| UnboundLocalError
| NameError
| NotImplementedError
| TypeError
| KeyError
| LinAlgError.

Inductive res (A : Type) : Type :=
| Ok (a : A)
| Err (e : exn).
Arguments Ok {A} a.
Arguments Err {A} e.

Definition bind {A B : Type} (m : res A) (f : A -> res B) : res B :=
  match m with Ok a => f a | Err e => Err e end.

(** Monadic map over a list, stopping at the first exception. *)
Fixpoint mapM {A B : Type} (f : A -> res B) (l : list A) : res (list B) :=
  match l with
  | [] => Ok []
  | x :: r => bind (f x) (fun y => bind (mapM f r) (fun ys => Ok (y :: ys)))
  end.

(** ** C-order arrays as functions with an explicit shape

    [arr2 n1 n2] and [arr3 n1 n2 n3] style arrays are represented by their
    element function; the shape is carried separately.  [flat2]/[flat3] is
    [reshape(-1)] (C order: last index fastest). *)
Definition flat2 {A : Type} (n1 n2 : nat) (f : nat -> nat -> A) : list A :=
  flat_map (fun i => map (fun j => f i j) (seq 0 n2)) (seq 0 n1).

Definition flat3 {A : Type} (n1 n2 n3 : nat) (f : nat -> nat -> nat -> A) : list A :=
  flat_map (fun i => flat2 n2 n3 (f i)) (seq 0 n1).

(** A three-dimensional array with its shape. *)
Record arr3 (A : Type) : Type := mkArr3
  { d1 : nat; d2 : nat; d3 : nat; at3 : nat -> nat -> nat -> A }.
Arguments mkArr3 {A}. Arguments d1 {A}. Arguments d2 {A}. Arguments d3 {A}. Arguments at3 {A}.

Record arr2 (A : Type) : Type := mkArr2
  { e1 : nat; e2 : nat; at2 : nat -> nat -> A }.
Arguments mkArr2 {A}. Arguments e1 {A}. Arguments e2 {A}. Arguments at2 {A}.

(** [l.reshape(n1,n2,n3)] of a flat list (C order); [dflt] is only returned
    outside the shape. *)
Definition reshape3 {A : Type} (dflt : A) (n1 n2 n3 : nat) (l : list A) : arr3 A :=
  mkArr3 n1 n2 n3 (fun i j k => nth (i * (n2 * n3) + j * n3 + k) l dflt).

Definition reshape2 {A : Type} (dflt : A) (n1 n2 : nat) (l : list A) : arr2 A :=
  mkArr2 n1 n2 (fun i j => nth (i * n2 + j) l dflt).

Definition ravel3 {A : Type} (a : arr3 A) : list A := flat3 (d1 a) (d2 a) (d3 a) (at3 a).
Definition ravel2 {A : Type} (a : arr2 A) : list A := flat2 (e1 a) (e2 a) (at2 a).

(** The two basic slices used on mesh index arrays: [:-1] and [1:]. *)
Inductive sl := Init | Tail.
Definition sl_len (s : sl) (n : nat) : nat := n - 1.
Definition sl_off (s : sl) : nat := match s with Init => 0 | Tail => 1 end.

Definition slice3 {A : Type} (s1 s2 s3 : sl) (a : arr3 A) : arr3 A :=
  mkArr3 (sl_len s1 (d1 a)) (sl_len s2 (d2 a)) (sl_len s3 (d3 a))
         (fun i j k => at3 a (i + sl_off s1) (j + sl_off s2) (k + sl_off s3)).

Definition slice2 {A : Type} (s1 s2 : sl) (a : arr2 A) : arr2 A :=
  mkArr2 (sl_len s1 (e1 a)) (sl_len s2 (e2 a))
         (fun i j => at2 a (i + sl_off s1) (j + sl_off s2)).

(** [numpy.stack(arrays, axis=-1)] of equally shaped arrays: the new last axis
    enumerates the arrays. *)
Definition stack3 {A : Type} (l : list (arr3 A)) : arr3 (list A) :=
  match l with
  | [] => mkArr3 0 0 0 (fun _ _ _ => [])
  | a :: _ => mkArr3 (d1 a) (d2 a) (d3 a) (fun i j k => map (fun b => at3 b i j k) l)
  end.

Definition stack2 {A : Type} (l : list (arr2 A)) : arr2 (list A) :=
  match l with
  | [] => mkArr2 0 0 (fun _ _ => [])
  | a :: _ => mkArr2 (e1 a) (e2 a) (fun i j => map (fun b => at2 b i j) l)
  end.

(** ** Real-valued helpers *)
Open Scope R_scope.

(** [numpy.linspace(a, b, num)] over the reals. With [num = 1] numpy returns
    [[a]]; the division by [INR 0] is then multiplied by [INR 0]. *)
Definition linspace (a b : R) (num : nat) : list R :=
  map (fun i => a + INR i * ((b - a) / INR (num - 1))) (seq 0 num).

(** Finite sums over a list. *)
Fixpoint sumR {A : Type} (l : list A) (f : A -> R) : R :=
  match l with
  | [] => 0
  | x :: r => f x + sumR r f
  end.

Definition sum_list (l : list R) : R := sumR l (fun x => x).

(** Boolean comparisons on reals ([numpy.where] conditions). *)
Definition Rltb (x y : R) : bool := if Rlt_dec x y then true else false.
Definition Rleb (x y : R) : bool := if Rle_dec x y then true else false.
Definition Reqb (x y : R) : bool := if Req_EM_T x y then true else false.

Definition b2R (b : bool) : R := if b then 1 else 0.

(** [numpy.clip(x, lo, hi)] = minimum(maximum(x, lo), hi). *)
Definition clipR (x lo hi : R) : R := Rmin (Rmax x lo) hi.
Definition clipZ (x lo hi : Z) : Z := Z.min (Z.max x lo) hi.

(** JAX array indexing with a possibly negative or too large index:
    negative indices are normalised by adding the length once, then the index
    is clamped to the valid range (JAX gather, default mode). *)
Definition jax_index (n i : Z) : Z :=
  let j := if (i <? 0)%Z then (i + n)%Z else i in
  clipZ j 0 (n - 1).

(** List update [l.at[i].set(v)] / [l[i] = v] for an index in range; out of
    range updates are dropped (JAX scatter semantics). *)
Fixpoint upd {A : Type} (l : list A) (i : nat) (v : A) : list A :=
  match l, i with
  | [], _ => []
  | _ :: r, O => v :: r
  | x :: r, S i' => x :: upd r i' v
  end.

(** Indices (ascending) at which a boolean test holds: [argwhere(...).reshape(-1)]. *)
Fixpoint argwhere_from {A : Type} (p : A -> bool) (l : list A) (i : nat) : list nat :=
  match l with
  | [] => []
  | x :: r => if p x then i :: argwhere_from p r (S i) else argwhere_from p r (S i)
  end.
Definition argwhere {A : Type} (p : A -> bool) (l : list A) : list nat := argwhere_from p l 0.

Close Scope R_scope.
