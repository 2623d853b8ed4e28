(** * Model of jax_am/fem/experiments/sparsejac.py, and of to_data_frame (jax_am/common.py).
    Definitions only. Not modelled: the auxiliary output (has_aux), single precision of the
    projection, and the checks on the kind of the arguments (lines 50-60 and 154-164). *)
From Verif Require Import Prelude FemModel.
Open Scope R_scope.

(** A BCOO matrix: its shape and its stored entries ((row, column), value). *)
Record bcoo : Type := mkBcoo { nrows : nat; ncols : nat; entries : list ((nat * nat) * R) }.
(** what the sparse matrix stands for: repeated positions add up *)
Definition todense (s : bcoo) (i j : nat) : R :=
  sumR (entries s) (fun e => if Nat.eqb (fst (fst e)) i && Nat.eqb (snd (fst e)) j then snd e else 0).
(** _output_connectivity_from_sparsity, 213-225, _input_connectivity_from_sparsity, 228-240:
    the entries of the product that are not zero *)
Definition output_connectivity (s : bcoo) (i k : nat) : bool :=
  negb (Reqb (sumN (ncols s) (fun j => todense s i j * todense s k j)) 0).
Definition input_connectivity (s : bcoo) (j l : nat) : bool :=
  negb (Reqb (sumN (nrows s) (fun i => todense s i j * todense s i l)) 0).

(** networkx greedy_color without interchange: in the order of the strategy each node gets the least
    colour not used by its coloured neighbours. Colours are kept as an association list. *)
Fixpoint colour_of (colours : list (nat * nat)) (v : nat) : option nat :=
  match colours with
  | [] => None
  | (u, c) :: r => if Nat.eqb u v then Some c else colour_of r v
  end.
Definition used_by_neighbours (adj : nat -> nat -> bool) (colours : list (nat * nat)) (u : nat) : list nat :=
  map snd (filter (fun vc => adj u (fst vc)) colours).
(** the least number not in l: one of 0 .. length l *)
Definition least_free (l : list nat) : nat :=
  match find (fun c => negb (existsb (Nat.eqb c) l)) (seq 0 (S (length l))) with Some c => c | None => 0%nat end.
Definition greedy (adj : nat -> nat -> bool) (order : list nat) : list (nat * nat) :=
  fold_left (fun colours u => colours ++ [(u, least_free (used_by_neighbours adj colours u))]) order [].
(** _greedy_color, 243-261, for the nodes 0 .. n-1; [order] is the strategy's order. Unpacking the
    items of an empty dictionary raises ValueError. *)
Definition greedy_color (adj : nat -> nat -> bool) (n : nat) (order : list nat) : res ((nat -> nat) * nat) :=
  match n with
  | 0%nat => Err ValueError
  | _ => let cd := greedy adj order in
         let coloring := fun v => match colour_of cd v with Some c => c | None => 0%nat end in
         Ok (coloring, length (nodup Nat.eq_dec (map coloring (seq 0 n))))
  end.

(** ** jacrev, 17-112. [jac] is jax.jacrev: it maps a function of a vector and a point to the matrix
    of its derivatives. [x] has n components, [fn x] has m. *)
Definition vect : Type := nat -> R.
Definition projection (coloring : nat -> nat) (c i : nat) : R := if Nat.eqb c (coloring i) then 1 else 0.
(** the compressed matrix has a row (column) for each of the ncolors colours; jax clamps an index past
    the end *)
Definition clamp (ncolors c : nat) : nat := Nat.min c (ncolors - 1).
(** _expand_jacrev_jac, 264-285, _expand_jacfwd_jac, 288-309 *)
Definition expand_jacrev (compressed : nat -> nat -> R) (coloring : nat -> nat) (ncolors : nat) (s : bcoo) : bcoo :=
  mkBcoo (nrows s) (ncols s) (map (fun e => (fst e, compressed (clamp ncolors (coloring (fst (fst e)))) (snd (fst e)))) (entries s)).
Definition expand_jacfwd (compressed : nat -> nat -> R) (coloring : nat -> nat) (ncolors : nat) (s : bcoo) : bcoo :=
  mkBcoo (nrows s) (ncols s) (map (fun e => (fst e, compressed (fst (fst e)) (clamp ncolors (coloring (snd (fst e)))))) (entries s)).
Definition jacrev (jac : (vect -> vect) -> vect -> nat -> nat -> R) (order : list nat) (fn : vect -> vect) (s : bcoo) (n m : nat) (x : vect) : res bcoo :=
  bind (greedy_color (output_connectivity s) (nrows s) order) (fun col =>
  if negb (Nat.eqb n (ncols s)) then Err ValueError
  else if negb (Nat.eqb m (nrows s)) then Err ValueError
  else
    let projected x c := sumN (nrows s) (fun i => projection (fst col) c i * fn x i) in
    Ok (expand_jacrev (jac projected x) (fst col) (snd col) s)).
(** jacfwd, 115-205. [jvp f x t] is the second result of jax.jvp *)
Definition jacfwd (jvp : (vect -> vect) -> vect -> vect -> vect) (order : list nat) (fn : vect -> vect) (s : bcoo) (n m : nat) (x : vect) : res bcoo :=
  bind (greedy_color (input_connectivity s) (ncols s) order) (fun col =>
  if negb (Nat.eqb n (ncols s)) then Err ValueError
  else if negb (Nat.eqb m (nrows s)) then Err ValueError
  else
    let basis c j := projection (fst col) c j in
    Ok (expand_jacfwd (fun i c => jvp fn x (basis c) i) (fst col) (snd col) s)).

(** ** to_data_frame, common.py:91-130. A solution file is the step number in its name and its point
    fields, of which only the number matters here. [files] is the listing of the directory, [rnd] is
    round(., 8), [npts] the number of mesh points. A row is (file, point, time). *)
Record vtu : Type := mkVtu { step_number : nat; num_fields : nat }.
Fixpoint frame_rows (rnd : R -> R) (dt : R) (npts stepsave : nat) (k i : nat) (files : list vtu) : list (nat * nat * R) :=
  match files with
  | [] => []
  | f :: r =>
    let time := rnd (INR i * INR stepsave * dt) in
    (if Nat.eqb (num_fields f) 0 then [] else map (fun p => (k, p, time)) (seq 0 npts))
    ++ frame_rows rnd dt npts stepsave (S k) (i + num_fields f) r
  end.
Definition to_data_frame (rnd : R -> R) (dt : R) (npts : nat) (files : list vtu) : res (list (nat * nat * R)) :=
  match nth_error files 1 with
  | None => Err IndexError
  | Some f1 =>
    let rows := frame_rows rnd dt npts (step_number f1) 0 0 files in
    (* pd.concat of no frames *)
    if forallb (fun f => Nat.eqb (num_fields f) 0) files then Err ValueError else Ok rows
  end.
Close Scope R_scope.
