(** * Vocabulary for the properties of mma.py. Definitions only. *)
From Verif Require Import Prelude FemModel MmaModel.
Open Scope R_scope.

(** numpy.linalg.solve: a returned vector solves the system; it raises only for a singular matrix *)
Definition solves (k : nat) (A : mtx) (x b : vct) : Prop := forall i, (i < k)%nat -> sumN k (fun j => A i j * x j) = b i.
Definition singular (k : nat) (A : mtx) : Prop := exists v, (exists i, (i < k)%nat /\ v i <> 0) /\ solves k A v (fun _ => 0).
Definition sound_solver (solve : nat -> mtx -> vct -> res vct) : Prop :=
  (forall k A b x, solve k A b = Ok x -> solves k A x b) /\ (forall k A b e, solve k A b = Err e -> singular k A).

(** data for which the subproblem makes sense *)
Definition well_posed (sp : subproblem) : Prop :=
  (0 < sp_n sp)%nat /\
  (forall j, (j < sp_n sp)%nat -> low sp j < alfa sp j /\ alfa sp j < beta sp j /\ beta sp j < upp sp j /\ 0 < p0 sp j /\ 0 < q0 sp j) /\
  (forall i j, (i < sp_m sp)%nat -> (j < sp_n sp)%nat -> 0 <= PP sp i j /\ 0 <= QQ sp i j) /\
  (forall i, (i < sp_m sp)%nat -> 0 <= dd sp i).

Definition interior (sp : subproblem) (it : iterate) : Prop :=
  (forall j, (j < sp_n sp)%nat -> alfa sp j < x_ it j < beta sp j /\ 0 < xsi_ it j /\ 0 < eta_ it j) /\
  (forall i, (i < sp_m sp)%nat -> 0 < y_ it i /\ 0 < lam_ it i /\ 0 < mu_ it i /\ 0 < s_ it i) /\
  0 < z_ it /\ 0 < zet_ it.

(** The subproblem solved by subsolv (the comment block of Svanberg's code):
    minimise f(x) + a0 z + sum (c y + d y^2/2) subject to g_i(x) - a_i z - y_i <= b_i, alfa <= x <= beta, y, z >= 0 *)
Definition approx (n : nat) (P Q low upp : vct) (x : vct) : R := sumN n (fun j => P j / (upp j - x j) + Q j / (x j - low j)).
Definition f_approx (sp : subproblem) (x : vct) : R := approx (sp_n sp) (p0 sp) (q0 sp) (low sp) (upp sp) x.
Definition g_approx (sp : subproblem) (i : nat) (x : vct) : R := approx (sp_n sp) (PP sp i) (QQ sp i) (low sp) (upp sp) x.
Definition sub_cost (sp : subproblem) (x y : vct) (z : R) : R :=
  f_approx sp x + a0 sp * z + sumN (sp_m sp) (fun i => cc sp i * y i + dd sp i * (y i * y i) / 2).
Definition sub_feasible (sp : subproblem) (x y : vct) (z : R) : Prop :=
  (forall j, (j < sp_n sp)%nat -> alfa sp j <= x j <= beta sp j) /\ (forall i, (i < sp_m sp)%nat -> 0 <= y i) /\ 0 <= z /\
  (forall i, (i < sp_m sp)%nat -> g_approx sp i x - aa sp i * z - y i <= bb sp i).
Definition set_var (x : vct) (j : nat) (t : R) : vct := fun k => if Nat.eqb k j then t else x k.
(** the Lagrange function of that problem, the bounds left out *)
Definition sub_lagrangian (sp : subproblem) (lam : vct) (x : vct) : R :=
  f_approx sp x + sumN (sp_m sp) (fun i => lam i * g_approx sp i x).
(** first-order conditions up to [tol], complementarity relaxed to [epsi] *)
Definition near_kkt (sp : subproblem) (epsi tol : R) (it : iterate) : Prop :=
  (forall j, (j < sp_n sp)%nat ->
     (exists g, derivable_pt_lim (fun t => sub_lagrangian sp (lam_ it) (set_var (x_ it) j t)) (x_ it j) g /\ Rabs (g - xsi_ it j + eta_ it j) <= tol) /\
     Rabs (xsi_ it j * (x_ it j - alfa sp j) - epsi) <= tol /\ Rabs (eta_ it j * (beta sp j - x_ it j) - epsi) <= tol) /\
  (forall i, (i < sp_m sp)%nat ->
     Rabs (cc sp i + dd sp i * y_ it i - mu_ it i - lam_ it i) <= tol /\
     Rabs (g_approx sp i (x_ it) - aa sp i * z_ it - y_ it i + s_ it i - bb sp i) <= tol /\
     Rabs (mu_ it i * y_ it i - epsi) <= tol /\ Rabs (lam_ it i * s_ it i - epsi) <= tol) /\
  Rabs (a0 sp - zet_ it - sumN (sp_m sp) (fun i => aa sp i * lam_ it i)) <= tol /\
  Rabs (zet_ it * z_ it - epsi) <= tol.
(** [k] damped Newton steps: each moves along a direction in which every optimality residual
    decreases at its own rate, by a fraction of at most one, and the norm of the residuals does
    not grow unless the step has been halved 49 times *)
Definition newton_direction (sp : subproblem) (epsi : R) (it d : iterate) : Prop :=
  forall k, (k < length (residu sp epsi it))%nat ->
  derivable_pt_lim (fun t => nth k (residu sp epsi (moved it t d)) 0) 0 (- nth k (residu sp epsi it) 0).
Inductive damped_newton (sp : subproblem) (epsi : R) : nat -> iterate -> iterate -> Prop :=
| dn_stop it : damped_newton sp epsi 0 it it
| dn_step k it d t it' : newton_direction sp epsi it d -> 0 < t <= 1 ->
    norm2 (residu sp epsi (moved it t d)) <= norm2 (residu sp epsi it) \/ t * 2 ^ 49 <= 1 -> damped_newton sp epsi k (moved it t d) it' -> damped_newton sp epsi (S k) it it'.

(** ** the outer problem *)
Definition box_ok (M : mma) (xval : vct) : Prop :=
  0 < moveLimit M /\ forall j, (j < numDesignVariables M)%nat -> xmin M j < xmax M j /\ xmin M j <= xval j <= xmax M j.
Definition in_unit_box (n : nat) (x : vct) : Prop := forall j, (j < n)%nat -> 0 <= x j <= 1.

(** ** k-d tree: the [k] nearest points, nearest first, each once; an infinite distance and the
    number of points as index when there are fewer than [k] *)
Definition distance (dim : nat) (p q : nat -> R) : R := sqrt (sumN dim (fun k => (p k - q k) * (p k - q k))).
Definition sound_query (dim : nat) (q : query) : Prop :=
  forall pts p k, let r := q pts p k in
  length r = k /\
  (forall t, In t r -> (fst t = None /\ snd t = length pts) \/ ((snd t < length pts)%nat /\ fst t = Some (distance dim p (nth (snd t) pts (fun _ => 0))))) /\
  NoDup (filter (fun i => Nat.ltb i (length pts)) (map snd r)) /\
  length (filter (fun i => Nat.ltb i (length pts)) (map snd r)) = Nat.min k (length pts) /\
  (forall i j, In i (map snd r) -> (i < length pts)%nat -> (j < length pts)%nat -> ~ In j (map snd r) ->
     distance dim p (nth i pts (fun _ => 0)) <= distance dim p (nth j pts (fun _ => 0))).
Definition symmetric (n : nat) (H : mtx) : Prop := forall i j, (i < n)%nat -> (j < n)%nat -> H i j = H j i.
Close Scope R_scope.
