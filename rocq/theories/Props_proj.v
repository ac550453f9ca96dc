(** Generated by tools/genprops.py from P_proj.v: property theorems only. *)
From Verif Require Import P_proj.
From Coq Require Import List Reals.
Import ListNotations.
Open Scope R_scope.

(** keep_params_nonnegative after sgd is projected gradient descent. For every learning rate lr > 0, non-negative finite parameters and any function f with subgradients (computed by grad) of squared norm at most G on the non-negative vectors: n steps of chain(sgd(lr), keep_params_nonnegative) and apply_updates never fail, every visited point is non-negative, each element goes to max(0, x - lr g), and the average of f at the n visited points exceeds f at any non-negative vector q by at most |x_0 - q|^2 / (2 lr n) + lr G / 2; so does f at one of them. *)
Theorem C101_convex : forall `{P : Platform} (lr G : R) (p : tree tensor) (grad : tree tensor -> tree tensor) (f : list R -> R) (n : nat) (q : list R), 0 < lr -> (0 < n)%nat -> trwf p -> finite_tree p -> nonneg_vec (rvals p) ->
  (forall x, point_of p x -> point_of p (grad x)) -> (forall x, point_of p x -> nonneg_vec (rvals x) -> sumsq (rvals (grad x)) <= G) -> orthant_subgradients p f grad -> length q = length (rvals p) -> nonneg_vec q ->
  exists T0 T s0 qs sf, sgd (LConst (Fin lr)) None false = Ok T0 /\ chain [T0; keep_params_nonnegative] = Ok T /\ init T p = Ok s0 /\ minimise T grad n s0 p = Ok (qs, sf) /\ length qs = n /\ Forall (point_of p) qs /\ Forall (fun x => nonneg_vec (rvals x)) qs /\
    let x t := nth t (p :: qs) p in
    (forall i t, (i < length (rvals p))%nat -> (t < n)%nat -> nth i (rvals (x (S t))) 0 = Rmax 0 (nth i (rvals (x t)) 0 - lr * nth i (rvals (grad (x t))) 0)) /\
    rsum (map (fun t => f (rvals (x t))) (seq 0 n)) / INR n - f q <= sumsq (vsub (rvals p) q) / (2 * lr * INR n) + lr * G / 2 /\
    exists t, (t < n)%nat /\ f (rvals (x t)) - f q <= sumsq (vsub (rvals p) q) / (2 * lr * INR n) + lr * G / 2.
Proof. exact @projected_convex. Qed.
Print Assumptions C101_convex.

(** If f is L-smooth on the non-negative vectors and lr <= 1/L, every step decreases f by at least |x_{t+1} - x_t|^2 / (2 lr), convex or not; if moreover grad computes subgradients there (f convex), f after n steps exceeds f at any non-negative vector q by at most |x_0 - q|^2 / (2 lr n). *)
Theorem C101_smooth : forall `{P : Platform} (lr L : R) (p : tree tensor) (grad : tree tensor -> tree tensor) (f : list R -> R) (n : nat), 0 < lr -> lr * L <= 1 -> (0 < n)%nat -> trwf p -> finite_tree p -> nonneg_vec (rvals p) ->
  (forall x, point_of p x -> point_of p (grad x)) -> orthant_smooth p f grad L ->
  exists T0 T s0 qs sf, sgd (LConst (Fin lr)) None false = Ok T0 /\ chain [T0; keep_params_nonnegative] = Ok T /\ init T p = Ok s0 /\ minimise T grad n s0 p = Ok (qs, sf) /\ length qs = n /\ Forall (point_of p) qs /\ Forall (fun x => nonneg_vec (rvals x)) qs /\
    let x t := nth t (p :: qs) p in
    (forall t, (t < n)%nat -> f (rvals (x (S t))) <= f (rvals (x t)) - sumsq (vsub (rvals (x (S t))) (rvals (x t))) / (2 * lr)) /\
    (forall q, orthant_subgradients p f grad -> length q = length (rvals p) -> nonneg_vec q -> f (rvals (x n)) - f q <= sumsq (vsub (rvals p) q) / (2 * lr * INR n)).
Proof. exact @projected_smooth. Qed.
Print Assumptions C101_smooth.

(** The points at which the loop stops are the constrained optima: from non-negative parameters p one step returns p if and only if every element of the gradient is non-negative and is zero wherever the parameter is positive; and then, if grad computes subgradients on the non-negative vectors, p minimises f among all non-negative vectors. *)
Theorem C101_fixed_points : forall `{P : Platform} (lr : R) (p : tree tensor) (grad : tree tensor -> tree tensor), 0 < lr -> trwf p -> finite_tree p -> nonneg_vec (rvals p) -> (forall x, point_of p x -> point_of p (grad x)) ->
  exists T0 T s0 q sf, sgd (LConst (Fin lr)) None false = Ok T0 /\ chain [T0; keep_params_nonnegative] = Ok T /\ init T p = Ok s0 /\ minimise T grad 1 s0 p = Ok ([q], sf) /\
    (q = p <-> kkt (rvals p) (rvals (grad p))) /\
    (q = p -> forall f y, orthant_subgradients p f grad -> length y = length (rvals p) -> nonneg_vec y -> f (rvals p) <= f y).
Proof. exact @projected_fixed. Qed.
Print Assumptions C101_fixed_points.

(** FINDING: in the other order, chain(keep_params_nonnegative, sgd(lr)), the clamp acts on the raw gradient and does not keep the parameters non-negative: one step takes x to x - lr (max(0, x + g) - x), hence to x - lr g for every non-negative parameter and gradient, negative as soon as lr g > x; and where g < -x it moves x to (1 + lr) x whatever the gradient. *)
Theorem C101_order : forall `{P : Platform} (lr : R) (p : tree tensor) (grad : tree tensor -> tree tensor), trwf p -> finite_tree p -> (forall x, point_of p x -> point_of p (grad x)) ->
  exists T0 T s0 q sf, sgd (LConst (Fin lr)) None false = Ok T0 /\ chain [keep_params_nonnegative; T0] = Ok T /\ init T p = Ok s0 /\ minimise T grad 1 s0 p = Ok ([q], sf) /\ point_of p q /\
    forall i, (i < length (rvals p))%nat -> let x := nth i (rvals p) 0 in let g := nth i (rvals (grad p)) 0 in
      nth i (rvals q) 0 = x - lr * (Rmax 0 (x + g) - x) /\ (0 <= x -> 0 <= g -> nth i (rvals q) 0 = x - lr * g) /\ (g < - x -> nth i (rvals q) 0 = (1 + lr) * x).
Proof. exact @projected_order. Qed.
Print Assumptions C101_order.

Example C101_example : forall `{P : Platform}, let p := Leaf (mkT F32 [2%nat] [Fin 5; Fin 1]) in
  trwf p /\ finite_tree p /\ nonneg_vec (rvals p) /\ (forall x, point_of p x -> point_of p (half x)) /\ orthant_subgradients p target half /\ orthant_smooth p target half 1 /\
  (forall x, point_of p x -> nonneg_vec (rvals x) -> kkt (rvals x) (rvals (half x)) -> rvals x = [0; 3]) /\
  (exists T0 T s0 qs sf, sgd (LConst (Fin 1)) None false = Ok T0 /\ chain [T0; keep_params_nonnegative] = Ok T /\ init T p = Ok s0 /\ minimise T half 1 s0 p = Ok (qs, sf) /\ qs = [Leaf (mkT F32 [2%nat] [Fin 0; Fin 3])]) /\
  (exists T0 T s0 q sf, sgd (LConst (Fin 1)) None false = Ok T0 /\ chain [keep_params_nonnegative; T0] = Ok T /\ init T p = Ok s0 /\ minimise T half 1 s0 p = Ok ([q], sf) /\ nth 0 (rvals q) 0 = - 2).
Proof. exact @projected_example. Qed.
