(** Generated by tools/genprops.py from P_look2.v: property theorems only. *)
From Verif Require Import P_look2.
From Verif Require Import P_pipe P_look.
From Coq Require Import List.
Import ListNotations.
Open Scope R_scope.

(** lookahead(sgd(lr), k, a) minimising a convex L-smooth function, lr L <= 1, 0 <= a <= 1: no step fails, the slow parameters change only every k-th step, they never get worse, and after m periods the loss exceeds f(q) by at most (f(x_0) - f(q) + |x_0 - q|^2 / (2 lr k)) / (1 + a m), for every q. *)
Theorem C93_convex : forall `{P : Platform} (lr a L : R) (k : nat) (p : tree tensor) (grad : tree tensor -> tree tensor) (f : list R -> R),
  0 < lr -> lr * L <= 1 -> 0 <= a <= 1 -> (1 <= k)%nat -> (Z.of_nat k < 2 ^ 31)%Z -> trwf p -> finite_tree p -> (forall x, point_of p x -> point_of p (grad x)) -> smooth p f grad L -> subgradients p f grad ->
  exists X, look_run lr a k p grad X /\ X 0%nat = rvals p /\ (forall m, f (X (S m)) <= f (X m)) /\
    forall m q, length q = length (rvals p) -> f (X m) - f q <= (f (rvals p) - f q + sumsq (vsub (rvals p) q) / (2 * lr * INR k)) / (1 + a * INR m).
Proof. exact @look_converges. Qed.
Print Assumptions C93_convex.

(** if f is moreover mu-strongly convex with minimiser q, the squared distance of the slow parameters to q shrinks at least by the factor 1 - a + a (1 - lr mu)^k per period. *)
Theorem C93_strongly_convex : forall `{P : Platform} (lr a L mu : R) (k : nat) (p : tree tensor) (grad : tree tensor -> tree tensor) (f : list R -> R) (q : list R),
  0 < lr -> lr * L <= 1 -> 0 <= a <= 1 -> lr * mu <= 1 -> (1 <= k)%nat -> (Z.of_nat k < 2 ^ 31)%Z -> trwf p -> finite_tree p -> (forall x, point_of p x -> point_of p (grad x)) -> smooth p f grad L -> strongly_convex p f grad mu ->
  length q = length (rvals p) -> (forall y, length y = length (rvals p) -> f q <= f y) ->
  exists X, look_run lr a k p grad X /\ forall m, sumsq (vsub (X m) q) <= (1 - a + a * (1 - lr * mu) ^ k) ^ m * sumsq (vsub (rvals p) q).
Proof. exact @look_linear. Qed.
Print Assumptions C93_strongly_convex.

(** on a quadratic with curvatures lam_i around q, for ALL learning rates and step sizes a: after m periods coordinate i of the slow parameters is q_i + (1 - a + a (1 - lr lam_i)^k)^m (p_i - q_i) exactly. *)
Theorem C93_quadratic : forall `{P : Platform} (lr a : R) (k : nat) (p : tree tensor) (grad : tree tensor -> tree tensor) (lam : nat -> R) (q : list R),
  (1 <= k)%nat -> (Z.of_nat k < 2 ^ 31)%Z -> trwf p -> finite_tree p -> (forall x, point_of p x -> point_of p (grad x) /\ forall i, (i < length (rvals p))%nat -> nth i (rvals (grad x)) 0 = lam i * (nth i (rvals x) 0 - nth i q 0)) ->
  exists X, look_run lr a k p grad X /\ forall m i, (i < length (rvals p))%nat -> nth i (X m) 0 = nth i q 0 + (1 - a + a * (1 - lr * lam i) ^ k) ^ m * (nth i (rvals p) 0 - nth i q 0).
Proof. exact @look_quadratic. Qed.
Print Assumptions C93_quadratic.

Example C93_example : forall `{P : Platform}, let p := Leaf (mkT F32 [2%nat] [Fin 5; Fin 1]) in
  trwf p /\ finite_tree p /\ (forall x, point_of p x -> point_of p (quad_grad x)) /\ smooth p quad quad_grad 1 /\ strongly_convex p quad quad_grad 1 /\ (forall y, length y = 2%nat -> quad [3; 3] <= quad y) /\
  (exists X, look_run (1/2) (1/2) 5 p quad_grad X /\ forall m, quad (X m) <= (4 + 8 / 5) / (1 + INR m / 2)) /\
  (exists X, look_run 3 1 1 p quad_grad X /\ forall m, nth 0 (X m) 0 = 3 + (-2) ^ m * 2) /\
  (exists X, look_run 3 (1/20) 5 p quad_grad X /\ forall m, nth 0 (X m) 0 = 3 + (-13/20) ^ m * 2) /\
  (exists X, look_run 3 (1/20) 6 p quad_grad X /\ forall m, nth 0 (X m) 0 = 3 + (83/20) ^ m * 2).
Proof. exact @look2_example. Qed.
