(** Generated by tools/genprops.py from P_regret.v: property theorems only. *)
From Verif Require Import P_regret.
From Coq Require Import List.
Import ListNotations.
Open Scope R_scope.

(** for every learning rate lr, every finite parameters and every list of finite gradients of the parameters' signature, whatever they are gradients of: the loop of sgd(lr) updates and apply_updates never fails, and for every vector q and every number n of steps, 2 lr sum_{t<n} <g_t, x_t - q> = |x_0 - q|^2 - |x_n - q|^2 + lr^2 sum_{t<n} |g_t|^2. *)
Theorem C78_sgd_identity : forall `{P : Platform} (lr : R) (p : tree tensor) (gs : list (tree tensor)) (q : list R), trwf p -> finite_tree p -> Forall (point_of p) gs -> length q = length (rvals p) ->
  exists T s0 qs sf, sgd (LConst (Fin lr)) None false = Ok T /\ init T p = Ok s0 /\ train_loop T s0 p gs = Ok (qs, sf) /\ length qs = length gs /\ Forall (point_of p) qs /\
    let x t := rvals (nth t (p :: qs) p) in let g t := rvals (nth t gs p) in
    forall n, (n <= length gs)%nat ->
      2 * lr * rsum (map (fun t => dot (g t) (vsub (x t) q)) (seq 0 n)) = sumsq (vsub (rvals p) q) - sumsq (vsub (x n) q) + lr ^ 2 * rsum (map (fun t => sumsq (g t)) (seq 0 n)).
Proof. exact @sgd_identity. Qed.
Print Assumptions C78_sgd_identity.

(** minimising any function f of which grad computes subgradients of squared norm at most G (f is then convex; it need not be differentiable) with sgd(lr), lr > 0: n steps never fail, the average of f at the n visited points exceeds f at any vector q by at most |x_0 - q|^2 / (2 lr n) + lr G / 2, and so does f at one of the visited points. *)
Theorem C78_convex : forall `{P : Platform} (lr G : R) (p : tree tensor) (grad : tree tensor -> tree tensor) (f : list R -> R) (n : nat) (q : list R), 0 < lr -> (0 < n)%nat -> trwf p -> finite_tree p ->
  (forall x, point_of p x -> point_of p (grad x) /\ sumsq (rvals (grad x)) <= G) -> subgradients p f grad -> length q = length (rvals p) ->
  exists T s0 qs sf, sgd (LConst (Fin lr)) None false = Ok T /\ init T p = Ok s0 /\ minimise T grad n s0 p = Ok (qs, sf) /\ length qs = n /\ Forall (point_of p) qs /\
    let x t := rvals (nth t (p :: qs) p) in
    rsum (map (fun t => f (x t)) (seq 0 n)) / INR n - f q <= sumsq (vsub (rvals p) q) / (2 * lr * INR n) + lr * G / 2 /\
    exists t, (t < n)%nat /\ f (x t) - f q <= sumsq (vsub (rvals p) q) / (2 * lr * INR n) + lr * G / 2.
Proof. exact @sgd_convex. Qed.
Print Assumptions C78_convex.

(** minimising any L-smooth function (convex or not) with sgd(lr), 0 < lr <= 1/L: every step decreases f by at least lr/2 |grad|^2; if f never goes below m, one of the first n gradients has squared norm at most 2 (f(x_0) - m) / (lr n). If moreover grad computes subgradients (f convex), f after n steps exceeds f at any vector q by at most |x_0 - q|^2 / (2 lr n). *)
Theorem C78_smooth : forall `{P : Platform} (lr L : R) (p : tree tensor) (grad : tree tensor -> tree tensor) (f : list R -> R) (n : nat), 0 < lr -> lr * L <= 1 -> (0 < n)%nat -> trwf p -> finite_tree p ->
  (forall x, point_of p x -> point_of p (grad x)) -> smooth p f grad L ->
  exists T s0 qs sf, sgd (LConst (Fin lr)) None false = Ok T /\ init T p = Ok s0 /\ minimise T grad n s0 p = Ok (qs, sf) /\ length qs = n /\ Forall (point_of p) qs /\
    let x t := nth t (p :: qs) p in
    (forall t, (t < n)%nat -> f (rvals (x (S t))) <= f (rvals (x t)) - lr / 2 * sumsq (rvals (grad (x t)))) /\
    (forall m, (forall y, m <= f y) -> exists t, (t < n)%nat /\ sumsq (rvals (grad (x t))) <= 2 * (f (rvals p) - m) / (lr * INR n)) /\
    (forall q, subgradients p f grad -> length q = length (rvals p) -> f (rvals (x n)) - f q <= sumsq (vsub (rvals p) q) / (2 * lr * INR n)).
Proof. exact @sgd_smooth. Qed.
Print Assumptions C78_smooth.

Example C78_example : forall `{P : Platform}, let p := Leaf (mkT F32 [2%nat] [Fin 5; Fin 1]) in
  trwf p /\ finite_tree p /\ rvals p = [5; 1] /\ (forall x, point_of p x -> point_of p (quad_grad x)) /\ subgradients p quad quad_grad /\ smooth p quad quad_grad 1 /\
  exists T s0 qs sf, sgd (LConst (Fin (1 / 2))) None false = Ok T /\ init T p = Ok s0 /\ minimise T quad_grad 4 s0 p = Ok (qs, sf) /\
    quad (rvals (nth 4 (p :: qs) p)) - quad [3; 3] <= sumsq (vsub [5; 1] [3; 3]) / (2 * (1 / 2) * INR 4).
Proof. exact @regret_example. Qed.

(** for every learning rate lr > 0, initial accumulator a0 >= 0, eps > 0, finite parameters and list of finite gradients, whatever they are gradients of: the loop of adagrad updates and apply_updates never fails, and if the visited points stay within D of the coordinates of a vector q, then sum_{t<n} <g_t, x_t - q> <= (D^2 / (2 lr) + lr) * sum_i sqrt(a0 + eps + sum_{t<n} g_{t,i}^2). *)
Theorem C78_adagrad : forall `{P : Platform} (lr a0 eps D : R) (p : tree tensor) (gs : list (tree tensor)) (q : list R), 0 < lr -> 0 <= a0 -> 0 < eps -> trwf p -> finite_tree p -> Forall (point_of p) gs -> length q = length (rvals p) ->
  exists T s0 qs sf, adagrad (LConst (Fin lr)) (Fin a0) (Fin eps) = Ok T /\ init T p = Ok s0 /\ train_loop T s0 p gs = Ok (qs, sf) /\ length qs = length gs /\ Forall (point_of p) qs /\
    let x t := rvals (nth t (p :: qs) p) in let g t := rvals (nth t gs p) in
    forall n, (n <= length gs)%nat -> (forall t i, (t < n)%nat -> (i < length q)%nat -> Rabs (nth i (x t) 0 - nth i q 0) <= D) ->
      rsum (map (fun t => dot (g t) (vsub (x t) q)) (seq 0 n)) <=
      (D ^ 2 / (2 * lr) + lr) * rsum (map (fun i => sqrt (a0 + eps + rsum (map (fun t => nth i (g t) 0 ^ 2) (seq 0 n)))) (seq 0 (length q))).
Proof. exact @adagrad_regret. Qed.
Print Assumptions C78_adagrad.

Example C78_adagrad_example : forall `{P : Platform}, let p := Leaf (mkT F32 [2%nat] [Fin 5; Fin 1]) in let g := Leaf (mkT F32 [2%nat] [Fin 4; Fin 0]) in Forall (point_of p) [g] /\
  exists T s0 q sf, adagrad (LConst (Fin (1 / 2))) (Fin 0) (Fin 9) = Ok T /\ init T p = Ok s0 /\ train_loop T s0 p [g] = Ok ([q], sf) /\
    rsum (map (fun t => dot (rvals (nth t [g] p)) (vsub (rvals (nth t [p; q] p)) [3; 3])) (seq 0 1)) <= (2 ^ 2 / (2 * (1 / 2)) + 1 / 2) * (sqrt 25 + (sqrt 9 + 0)).
Proof. exact @adagrad_regret_example. Qed.
