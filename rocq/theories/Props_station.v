(** Generated by tools/genprops.py from P_station.v: property theorems only. *)
From Verif Require Import P_station.
From Coq Require Import List.
Import ListNotations.
Open Scope R_scope.

(** adagrad with ANY learning rate lr > 0, initial accumulator a0 >= 0 and eps > 0, minimising any L-smooth function (convex or not) that never goes below m: n steps never fail, and the squared norms of the gradients at the n visited points sum to at most the square of a budget that does not depend on n -- so the gradients tend to 0 and one of the first n has squared norm at most budget^2 / n. The rate needs no tuning to L. *)
Theorem C89_adagrad : forall `{P : Platform} (lr L a0 eps m : R) (p : tree tensor) (grad : tree tensor -> tree tensor) (f : list R -> R) (n : nat), 0 < lr -> 0 < L -> 0 <= a0 -> 0 < eps -> trwf p -> finite_tree p ->
  (forall x, point_of p x -> point_of p (grad x)) -> smooth p f grad L -> (forall y, m <= f y) ->
  exists T s0 qs sf, adagrad (LConst (Fin lr)) (Fin a0) (Fin eps) = Ok T /\ init T p = Ok s0 /\ minimise T grad n s0 p = Ok (qs, sf) /\ length qs = n /\ Forall (point_of p) qs /\
    let x t := nth t (p :: qs) p in let B := adagrad_budget lr L (sqrt (a0 + eps)) (f (rvals p) - m) (length (rvals p)) in
    rsum (map (fun t => sumsq (rvals (grad (x t)))) (seq 0 n)) <= B ^ 2 /\
    ((0 < n)%nat -> exists t, (t < n)%nat /\ sumsq (rvals (grad (x t))) <= B ^ 2 / INR n).
Proof. exact @adagrad_stationary. Qed.
Print Assumptions C89_adagrad.

(** rmsprop (centered or not, no momentum) with lr * L <= sqrt eps, minimising any L-smooth function, convex or not: n steps never fail and f never increases; while the partial derivatives at the visited points stay within G, each step decreases f by at least lr / (2 sqrt(max(v0, G^2) + eps)) |grad|^2, so if f never goes below m the squared norms of the gradients sum to at most 2 sqrt(max(v0, G^2) + eps) (f(x_0) - m) / lr, for every n. *)
Theorem C89_rmsprop : forall `{P : Platform} (lr L b eps v0 : R) (centered nest : bool) (p : tree tensor) (grad : tree tensor -> tree tensor) (f : list R -> R) (n : nat), 0 < lr -> 0 <= L -> lr * L <= sqrt eps -> 0 <= b < 1 -> 0 < eps -> 0 <= v0 -> trwf p -> finite_tree p ->
  (forall x, point_of p x -> point_of p (grad x)) -> smooth p f grad L ->
  exists T s0 qs sf, rmsprop (LConst (Fin lr)) (Fin b) (Fin eps) (Fin v0) centered None nest = Ok T /\ init T p = Ok s0 /\ minimise T grad n s0 p = Ok (qs, sf) /\ length qs = n /\ Forall (point_of p) qs /\
    let x t := nth t (p :: qs) p in
    (forall t, (t < n)%nat -> f (rvals (x (S t))) <= f (rvals (x t))) /\
    forall G, (forall t v, (t < n)%nat -> In v (rvals (grad (x t))) -> Rabs v <= G) ->
      let H := sqrt (Rmax v0 (G * G) + eps) in
      (forall t, (t < n)%nat -> f (rvals (x (S t))) <= f (rvals (x t)) - lr / (2 * H) * sumsq (rvals (grad (x t)))) /\
      forall m, (forall y, m <= f y) -> rsum (map (fun t => sumsq (rvals (grad (x t)))) (seq 0 n)) <= 2 * H * (f (rvals p) - m) / lr.
Proof. exact @rmsprop_stationary. Qed.
Print Assumptions C89_rmsprop.

(** adam with full gradients, learning rate lr > 0, b1^2 < b2, minimising any function with an L-Lipschitz gradient (convex or not), for fewer than 2^31 steps: n steps never fail, and while the partial derivatives at the visited points stay within G and f never goes below m, the average of |grad|^2 over the n visited points is at most H (2 (f(x_0) - m) / (lr n) + lr N U^2 L (1 + L lr k / eps)), where N is the number of parameters, H = sqrt(G^2 + eps_root) + eps, U = adam_max b1 b2 and k = b1 (1 + b1) / (1 - b1)^2: as close to 0 as wished, with lr small and n large. (C83: with one gradient per example instead of full gradients this fails for every lr.) *)
Theorem C90_adam : forall `{P : Platform} (lr b1 b2 eps er L m G : R) (p : tree tensor) (grad : tree tensor -> tree tensor) (df : list R -> list R) (f : list R -> R) (n : nat), 0 < lr -> 0 <= b1 < 1 -> 0 < b2 < 1 -> b1 * b1 < b2 -> 0 < eps -> 0 <= er -> 0 <= L ->
  (0 < n)%nat -> (Z.of_nat n < 2 ^ 31)%Z -> trwf p -> finite_tree p -> computes p grad df -> smooth_field (length (rvals p)) f df L -> (forall y, m <= f y) ->
  exists T s0 qs sf, adam (LConst (Fin lr)) (Fin b1) (Fin b2) (Fin eps) (Fin er) = Ok T /\ init T p = Ok s0 /\ minimise T grad n s0 p = Ok (qs, sf) /\ length qs = n /\ Forall (point_of p) qs /\
    let x t := nth t (p :: qs) p in
    ((forall t v, (t < n)%nat -> In v (rvals (grad (x t))) -> Rabs v <= G) ->
     rsum (map (fun t => sumsq (rvals (grad (x t)))) (seq 0 n)) / INR n <=
       (sqrt (G * G + er) + eps) * (2 * (f (rvals p) - m) / (lr * INR n) + lr * INR (length (rvals p)) * adam_max b1 b2 ^ 2 * L * (1 + L * lr * (b1 * (1 + b1) / (1 - b1) ^ 2) / eps))).
Proof. exact @adam_stationary. Qed.
Print Assumptions C90_adam.

Example C89_example : forall `{P : Platform} (n : nat), (0 < n)%nat -> let p := Leaf (mkT F32 [2%nat] [Fin 5; Fin 1]) in
  (bowl [1] + bowl [3]) / 2 < bowl [(1 + 3) / 2] /\
  (exists T s0 qs sf, adagrad (LConst (Fin 100)) (Fin (1/10)) (Fin (1/10000000)) = Ok T /\ init T p = Ok s0 /\ minimise T bowl_grad n s0 p = Ok (qs, sf) /\
     exists t, (t < n)%nat /\ sumsq (rvals (bowl_grad (nth t (p :: qs) p))) <= adagrad_budget 100 2 (sqrt (1/10 + 1/10000000)) (bowl (rvals p) - 0) 2 ^ 2 / INR n) /\
  (exists T s0 qs sf, rmsprop (LConst (Fin (1/2))) (Fin (9/10)) (Fin 1) (Fin 0) true None false = Ok T /\ init T p = Ok s0 /\ minimise T bowl_grad n s0 p = Ok (qs, sf) /\
     rsum (map (fun t => sumsq (rvals (bowl_grad (nth t (p :: qs) p)))) (seq 0 n)) <= 2 * sqrt (Rmax 0 (1 * 1) + 1) * (bowl (rvals p) - 0) / (1/2)).
Proof. exact @station_example. Qed.

Example C90_example : forall `{P : Platform} (n : nat), (0 < n)%nat -> (Z.of_nat n < 2 ^ 31)%Z -> let p := Leaf (mkT F32 [2%nat] [Fin 5; Fin 1]) in
  exists T s0 qs sf, adam (LConst (Fin (1/1000))) (Fin (9/10)) (Fin (999/1000)) (Fin (1/100000000)) (Fin 0) = Ok T /\ init T p = Ok s0 /\ minimise T bowl_grad n s0 p = Ok (qs, sf) /\
    rsum (map (fun t => sumsq (rvals (bowl_grad (nth t (p :: qs) p)))) (seq 0 n)) / INR n <=
      (sqrt (1 * 1 + 0) + 1/100000000) * (2 * (bowl [5; 1] - 0) / (1/1000 * INR n) + 1/1000 * INR 2 * adam_max (9/10) (999/1000) ^ 2 * 2 * (1 + 2 * (1/1000) * (9/10 * (1 + 9/10) / (1 - 9/10) ^ 2) / (1/100000000))).
Proof. exact @adam_stationary_example. Qed.
