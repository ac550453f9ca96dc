(** Generated by tools/genprops.py from P_momentum.v: property theorems only. *)
From Verif Require Import P_momentum.
From Coq Require Import List.
Import ListNotations.
Open Scope R_scope.

(** for every learning rate lr > 0, momentum 0 <= b < 1, Nesterov or not, finite parameters and list of finite gradients (whatever they are gradients of): the loop of sgd(lr, momentum=b) updates and apply_updates never fails, and if the first n gradients have squared norm at most G, then for every vector q, sum_{t<n} <g_t, x_t - q> <= (1 - b) |x_0 - q|^2 / (2 lr) + n lr G (1 + b) / (2 (1 - b)^2). *)
Theorem C82_regret : forall `{P : Platform} (lr b G : R) (nest : bool) (p : tree tensor) (gs : list (tree tensor)) (q : list R), 0 < lr -> 0 <= b < 1 -> trwf p -> finite_tree p -> Forall (point_of p) gs -> length q = length (rvals p) ->
  exists T s0 qs sf, sgd (LConst (Fin lr)) (Some (Fin b)) nest = Ok T /\ init T p = Ok s0 /\ train_loop T s0 p gs = Ok (qs, sf) /\ length qs = length gs /\ Forall (point_of p) qs /\
    let x t := rvals (nth t (p :: qs) p) in let g t := rvals (nth t gs p) in
    forall n, (n <= length gs)%nat -> (forall t, (t < n)%nat -> sumsq (g t) <= G) ->
      rsum (map (fun t => dot (g t) (vsub (x t) q)) (seq 0 n)) <= (1 - b) * sumsq (vsub (rvals p) q) / (2 * lr) + INR n * (lr * G * (1 + b) / (2 * (1 - b) ^ 2)).
Proof. exact @momentum_regret. Qed.
Print Assumptions C82_regret.

(** minimising any function f of which grad computes subgradients of squared norm at most G (f is then convex; it need not be differentiable) with sgd(lr, momentum=b), 0 <= b < 1, Nesterov or not: n steps never fail, the average of f at the n visited points exceeds f at any vector q by at most (1 - b) |x_0 - q|^2 / (2 lr n) + lr G (1 + b) / (2 (1 - b)^2), and so does f at one of the visited points. *)
Theorem C82_convex : forall `{P : Platform} (lr b G : R) (nest : bool) (p : tree tensor) (grad : tree tensor -> tree tensor) (f : list R -> R) (n : nat) (q : list R), 0 < lr -> 0 <= b < 1 -> (0 < n)%nat -> trwf p -> finite_tree p ->
  (forall x, point_of p x -> point_of p (grad x) /\ sumsq (rvals (grad x)) <= G) -> subgradients p f grad -> length q = length (rvals p) ->
  exists T s0 qs sf, sgd (LConst (Fin lr)) (Some (Fin b)) nest = Ok T /\ init T p = Ok s0 /\ minimise T grad n s0 p = Ok (qs, sf) /\ length qs = n /\ Forall (point_of p) qs /\
    let x t := rvals (nth t (p :: qs) p) in let bound := (1 - b) * sumsq (vsub (rvals p) q) / (2 * lr * INR n) + lr * G * (1 + b) / (2 * (1 - b) ^ 2) in
    rsum (map (fun t => f (x t)) (seq 0 n)) / INR n - f q <= bound /\ exists t, (t < n)%nat /\ f (x t) - f q <= bound.
Proof. exact @momentum_convex. Qed.
Print Assumptions C82_convex.

(** minimising any L-smooth function f (convex or not) that never goes below m with sgd(lr, momentum=b), 0 <= b < 1, Nesterov or not, and lr L <= (1 - b)^2 / 2: n steps never fail, the squared norms of the n gradients met add up to at most 4 (1 - b) (f(x_0) - m) / lr, so one of them is at most that divided by n. *)
Theorem C82_smooth : forall `{P : Platform} (lr b L m : R) (nest : bool) (p : tree tensor) (grad : tree tensor -> tree tensor) (df : list R -> list R) (f : list R -> R) (n : nat), 0 < lr -> 0 <= b < 1 -> 0 <= L -> lr * L <= (1 - b) ^ 2 / 2 -> (0 < n)%nat -> trwf p -> finite_tree p ->
  computes p grad df -> smooth_field (length (rvals p)) f df L -> (forall y, m <= f y) ->
  exists T s0 qs sf, sgd (LConst (Fin lr)) (Some (Fin b)) nest = Ok T /\ init T p = Ok s0 /\ minimise T grad n s0 p = Ok (qs, sf) /\ length qs = n /\ Forall (point_of p) qs /\
    let norms t := sumsq (rvals (grad (nth t (p :: qs) p))) in
    rsum (map norms (seq 0 n)) <= 4 * (1 - b) * (f (rvals p) - m) / lr /\ exists t, (t < n)%nat /\ norms t <= 4 * (1 - b) * (f (rvals p) - m) / (lr * INR n).
Proof. exact @momentum_smooth. Qed.
Print Assumptions C82_smooth.

Example C82_example : forall `{P : Platform}, let p := Leaf (mkT F32 [2%nat] [Fin 5; Fin 1]) in
  trwf p /\ finite_tree p /\ rvals p = [5; 1] /\
  (computes p quad_grad quad_df /\ smooth_field 2 quad quad_df 1 /\ (forall y, 0 <= quad y)) /\
  ((forall x, point_of p x -> point_of p (dist_grad x) /\ sumsq (rvals (dist_grad x)) <= 2) /\ subgradients p dist dist_grad) /\
  (exists T s0 qs sf, sgd (LConst (Fin (1 / 8))) (Some (Fin (1 / 2))) true = Ok T /\ init T p = Ok s0 /\ minimise T quad_grad 100 s0 p = Ok (qs, sf) /\
    exists t, (t < 100)%nat /\ sumsq (rvals (quad_grad (nth t (p :: qs) p))) <= 16 / 25) /\
  (exists T s0 qs sf, sgd (LConst (Fin (1 / 20))) (Some (Fin (1 / 2))) false = Ok T /\ init T p = Ok s0 /\ minimise T dist_grad 400 s0 p = Ok (qs, sf) /\
    exists t, (t < 400)%nat /\ dist (rvals (nth t (p :: qs) p)) - dist [3; 3] <= 2 / 5).
Proof. exact @momentum_example. Qed.
