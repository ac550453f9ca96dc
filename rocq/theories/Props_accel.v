(** Generated by tools/genprops.py from P_accel.v: property theorems only. *)
From Verif Require Import P_accel.
From Coq Require Import List.
Import ListNotations.
Open Scope R_scope.

(** minimising any function f that lies between the parabolas of curvatures m and L (m-strongly convex and L-smooth, 0 <= m <= L, 0 < L) with sgd(lr), 0 < lr <= 1/L: n steps never fail, and after each step t the squared distance to a minimiser q is at most (1 - lr m)^t times what it was at the start, and the loss exceeds f(q) by at most L/2 times that. *)
Theorem C85_sgd : forall `{P : Platform} (lr m L : R) (p : tree tensor) (grad : tree tensor -> tree tensor) (df : list R -> list R) (f : list R -> R) (n : nat) (q : list R), 0 < lr -> 0 < L -> lr * L <= 1 -> 0 <= m <= L -> trwf p -> finite_tree p ->
  computes p grad df -> between_parabolas (length (rvals p)) f df m L -> minimiser (length (rvals p)) f q ->
  exists T s0 qs sf, sgd (LConst (Fin lr)) None false = Ok T /\ init T p = Ok s0 /\ minimise T grad n s0 p = Ok (qs, sf) /\ length qs = n /\ Forall (point_of p) qs /\
    let x t := rvals (nth t (p :: qs) p) in
    forall t, (t <= n)%nat -> sumsq (vsub (x t) q) <= (1 - lr * m) ^ t * sumsq (vsub (rvals p) q) /\ f (x t) - f q <= L / 2 * ((1 - lr * m) ^ t * sumsq (vsub (rvals p) q)).
Proof. exact @sgd_linear. Qed.
Print Assumptions C85_sgd.

(** minimising the same class of functions (0 < m <= L) with sgd(1/L, momentum=(1-s)/(1+s), nesterov=True), s = sqrt(m/L): n steps never fail, and after each step t the squared distance to the minimiser q is at most (1 + L/m) (1 - s)^t times the initial one, and the loss exceeds f(q) by at most L/2 times that: the number of steps for a given accuracy grows like sqrt(L/m), not L/m. *)
Theorem C85_nesterov : forall `{P : Platform} (m L : R) (p : tree tensor) (grad : tree tensor -> tree tensor) (df : list R -> list R) (f : list R -> R) (n : nat) (q : list R), 0 < m <= L -> trwf p -> finite_tree p ->
  computes p grad df -> between_parabolas (length (rvals p)) f df m L -> minimiser (length (rvals p)) f q ->
  let s := sqrt (m / L) in
  exists T s0 qs sf, sgd (LConst (Fin (1 / L))) (Some (Fin ((1 - s) / (1 + s)))) true = Ok T /\ init T p = Ok s0 /\ minimise T grad n s0 p = Ok (qs, sf) /\ length qs = n /\ Forall (point_of p) qs /\
    let x t := rvals (nth t (p :: qs) p) in
    forall t, (t <= n)%nat -> sumsq (vsub (x t) q) <= (1 + L / m) * (1 - s) ^ t * sumsq (vsub (rvals p) q) /\ f (x t) - f q <= L / 2 * ((1 + L / m) * (1 - s) ^ t * sumsq (vsub (rvals p) q)).
Proof. exact @nesterov_accelerates. Qed.
Print Assumptions C85_nesterov.

(** sgd(1/9, momentum=4/9) without Nesterov, the learning rate and momentum that are optimal for quadratics with curvatures between 1 and 25, started at any tree of parameters all equal to 3.3 on a function that lies between the parabolas of curvatures 1 and 25 and has its minimum at 0: however many steps are taken, no coordinate ever comes within 1/3 of the minimum, and from the sixth step on every coordinate stays within 1/10 of a cycle of three distinct points. *)
Theorem C86_cycles : forall `{P : Platform} (p : tree tensor) (n : nat), trwf p -> finite_tree p -> Forall (fun v => v = 33 / 10) (rvals p) ->
  exists T s0 qs sf, sgd (LConst (Fin (1 / 9))) (Some (Fin (4 / 9))) false = Ok T /\ init T p = Ok s0 /\ minimise T bends_grad n s0 p = Ok (qs, sf) /\ length qs = n /\ Forall (point_of p) qs /\
    let x t := rvals (nth t (p :: qs) p) in
    (forall t, (t <= n)%nat -> Forall (fun v => 1 / 3 <= Rabs v) (x t) /\ INR (length (rvals p)) / 18 <= bends (x t) - bends (repeat 0 (length (rvals p)))) /\
    (forall t, (6 <= t <= n)%nat -> Forall (fun v => Rabs (v - match (t mod 3)%nat with 0%nat => 792 / 1225 | 1%nat => - (2208 / 1225) | _ => 2592 / 1225 end) <= 1 / 10) (x t)).
Proof. exact @heavy_ball_cycles. Qed.
Print Assumptions C86_cycles.

(** on that same function and from any finite parameters, sgd(1/25) without momentum and sgd(1/25, momentum=2/3, nesterov=True) do converge to the minimum 0, at the rates of C85 with m = 1 and L = 25. *)
Theorem C86_contrast : forall `{P : Platform} (p : tree tensor) (n : nat), trwf p -> finite_tree p ->
  (exists T s0 qs sf, sgd (LConst (Fin (1 / 25))) None false = Ok T /\ init T p = Ok s0 /\ minimise T bends_grad n s0 p = Ok (qs, sf) /\ length qs = n /\ forall t, (t <= n)%nat -> sumsq (rvals (nth t (p :: qs) p)) <= (24 / 25) ^ t * sumsq (rvals p)) /\
  (exists T s0 qs sf, sgd (LConst (Fin (1 / 25))) (Some (Fin (2 / 3))) true = Ok T /\ init T p = Ok s0 /\ minimise T bends_grad n s0 p = Ok (qs, sf) /\ length qs = n /\ forall t, (t <= n)%nat -> sumsq (rvals (nth t (p :: qs) p)) <= 26 * (4 / 5) ^ t * sumsq (rvals p)).
Proof. exact @bends_converge. Qed.
Print Assumptions C86_contrast.

Example C86_example : forall `{P : Platform}, let p := Leaf (mkT F32 [2%nat] [Fin (33 / 10); Fin (33 / 10)]) in
  trwf p /\ finite_tree p /\ Forall (fun v => v = 33 / 10) (rvals p) /\
  (exists T s0 qs sf, sgd (LConst (Fin (1 / 9))) (Some (Fin (4 / 9))) false = Ok T /\ init T p = Ok s0 /\ minimise T bends_grad 100 s0 p = Ok (qs, sf) /\ 1 / 9 <= bends (rvals (nth 100 (p :: qs) p)) - bends [0; 0]).
Proof. exact @heavy_ball_example. Qed.

Example C85_example : forall `{P : Platform}, let p := Leaf (mkT F32 [2%nat] [Fin 5; Fin (-1)]) in
  trwf p /\ finite_tree p /\ computes p bends_grad bends_df /\ between_parabolas 2 bends bends_df 1 25 /\ minimiser 2 bends [0; 0] /\
  (exists T s0 qs sf, sgd (LConst (Fin (1 / 25))) (Some (Fin (2 / 3))) true = Ok T /\ init T p = Ok s0 /\ minimise T bends_grad 40 s0 p = Ok (qs, sf) /\ sumsq (rvals (nth 40 (p :: qs) p)) <= 1 / 10).
Proof. exact @accel_example. Qed.
