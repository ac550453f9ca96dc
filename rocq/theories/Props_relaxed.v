(** Generated by tools/genprops.py from P_relaxed.v: property theorems only. *)
From Verif Require Import P_relaxed.
From Coq Require Import List.
Import ListNotations.
Open Scope R_scope.

(** chain(clip_by_global_norm(c), sgd(lr)), parameters of one dtype, minimising a function whose curvature may grow with its gradient (f(y) <= f(x) + <g, y - x> + (L0 + L1 |g|)/2 |y - x|^2 for |y - x| <= r), with lr L0 <= 1/2, lr c <= r, lr c L1 <= 1/2: n steps never fail, no step moves further than lr c, each step decreases f by at least lr/2 min(|g|, c) |g|, and if f never goes below m, one of the first n gradients has min(|g|, c) |g| <= 2 (f(x_0) - m) / (lr n), hence |g|^2 <= 2 (f(x_0) - m) / (lr n) once this is below c^2. *)
Theorem C91_clipped_sgd : forall `{P : Platform} (lr c L0 L1 r : R) (d : fdt) (p : tree tensor) (grad : tree tensor -> tree tensor) (f : list R -> R) (n : nat), 0 < lr -> 0 < c -> 0 <= L0 -> 0 <= L1 -> lr * L0 <= 1 / 2 -> lr * c <= r -> lr * c * L1 <= 1 / 2 ->
  trwf p -> finite_tree p -> Forall (fun t => dt t = d) (leaves p) -> (forall x, point_of p x -> point_of p (grad x)) -> relaxed_smooth p f grad L0 L1 r ->
  exists T s0 qs sf, (let* B := sgd (LConst (Fin lr)) None false in chain [clip_by_global_norm (Fin c); B]) = Ok T /\ init T p = Ok s0 /\ minimise T grad n s0 p = Ok (qs, sf) /\ length qs = n /\ Forall (point_of p) qs /\
    let x t := nth t (p :: qs) p in let g t := norm2 (rvals (grad (x t))) in
    (forall t, (t < n)%nat -> norm2 (vsub (rvals (x (S t))) (rvals (x t))) = lr * Rmin (g t) c /\ f (rvals (x (S t))) <= f (rvals (x t)) - lr / 2 * (Rmin (g t) c * g t)) /\
    forall m, (forall y, m <= f y) ->
      rsum (map (fun t => Rmin (g t) c * g t) (seq 0 n)) <= 2 * (f (rvals p) - m) / lr /\
      (2 * (f (rvals p) - m) < lr * INR n * c ^ 2 -> exists t, (t < n)%nat /\ g t ^ 2 <= 2 * (f (rvals p) - m) / (lr * INR n)).
Proof. exact @clipped_sgd. Qed.
Print Assumptions C91_clipped_sgd.

(** without clipping: for EVERY learning rate lr > 0, sgd(lr) on the sum of fourth powers sends every parameter that starts at x with 4 lr x^2 >= 3 to infinity at least as fast as 2^n, while the same function meets the hypotheses of C91_clipped_sgd with L0 = 22, L1 = 6, r = 1 from every starting point. *)
Theorem C91_plain_sgd_explodes : forall `{P : Platform} (lr : R) (p : tree tensor) (n : nat), 0 < lr -> trwf p -> finite_tree p ->
  relaxed_smooth p quart quart_grad 22 6 1 /\
  exists T s0 qs sf, sgd (LConst (Fin lr)) None false = Ok T /\ init T p = Ok s0 /\ minimise T quart_grad n s0 p = Ok (qs, sf) /\ length qs = n /\
    forall i, (i < length (rvals p))%nat -> 3 <= 4 * lr * nth i (rvals p) 0 ^ 2 -> forall t, (t <= n)%nat -> 2 ^ t * Rabs (nth i (rvals p) 0) <= Rabs (nth i (rvals (nth t (p :: qs) p)) 0).
Proof. exact @sgd_explodes. Qed.
Print Assumptions C91_plain_sgd_explodes.

Example C91_example : forall `{P : Platform} (n : nat), (1 <= n)%nat -> let p := Leaf (mkT F32 [1%nat] [Fin 10]) in
  (exists T s0 qs sf, sgd (LConst (Fin (1/44))) None false = Ok T /\ init T p = Ok s0 /\ minimise T quart_grad n s0 p = Ok (qs, sf) /\ 2 ^ n * 10 <= Rabs (nth 0 (rvals (nth n (p :: qs) p)) 0)) /\
  (exists T s0 qs sf, (let* B := sgd (LConst (Fin (1/44))) None false in chain [clip_by_global_norm (Fin 1); B]) = Ok T /\ init T p = Ok s0 /\ minimise T quart_grad n s0 p = Ok (qs, sf) /\
     (880000 < INR n -> exists t, (t < n)%nat /\ norm2 (rvals (quart_grad (nth t (p :: qs) p))) ^ 2 <= 2 * (10 ^ 4 - 0) / (1/44 * INR n))).
Proof. exact @relaxed_example. Qed.
