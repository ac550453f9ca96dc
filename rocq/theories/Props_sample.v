(** Generated by tools/genprops.py from P_sample.v: property theorems only. *)
From Verif Require Import P_sample.
From Verif Require Import P_pipe.
From Coq Require Import List.
Import ListNotations.
Open Scope R_scope.

(** `draws M n` lists every sequence of n numbers below M exactly once; there are M^n of them. *)
Theorem C92_draws : forall (M n : nat), NoDup (draws M n) /\ length (draws M n) = (M ^ n)%nat /\ forall js, In js (draws M n) <-> length js = n /\ Forall (fun j => (j < M)%nat) js.
Proof. exact @draws_all. Qed.
Print Assumptions C92_draws.

(** sgd with any learning-rate schedule, one example drawn uniformly per step: every training run succeeds, and averaged over all runs the weighted excess losses sum to at most the initial squared distance to the minimiser plus G times the sum of the squared rates. *)
Theorem C92_average : forall `{P : Platform} (L : lrate) (lr : Z -> R) (p : tree tensor) (M : nat) (grads : nat -> tree tensor -> tree tensor) (f : list R -> R) (q : list R) (mu A G : R) (n : nat),
  (forall c, (0 <= c)%Z -> rate L c = Fin (lr c) /\ 0 <= lr c) -> trwf p -> finite_tree p -> (0 < M)%nat -> 0 <= mu -> training_loss p M grads f q mu A G ->
  exists T, sgd L None false = Ok T /\ (forall js, Forall (fun j => (j < M)%nat) js -> exists x s, fit T (fun i => grads (nth i js 0%nat)) (length js) p = Ok (x, s) /\ point_of p x) /\
    let eta t := lr (count_at t) in
    rsum (map (fun t => eta t * (2 - eta t * A) * average (fun js => f (trained T grads p js) - f q) (draws M t)) (seq 0 n)) + average (fun js => sumsq (vsub (trained T grads p js) q)) (draws M n)
      <= sumsq (vsub (rvals p) q) + G * rsum (map (fun t => eta t * eta t) (seq 0 n)).
Proof. exact @sampled_average. Qed.
Print Assumptions C92_average.

(** constant learning rate lr, mu-strongly convex loss: averaged over all runs, the squared distance to the minimiser shrinks by 1 - lr mu per step down to the noise floor lr G / mu. *)
Theorem C92_strongly_convex : forall `{P : Platform} (lr : R) (p : tree tensor) (M : nat) (grads : nat -> tree tensor -> tree tensor) (f : list R -> R) (q : list R) (mu A G : R) (n : nat),
  0 < lr -> 0 < mu -> lr * mu <= 1 -> lr * A <= 2 -> 0 <= G -> trwf p -> finite_tree p -> (0 < M)%nat -> training_loss p M grads f q mu A G ->
  exists T, sgd (LConst (Fin lr)) None false = Ok T /\ (forall js, Forall (fun j => (j < M)%nat) js -> exists x s, fit T (fun i => grads (nth i js 0%nat)) (length js) p = Ok (x, s) /\ point_of p x) /\
    average (fun js => sumsq (vsub (trained T grads p js) q)) (draws M n) <= (1 - lr * mu) ^ n * sumsq (vsub (rvals p) q) + lr * G / mu.
Proof. exact @sampled_strongly. Qed.
Print Assumptions C92_strongly_convex.

(** decaying learning rate 2 / (mu (t + k)): averaged over all runs, the squared distance to the minimiser is O(1/n), although every single gradient stays noisy. *)
Theorem C92_decay : forall `{P : Platform} (sched : Z -> XR) (k : R) (p : tree tensor) (M : nat) (grads : nat -> tree tensor -> tree tensor) (f : list R -> R) (q : list R) (mu A G : R) (n : nat),
  0 < mu -> 2 <= k -> A <= k * mu -> (forall c, (0 <= c)%Z -> sched c = Fin (2 / (mu * (IZR c + k)))) -> (Z.of_nat n < 2 ^ 31)%Z -> trwf p -> finite_tree p -> (0 < M)%nat -> training_loss p M grads f q mu A G ->
  exists T, sgd (LSched sched) None false = Ok T /\ (forall js, Forall (fun j => (j < M)%nat) js -> exists x s, fit T (fun i => grads (nth i js 0%nat)) (length js) p = Ok (x, s) /\ point_of p x) /\
    average (fun js => sumsq (vsub (trained T grads p js) q)) (draws M n) <= Rmax (4 * G / (mu * mu)) ((k - 1) * sumsq (vsub (rvals p) q)) / (INR n + k - 1).
Proof. exact @sampled_decay. Qed.
Print Assumptions C92_decay.

Example C92_example : forall `{P : Platform} (n : nat), (Z.of_nat n < 2 ^ 31)%Z -> let p := Leaf (mkT F32 [2%nat] [Fin 5; Fin 1]) in
  training_loss p 2 pull quad [3; 3] 1 2 2 /\
  (exists T, sgd (LConst (Fin (1 / 2))) None false = Ok T /\ average (fun js => sumsq (vsub (trained T pull p js) [3; 3])) (draws 2 n) <= (1 / 2) ^ n * 8 + 1) /\
  (exists T, sgd (LSched (fun c => fdiv F32 (Fin 2) (fadd F32 (Fin (IZR c)) (Fin 2)))) None false = Ok T /\ average (fun js => sumsq (vsub (trained T pull p js) [3; 3])) (draws 2 n) <= 8 / (INR n + 1)).
Proof. exact @sample_example. Qed.
