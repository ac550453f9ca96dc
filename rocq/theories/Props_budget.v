(** Generated by tools/genprops.py from P_budget.v: property theorems only. *)
From Verif Require Import P_budget.
From Coq Require Import List Reals ZArith.
Import ListNotations.
Open Scope R_scope.

(** Take ANY optimiser assembled from this library's parts (see C87), put zero_nans, clip(c) and a fixed or scheduled learning rate behind it, and train from finite parameters with ANY gradients - NaN and infinities included, chosen adversarially at every step: training never fails, every parameter stays finite, and between steps m and n no element moves by more than c times the sum of the |learning rates| of those steps. *)
Theorem C103_budget : forall `{P : Platform} (np : bool) (T : GT) (p : tree tensor) (c : R) (L : lrate) (lr : Z -> R) (grad : nat -> tree tensor -> tree tensor), pipeline np p T -> trwf p -> finite_tree p -> 0 <= c -> (forall z, rate L z = Fin (lr z)) -> (forall i q, point_of p q -> like p (grad i q)) ->
  exists Tg (x : nat -> tree tensor), guarded T c L = Ok Tg /\ x 0%nat = p /\ (forall n, exists s, fit Tg grad n p = Ok (x n, s)) /\ (forall n, point_of p (x n)) /\
    forall m n i, (m <= n)%nat -> (i < length (rvals p))%nat -> Rabs (nth i (rvals (x n)) 0 - nth i (rvals (x m)) 0) <= c * budget lr m n.
Proof. exact @guarded_budget. Qed.
Print Assumptions C103_budget.

(** If the learning rate is zero from count N on (as cosine_decay_schedule with alpha = 0, or a linear schedule to 0, makes it), the parameters never change again after step N, whatever the gradients. *)
Theorem C103_freeze : forall `{P : Platform} (np : bool) (T : GT) (p : tree tensor) (c : R) (L : lrate) (lr : Z -> R) (grad : nat -> tree tensor -> tree tensor) (N : nat), pipeline np p T -> trwf p -> finite_tree p -> 0 <= c -> (forall z, rate L z = Fin (lr z)) -> (forall i q, point_of p q -> like p (grad i q)) ->
  (Z.of_nat N < 2 ^ 31)%Z -> (forall z, (Z.of_nat N <= z)%Z -> lr z = 0) ->
  exists Tg q, guarded T c L = Ok Tg /\ point_of p q /\ forall n, (N <= n)%nat -> exists s, fit Tg grad n p = Ok (q, s).
Proof. exact @guarded_freeze. Qed.
Print Assumptions C103_freeze.

(** If the learning rates the counter produces have a finite sum (at most B), the parameters converge, whatever the optimiser and whatever the gradients, to a point no element of which is further than c B from its initial value. *)
Theorem C103_converge : forall `{P : Platform} (np : bool) (T : GT) (p : tree tensor) (c B : R) (L : lrate) (lr : Z -> R) (grad : nat -> tree tensor -> tree tensor), pipeline np p T -> trwf p -> finite_tree p -> 0 <= c -> (forall z, rate L z = Fin (lr z)) -> (forall i q, point_of p q -> like p (grad i q)) ->
  (forall n, budget lr 0 n <= B) ->
  exists Tg (x : nat -> tree tensor) (lim : list R), guarded T c L = Ok Tg /\ (forall n, exists s, fit Tg grad n p = Ok (x n, s)) /\ length lim = length (rvals p) /\
    forall i, (i < length (rvals p))%nat -> Un_cv (fun n => nth i (rvals (x n)) 0) (nth i lim 0) /\ Rabs (nth i lim 0 - nth i (rvals p) 0) <= c * B.
Proof. exact @guarded_converge. Qed.
Print Assumptions C103_converge.

(** With exponential_decay(init, transition_steps, rate), 0 < rate < 1, the whole of training - up to 2^31 steps, any optimiser, any gradients - moves no element further than c * init / (1 - rate^(1/transition_steps)): a solution further away than that cannot be reached, however long the training. *)
Theorem C103_exponential : forall `{P : Platform} (np : bool) (T : GT) (p : tree tensor) (c i r : R) (steps : Z) (grad : nat -> tree tensor -> tree tensor), pipeline np p T -> trwf p -> finite_tree p -> 0 <= c -> 0 <= i -> 0 < r < 1 -> (0 < steps)%Z -> (forall i q, point_of p q -> like p (grad i q)) ->
  exists Tg, guarded T c (LSched (exponential_decay (Fin i) steps (Fin r) 0 false None)) = Ok Tg /\ forall n, (Z.of_nat n <= 2 ^ 31)%Z -> exists q s, fit Tg grad n p = Ok (q, s) /\ point_of p q /\
    forall j, (j < length (rvals p))%nat -> Rabs (nth j (rvals q) 0 - nth j (rvals p) 0) <= c * (i / (1 - Rpower r (/ IZR steps))).
Proof. exact @guarded_exponential. Qed.
Print Assumptions C103_exponential.

(** With cosine_decay_schedule(init, decay_steps) (alpha = 0) the parameters stop for ever at step decay_steps, whatever the optimiser in front and whatever the gradients. *)
Theorem C103_cosine : forall `{P : Platform} (np : bool) (T : GT) (p : tree tensor) (c i : R) (N : nat) (grad : nat -> tree tensor -> tree tensor), pipeline np p T -> trwf p -> finite_tree p -> 0 <= c -> (0 < Z.of_nat N < 2 ^ 31)%Z -> (forall i q, point_of p q -> like p (grad i q)) ->
  exists f Tg q, cosine_decay_schedule (Fin i) (Z.of_nat N) (Fin 0) = Ok f /\ guarded T c (LSched f) = Ok Tg /\ point_of p q /\ forall n, (N <= n)%nat -> exists s, fit Tg grad n p = Ok (q, s).
Proof. exact @guarded_cosine. Qed.
Print Assumptions C103_cosine.

(** The same for the optimisers themselves, without any guard, on finite gradients: once the learning rate of adam, adamw or sgd (any momentum) is zero from count N on, the parameters after every later step are exactly those after step N. *)
Theorem C103_aliases : forall `{P : Platform} (L : lrate) (lr : Z -> R) (b1 b2 eps er wd : R) (m : option R) (nest : bool) (p : tree tensor) (gs : list (tree tensor)) (N : nat), (forall c, rate L c = Fin (lr c)) -> 0 <= b1 < 1 -> 0 <= b2 < 1 -> 0 < eps -> 0 <= er ->
  trwf p -> finite_tree p -> Forall (point_of p) gs -> (Z.of_nat N < 2 ^ 31)%Z -> (forall z, (Z.of_nat N <= z)%Z -> lr z = 0) ->
  let freezes T := exists s0 qs sf, init T p = Ok s0 /\ train_loop T s0 p gs = Ok (qs, sf) /\ length qs = length gs /\ forall n, (N <= n <= length gs)%nat -> nth n (p :: qs) p = nth N (p :: qs) p in
  (exists T, adam L (Fin b1) (Fin b2) (Fin eps) (Fin er) = Ok T /\ freezes T) /\
  (exists T, adamw L (Fin b1) (Fin b2) (Fin eps) (Fin er) (Fin wd) = Ok T /\ freezes T) /\
  (exists T, sgd L (option_map Fin m) nest = Ok T /\ freezes T).
Proof. exact @aliases_freeze. Qed.
Print Assumptions C103_aliases.

Example C103_example : forall `{P : Platform}, let p := Leaf (mkT F32 [2%nat] [Fin 5; Fin 1]) in let T := chain_gt [trace (Fin (1/2)) false None; zero_nans] in
  trwf p /\ finite_tree p /\ pipeline true p T /\ (forall i q, point_of p q -> like p (adversary i q)) /\
  (exists Tg, guarded T 1 (LSched (exponential_decay (Fin 1) 1 (Fin (1/2)) 0 false None)) = Ok Tg /\ forall n, (Z.of_nat n <= 2 ^ 31)%Z -> exists q s, fit Tg adversary n p = Ok (q, s) /\ Rabs (nth 0 (rvals q) 0 - 5) <= 2) /\
  (exists f Tg q, cosine_decay_schedule (Fin 1) 100 (Fin 0) = Ok f /\ guarded T 1 (LSched f) = Ok Tg /\ forall n, (100 <= n)%nat -> exists s, fit Tg adversary n p = Ok (q, s)) /\
  (forall n, budget (fun z => if (z <=? 9)%Z then 1 else 0) 0 n <= 10).
Proof. exact @budget_example. Qed.
