(** Generated by tools/genprops.py from P_stable.v: property theorems only. *)
From Verif Require Import P_stable.
From Verif Require Import P_pipe P_sample.
From Coq Require Import List.
Import ListNotations.
Open Scope R_scope.

(** sgd with any learning-rate schedule (rates at most 2/L) on a training set of M examples whose losses are convex and L-smooth with gradients at most G long: every run succeeds, and if one example of the training set is replaced by any other, the parameters after n steps move, averaged over all draws, by at most 2 G / M times the sum of the learning rates used. *)
Theorem C98_stability : forall `{P : Platform} (rt : lrate) (lr : Z -> R) (p : tree tensor) (K : nat) (f : nat -> list R -> R) (grads : nat -> tree tensor -> tree tensor) (L G : R) (S S' : list nat) (n : nat),
  0 < L -> (forall c, (0 <= c)%Z -> rate rt c = Fin (lr c) /\ 0 <= lr c /\ lr c * L <= 2) -> trwf p -> finite_tree p -> (forall z, (z < K)%nat -> example_loss p (f z) (grads z) L G) ->
  S <> [] -> Forall (fun z => (z < K)%nat) S -> Forall (fun z => (z < K)%nat) S' -> neighbours S S' ->
  exists T, sgd rt None false = Ok T /\
    (forall js, Forall (fun j => (j < length S)%nat) js -> exists x s, fit T (fun i => grads (nth (nth i js 0%nat) S 0%nat)) (length js) p = Ok (x, s) /\ point_of p x) /\
    average (fun js => norm2 (vsub (learned T grads p S js) (learned T grads p S' js))) (draws (length S) n) <= 2 * G / INR (length S) * rsum (map (fun t => lr (count_at t)) (seq 0 n)).
Proof. exact @stability. Qed.
Print Assumptions C98_stability.

(** and two runs of sgd that see the same examples in the same order but start from different parameters never get further apart than they started. *)
Theorem C98_initialisation : forall `{P : Platform} (rt : lrate) (lr : Z -> R) (p q : tree tensor) (K : nat) (f : nat -> list R -> R) (grads : nat -> tree tensor -> tree tensor) (L G : R) (js : list nat),
  0 < L -> (forall c, (0 <= c)%Z -> rate rt c = Fin (lr c) /\ 0 <= lr c /\ lr c * L <= 2) -> trwf p -> finite_tree p -> point_of p q -> (forall z, (z < K)%nat -> example_loss p (f z) (grads z) L G) ->
  Forall (fun z => (z < K)%nat) js ->
  exists T, sgd rt None false = Ok T /\ norm2 (vsub (trained T grads p js) (trained T grads q js)) <= norm2 (vsub (rvals p) (rvals q)).
Proof. exact @initialisation. Qed.
Print Assumptions C98_initialisation.

(** with add_decayed_weights(weight_decay) in front of sgd (learning rates with lr L <= 2 (1 - lr weight_decay)) the change caused by replacing one of the M examples stays below 2 G / (weight_decay M) on average however long training lasts. *)
Theorem C98_weight_decay : forall `{P : Platform} (rt : lrate) (lr : Z -> R) (lam : R) (p : tree tensor) (K : nat) (f : nat -> list R -> R) (grads : nat -> tree tensor -> tree tensor) (L G : R) (S S' : list nat) (n : nat),
  0 < L -> 0 < lam -> (forall c, (0 <= c)%Z -> rate rt c = Fin (lr c) /\ 0 <= lr c /\ lr c * L <= 2 * (1 - lr c * lam)) -> trwf p -> finite_tree p -> (forall z, (z < K)%nat -> example_loss p (f z) (grads z) L G) ->
  S <> [] -> Forall (fun z => (z < K)%nat) S -> Forall (fun z => (z < K)%nat) S' -> neighbours S S' ->
  exists B, sgd rt None false = Ok B /\ let T := chain_gt [add_decayed_weights (Fin lam); B] in
    (forall js, Forall (fun j => (j < length S)%nat) js -> exists x s, fit T (fun i => grads (nth (nth i js 0%nat) S 0%nat)) (length js) p = Ok (x, s) /\ point_of p x) /\
    average (fun js => norm2 (vsub (learned T grads p S js) (learned T grads p S' js))) (draws (length S) n) <= 2 * G / (lam * INR (length S)).
Proof. exact @stability_decay. Qed.
Print Assumptions C98_weight_decay.

(** any optimiser, any number of steps, any way of using the gradients: if replacing one example of a training set of size M changes the trained parameters by at most B on average over the draws, then the average over all training sets (M examples drawn from the population of K with replacement) and all draws of (loss on the whole population - loss on the training set) is at most G B in absolute value. *)
Theorem C98_stable_generalises : forall `{P : Platform} (T : GT) (p : tree tensor) (K M n : nat) (f : nat -> list R -> R) (grads : nat -> tree tensor -> tree tensor) (L G B : R),
  (0 < K)%nat -> (0 < M)%nat -> trwf p -> finite_tree p -> (forall z, (z < K)%nat -> example_loss p (f z) (grads z) L G) ->
  (forall S js, In S (draws K M) -> In js (draws M n) -> exists x s, fit T (fun i => grads (nth (nth i js 0%nat) S 0%nat)) (length js) p = Ok (x, s) /\ point_of p x) ->
  (forall S S', In S (draws K M) -> In S' (draws K M) -> neighbours S S' -> average (fun js => norm2 (vsub (learned T grads p S js) (learned T grads p S' js))) (draws M n) <= B) ->
  Rabs (average (fun S => average (fun js => test_loss f K (learned T grads p S js) - train_loss f S (learned T grads p S js)) (draws M n)) (draws K M)) <= G * B.
Proof. exact @stable_generalises. Qed.
Print Assumptions C98_stable_generalises.

(** hence, on average over training sets and draws, the loss of sgd on unseen examples differs from its training loss by at most 2 G^2 / M times the sum of the learning rates; and with weight decay in front by at most 2 G^2 / (weight_decay M), however long training lasts. *)
Theorem C98_generalisation : forall `{P : Platform} (rt : lrate) (lr : Z -> R) (p : tree tensor) (K M n : nat) (f : nat -> list R -> R) (grads : nat -> tree tensor -> tree tensor) (L G : R),
  (0 < K)%nat -> (0 < M)%nat -> 0 < L -> trwf p -> finite_tree p -> (forall z, (z < K)%nat -> example_loss p (f z) (grads z) L G) ->
  let gap T := average (fun S => average (fun js => test_loss f K (learned T grads p S js) - train_loss f S (learned T grads p S js)) (draws M n)) (draws K M) in
  ((forall c, (0 <= c)%Z -> rate rt c = Fin (lr c) /\ 0 <= lr c /\ lr c * L <= 2) ->
   exists T, sgd rt None false = Ok T /\ Rabs (gap T) <= 2 * G ^ 2 / INR M * rsum (map (fun t => lr (count_at t)) (seq 0 n))) /\
  (forall lam, 0 < lam -> (forall c, (0 <= c)%Z -> rate rt c = Fin (lr c) /\ 0 <= lr c /\ lr c * L <= 2 * (1 - lr c * lam)) ->
   exists B, sgd rt None false = Ok B /\ Rabs (gap (chain_gt [add_decayed_weights (Fin lam); B])) <= 2 * G ^ 2 / (lam * INR M)).
Proof. exact @generalisation. Qed.
Print Assumptions C98_generalisation.

Example C98_example : forall `{P : Platform} (n : nat), let p := Leaf (mkT F32 [1%nat] [Fin 5]) in
  (forall z, (z < 2)%nat -> example_loss p (hubs z) (hgrad z) 1 1) /\ neighbours [0%nat; 1%nat; 1%nat] [0%nat; 0%nat; 1%nat] /\
  (exists T, sgd (LConst (Fin (1 / 2))) None false = Ok T /\
     average (fun js => norm2 (vsub (learned T hgrad p [0%nat; 1%nat; 1%nat] js) (learned T hgrad p [0%nat; 0%nat; 1%nat] js))) (draws 3 n) <= INR n / 3) /\
  (exists B, sgd (LConst (Fin (1 / 2))) None false = Ok B /\ let T := chain_gt [add_decayed_weights (Fin (1 / 4)); B] in
     average (fun js => norm2 (vsub (learned T hgrad p [0%nat; 1%nat; 1%nat] js) (learned T hgrad p [0%nat; 0%nat; 1%nat] js))) (draws 3 n) <= 8 / 3).
Proof. exact @stable_example. Qed.
