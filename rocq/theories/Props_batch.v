(** Generated by tools/genprops.py from P_batch.v: property theorems only. *)
From Verif Require Import P_batch.
From Verif Require Import P_multi P_pipe.
From Coq Require Import List.
Import ListNotations.
Open Scope R_scope.

(** for every optimiser that ignores params, MultiSteps(opt, k) trained on micro-batch gradients is the optimiser trained on large batches: let G j x be the mean (or sum) of the micro-batch gradients grads (j k), ..., grads (j k + k - 1) at x. Then after m k + r micro-steps, r < k, the parameters are exactly those after m steps of opt on G, the wrapped state is exactly opt's own state, and the first r gradients of the next batch are in the accumulator; nothing ever raises. *)
Theorem C94_large_batch : forall `{P : Platform} (opt : GT) (I : state -> Prop) (k : nat) (use_mean : bool) (grads G : nat -> tree tensor -> tree tensor) (p : tree tensor),
  (1 <= k)%nat -> (Z.of_nat k < 2 ^ 31)%Z -> trwf p -> params_free opt p I -> (forall t x, like p x -> like p (grads t x)) ->
  (forall j x, like p x -> block_value use_mean p (Z.of_nat k) (map (fun l => grads (j * k + l)%nat x) (seq 0 k)) (G j x)) ->
  forall m r, (r < k)%nat -> exists x s c acc, fit opt G m p = Ok (x, s) /\ like p x /\
    fit (multi_steps opt (fun _ => Z.of_nat k) use_mean) grads (m * k + r) p = Ok (x, SNode NMulti [SInt iw64 (Z.of_nat r); SInt iw64 c; s; STree acc]) /\
    block_sum p (map (fun l => grads (m * k + l)%nat x) (seq 0 r)) acc.
Proof. exact @large_batch. Qed.
Print Assumptions C94_large_batch.

(** every element-wise optimiser of the model that ignores params (sgd, momentum, adam, rmsprop, ... and chains of such) is one of those, in any arithmetic. *)
Theorem C94_elementwise : forall `{O : Ops} (opt : GT) (M : machine) (p : tree tensor), refines true opt M -> trwf p -> exists I, params_free opt p I.
Proof. exact @elementwise_free. Qed.
Print Assumptions C94_elementwise.

Example C94_example : forall `{P : Platform} (m : nat), let p := Leaf (mkT F32 [2%nat] [Fin 5; Fin 1]) in let opt := scale_by_adam (Fin (9/10)) (Fin (99/100)) (Fin (1/100)) (Fin 0) in let sgd2 := scale (Fin (- (1/2))) in
  (exists I, params_free opt p I) /\
  exists x s s', fit sgd2 (fun _ => quad_grad) m p = Ok (x, s) /\ fit (multi_steps sgd2 (fun _ => 2%Z) true) (fun t => pull (t mod 2)) (m * 2) p = Ok (x, s').
Proof. exact @batch_example. Qed.
