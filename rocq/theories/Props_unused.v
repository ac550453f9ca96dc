(** Generated by tools/genprops.py from P_unused.v: property theorems only. *)
From Verif Require Import P_unused.
From Coq Require Import List Reals ZArith.
Import ListNotations.
Open Scope R_scope.

(** A parameter whose gradient is 0 at every step (a never-used embedding row, a masked-out weight) keeps its value exactly, through any number of steps and whatever the other gradients are (NaN included), under sgd (with or without momentum), adam, adabelief, adagrad, rmsprop (centered or not, with or without momentum) and radam (fewer than 2^30 steps), with any fixed or scheduled learning rate; eps > 0. *)
Theorem C104_unused : forall `{P : Platform} (L : lrate) (lr : Z -> R) (b1 b2 eps er th a0 : R) (m : option R) (nest centered : bool), (forall c, rate L c = Fin (lr c)) -> 0 <= b1 < 1 -> 0 <= b2 < 1 -> 0 < eps -> 0 <= er -> 4 < th -> 0 <= a0 ->
  let keeps := fun g N q => zero_from 0 N g -> rests_from 0 N q in
  (exists T, sgd L (option_map Fin m) nest = Ok T /\ element_path T keeps) /\
  (exists T, adam L (Fin b1) (Fin b2) (Fin eps) (Fin er) = Ok T /\ element_path T keeps) /\
  (exists T, adabelief L (Fin b1) (Fin b2) (Fin eps) = Ok T /\ element_path T keeps) /\
  (exists T, adagrad L (Fin a0) (Fin eps) = Ok T /\ element_path T keeps) /\
  (exists T, rmsprop L (Fin b2) (Fin eps) (Fin a0) centered (option_map Fin m) nest = Ok T /\ element_path T keeps) /\
  (exists T, radam L (Fin b1) (Fin b2) (Fin eps) (Fin er) (Fin th) = Ok T /\ element_path_upto (fun N => (Z.of_nat N < 2 ^ 30)%Z) T keeps).
Proof. exact @unused_kept. Qed.
Print Assumptions C104_unused.

(** Under adamw the unused parameter is not left alone: it is multiplied by 1 - lr_t * weight_decay at every step, exactly, and nothing else. *)
Theorem C104_weight_decay : forall `{P : Platform} (L : lrate) (lr : Z -> R) (b1 b2 eps er wd : R), (forall c, rate L c = Fin (lr c)) -> 0 <= b1 < 1 -> 0 <= b2 < 1 -> 0 < eps -> 0 <= er ->
  exists T, adamw L (Fin b1) (Fin b2) (Fin eps) (Fin er) (Fin wd) = Ok T /\ element_path T (fun g N q => zero_from 0 N g -> forall k, (k < N)%nat -> q (S k) = (1 - lr (count_at k) * wd) * q k).
Proof. exact @unused_adamw. Qed.
Print Assumptions C104_weight_decay.

(** (finding) yogi pushes an unused parameter down at every step, for ever: its first moment starts at 1e-6 instead of 0, so with b1 > 0 and positive learning rates every parameter whose gradient is always 0 strictly decreases at every step. *)
Theorem C104_yogi_drifts : forall `{P : Platform} (L : lrate) (lr : Z -> R) (b1 b2 eps : R), (forall c, rate L c = Fin (lr c)) -> (forall c, 0 < lr c) -> 0 < b1 < 1 -> 0 <= b2 < 1 -> 0 < eps ->
  exists T, yogi L (Fin b1) (Fin b2) (Fin eps) = Ok T /\ element_path T (fun g N q => zero_from 0 N g -> forall k, (k < N)%nat -> q (S k) < q k).
Proof. exact @unused_yogi. Qed.
Print Assumptions C104_yogi_drifts.

(** Without momentum, sgd, adagrad and rmsprop stop moving a parameter at the very step its gradient becomes and stays 0, whatever the history before. *)
Theorem C104_stops_at_once : forall `{P : Platform} (L : lrate) (lr : Z -> R) (b eps a0 : R) (nest centered : bool), (forall c, rate L c = Fin (lr c)) -> 0 <= b < 1 -> 0 < eps -> 0 <= a0 ->
  let stops := fun g N q => forall M, (M <= N)%nat -> zero_from M N g -> rests_from M N q in
  (exists T, sgd L None nest = Ok T /\ element_path T stops) /\
  (exists T, adagrad L (Fin a0) (Fin eps) = Ok T /\ element_path T stops) /\
  (exists T, rmsprop L (Fin b) (Fin eps) (Fin a0) centered None nest = Ok T /\ element_path T stops).
Proof. exact @stops_at_once. Qed.
Print Assumptions C104_stops_at_once.

(** With momentum b (nesterov or not) and a fixed learning rate the parameter coasts on after its gradient has become 0: the step of the first zero gradient is followed by steps shrinking by the factor b, so in k more steps it travels exactly b (1 - b^k) / (1 - b) times that step: 9 times the step for b = 0.9. *)
Theorem C104_momentum_coasts : forall `{P : Platform} (a b : R) (nest : bool), 0 <= b < 1 ->
  exists T, sgd (LConst (Fin a)) (Some (Fin b)) nest = Ok T /\
    element_path T (fun g N q => forall M k, zero_from M N g -> (S M + k <= N)%nat -> q (S M + k)%nat - q (S M) = (q (S M) - q M) * (b * (1 - b ^ k) / (1 - b))).
Proof. exact @momentum_coasts. Qed.
Print Assumptions C104_momentum_coasts.

(** adam with b1^2 < b2 and a fixed learning rate coasts too, but a bounded distance: after the first step with gradient 0 (step M, from 0) it moves the parameter at most r / (1 - r) / sqrt(1 - b2^(M+1)) times as far again as that step did, r = b1 / sqrt(b2), however many steps follow (9.05 times for the defaults, late in training). *)
Theorem C104_adam_coasts : forall `{P : Platform} (a b1 b2 eps er : R), 0 <= b1 < 1 -> 0 < b2 < 1 -> b1 ^ 2 < b2 -> 0 < eps -> 0 <= er ->
  exists T, adam (LConst (Fin a)) (Fin b1) (Fin b2) (Fin eps) (Fin er) = Ok T /\
    element_path T (fun g N q => forall M k, zero_from M N g -> (S M + k <= N)%nat -> let r := b1 / sqrt b2 in Rabs (q (S M + k)%nat - q (S M)) <= Rabs (q (S M) - q M) * (r / (1 - r) / sqrt (1 - b2 ^ satcount (S M)))).
Proof. exact @adam_coasts. Qed.
Print Assumptions C104_adam_coasts.

(** (finding) with b1^2 > b2 a parameter whose gradient has become 0 may accelerate: for every bound B there are an eps > 0 and a number of steps k after which, a single gradient 1 followed by zeros, one step moves the parameter by more than B learning rates. *)
Theorem C104_adam_runaway : forall `{P : Platform} (a b1 b2 B : R), 0 < a -> 0 <= b1 < 1 -> 0 < b2 < 1 -> b2 < b1 ^ 2 ->
  exists eps k T, 0 < eps /\ adam (LConst (Fin a)) (Fin b1) (Fin b2) (Fin eps) (Fin 0) = Ok T /\
    element_path T (fun g N q => g 0%nat = 1 -> zero_from 1 N g -> (S k <= N)%nat -> q k - q (S k) > a * B).
Proof. exact @adam_runs_away. Qed.
Print Assumptions C104_adam_runaway.

Example C104_example : forall `{P : Platform}, let p := Leaf (mkT F32 [2%nat] [Fin 2; Fin 3]) in let gs := [Leaf (mkT F32 [2%nat] [Fin 0; NaN]); Leaf (mkT F32 [2%nat] [Fin 0; PInf])] in
  (exists T s0 q1 q2 sf, adam (LConst (Fin (1/10))) (Fin (9/10)) (Fin (999/1000)) (Fin (/ 10 ^ 8)) (Fin 0) = Ok T /\ init T p = Ok s0 /\ train_loop T s0 p gs = Ok ([q1; q2], sf) /\ elt q1 (0%nat, 0%nat) = Some (Fin 2) /\ elt q2 (0%nat, 0%nat) = Some (Fin 2)) /\
  (exists T s0 q1 q2 sf x y, yogi (LConst (Fin (1/10))) (Fin (9/10)) (Fin (999/1000)) (Fin (/ 10 ^ 3)) = Ok T /\ init T p = Ok s0 /\ train_loop T s0 p gs = Ok ([q1; q2], sf) /\ elt q1 (0%nat, 0%nat) = Some (Fin x) /\ elt q2 (0%nat, 0%nat) = Some (Fin y) /\ y < x < 2).
Proof. exact @unused_example. Qed.
