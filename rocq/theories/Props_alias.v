(** Generated by tools/genprops.py from P_alias.v: property theorems only. *)
From Verif Require Import P_alias.
From Coq Require Import List.
Import ListNotations.
Open Scope R_scope.

(** for every momentum (or none), nesterov or not, every fixed or scheduled learning rate: the n-th update (n from 0) is minus the learning rate at count n times the momentum trace of the gradients. *)
Theorem C59_sgd : forall `{P : Platform} (L : lrate) (lr : Z -> R) (m : option R) (nest : bool), (forall c, rate L c = Fin (lr c)) ->
  exists T, sgd L (option_map Fin m) nest = Ok T /\ emits true T (fun g _ n y => y = Fin (- lr (count_at n) * momentum_of m nest g n)).
Proof. exact @sgd_emits. Qed.
Print Assumptions C59_sgd.

(** hence for the loop of update and apply_updates, from any parameters and any gradients shaped like them: nothing raises, and after n steps every parameter with finite history equals its initial value minus the sum of learning rate times trace. *)
Theorem C59_parameters : forall `{P : Platform} (L : lrate) (lr : Z -> R) (m : option R) (nest : bool) (p : tree tensor) (gs : list (tree tensor)), (forall c, rate L c = Fin (lr c)) -> trwf p -> Forall (like p) gs ->
  exists T s0 qs sf, sgd L (option_map Fin m) nest = Ok T /\ init T p = Ok s0 /\ train_loop T s0 p gs = Ok (qs, sf) /\ length qs = length gs /\ Forall (like p) qs /\
    forall pos n (g : nat -> R) (x : R), (n < length gs)%nat -> elt p pos = Some (Fin x) -> (forall i, (i <= n)%nat -> oelt gs i pos = Some (Fin (g i))) ->
      oelt qs n pos = Some (Fin (x - sum_f_R0 (fun i => lr (count_at i) * momentum_of m nest g i) n)).
Proof. exact @sgd_params. Qed.
Print Assumptions C59_parameters.

Example C59_example : forall `{P : Platform}, exists T outs, sgd (LSched (fun c => Fin (IZR c + 1))) (Some (Fin (1/2))) false = Ok T /\ trains T ex_p ex_H outs /\ oelt outs 2 (0%nat, 1%nat) = Some (Fin (- (51 / 4))).
Proof. exact @sgd_example. Qed.

(** in any arithmetic, for every hyper-parameter, learning rate (fixed or schedule) and history: an alias emits exactly what its scaling rule (followed by decoupled weight decay, and by the trust ratio for lamb) emits, every element of the n-th tree multiplied by minus the learning rate at count n; rmsprop then applies the optional momentum; sm3 has a fixed learning rate. *)
Theorem C60_decomposition : forall `{O : Ops} (L : lrate) (b1 b2 eps er th wd lr : F) (p : tree tensor) (H : list (tree tensor * option (tree tensor))) (outs : list (tree tensor)),
  let runs T := exists G, T = Ok G /\ trains G p H outs in
  (runs (adam L b1 b2 eps er) <-> exists mid, trains (scale_by_adam b1 b2 eps er) p H mid /\ outs = times_rate L mid) /\
  (runs (adamw L b1 b2 eps er wd) <-> exists m1 m2, trains (scale_by_adam b1 b2 eps er) p H m1 /\ trains (add_decayed_weights wd) p (feed m1 H) m2 /\ outs = times_rate L m2) /\
  (runs (adabelief L b1 b2 eps) <-> exists mid, trains (scale_by_belief b1 b2 eps (flit (1 # 10000000000000000))) p H mid /\ outs = times_rate L mid) /\
  (runs (adagrad L b1 eps) <-> exists mid, trains (scale_by_rss b1 eps) p H mid /\ outs = times_rate L mid) /\
  (runs (radam L b1 b2 eps er th) <-> feqb (py1m b2) fzero = false /\ exists mid, trains (scale_by_radam b1 b2 eps er th) p H mid /\ outs = times_rate L mid) /\
  (runs (yogi L b1 b2 eps) <-> exists mid, trains (scale_by_yogi b1 b2 eps fzero (flit (1 # 1000000))) p H mid /\ outs = times_rate L mid) /\
  (runs (sm3 lr b1) <-> exists mid, trains (scale_by_sm3 b1 fone (flit (1 # 100000000))) p H mid /\ outs = times_rate (LConst lr) mid) /\
  (runs (lamb L b1 b2 eps er wd) <-> exists m1 m2 m3, trains (scale_by_adam b1 b2 eps er) p H m1 /\ trains (add_decayed_weights wd) p (feed m1 H) m2 /\ trains (scale_by_trust_ratio fzero) p (feed m2 H) m3 /\ outs = times_rate L m3) /\
  (forall centered m nest, runs (rmsprop L b1 eps b2 centered m nest) <->
     exists mid, trains (if centered then scale_by_stddev b1 eps b2 else scale_by_rms b1 eps b2) p H mid /\ trains (opt_trace m nest) p (feed (times_rate L mid) H) outs).
Proof. exact @alias_decomposition. Qed.
Print Assumptions C60_decomposition.

(** building radam raises ZeroDivisionError exactly when 1 - b2, computed on Python floats, is zero; in exact arithmetic, exactly when b2 is 1. *)
Theorem C63_radam_b2 : forall `{P : Platform} (L : lrate) (b1 b2 eps er th : XR), (b2 = Fin 1 <-> radam L b1 b2 eps er th = Err EZeroDiv) /\ (b2 <> Fin 1 -> exists T, radam L b1 b2 eps er th = Ok T).
Proof. exact @radam_b2. Qed.
Print Assumptions C63_radam_b2.

(** in exact arithmetic, for every parameter tree and history, every fixed or scheduled learning rate and hyper-parameters in the usual ranges: nothing raises, updates keep the parameters' structure, shapes and dtypes, and the n-th update of an element is minus the learning rate at count n times the direction of the rule -- a plain function of that element's gradients, defined above -- for adam, adabelief, adagrad, radam (below 2^30 steps) and yogi. *)
Theorem C60_closed_forms : forall `{P : Platform} (L : lrate) (lr : Z -> R) (b1 b2 eps er th a0 : R), (forall c, rate L c = Fin (lr c)) -> 0 <= b1 < 1 -> 0 <= b2 < 1 -> 0 < eps -> 0 <= er -> 4 < th -> 0 <= a0 ->
  (exists T, adam L (Fin b1) (Fin b2) (Fin eps) (Fin er) = Ok T /\ emits true T (fun g _ n y => y = Fin (- lr (count_at n) * adam_dir b1 b2 eps er g n))) /\
  (exists T, adabelief L (Fin b1) (Fin b2) (Fin eps) = Ok T /\ emits true T (fun g _ n y => y = Fin (- lr (count_at n) * belief_dir b1 b2 eps (/ 10 ^ 16) g n))) /\
  (exists T, adagrad L (Fin a0) (Fin eps) = Ok T /\ emits true T (fun g _ n y => y = Fin (- lr (count_at n) * rss_dir a0 eps g n))) /\
  (exists T, radam L (Fin b1) (Fin b2) (Fin eps) (Fin er) (Fin th) = Ok T /\ emits true T (fun g _ n y => (Z.of_nat (S n) < 2 ^ 30)%Z -> y = Fin (- lr (count_at n) * radam_dir b1 b2 eps er th g n))) /\
  (exists T, yogi L (Fin b1) (Fin b2) (Fin eps) = Ok T /\ emits true T (fun g _ n y => y = Fin (- lr (count_at n) * yogi_dir b1 b2 eps 0 (/ 10 ^ 6) g n))).
Proof. exact @alias_closed_forms. Qed.
Print Assumptions C60_closed_forms.

(** adamw's n-th update of an element with parameter history q is - lr * (adam direction) - lr * weight_decay * q_n: the decay term is not rescaled by the gradients' statistics. *)
Theorem C60_adamw : forall `{P : Platform} (L : lrate) (lr : Z -> R) (b1 b2 eps er wd : R), (forall c, rate L c = Fin (lr c)) -> 0 <= b1 < 1 -> 0 <= b2 < 1 -> 0 < eps -> 0 <= er ->
  exists T, adamw L (Fin b1) (Fin b2) (Fin eps) (Fin er) (Fin wd) = Ok T /\ emits false T (fun g q n y => y = Fin (- lr (count_at n) * adam_dir b1 b2 eps er g n - lr (count_at n) * wd * q n)).
Proof. exact @adamw_closed_form. Qed.
Print Assumptions C60_adamw.

(** rmsprop's updates are the optional momentum trace of - lr * g / sqrt(nu - mu^2 + eps) (mu = 0 unless centered): the learning rate is inside the momentum. *)
Theorem C60_rmsprop : forall `{P : Platform} (L : lrate) (lr : Z -> R) (b eps v0 : R) (centered : bool) (m : option R) (nest : bool), (forall c, rate L c = Fin (lr c)) -> 0 <= b < 1 -> 0 < eps -> 0 <= v0 ->
  exists T, rmsprop L (Fin b) (Fin eps) (Fin v0) centered (option_map Fin m) nest = Ok T /\
    emits true T (fun g _ n y => y = Fin (momentum_of m nest (fun i => - lr (count_at i) * rms_dir b eps v0 centered g i) n)).
Proof. exact @rmsprop_closed_form. Qed.
Print Assumptions C60_rmsprop.

Example C60_example : forall `{P : Platform}, exists T outs, adamw (LConst (Fin 2)) (Fin (9/10)) (Fin (999/1000)) (Fin 1) (Fin 0) (Fin 3) = Ok T /\
  trains T (one (Fin 5)) [(one (Fin 1), Some (one (Fin 5)))] outs /\ oelt outs 0 (0%nat, 0%nat) = Some (Fin (-31)).
Proof. exact @adamw_example. Qed.
