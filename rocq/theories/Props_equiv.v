(** Generated by tools/genprops.py from P_equiv.v: property theorems only. *)
From Verif Require Import P_equiv.
From Coq Require Import List.
Import ListNotations.
Open Scope R_scope.

(** in exact arithmetic, from any parameters and on every finite history of any length: scale(1), trace(0) with or without nesterov, ema(0) with debias, ema of any decay without debias, apply_every(1), a schedule constantly 1 and add_decayed_weights(0) (given params) all emit exactly what identity does. *)
Theorem C80_neutral : forall `{P : Platform},
  interchangeable true (scale (Fin 1)) identity /\
  (forall nest, interchangeable true (trace (Fin 0) nest None) identity) /\
  interchangeable true (ema (Fin 0) true None) identity /\
  (forall b, 0 <= b < 1 -> interchangeable true (ema (Fin b) false None) identity) /\
  interchangeable true (apply_every 1) identity /\
  interchangeable true (scale_by_schedule (fun _ => Fin 1)) identity /\
  interchangeable false (add_decayed_weights (Fin 0)) identity.
Proof. exact @neutral_elements. Qed.
Print Assumptions C80_neutral.

(** two scales are one by the product, two clips one at the smaller bound, two weight decays one by the sum, and a constant schedule is a scale. *)
Theorem C80_fusion : forall `{P : Platform} (a b : R),
  interchangeable true (chain_gt [scale (Fin a); scale (Fin b)]) (scale (Fin (a * b))) /\
  (0 <= a -> 0 <= b -> interchangeable true (chain_gt [clip (Fin a); clip (Fin b)]) (clip (Fin (Rmin a b)))) /\
  interchangeable false (chain_gt [add_decayed_weights (Fin a); add_decayed_weights (Fin b)]) (add_decayed_weights (Fin (a + b))) /\
  interchangeable true (scale_by_schedule (fun _ => Fin a)) (scale (Fin a)).
Proof. exact @fusion_laws. Qed.
Print Assumptions C80_fusion.

(** a fixed scale can be moved across trace (with or without nesterov) and ema (with or without debias), and across clip when the bound is scaled too; two schedules commute. *)
Theorem C80_commute : forall `{P : Platform} (c b : R) (f h : Z -> R),
  (forall nest, interchangeable true (chain_gt [trace (Fin b) nest None; scale (Fin c)]) (chain_gt [scale (Fin c); trace (Fin b) nest None])) /\
  (forall db, 0 <= b < 1 -> interchangeable true (chain_gt [ema (Fin b) db None; scale (Fin c)]) (chain_gt [scale (Fin c); ema (Fin b) db None])) /\
  (0 <= b -> 0 < c -> interchangeable true (chain_gt [clip (Fin b); scale (Fin c)]) (chain_gt [scale (Fin c); clip (Fin (c * b))])) /\
  interchangeable true (chain_gt [scale_by_schedule (fun i => Fin (f i)); scale_by_schedule (fun i => Fin (h i))])
    (chain_gt [scale_by_schedule (fun i => Fin (h i)); scale_by_schedule (fun i => Fin (f i))]).
Proof. exact @commuting_laws. Qed.
Print Assumptions C80_commute.

(** for every fixed or scheduled learning rate and hyper-parameters in range, adamw with no weight decay is adam and sgd with momentum 0 (nesterov or not) is sgd without momentum; and with a fixed learning rate rmsprop's momentum may be taken before or after the learning rate. *)
Theorem C80_aliases : forall `{P : Platform} (L : lrate) (lr : Z -> R) (b1 b2 eps er v0 x : R) (centered nest : bool) (m : option R),
  (forall c, rate L c = Fin (lr c)) -> 0 <= b1 < 1 -> 0 <= b2 < 1 -> 0 < eps -> 0 <= er -> 0 <= v0 ->
  (exists T1 T2, adamw L (Fin b1) (Fin b2) (Fin eps) (Fin er) (Fin 0) = Ok T1 /\ adam L (Fin b1) (Fin b2) (Fin eps) (Fin er) = Ok T2 /\ interchangeable false T1 T2) /\
  (exists T1 T2, sgd L (Some (Fin 0)) nest = Ok T1 /\ sgd L None false = Ok T2 /\ interchangeable true T1 T2) /\
  (exists T, rmsprop (LConst (Fin x)) (Fin b2) (Fin eps) (Fin v0) centered (option_map Fin m) nest = Ok T /\
    interchangeable true T (chain_gt [(if centered then scale_by_stddev (Fin b2) (Fin eps) (Fin v0) else scale_by_rms (Fin b2) (Fin eps) (Fin v0)); match m with Some b => trace (Fin b) nest None | None => identity end; scale (Fin (- x))])).
Proof. exact @alias_equivalences. Qed.
Print Assumptions C80_aliases.

(** for every k from 1 to 2^31-1 accumulating with apply_every(k) and then applying a stateless rule (scale, or clip) is MultiSteps(rule, k) with sums, and dividing by k in between gives MultiSteps with means. *)
Theorem C80_accumulation : forall `{P : Platform} (k : nat) (c : R), (1 <= k)%nat -> (Z.of_nat k < 2 ^ 31)%Z ->
  interchangeable true (chain_gt [apply_every (Z.of_nat k); scale (Fin c)]) (multi_steps (scale (Fin c)) (fun _ => Z.of_nat k) false) /\
  interchangeable true (chain_gt [apply_every (Z.of_nat k); scale (Fin (c / INR k))]) (multi_steps (scale (Fin c)) (fun _ => Z.of_nat k) true) /\
  (0 <= c -> interchangeable true (chain_gt [apply_every (Z.of_nat k); clip (Fin c)]) (multi_steps (clip (Fin c)) (fun _ => Z.of_nat k) false)).
Proof. exact @accumulation_equivalences. Qed.
Print Assumptions C80_accumulation.

(** MultiSteps with k = 1 (sum or mean) around any element-wise transformation that ignores params is that transformation. *)
Theorem C80_every_step : forall `{P : Platform} (T : GT) (M : machine) (use_mean : bool), refines true T M -> interchangeable true (multi_steps T (fun _ => 1%Z) use_mean) T.
Proof. exact @multi_one. Qed.
Print Assumptions C80_every_step.

(** and the side conditions matter: a schedule does not commute with momentum, clip does not commute with scale at the same bound, and apply_every before momentum is not MultiSteps around it (the zeros it emits decay the momentum). *)
Theorem C80_not_interchangeable : forall `{P : Platform},
  ~ interchangeable true (chain_gt [trace (Fin 1) false None; scale_by_schedule (fun c => Fin (IZR c))]) (chain_gt [scale_by_schedule (fun c => Fin (IZR c)); trace (Fin 1) false None]) /\
  ~ interchangeable true (chain_gt [clip (Fin 1); scale (Fin 2)]) (chain_gt [scale (Fin 2); clip (Fin 1)]) /\
  ~ interchangeable true (chain_gt [apply_every 2; trace (Fin 1) false None]) (multi_steps (trace (Fin 1) false None) (fun _ => 2%Z) false).
Proof. exact @order_matters. Qed.
Print Assumptions C80_not_interchangeable.

Example C80_example : forall `{P : Platform}, trwf ex_p /\ hist_ok true ex_p ex_H /\ finite_hist true ex_H /\
  exists outs, trains (chain_gt [apply_every 3; scale (Fin 2)]) ex_p ex_H outs /\ trains (multi_steps (scale (Fin 2)) (fun _ => 3%Z) false) ex_p ex_H outs /\
    oelt outs 1 (0%nat, 1%nat) = Some (Fin 0) /\ oelt outs 2 (0%nat, 1%nat) = Some (Fin 12).
Proof. exact @equiv_example. Qed.
