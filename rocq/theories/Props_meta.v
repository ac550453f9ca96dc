(** Generated by tools/genprops.py from P_meta.v: property theorems only. *)
From Verif Require Import P_meta.
From Coq Require Import List Reals.
Import ListNotations.
Open Scope R_scope.

(** Each differentiable operation, run on numbers that carry a derivative (the pair jax.jvp propagates), returns the value and the derivative of the result: sum, difference, product, quotient, negation, square root, reciprocal square root, exponential, logarithms, cosine, natural and real powers, and - away from their kinks - absolute value, maximum and minimum. *)
Theorem C100_rules : forall `{P : Platform} (d : fdt) (x y : dual) (f g : R -> R) (k : nat), carries_fun x f -> carries_fun y g ->
  carries_fun (@fadd (DualOps P) d x y) (fun s => f s + g s) /\
  carries_fun (@fsub (DualOps P) d x y) (fun s => f s - g s) /\
  carries_fun (@fmul (DualOps P) d x y) (fun s => f s * g s) /\
  carries_fun (@fneg (DualOps P) x) (fun s => - f s) /\
  carries_fun (@fexp (DualOps P) d x) (fun s => exp (f s)) /\
  carries_fun (@fcos (DualOps P) d x) (fun s => cos (f s)) /\
  (g 0 <> 0 -> carries_fun (@fdiv (DualOps P) d x y) (fun s => f s / g s)) /\
  (0 < f 0 -> carries_fun (@fsqrt (DualOps P) d x) (fun s => sqrt (f s))) /\
  (0 < f 0 -> carries_fun (@frsqrt (DualOps P) d x) (fun s => 1 / sqrt (f s))) /\
  (0 < f 0 -> carries_fun (@flog (DualOps P) d x) (fun s => ln (f s))) /\
  (-1 < f 0 -> carries_fun (@flog1p (DualOps P) d x) (fun s => ln (1 + f s))) /\
  ((1 <= k)%nat -> carries_fun (@fpow (DualOps P) d x (fd (INR k) 0)) (fun s => f s ^ k)) /\
  (0 < f 0 -> g 0 <> 0 -> carries_fun (@fpow (DualOps P) d x y) (fun s => Rpower (f s) (g s))) /\
  (f 0 <> 0 -> carries_fun (@fabs (DualOps P) x) (fun s => Rabs (f s))) /\
  (f 0 <> g 0 -> carries_fun (@fmax (DualOps P) x y) (fun s => Rmax (f s) (g s))) /\
  (f 0 <> g 0 -> carries_fun (@fmin (DualOps P) x y) (fun s => Rmin (f s) (g s))).
Proof. exact @dual_rules. Qed.
Print Assumptions C100_rules.

(** Differentiating through training is exact. Take any chain of identity, scale, scale by a fixed or scheduled learning rate, add_decayed_weights, trace (nesterov or not), scale_by_adam and scale_by_belief with eps_root > 0, scale_by_rms with eps > 0 and scale_by_rss with a positive initial accumulator; let every hyper-parameter, every initial parameter and the gradient function depend on a number s (differentiably, hyper-parameters in range near s = 0). Then for any number of steps the loop of update and apply_updates run on values that carry their derivatives succeeds, so does the ordinary loop for every s near 0, and every element of the final parameters carries exactly its value and its derivative with respect to s at 0. *)
Theorem C100_training : forall `{P : Platform} (del : R) (TDs : list (@GT (DualOps P))) (TXs : list (R -> @GT (XROps P))) p Ps GD GX (n : nat), 0 < del -> Forall2 (smooth_part del) TDs TXs -> derives del p Ps -> smooth_grads del (avals p) GD GX ->
  exists x sd X SS, @fit (DualOps P) (chain_gt TDs) GD n p = Ok (x, sd) /\ (forall s, Rabs s < del -> @fit (XROps P) (chain_gt (map (fun T => T s) TXs)) (GX s) n (Ps s) = Ok (X s, SS s)) /\
    avals x = avals p /\
    forall pos y, elt x pos = Some y -> exists f t, y = fd (f 0) t /\ derivable_pt_lim f 0 t /\ forall s, Rabs s < del -> elt (X s) pos = Some (Fin (f s)).
Proof. exact @training_differentiates. Qed.
Print Assumptions C100_training.

(** So for sgd (with and without momentum), adam, adamw, adabelief, adagrad and rmsprop (with and without momentum): differentiating the whole training run with respect to the learning rate (or anything in its schedule), the decay rates, eps, eps_root, the weight decay, the momentum, the initial parameters or anything the gradients depend on gives exactly the derivative of the trained parameters; for adam and adamw this needs eps_root > 0. *)
Theorem C100_optimisers : forall `{P : Platform} (del : R) RD RX p Ps GD GX (n : nat), 0 < del -> smooth_optimiser del RD RX -> derives del p Ps -> smooth_grads del (avals p) GD GX ->
  exists TD TX x sd X SS, RD = Ok TD /\ (forall s, RX s = Ok (TX s)) /\ @fit (DualOps P) TD GD n p = Ok (x, sd) /\ (forall s, Rabs s < del -> @fit (XROps P) (TX s) (GX s) n (Ps s) = Ok (X s, SS s)) /\
    avals x = avals p /\
    forall pos y, elt x pos = Some y -> exists f t, y = fd (f 0) t /\ derivable_pt_lim f 0 t /\ forall s, Rabs s < del -> elt (X s) pos = Some (Fin (f s)).
Proof. exact @optimisers_differentiate. Qed.
Print Assumptions C100_optimisers.

(** The side condition on eps_root is needed, as the documentation of adam says: with eps_root = 0 (the default) and an element whose gradients have all been zero so far, differentiating through scale_by_adam gives NaN as the tangent of that element's update at every step, whatever tangents the gradients, the decay rates and eps carry - although the update itself is 0. *)
Theorem C100_eps_root : forall `{P : Platform} (b1 t1 b2 t2 eps te : R) (p : tree (gt dual)) H, 0 <= b1 < 1 -> 0 <= b2 < 1 -> 0 < eps -> trwf p -> @hist_ok (DualOps P) true p H ->
  exists outs, @trains (DualOps P) (@scale_by_adam (DualOps P) (fd b1 t1) (fd b2 t2) (fd eps te) (fd 0 0)) p H outs /\ length outs = length H /\
    forall n pos u, (n < length H)%nat -> (forall i, (i <= n)%nat -> @helt (DualOps P) H i pos = Some (fd 0 (u i))) -> @oelt (DualOps P) outs n pos = Some (Fin 0, NaN).
Proof. exact @adam_meta_nan. Qed.
Print Assumptions C100_eps_root.

Example C100_ex_adamw : forall `{P : Platform} (n : nat), exists TD TX x sd X SS,
  @adamw (DualOps P) (@LConst (DualOps P) (fd (/ 10) 1)) (fd (9 / 10) 0) (fd (99 / 100) 1) (fd (/ 100) 0) (fd (/ 1000) 0) (fd (/ 5) 3) = Ok TD /\
  (forall s, @adamw (XROps P) (@LConst (XROps P) (Fin (/ 10 + 1 * s))) (Fin (9 / 10 + 0 * s)) (Fin (99 / 100 + 1 * s)) (Fin (/ 100 + 0 * s)) (Fin (/ 1000 + 0 * s)) (Fin (/ 5 + 3 * s)) = Ok (TX s)) /\
  @fit (DualOps P) TD (fun _ q => emapt (fun d x => @fadd (DualOps P) d (@fmul (DualOps P) d (fd 2 1) x) (fd 0 1)) q) n (Leaf (mkT F32 [2%nat] [fd 1 0; fd 2 5])) = Ok (x, sd) /\
  (forall s, Rabs s < / 200 -> @fit (XROps P) (TX s) (fun _ q => emapt (fun d x => @fadd (XROps P) d (@fmul (XROps P) d (Fin (2 + 1 * s)) x) (Fin (0 + 1 * s))) q) n (Leaf (mkT F32 [2%nat] [Fin (1 + 0 * s); Fin (2 + 5 * s)])) = Ok (X s, SS s)) /\
  forall pos y, elt x pos = Some y -> exists f t, y = fd (f 0) t /\ derivable_pt_lim f 0 t /\ forall s, Rabs s < / 200 -> elt (X s) pos = Some (Fin (f s)).
Proof. exact @ex_adamw_meta. Qed.

Example C100_ex_learning_rate : forall `{P : Platform} (lr p : R) (n : nat), exists T s,
  @sgd (DualOps P) (@LConst (DualOps P) (fd lr 1)) None false = Ok T /\
  @fit (DualOps P) T (fun _ q => q) n (Leaf (mkT F32 [1%nat] [fd p 0])) = Ok (Leaf (mkT F32 [1%nat] [fd ((1 - lr) ^ n * p) (- INR n * (1 - lr) ^ (n - 1) * p)]), s).
Proof. exact @ex_lr_meta. Qed.

Example C100_ex_eps_root : forall `{P : Platform}, exists outs, @trains (DualOps P) (@scale_by_adam (DualOps P) (fd (9 / 10) 0) (fd (99 / 100) 0) (fd (/ 100) 0) (fd 0 0)) (Leaf (mkT F32 [2%nat] [fd 1 0; fd 2 0])) [(Leaf (mkT F32 [2%nat] [fd 3 1; fd 0 7]), None); (Leaf (mkT F32 [2%nat] [fd 3 1; fd 0 8]), None)] outs /\
  @oelt (DualOps P) outs 1 (0%nat, 1%nat) = Some (Fin 0, NaN).
Proof. exact @ex_adam_nan. Qed.
