(** Generated by tools/genprops.py from P_alias2.v: property theorems only. *)
From Verif Require Import P_alias2.
From Coq Require Import List.
Import ListNotations.
Open Scope R_scope.

(** keep_params_nonnegative, add_decayed_weights, scale_by_trust_ratio and adaptive_grad_clip raise ValueError when params is None, for every updates tree and every state. *)
Theorem C63_required : forall `{O : Ops} (wd m clipping eps : F),
  demands_params keep_params_nonnegative /\ demands_params (add_decayed_weights wd) /\ demands_params (scale_by_trust_ratio m) /\ demands_params (adaptive_grad_clip clipping eps).
Proof. exact @params_required. Qed.
Print Assumptions C63_required.

(** every other transformation gives the same result, or the same error, whatever params is, for every updates tree and every state. *)
Theorem C63_ignored : forall `{O : Ops} (a b c d e x : F) (nest debias : bool) (acc : option fdt) (f : schedule) (k seed : Z),
  ignores_params identity /\ ignores_params (trace a nest acc) /\ ignores_params (ema a debias acc) /\ ignores_params (scale_by_rss a b) /\
  ignores_params (scale_by_rms a b c) /\ ignores_params (scale_by_stddev a b c) /\ ignores_params (scale_by_adam a b c d) /\ ignores_params (scale a) /\
  ignores_params (scale_by_belief a b c d) /\ ignores_params (scale_by_yogi a b c d e) /\ ignores_params (scale_by_radam a b c d e) /\
  ignores_params (scale_by_schedule f) /\ ignores_params (add_noise a b seed) /\ ignores_params (apply_every k) /\ ignores_params centralize /\
  ignores_params (scale_by_sm3 a b c) /\ ignores_params (clip a) /\ ignores_params (clip_by_global_norm a) /\ ignores_params zero_nans /\
  ignores_params (differentially_private_aggregate a b seed).
Proof. exact @params_ignored. Qed.
Print Assumptions C63_ignored.

(** a chain of transformations that ignore params ignores params; so do apply_if_finite and maybe_update around one; MultiSteps ignores params whatever it wraps. *)
Theorem C63_wrappers : forall `{O : Ops} (Ts : list GT) (T T' : GT) (n : Z) (should : Z -> bool) (every : Z -> Z) (mean : bool), Forall ignores_params Ts -> ignores_params T ->
  ignores_params (chain_gt Ts) /\ ignores_params (apply_if_finite T n) /\ ignores_params (maybe_update T should) /\ ignores_params (multi_steps T' every mean).
Proof. exact @params_wrappers. Qed.
Print Assumptions C63_wrappers.

(** sgd, adam, adabelief, adagrad, radam, rmsprop, sm3, yogi, noisy_sgd and dpsgd give the same result whatever params is. *)
Theorem C63_ignoring_aliases : forall `{O : Ops} (L : lrate) (b1 b2 eps er th lr : F) (centered nest : bool) (m : option F) (seed : Z) (T : GT),
  In (Ok T) [sgd L m nest; adam L b1 b2 eps er; adabelief L b1 b2 eps; adagrad L b1 eps; radam L b1 b2 eps er th; rmsprop L b1 eps er centered m nest; sm3 lr b1; yogi L b1 b2 eps; noisy_sgd L b1 b2 seed; dpsgd L b1 b2 seed m nest] ->
  ignores_params T.
Proof. exact @params_aliases. Qed.
Print Assumptions C63_ignoring_aliases.

(** a chain containing a transformation that demands params never succeeds with params None, from any state; it raises ValueError whenever the transformations before it succeed. *)
Theorem C63_chain : forall `{O : Ops} (pre post : list GT) (T : GT), demands_params T -> forall (us : tree tensor) (n : sname) (ss : list state),
  (forall r, update (chain_gt (pre ++ T :: post)) us (SNode n ss) None <> Ok r) /\
  (forall u' s', length ss = length (pre ++ T :: post) -> update (chain_gt pre) us (SNode n (firstn (length pre) ss)) None = Ok (u', s') ->
     update (chain_gt (pre ++ T :: post)) us (SNode n ss) None = Err EValue).
Proof. exact @params_chain. Qed.
Print Assumptions C63_chain.

(** adamw, lamb and fromage raise ValueError when params is None, for every gradients shaped like the parameters, in every state reached by training from init. *)
Theorem C63_demanding_aliases : forall `{O : Ops} (L : lrate) (lr b1 b2 eps er wd m : F) (T : GT) (p u : tree tensor) (H : list (tree tensor * option (tree tensor))),
  In (Ok T) [adamw L b1 b2 eps er wd; lamb L b1 b2 eps er wd; fromage lr m] -> trwf p -> hist_ok false p H -> like p u ->
  exists s0 outs s, init T p = Ok s0 /\ run T s0 H = Ok (outs, s) /\ update T u s None = Err EValue.
Proof. exact @alias_refuses. Qed.
Print Assumptions C63_demanding_aliases.

Example C63_example : forall `{P : Platform}, exists T s0 outs s, adamw (LConst (Fin 2)) (Fin (9/10)) (Fin (999/1000)) (Fin 1) (Fin 0) (Fin 3) = Ok T /\
  init T ex_p = Ok s0 /\ run T s0 ex_H = Ok (outs, s) /\ update T ex_p s None = Err EValue /\ exists r, update T ex_p s (Some ex_p) = Ok r.
Proof. exact @refuses_example. Qed.

(** one fromage step (update with params, then apply_updates) from any finite parameters and gradients of one signature succeeds, keeps the signature, and turns each element p of a leaf into (p - lr * k * g) / sqrt(1 + lr^2), k > 0 being the same number for the whole leaf: max(|p|,min_norm) / max(|g|,min_norm), or 1 if one of these is zero. *)
Theorem C61_step : forall `{P : Platform} (lr m : R) (T : GT) (p u : tree tensor), 0 <= m -> fromage (Fin lr) (Fin m) = Ok T -> trwf p -> like p u -> finite_tree p -> finite_tree u ->
  exists s0 u' q, init T p = Ok s0 /\ update T u s0 (Some p) = Ok (u', s0) /\ apply_updates p u' = Ok q /\ like p u' /\ like p q /\ finite_tree q /\
    forall j g a, nth_error (leaves u) j = Some g -> nth_error (leaves p) j = Some a ->
      exists k, 0 < k /\
        (0 < Rmax (lnorm a) m -> 0 < Rmax (lnorm g) m -> k = Rmax (lnorm a) m / Rmax (lnorm g) m) /\
        (Rmax (lnorm a) m = 0 \/ Rmax (lnorm g) m = 0 -> k = 1) /\
        forall i x y, nth_error (dat a) i = Some (Fin x) -> nth_error (dat g) i = Some (Fin y) -> elt q (j, i) = Some (Fin ((x - lr * k * y) / sqrt (1 + lr ^ 2))).
Proof. exact @fromage_step. Qed.
Print Assumptions C61_step.

(** if a leaf of the parameters is not zero, or min_norm > 0, then whatever the gradient, its norm after one fromage step is at most (|p| + lr * max(|p|, min_norm)) / sqrt(1 + lr^2), which is at most (1 + lr)/sqrt(1 + lr^2) <= sqrt 2 times |p| when |p| >= min_norm. *)
Theorem C61_no_blow_up : forall `{P : Platform} (lr m : R) (T : GT) (p u : tree tensor), 0 <= m -> 0 <= lr -> fromage (Fin lr) (Fin m) = Ok T -> trwf p -> like p u -> finite_tree p -> finite_tree u ->
  exists s0 u' q, init T p = Ok s0 /\ update T u s0 (Some p) = Ok (u', s0) /\ apply_updates p u' = Ok q /\
    forall j a r, nth_error (leaves p) j = Some a -> nth_error (leaves q) j = Some r -> 0 < m \/ 0 < lnorm a ->
      lnorm r <= (lnorm a + lr * Rmax (lnorm a) m) / sqrt (1 + lr ^ 2) /\
      (m <= lnorm a -> lnorm r <= (1 + lr) / sqrt (1 + lr ^ 2) * lnorm a) /\ (1 + lr) / sqrt (1 + lr ^ 2) <= sqrt 2.
Proof. exact @fromage_bound. Qed.
Print Assumptions C61_no_blow_up.

(** along every training run with finite gradients, min_norm m > 0 and lr >= 0, no step fails, everything stays finite, and max(|p_n|, m) <= ((1 + lr)/sqrt(1 + lr^2))^n * max(|p_0|, m) for every leaf: the growth is independent of the gradients. *)
Theorem C61_training : forall `{P : Platform} (lr m : R) (T : GT) (p : tree tensor) (gs : list (tree tensor)), 0 < m -> 0 <= lr -> fromage (Fin lr) (Fin m) = Ok T -> trwf p -> finite_tree p ->
  Forall (fun g => like p g /\ finite_tree g) gs ->
  exists s0 qs, init T p = Ok s0 /\ train_loop T s0 p gs = Ok (qs, s0) /\ length qs = length gs /\ Forall (like p) qs /\ Forall finite_tree qs /\
    forall n j a q r, nth_error (leaves p) j = Some a -> nth_error (p :: qs) n = Some q -> nth_error (leaves q) j = Some r ->
      Rmax (lnorm r) m <= ((1 + lr) / sqrt (1 + lr ^ 2)) ^ n * Rmax (lnorm a) m.
Proof. exact @fromage_training. Qed.
Print Assumptions C61_training.

Example C61_example : forall `{P : Platform}, let p := Leaf (mkT F32 [2%nat] [Fin 3; Fin 4]) in let g := Leaf (mkT F32 [2%nat] [Fin 0; Fin 10]) in
  exists T s0 u' q, fromage (Fin (3/4)) (Fin 1) = Ok T /\ init T p = Ok s0 /\ update T g s0 (Some p) = Ok (u', s0) /\ apply_updates p u' = Ok q /\
    elt q (0%nat, 0%nat) = Some (Fin (12/5)) /\ elt q (0%nat, 1%nat) = Some (Fin (1/5)).
Proof. exact @fromage_example. Qed.

(** the n-th update (n from 0) of noisy_sgd is -lr_n * g + (eta / (n+1)^gamma) * z, z being the standard normal drawn for that element: the noise is added after the learning rate and is not scaled by it. *)
Theorem C62_noisy_sgd : forall `{P : Platform} (L : lrate) (lr : Z -> R) (eta gamma : R) (seed : Z) (p0 : tree tensor) (H : list (tree tensor * option (tree tensor))),
  (forall c, rate L c = Fin (lr c)) -> (forall k n, length (ksplit k n) = n) -> Forall (fun h => trwf (fst h)) H -> (Z.of_nat (length H) <= int32_max)%Z ->
  exists T outs, noisy_sgd L (Fin eta) (Fin gamma) seed = Ok T /\ trains T p0 H outs /\ length outs = length H /\
    forall n u par j l k i g z, nth_error H n = Some (u, par) -> nth_error (leaves u) j = Some l -> nth_error (dat l) i = Some (Fin g) ->
        drawn (prng_key seed) (map (fun h => length (leaves (fst h))) H) n j = Some k -> knormal k (dt l) (shp l) i = Fin z ->
        oelt outs n (j, i) = Some (Fin (- lr (count_at n) * g + eta / Rpower (INR (S n)) gamma * z)).
Proof. exact @noisy_sgd_formula. Qed.
Print Assumptions C62_noisy_sgd.

(** in any arithmetic, dpsgd emits exactly what sgd (momentum trace, then minus the learning rate) emits on the sequence of privately aggregated gradients: aggregation first, then momentum, then -lr. *)
Theorem C62_dpsgd : forall `{O : Ops} (L : lrate) (clip mult : F) (seed : Z) (m : option F) (nest : bool) (p : tree tensor) (H : list (tree tensor * option (tree tensor))) (outs : list (tree tensor)),
  (exists T, dpsgd L clip mult seed m nest = Ok T /\ trains T p H outs) <->
  exists mid tr, trains (differentially_private_aggregate clip mult seed) p H mid /\ trains (opt_trace m nest) p (feed mid H) tr /\ outs = times_rate L tr.
Proof. exact @dpsgd_decomposition. Qed.
Print Assumptions C62_dpsgd.

(** for parameters of one dtype and batches of per-example gradients, dpsgd never fails, its updates have the signature of the parameters, and every element whose aggregated gradients d_0 .. d_n are finite gets -lr_n times the momentum trace of d. *)
Theorem C62_dpsgd_closed_form : forall `{P : Platform} (L : lrate) (lr : Z -> R) (clip mult : XR) (seed : Z) (m : option R) (nest : bool) (p : tree tensor) (H : list (tree tensor * option (tree tensor))),
  (forall c, rate L c = Fin (lr c)) -> (forall k n, length (ksplit k n) = n) -> trwf p -> Forall (fun h => per_example p (fst h)) H ->
  exists T agg outs, dpsgd L clip mult seed (option_map Fin m) nest = Ok T /\ trains (differentially_private_aggregate clip mult seed) p H agg /\ trains T p H outs /\ length outs = length H /\ Forall (like p) outs /\
    forall n pos d, (n < length H)%nat -> (forall i, (i <= n)%nat -> oelt agg i pos = Some (Fin (d i))) -> oelt outs n pos = Some (Fin (- lr (count_at n) * momentum_of m nest d n)).
Proof. exact @dpsgd_closed_form. Qed.
Print Assumptions C62_dpsgd_closed_form.

Example C62_example : exists T outs, @noisy_sgd (XROps ones_platform) (@LSched (XROps ones_platform) (fun c => Fin (IZR c + 1))) (Fin 6) (Fin 1) 7 = Ok T /\ @trains (XROps ones_platform) T ex_p ex_H outs /\
  oelt outs 2 (0%nat, 1%nat) = Some (Fin (-7)).
Proof. exact @noisy_example. Qed.

Example C62_dpsgd_example : exists T agg outs, @dpsgd (XROps ones_platform) (@LConst (XROps ones_platform) (Fin 2)) (Fin 1) (Fin 1) 7 (Some (Fin (1/2))) false = Ok T /\
  @trains (XROps ones_platform) T dp_p [(dp_ex 1 2 3 4, None); (dp_ex 3 (3 / 10) 4 (4 / 10), None)] outs /\
  @trains (XROps ones_platform) (@differentially_private_aggregate (XROps ones_platform) (Fin 1) (Fin 1) 7) dp_p [(dp_ex 1 2 3 4, None); (dp_ex 3 (3 / 10) 4 (4 / 10), None)] agg /\
  forall d0 d1, oelt agg 0 (1%nat, 0%nat) = Some (Fin d0) -> oelt agg 1 (1%nat, 0%nat) = Some (Fin d1) -> oelt outs 1 (1%nat, 0%nat) = Some (Fin (- 2 * (d1 + d0 / 2))).
Proof. exact @dpsgd_example. Qed.
