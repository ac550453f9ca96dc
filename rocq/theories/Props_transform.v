(** Generated by tools/genprops.py from P_transform.v: property theorems only. *)
From Verif Require Import P_transform.
Open Scope R_scope.

(** The n-th output (n from 0) is the sum of decay^(n-i) g_i over i<=n, or g_n plus decay times that with nesterov. *)
Theorem C12_trace_closed_form : forall `{P : Platform} (decay : R) (nesterov : bool),
  emits true (trace (Fin decay) nesterov None) (fun g _ n y =>
    let t := sum_f_R0 (fun i => decay ^ (n - i) * g i) n in
    y = Fin (if nesterov then g n + decay * t else t)).
Proof. exact @trace_closed_form. Qed.
Print Assumptions C12_trace_closed_form.

(** With gradients bounded by G and 0<=decay<1 every output, nesterov or not, is bounded by G/(1-decay). *)
Theorem C12_trace_bounded : forall `{P : Platform} (decay G : R) (nesterov : bool), 0 <= decay < 1 ->
  emits true (trace (Fin decay) nesterov None) (fun g _ n y =>
    (forall i, (i <= n)%nat -> Rabs (g i) <= G) -> exists r, y = Fin r /\ Rabs r <= G / (1 - decay)).
Proof. exact @trace_bounded. Qed.
Print Assumptions C12_trace_bounded.

Example C12_example : forall `{P : Platform}, exists outs,
  trains (trace (Fin (1/2)) false None) ex_p ex_H outs /\ oelt outs 2 (0%nat, 1%nat) = Some (Fin (17 / 4)).
Proof. exact @trace_example. Qed.

(** With debias the output is a weighted mean of the history: the weights (1-b) b^(n-i)/(1-b^(n+1)) are non-negative and sum to 1 (up to the saturation of the counter at 2^31-1). *)
Theorem C13_ema_debiased_weighted_mean : forall `{P : Platform} (b : R), 0 <= b < 1 ->
  emits true (ema (Fin b) true None) (fun g _ n y =>
    (Z.of_nat n < 2 ^ 31 - 1)%Z ->
    let w i := (1 - b) * b ^ (n - i) / (1 - b ^ (S n)) in
    y = Fin (sum_f_R0 (fun i => w i * g i) n) /\ sum_f_R0 w n = 1 /\ forall i, (i <= n)%nat -> 0 <= w i).
Proof. exact @ema_debiased. Qed.
Print Assumptions C13_ema_debiased_weighted_mean.

(** Hence the debiased output stays within any range containing the history, and constant gradients are reproduced exactly. *)
Theorem C13_ema_debiased_in_range : forall `{P : Platform} (b lo hi : R), 0 <= b < 1 ->
  emits true (ema (Fin b) true None) (fun g _ n y =>
    (Z.of_nat n < 2 ^ 31 - 1)%Z -> (forall i, (i <= n)%nat -> lo <= g i <= hi) ->
    exists r, y = Fin r /\ lo <= r <= hi).
Proof. exact @ema_debiased_range. Qed.
Print Assumptions C13_ema_debiased_in_range.

(** With debias=False the emitted update is the raw gradient, for every history (also non-finite), dtype and arithmetic: the average is accumulated but never emitted. *)
Theorem C13_ema_no_debias_emits_raw_updates : forall `{O : Ops} (b : F) (acc : option fdt) u s par u' s',
  update (ema b false acc) u s par = Ok (u', s') -> u' = u.
Proof. exact @ema_no_debias. Qed.
Print Assumptions C13_ema_no_debias_emits_raw_updates.

(** So the documented "exponential moving average of past updates" fails with debias=False: after the history 1, 2, 3 with decay 1/2 the output is 3, not 17/8. *)
Theorem C13_ema_without_debias_is_not_an_average_refuted : forall `{P : Platform}, exists outs,
  trains (ema (Fin (1/2)) false None) ex_p ex_H outs /\
  oelt outs 2 (0%nat, 1%nat) = Some (Fin 3) /\ ema_of (1/2) 0 (fun i => INR (S i)) 2 = 17 / 8.
Proof. exact @ema_no_debias_refuted. Qed.
Print Assumptions C13_ema_without_debias_is_not_an_average_refuted.

Example C13_example : forall `{P : Platform}, exists outs,
  trains (ema (Fin (1/2)) true None) ex_p ex_H outs /\ oelt outs 2 (0%nat, 1%nat) = Some (Fin (17 / 7)).
Proof. exact @ema_example. Qed.

(** The output is g_n / sqrt(acc_n + eps) with acc_n the initial value plus the sum of all squared gradients, and 0 when acc_n = 0; its magnitude never exceeds 1. *)
Theorem C14_rss_closed_form : forall `{P : Platform} (a0 eps : R), 0 <= a0 -> 0 <= eps ->
  emits true (scale_by_rss (Fin a0) (Fin eps)) (fun g _ n y =>
    let acc := a0 + sum_f_R0 (fun i => g i * g i) n in
    (0 < acc -> y = Fin (g n / sqrt (acc + eps))) /\ (acc = 0 -> y = Fin 0) /\
    exists r, y = Fin r /\ Rabs r <= 1).
Proof. exact @rss_closed_form. Qed.
Print Assumptions C14_rss_closed_form.

(** In one update the sum-of-squares accumulator of every element goes from t to g^2 + t, hence never decreases. *)
Theorem C14_rss_accumulator_monotone : forall `{P : Platform} (a0 eps : XR) (u ss : tree tensor) par,
  avals u = avals ss -> trwf u -> trwf ss ->
  exists u' ss', update (scale_by_rss a0 eps) u (SNode NRss [STree ss]) par = Ok (u', SNode NRss [STree ss']) /\
    forall pos g t, elt u pos = Some (Fin g) -> elt ss pos = Some (Fin t) ->
      elt ss' pos = Some (Fin (g * g + t)) /\ t <= g * g + t.
Proof. exact @rss_monotone. Qed.
Print Assumptions C14_rss_accumulator_monotone.

Example C14_example : forall `{P : Platform}, exists outs,
  trains (scale_by_rss (Fin 2) (Fin 0)) ex_p ex_H outs /\ oelt outs 2 (0%nat, 1%nat) = Some (Fin (3 / sqrt 16)).
Proof. exact @rss_example. Qed.

(** The output is g_n / sqrt(nu_n + eps) with nu_n = decay^(n+1) initial_scale + (1-decay) sum decay^(n-i) g_i^2 (non-negative), and |output| <= 1/sqrt(1-decay) for decay<1. *)
Theorem C15_rms_closed_form : forall `{P : Platform} (b eps v0 : R), 0 <= b < 1 -> 0 < eps -> 0 <= v0 ->
  emits true (scale_by_rms (Fin b) (Fin eps) (Fin v0)) (fun g _ n y =>
    let nu := b ^ (S n) * v0 + (1 - b) * sum_f_R0 (fun i => b ^ (n - i) * (g i * g i)) n in
    0 <= nu /\ y = Fin (g n / sqrt (nu + eps)) /\ Rabs (g n / sqrt (nu + eps)) <= 1 / sqrt (1 - b)).
Proof. exact @rms_closed_form. Qed.
Print Assumptions C15_rms_closed_form.

(** Without eps the first all-zero gradient gives 0 * (1/sqrt 0) = NaN. *)
Theorem C15_rms_eps_zero_nan_refuted : forall `{P : Platform}, exists outs,
  trains (scale_by_rms (Fin (9/10)) (Fin 0) (Fin 0)) (one (Fin 1)) (ones_hist [Fin 0]) outs /\
  oelt outs 0 (0%nat, 0%nat) = Some NaN.
Proof. exact @rms_nan. Qed.
Print Assumptions C15_rms_eps_zero_nan_refuted.

Example C15_example : forall `{P : Platform}, exists outs,
  trains (scale_by_rms (Fin (1/2)) (Fin (1/8)) (Fin 0)) ex_p ex_H outs /\
  oelt outs 2 (0%nat, 1%nat) = Some (Fin (3 / sqrt (23 / 4))).
Proof. exact @rms_example. Qed.

(** The centred second moment nu_n - mu_n^2 is never negative and the output is the real number g_n / sqrt(nu_n - mu_n^2 + eps): never NaN for eps > 0. *)
Theorem C16_stddev_centred_moment_nonneg : forall `{P : Platform} (b eps v0 : R), 0 <= b <= 1 -> 0 < eps -> 0 <= v0 ->
  emits true (scale_by_stddev (Fin b) (Fin eps) (Fin v0)) (fun g _ n y =>
    let mu := (1 - b) * sum_f_R0 (fun i => b ^ (n - i) * g i) n in
    let nu := b ^ (S n) * v0 + (1 - b) * sum_f_R0 (fun i => b ^ (n - i) * (g i * g i)) n in
    0 <= nu - mu * mu /\ y = Fin (g n / sqrt (nu - mu * mu + eps))).
Proof. exact @stddev_closed_form. Qed.
Print Assumptions C16_stddev_centred_moment_nonneg.

Example C16_example : forall `{P : Platform}, exists outs,
  trains (scale_by_stddev (Fin (1/2)) (Fin (1/64)) (Fin 0)) ex_p ex_H outs /\
  oelt outs 2 (0%nat, 1%nat) = Some (Fin (3 / sqrt (9 / 8))).
Proof. exact @stddev_example. Qed.
