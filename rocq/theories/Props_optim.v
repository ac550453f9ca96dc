(** Generated by tools/genprops.py from P_optim.v: property theorems only. *)
From Verif Require Import P_optim.
Open Scope R_scope.

(** The n-th output (n from 0) is mhat/(sqrt(vhat+eps_root)+eps), mhat and vhat being the bias-corrected exponential averages of the gradients and of their squares (satcount is the step number, capped at 2^31-1); a real number for every finite history when eps > 0; params are ignored. *)
Theorem C17_adam_closed_form : forall `{P : Platform} (b1 b2 eps eps_root : R),
  0 <= b1 < 1 -> 0 <= b2 < 1 -> 0 < eps -> 0 <= eps_root ->
  emits true (scale_by_adam (Fin b1) (Fin b2) (Fin eps) (Fin eps_root)) (fun g _ n y =>
    let t := satcount (S n) in
    let mhat := (1 - b1) * sum_f_R0 (fun i => b1 ^ (n - i) * g i) n / (1 - b1 ^ t) in
    let vhat := (1 - b2) * sum_f_R0 (fun i => b2 ^ (n - i) * (g i * g i)) n / (1 - b2 ^ t) in
    0 <= vhat /\ y = Fin (mhat / (sqrt (vhat + eps_root) + eps))).
Proof. exact @adam_closed_form. Qed.
Print Assumptions C17_adam_closed_form.

Example C17_example : forall `{P : Platform}, exists outs,
  trains (scale_by_adam (Fin (1/2)) (Fin (1/2)) (Fin 1) (Fin 0)) ex_p ex_H outs /\
  oelt outs 2 (0%nat, 1%nat) = Some (Fin ((17/7) / (sqrt (45/7) + 1))).
Proof. exact @adam_example. Qed.

(** While all gradients so far are the same number c (in particular at the first step) the output is c/(|c|+eps), for eps_root = 0. *)
Theorem C18_adam_constant_gradients : forall `{P : Platform} (b1 b2 eps : R),
  0 <= b1 < 1 -> 0 <= b2 < 1 -> 0 < eps ->
  emits true (scale_by_adam (Fin b1) (Fin b2) (Fin eps) (Fin 0)) (fun g _ n y =>
    forall c, (Z.of_nat n < 2 ^ 31 - 1)%Z -> (forall i, (i <= n)%nat -> g i = c) -> y = Fin (c / (Rabs c + eps))).
Proof. exact @adam_constant. Qed.
Print Assumptions C18_adam_constant_gradients.

(** With b1^2 < b2 no history can make the output of step t = n+1 larger in magnitude than (1-b1)/(1-b1^t) * sqrt((1-b2^t)/(1-b2)) * sqrt(sum_{k<t} (b1^2/b2)^k). *)
Theorem C18_adam_step_bound : forall `{P : Platform} (b1 b2 eps eps_root : R),
  0 <= b1 < 1 -> 0 < b2 < 1 -> b1 * b1 < b2 -> 0 < eps -> 0 <= eps_root ->
  emits true (scale_by_adam (Fin b1) (Fin b2) (Fin eps) (Fin eps_root)) (fun g _ n y =>
    let t := satcount (S n) in
    exists r, y = Fin r /\
      Rabs r <= (1 - b1) / (1 - b1 ^ t) * sqrt ((1 - b2 ^ t) / (1 - b2)) * sqrt (sum_f_R0 (fun k => (b1 * b1 / b2) ^ k) n)).
Proof. exact @adam_bound. Qed.
Print Assumptions C18_adam_step_bound.

(** With eps = eps_root = 0, multiplying an element's whole gradient history by c > 0 does not change what is emitted there (when some gradient so far was non-zero). *)
Theorem C18_adam_scale_invariance : forall `{P : Platform} (b1 b2 c : R) (p : tree tensor) H H',
  0 <= b1 < 1 -> 0 < b2 < 1 -> 0 < c ->
  trwf p -> hist_ok true p H -> hist_ok true p H' ->
  exists outs outs',
    trains (scale_by_adam (Fin b1) (Fin b2) (Fin 0) (Fin 0)) p H outs /\
    trains (scale_by_adam (Fin b1) (Fin b2) (Fin 0) (Fin 0)) p H' outs' /\
    forall n pos (g : nat -> R), (n < length H)%nat -> (n < length H')%nat ->
      (forall i, (i <= n)%nat -> helt H i pos = Some (Fin (g i))) ->
      (forall i, (i <= n)%nat -> helt H' i pos = Some (Fin (c * g i))) ->
      (exists i, (i <= n)%nat /\ g i <> 0) ->
      exists r, oelt outs n pos = Some (Fin r) /\ oelt outs' n pos = Some (Fin r).
Proof. exact @adam_scale_inv. Qed.
Print Assumptions C18_adam_scale_invariance.

Example C18_example : forall `{P : Platform},
  (exists outs, trains (scale_by_adam (Fin (9/10)) (Fin (999/1000)) (Fin (1/10)) (Fin 0)) (one (Fin 1)) (ones_hist [Fin 3; Fin 3; Fin (-5)]) outs /\
    oelt outs 1 (0%nat, 0%nat) = Some (Fin (30 / 31))) /\
  (exists outs r, trains (scale_by_adam (Fin (9/10)) (Fin (999/1000)) (Fin (1/10)) (Fin 0)) (one (Fin 1)) (ones_hist [Fin 3; Fin 3; Fin (-5)]) outs /\
    oelt outs 2 (0%nat, 0%nat) = Some (Fin r) /\
    Rabs r <= (1 - 9/10) / (1 - (9/10) ^ 3) * sqrt ((1 - (999/1000) ^ 3) / (1 - 999/1000)) * sqrt (sum_f_R0 (fun k => (9/10 * (9/10) / (999/1000)) ^ k) 2)).
Proof. exact @adam_bound_example. Qed.

(** The second moment averages the squared deviation of each gradient from the first moment BEFORE that gradient was absorbed (mu n is the average of the gradients 0..n-1, 0 initially). *)
Theorem C19_belief_closed_form : forall `{P : Platform} (b1 b2 eps eps_root : R),
  0 <= b1 < 1 -> 0 <= b2 < 1 -> 0 < eps -> 0 <= eps_root ->
  emits true (scale_by_belief (Fin b1) (Fin b2) (Fin eps) (Fin eps_root)) (fun g _ n y =>
    let t := satcount (S n) in
    exists mu nu : nat -> R,
      mu 0%nat = 0 /\ (forall i, mu (S i) = b1 * mu i + (1 - b1) * g i) /\
      nu 0%nat = 0 /\ (forall i, nu (S i) = b2 * nu i + (1 - b2) * (g i - mu i) ^ 2) /\ 0 <= nu (S n) /\
      y = Fin ((mu (S n) / (1 - b1 ^ t)) / (sqrt (nu (S n) / (1 - b2 ^ t) + eps_root) + eps))).
Proof. exact @belief_closed_form. Qed.
Print Assumptions C19_belief_closed_form.

Example C19_example : forall `{P : Platform}, exists outs,
  trains (scale_by_belief (Fin (1/2)) (Fin (1/2)) (Fin 1) (Fin 0)) ex_p ex_H outs /\
  oelt outs 1 (0%nat, 1%nat) = Some (Fin ((5/3) / (sqrt (11/6) + 1))).
Proof. exact @belief_example. Qed.

(** The second moment follows v' = b2 v + (1-b2) (sign(v - g^2) g^2)^2 and stays non-negative; both moments start at initial_accumulator_value. *)
Theorem C20_yogi_as_implemented : forall `{P : Platform} (b1 b2 eps eps_root v0 : R),
  0 <= b1 < 1 -> 0 <= b2 < 1 -> 0 < eps -> 0 <= eps_root -> 0 <= v0 ->
  emits true (scale_by_yogi (Fin b1) (Fin b2) (Fin eps) (Fin eps_root) (Fin v0)) (fun g _ n y =>
    let t := satcount (S n) in
    exists mu v : nat -> R,
      mu 0%nat = v0 /\ (forall i, mu (S i) = b1 * mu i + (1 - b1) * g i) /\
      v 0%nat = v0 /\
      (forall i, exists s, ((0 < v i - g i ^ 2 -> s = 1) /\ (v i - g i ^ 2 < 0 -> s = -1) /\ (v i - g i ^ 2 = 0 -> s = 0)) /\
                 v (S i) = b2 * v i + (1 - b2) * (s * g i ^ 2) ^ 2) /\
      (forall i, 0 <= v i) /\
      y = Fin ((mu (S n) / (1 - b1 ^ t)) / (sqrt (v (S n) / (1 - b2 ^ t) + eps_root) + eps))).
Proof. exact @yogi_closed_form. Qed.
Print Assumptions C20_yogi_as_implemented.

(** With b1 = b2 = 0, eps = 1, v0 = 0 and first gradient 2 the paper's v - (1-b2) sign(v-g^2) g^2 = 4 would give 2/(2+1); the code emits 2/(4+1). *)
Theorem C20_yogi_is_not_the_papers_rule_refuted : forall `{P : Platform}, exists outs,
  trains (scale_by_yogi (Fin 0) (Fin 0) (Fin 1) (Fin 0) (Fin 0)) (one (Fin 1)) (ones_hist [Fin 2]) outs /\
  oelt outs 0 (0%nat, 0%nat) = Some (Fin (2 / 5)) /\ 2 / 5 <> 2 / (sqrt 4 + 1).
Proof. exact @yogi_refuted. Qed.
Print Assumptions C20_yogi_is_not_the_papers_rule_refuted.

Example C20_example : forall `{P : Platform}, exists outs,
  trains (scale_by_yogi (Fin 0) (Fin (1/2)) (Fin 1) (Fin 0) (Fin 0)) (one (Fin 1)) (ones_hist [Fin 2; Fin 1]) outs /\
  oelt outs 1 (0%nat, 0%nat) = Some (Fin (1 / (sqrt 6 + 1))).
Proof. exact @yogi_example. Qed.

(** With rho_inf = 2/(1-b2)-1 and rho_t = rho_inf - 2 t b2^t/(1-b2^t) at step t = n+1 < 2^30: the output is the bias-corrected momentum while rho_t < threshold and otherwise r mhat/(sqrt(vhat+eps_root)+eps), r = sqrt(((rho-4)(rho-2)rho_inf)/((rho_inf-4)(rho_inf-2)rho)) being a real number in [0,1] whenever threshold > 4. *)
Theorem C21_radam_rectified : forall `{P : Platform} (b1 b2 eps eps_root threshold : R),
  0 <= b1 < 1 -> 0 <= b2 < 1 -> 0 < eps -> 0 <= eps_root -> 4 < threshold ->
  emits true (scale_by_radam (Fin b1) (Fin b2) (Fin eps) (Fin eps_root) (Fin threshold)) (fun g _ n y =>
    (Z.of_nat (S n) < 2 ^ 30)%Z ->
    let t := S n in
    let mhat := (1 - b1) * sum_f_R0 (fun i => b1 ^ (n - i) * g i) n / (1 - b1 ^ t) in
    let vhat := (1 - b2) * sum_f_R0 (fun i => b2 ^ (n - i) * (g i * g i)) n / (1 - b2 ^ t) in
    let rho_inf := 2 / (1 - b2) - 1 in
    let rho := rho_inf - 2 * INR t * b2 ^ t / (1 - b2 ^ t) in
    let r := sqrt (((rho - 4) * (rho - 2) * rho_inf) / ((rho_inf - 4) * (rho_inf - 2) * rho)) in
    (rho < threshold -> y = Fin mhat) /\
    (threshold <= rho -> 0 <= r <= 1 /\ y = Fin (r * mhat / (sqrt (vhat + eps_root) + eps)))).
Proof. exact @radam_closed_form. Qed.
Print Assumptions C21_radam_rectified.

(** (finding) 2*count is computed in 32-bit integers: from step 2^30 on it wraps to a negative number, so rho_t = rho_inf + (2^32 - 2t) b2^t/(1-b2^t) lies above rho_inf and the rectification factor is at least 1 instead of at most 1 (t = n+1, at most 2^31-1). *)
Theorem C21_radam_beyond_2_30 : forall `{P : Platform} (b1 b2 eps eps_root threshold : R),
  0 <= b1 < 1 -> 3 / 5 < b2 < 1 -> 0 < eps -> 0 <= eps_root ->
  emits true (scale_by_radam (Fin b1) (Fin b2) (Fin eps) (Fin eps_root) (Fin threshold)) (fun g _ n y =>
    (2 ^ 30 <= Z.of_nat (S n) <= 2 ^ 31 - 1)%Z ->
    let t := S n in
    let mhat := (1 - b1) * sum_f_R0 (fun i => b1 ^ (n - i) * g i) n / (1 - b1 ^ t) in
    let vhat := (1 - b2) * sum_f_R0 (fun i => b2 ^ (n - i) * (g i * g i)) n / (1 - b2 ^ t) in
    let rho_inf := 2 / (1 - b2) - 1 in
    let rho := rho_inf + (2 ^ 32 - 2 * INR t) * b2 ^ t / (1 - b2 ^ t) in
    let r := sqrt (((rho - 4) * (rho - 2) * rho_inf) / ((rho_inf - 4) * (rho_inf - 2) * rho)) in
    rho_inf <= rho /\ 1 <= r /\ (rho < threshold -> y = Fin mhat) /\
    (threshold <= rho -> y = Fin (r * mhat / (sqrt (vhat + eps_root) + eps)))).
Proof. exact @radam_wrapped. Qed.
Print Assumptions C21_radam_beyond_2_30.

Example C21_example : forall `{P : Platform}, exists outs r,
  trains (scale_by_radam (Fin 0) (Fin (9/10)) (Fin 1) (Fin 0) (Fin 5)) (one (Fin 1)) (ones_hist (repeat (Fin 1) 10)) outs /\
  oelt outs 0 (0%nat, 0%nat) = Some (Fin 1) /\ oelt outs 9 (0%nat, 0%nat) = Some (Fin r) /\ 0 <= r <= / 2.
Proof. exact @radam_example. Qed.

(** scale(s) multiplies every element by s (cast to the leaf's dtype), in every arithmetic and dtype; it keeps structure, shapes, dtypes and state and ignores params. *)
Theorem C22_scale : forall `{O : Ops} (s : F) (u : tree tensor) (st : state) par, trwf u ->
  exists u', update (scale s) u st par = Ok (u', st) /\ like u u' /\
    forall pos x, elt u pos = Some x -> let d := leafdt u pos in elt u' pos = Some (fmul d (fcast d s) x).
Proof. exact @scale_spec. Qed.
Print Assumptions C22_scale.

(** For every schedule, history and arithmetic, the n-th call (n from 0) multiplies by the schedule at count n, saturating at 2^31-1: the schedule is evaluated at 0, 1, 2, ... in order. *)
Theorem C22_scale_by_schedule : forall `{O : Ops} (f : Z -> F) (p : tree tensor) H,
  trwf p -> hist_ok true p H ->
  exists outs, trains (scale_by_schedule f) p H outs /\ length outs = length H /\ Forall (like p) outs /\
    forall n pos (gs : nat -> F), (n < length H)%nat ->
      (forall i, (i <= n)%nat -> helt H i pos = Some (gs i)) ->
      let d := leafdt p pos in
      oelt outs n pos = Some (fmul d (fcast d (f (Z.min (Z.of_nat n) (2 ^ 31 - 1)))) (gs n)).
Proof. exact @schedule_spec. Qed.
Print Assumptions C22_scale_by_schedule.

Example C22_example : forall `{P : Platform}, exists outs,
  trains (scale_by_schedule (fun c => Fin (IZR c * 10))) ex_p ex_H outs /\ oelt outs 2 (0%nat, 1%nat) = Some (Fin 60).
Proof. exact @schedule_example. Qed.

(** With params shaped like the updates, every element becomes g + weight_decay * p in the leaf's dtype; structure, shapes and dtypes are kept; no state. *)
Theorem C23_add_decayed_weights : forall `{O : Ops} (wd : F) (u p : tree tensor) (st : state),
  avals u = avals p -> trwf u -> trwf p ->
  exists u', update (add_decayed_weights wd) u st (Some p) = Ok (u', st) /\ like p u' /\
    forall pos g q, elt u pos = Some g -> elt p pos = Some q ->
      let d := leafdt p pos in elt u' pos = Some (fadd d g (fmul d (fcast d wd) q)).
Proof. exact @wd_spec. Qed.
Print Assumptions C23_add_decayed_weights.

(** Without params it raises ValueError, whatever the updates and state. *)
Theorem C23_add_decayed_weights_needs_params : forall `{O : Ops} (wd : F) u st, update (add_decayed_weights wd) u st None = Err EValue.
Proof. exact @wd_none. Qed.
Print Assumptions C23_add_decayed_weights_needs_params.

Example C23_example : forall `{P : Platform}, exists u', update (add_decayed_weights (Fin (1/10))) (ex_g 2) EmptyState (Some ex_p) = Ok (u', EmptyState) /\
  elt u' (1%nat, 3%nat) = Some (Fin (34/10)).
Proof. exact @wd_example. Qed.

(** For k between 1 and 2^31-1 and finite gradients: at calls k, 2k, 3k, ... the output is the sum of exactly the last k gradients, at all other calls it is 0. *)
Theorem C26_apply_every : forall `{P : Platform} (k : nat), (1 <= Z.of_nat k <= 2 ^ 31 - 1)%Z ->
  emits true (apply_every (Z.of_nat k)) (fun g _ n y =>
    (S n mod k = 0 -> y = Fin (sum_f_R0 (fun j => g (S n - k + j)%nat) (k - 1)))%nat /\
    (S n mod k <> 0 -> y = Fin 0)%nat).
Proof. exact @every_spec. Qed.
Print Assumptions C26_apply_every.

(** Nothing is lost or counted twice: over the first m*k calls the emitted values add up to the received gradients. *)
Theorem C26_apply_every_total : forall `{P : Platform} (k m : nat) (p : tree tensor) H,
  (1 <= Z.of_nat k <= 2 ^ 31 - 1)%Z -> trwf p -> hist_ok true p H -> (m * k <= length H)%nat ->
  exists outs, trains (apply_every (Z.of_nat k)) p H outs /\
    forall pos (g : nat -> R), (forall i, (i < m * k)%nat -> helt H i pos = Some (Fin (g i))) ->
    exists ys : nat -> R, (forall i, (i < m * k)%nat -> oelt outs i pos = Some (Fin (ys i))) /\
      rsumn ys (m * k) = rsumn g (m * k).
Proof. exact @every_total. Qed.
Print Assumptions C26_apply_every_total.

(** The zero is not guaranteed for non-finite gradients: once an element has received one NaN, every later output there is NaN, at emitting and at non-emitting calls, for ever. *)
Theorem C26_apply_every_nan_never_clears_refuted : forall `{P : Platform} (k : Z) (p : tree tensor) H, (1 <= k <= 2 ^ 31 - 1)%Z ->
  trwf p -> hist_ok true p H ->
  exists outs, trains (apply_every k) p H outs /\
    forall n m pos (gs : nat -> XR), (n < length H)%nat -> (m <= n)%nat ->
      (forall i, (i <= n)%nat -> helt H i pos = Some (gs i)) -> gs m = NaN -> oelt outs n pos = Some NaN.
Proof. exact @every_nan. Qed.
Print Assumptions C26_apply_every_nan_never_clears_refuted.

Example C26_example : forall `{P : Platform}, exists outs,
  trains (apply_every 2) ex_p ex_H outs /\ oelt outs 1 (0%nat, 1%nat) = Some (Fin 3) /\ oelt outs 2 (0%nat, 1%nat) = Some (Fin 0).
Proof. exact @every_example. Qed.
