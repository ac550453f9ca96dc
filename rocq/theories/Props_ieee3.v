(** Generated by tools/genprops.py from P_ieee3.v: property theorems only. *)
From Verif Require Import P_ieee3.
From Flocq Require Import Core.Core IEEE754.BinarySingleNaN.
Open Scope R_scope.
#[local] Existing Instance FlOps.

(** scale_by_rms in IEEE arithmetic of any dtype, any history: if decay, 1-decay and eps are positive and finite after rounding to the dtype, the initial scale is >= 0, no gradient so far was NaN and the current gradient is finite (earlier ones may be infinite, squares may overflow or underflow), the emitted update is not NaN. *)
Theorem C70_rms_never_nan : forall `{L : Libm} (decay eps init0 : fl), rsqrt_sane L -> fle fzero init0 = true ->
  femits true (scale_by_rms decay eps init0) (fun d g _ n y =>
    pos_fin (fcast d decay) -> pos_fin (fcast d (py1m decay)) -> pos_fin (fcast d eps) ->
    (forall i, (i <= n)%nat -> fisnan (g i) = false) -> fisfinite (g n) = true -> fisnan y = false).
Proof. exact @rms_not_nan. Qed.
Print Assumptions C70_rms_never_nan.

(** scale_by_rss likewise, for any eps >= 0 (also one that rounds to 0). *)
Theorem C70_rss_never_nan : forall `{L : Libm} (initial eps : fl), rsqrt_sane L -> fle fzero initial = true -> fle fzero eps = true ->
  femits true (scale_by_rss initial eps) (fun d g _ n y =>
    (forall i, (i <= n)%nat -> fisnan (g i) = false) -> fisfinite (g n) = true -> fisnan y = false).
Proof. exact @rss_not_nan. Qed.
Print Assumptions C70_rss_never_nan.

(** (finding) if the square of one past or current gradient element overflows the dtype (for float16: |g| >= 256), the second moment is +inf for ever and scale_by_rms emits 0 for that element at every later step with a finite gradient. *)
Theorem C70_rms_frozen_by_overflow : forall `{L : Libm} (decay eps init0 : fl), (forall d, l_rsqrt L d (If false) = Zr false) -> fle fzero init0 = true ->
  femits true (scale_by_rms decay eps init0) (fun d g _ n y =>
    pos_fin (fcast d decay) -> pos_fin (fcast d (py1m decay)) -> fle fzero eps = true ->
    (forall i, (i <= n)%nat -> fisnan (g i) = false) -> fisfinite (g n) = true ->
    (exists i, (i <= n)%nat /\ fisfinite (fmul d (g i) (g i)) = false) -> feqb y fzero = true).
Proof. exact @rms_frozen. Qed.
Print Assumptions C70_rms_frozen_by_overflow.

(** scale_by_adam in IEEE arithmetic of any dtype, any number of steps: if b1, 1-b1, b2, 1-b2 and eps are positive and finite after rounding to the dtype (with rounded (1-b1)/2 + b1 <= 1), eps_root >= 0, the bias corrections 1-b^t evaluate to finite positive values (1-b1^t to at least 2^-k), and all gradients so far were bounded by 2^e with e+k+2 <= emax, then the emitted update is not NaN (squares of gradients may overflow or underflow). *)
Theorem C70_adam_never_nan : forall `{L : Libm} (b1 b2 eps eps_root : fl) (e k : Z), fle fzero eps_root = true ->
  femits true (scale_by_adam b1 b2 eps eps_root) (fun d g _ n y =>
    adam_ok d b1 b2 e k n -> pos_fin (fcast d eps) ->
    (forall i, (i <= n)%nat -> fisfinite (g i) = true /\ Rabs (fval (g i)) <= bpow radix2 e) -> fisnan y = false).
Proof. exact @adam_not_nan. Qed.
Print Assumptions C70_adam_never_nan.

(** (finding) under the same hypotheses (eps >= 0 suffices), once the square of one gradient element overflowed the dtype, Adam emits 0 for that element at every later step. *)
Theorem C70_adam_frozen_by_overflow : forall `{L : Libm} (b1 b2 eps eps_root : fl) (e k : Z), fle fzero eps_root = true -> fle fzero eps = true ->
  femits true (scale_by_adam b1 b2 eps eps_root) (fun d g _ n y =>
    adam_ok d b1 b2 e k n ->
    (forall i, (i <= n)%nat -> fisfinite (g i) = true /\ Rabs (fval (g i)) <= bpow radix2 e) ->
    (exists i, (i <= n)%nat /\ fisfinite (fmul d (g i) (g i)) = false) -> feqb y fzero = true).
Proof. exact @adam_frozen. Qed.
Print Assumptions C70_adam_frozen_by_overflow.
