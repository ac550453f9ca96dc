(** Generated by tools/genprops.py from P_ieee9.v: property theorems only. *)
From Verif Require Import P_ieee9.
From Flocq Require Import Core.Core IEEE754.BinarySingleNaN.
Open Scope R_scope.
#[local] Existing Instance FlOps.

(** IEEE arithmetic of any dtype with p bits of precision: if all gradients so far satisfied |g| <= (1-decay)*2^k (0 <= k < emax), then every output of trace (momentum), nesterov or not, is finite, at most 2^k in magnitude, and within 2^(k-p)/(1-decay) of the exactly computed discounted sum - however long the history. Here decay is the value after rounding to the dtype. *)
Theorem C77_momentum_error_uniform : forall `{L : Libm} (decay : fl) (nesterov : bool),
  femits true (trace decay nesterov None) (fun d g _ n y => forall k : Z,
    let c := fval (fcast d decay) in let t := sum_f_R0 (fun i => c ^ (n - i) * fval (g i)) n in
    fisfinite (fcast d decay) = true -> 0 <= c < 1 -> (0 <= k < femax d)%Z ->
    (forall i, (i <= n)%nat -> fisfinite (g i) = true /\ Rabs (fval (g i)) <= (1 - c) * bpow radix2 k) ->
    fisfinite y = true /\ Rabs (fval y) <= bpow radix2 k /\
    Rabs (fval y - (if nesterov then fval (g n) + c * t else t)) <= bpow radix2 (k - fprec d) / (1 - c)).
Proof. exact @trace_error. Qed.
Print Assumptions C77_momentum_error_uniform.

Example C77_example : forall n, exists outs y, trains (O := FlOps cr_libm) (trace (O := FlOps cr_libm) (Nz (/ 2)) false None) (fone1 BF16 (Zr false)) (fhist BF16 (repeat (Nz 1) (S n))) outs /\
  oelt (O := FlOps cr_libm) outs n (0%nat, 0%nat) = Some y /\ ffin y = true /\ Rabs (fval y) <= 2 /\
  Rabs (fval y - sum_f_R0 (fun i => (/ 2) ^ (n - i) * 1) n) <= / 64.
Proof. exact @trace_error_example. Qed.
