(** Generated by tools/genprops.py from P_ieee7.v: property theorems only. *)
From Verif Require Import P_ieee7.
From Flocq Require Import Core.Core IEEE754.BinarySingleNaN.
Open Scope R_scope.
#[local] Existing Instance FlOps.

(** IEEE arithmetic, clip_by_global_norm on any tree of one dtype with finite elements (any sizes, any summation order): no NaN or infinity is ever produced and no element of the result exceeds max_norm in magnitude - exactly, in spite of rounding - provided max_norm is at least 2^-6 (float16), 2^-62 (bfloat16, float32) or 2^-510 (float64). *)
Theorem C75_elements_bounded_ieee : forall `{L : Libm} (u : tree tensor) (m : fl) (d : fdt) st par, sum_sane L ->
  trwf u -> Forall (fun t => dt t = d /\ Forall (fun x => in_format d x /\ ffin x = true) (dat t)) (leaves u) ->
  fisfinite (fcast d m) = true -> bpow radix2 (min_norm_exp d) <= fval (fcast d m) ->
  exists u', update (clip_by_global_norm m) u st par = Ok (u', st) /\ avals u' = avals u /\
    forall pos x, elt u pos = Some x -> exists y, elt u' pos = Some y /\ fisfinite y = true /\ fle (fabs y) (fcast d m) = true /\
      (flt (snd (global_norm u)) (fcast d m) = true -> y = x).
Proof. exact @cbgn_bounded_ieee. Qed.
Print Assumptions C75_elements_bounded_ieee.

(** (finding) if the square of a single element overflows its dtype - |x| >= 256 in float16, about 1.8e19 in float32 and bfloat16 - the computed norm is infinite and clip_by_global_norm replaces the whole update of every leaf by zeros, for any (finite, not tiny) max_norm, although the direction could have been kept. *)
Theorem C75_overflow_zeroes_update : forall `{L : Libm} (u : tree tensor) (m : fl) (d : fdt) st par pos0 x0, sum_sane L ->
  trwf u -> Forall (fun t => dt t = d /\ Forall (fun x => in_format d x /\ ffin x = true) (dat t)) (leaves u) ->
  fisfinite (fcast d m) = true -> bpow radix2 (min_norm_exp d) <= fval (fcast d m) ->
  elt u pos0 = Some x0 -> fmul d x0 x0 = If false ->
  exists u', update (clip_by_global_norm m) u st par = Ok (u', st) /\
    forall pos x, elt u pos = Some x -> exists s, elt u' pos = Some (Zr s).
Proof. exact @cbgn_overflow. Qed.
Print Assumptions C75_overflow_zeroes_update.

Example C75_example : exists u',
  update (clip_by_global_norm (O := FlOps cr_libm) (Nz 1)) (Node KList [fone1 F16 (Nz 300); fone1 F16 (Nz (-2))]) EmptyState None = Ok (u', EmptyState) /\
  (exists s, elt u' (0%nat, 0%nat) = Some (Zr s)) /\ (exists s, elt u' (1%nat, 0%nat) = Some (Zr s)).
Proof. exact @cbgn_overflow_example. Qed.
