(** Generated by tools/genprops.py from P_ieee6.v: property theorems only. *)
From Verif Require Import P_ieee6.
From Flocq Require Import Core.Core IEEE754.BinarySingleNaN.
Open Scope R_scope.
#[local] Existing Instance FlOps.

(** IEEE arithmetic, polynomial_schedule (and linear_schedule): from step transition_begin + transition_steps on the value is exactly end_value rounded to the default float dtype, whatever init_value and power, as long as init_value - end_value does not overflow and the platform's pow(0, power) is 0. No accumulated rounding error remains, although intermediate steps are rounded. *)
Theorem C72_polynomial_end_ieee : forall `{L : Libm} (i e power : fl) (steps begin c : Z),
  (0 < steps <= int32_max)%Z -> (Z.max begin 0 + steps <= c)%Z ->
  fpow defdt (Zr false) (fcast defdt power) = Zr false ->
  fisfinite (fcast defdt (pysub i e)) = true -> fisnan (fcast defdt e) = false ->
  feqb (polynomial_schedule i e power steps begin c) (fcast defdt e) = true.
Proof. exact @poly_end_ieee. Qed.
Print Assumptions C72_polynomial_end_ieee.

(** IEEE arithmetic: linear_schedule is monotone in the step count in spite of rounding at every operation (and of the inexact conversion of counts above 2^24 to float32): it never increases and never falls below end_value when init_value >= end_value, and symmetrically for init_value <= end_value. *)
Theorem C72_linear_monotone_ieee : forall `{L : Libm} (i e : fl) (steps begin c c' : Z), pow_one L ->
  (0 < steps <= int32_max)%Z -> (c <= c')%Z ->
  fisfinite (fcast defdt (pysub i e)) = true -> fisfinite (fcast defdt e) = true ->
  let v := linear_schedule i e steps begin in
  (fle e i = true -> fle (v c') (v c) = true /\ fle (fcast defdt e) (v c) = true) /\
  (fle i e = true -> fle (v c) (v c') = true /\ fle (v c) (fcast defdt e) = true).
Proof. exact @linear_mono_ieee. Qed.
Print Assumptions C72_linear_monotone_ieee.

(** (finding) a linear schedule does not start at init_value: with the default 32-bit floats linear_schedule(1e-8, 1.0, n) returns exactly 0 at step 0 (init_value - end_value is rounded before end_value is added back), for every number of steps. *)
Theorem C72_linear_start_lost : forall `{L : Libm} (steps : Z), pow_one L -> x64 = false -> (0 < steps <= int32_max)%Z ->
  feqb (linear_schedule (flit (1 # 100000000)) fone steps 0%Z 0%Z) fzero = true.
Proof. exact @linear_start. Qed.
Print Assumptions C72_linear_start_lost.

(** IEEE arithmetic: piecewise_constant_schedule introduces no error beyond one rounding per factor reached: the branch-free expression v*ind + (1-ind)*scale*v equals the plain running product of init_value with the factors whose boundary is <= step (up to the sign of a zero), as long as the running product stays finite. *)
Theorem C72_piecewise_constant_ieee : forall `{L : Libm} (init : fl) (l : list (Z * fl)) s c, piecewise_constant_schedule init (Some l) = Ok s ->
  (forall x, In x l -> fisfinite (fcast defdt (snd x)) = true) ->
  (forall k, fisfinite (pc_ref c (firstn k (sorted_items l)) (fcast defdt init)) = true) ->
  feqb (fcast defdt (s c)) (pc_ref c (sorted_items l) (fcast defdt init)) = true.
Proof. exact @pc_ieee. Qed.
Print Assumptions C72_piecewise_constant_ieee.

Example C72_example : forall c c', (0 <= c <= c')%Z ->
  let v := linear_schedule (O := FlOps cr_libm) (Nz 1) (Nz (/ 4)) 10%Z 0%Z in
  @fle (FlOps cr_libm) (v c') (v c) = true /\ ((10 <= c)%Z -> @feqb (FlOps cr_libm) (v c) (Nz (/ 4)) = true) /\
  @feqb (FlOps cr_libm) (linear_schedule (O := FlOps cr_libm) (@flit (FlOps cr_libm) (1 # 100000000)) (@fone (FlOps cr_libm)) 10%Z 0%Z 0%Z) (Zr false) = true.
Proof. exact @sched_ieee_example. Qed.
