(** Generated by tools/genprops.py from P_ieee.v: property theorems only. *)
From Verif Require Import P_ieee.
From Flocq Require Import Core.Core IEEE754.BinarySingleNaN.
Open Scope R_scope.
#[local] Existing Instance FlOps.

(** what the IEEE theorems rest on: the arithmetic of the model is, operation by operation, Flocq's bit-level IEEE-754 arithmetic with round-to-nearest-even, for every pair of bit patterns of each of the four dtypes; and the members of a format are exactly the values of its bit patterns. *)
Theorem C07_ieee_arithmetic : forall `{L : Libm} (d : fdt) (x y : bits_of d),
  fadd d (of_bits d x) (of_bits d y) = of_bits d (Bplus mode_NE x y) /\
  fsub d (of_bits d x) (of_bits d y) = of_bits d (Bminus mode_NE x y) /\
  fmul d (of_bits d x) (of_bits d y) = of_bits d (Bmult mode_NE x y) /\
  fdiv d (of_bits d x) (of_bits d y) = of_bits d (Bdiv mode_NE x y) /\
  fsqrt d (of_bits d x) = of_bits d (Bsqrt mode_NE x) /\
  fneg (of_bits d x) = of_bits d (Bopp x) /\ fabs (of_bits d x) = of_bits d (Babs x) /\
  flt (of_bits d x) (of_bits d y) = Bltb x y /\ fle (of_bits d x) (of_bits d y) = Bleb x y /\ feqb (of_bits d x) (of_bits d y) = Beqb x y /\
  fisnan (of_bits d x) = is_nan x /\ fisfinite (of_bits d x) = is_finite x /\
  in_format d (of_bits d x) /\ (forall z, in_format d z -> exists b, of_bits d b = z).
Proof. exact @ieee_conforms. Qed.
Print Assumptions C07_ieee_arithmetic.

(** in IEEE arithmetic of any of the four dtypes, for every pair of members of the format (every bit pattern): with keep_params_nonnegative last, apply_updates gives at every element a number >= 0 (possibly +inf by overflow) or NaN; NaN only when the parameter is NaN or infinite or the update is NaN; and for a finite parameter and update it gives the correctly rounded max(0, p+u). *)
Theorem C07_ieee : forall `{L : Libm} (u p : tree tensor) st, avals u = avals p -> trwf u -> trwf p ->
  exists u' r, update keep_params_nonnegative u st (Some p) = Ok (u', st) /\ apply_updates p u' = Ok r /\ like p r /\
    forall pos d x y, leafdt p pos = d -> elt p pos = Some x -> elt u pos = Some y -> in_format d x -> in_format d y ->
    exists z, elt r pos = Some z /\
      (fle fzero z = true \/ fisnan z = true) /\
      (fisnan z = true -> fisfinite x = false \/ fisnan y = true) /\
      (fisfinite x = true -> fisfinite y = true -> let v := Rmax 0 (fval x + fval y) in
         (Rabs (rnd d v) < bpow radix2 (femax d) -> fisfinite z = true /\ fval z = rnd d v) /\
         (bpow radix2 (femax d) <= Rabs (rnd d v) -> z = If false)).
Proof. exact @nonneg_ieee. Qed.
Print Assumptions C07_ieee.

Example C07_ieee_example : forall `{L : Libm}, exists u' r z,
  update keep_params_nonnegative (fone1 F32 (Nz (-2))) EmptyState (Some (fone1 F32 (Nz 1))) = Ok (u', EmptyState) /\
  apply_updates (fone1 F32 (Nz 1)) u' = Ok r /\ elt r (0%nat, 0%nat) = Some z /\ fisfinite z = true /\ fval z = 0.
Proof. exact @nonneg_ieee_example. Qed.
