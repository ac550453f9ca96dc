(** Generated by tools/genprops.py from P_agree.v: property theorems only. *)
From Verif Require Import P_agree.
From Flocq Require Import Core.Core IEEE754.BinarySingleNaN.
Open Scope R_scope.

(** Every arithmetic operation on floats of any dtype is the exact operation on the numbers they stand for, rounded once to the dtype; infinities and NaN, as operands or as results, are those of the exact arithmetic. (The division by minus zero is the one operation the exact arithmetic, whose zero has no sign, does not describe.) *)
Theorem C95_rounded_once : forall (L : Libm) (P : Platform) (d : fdt) (x y : fl), in_format d x -> in_format d y ->
  rounds d (@fadd (XROps P) d (exact x) (exact y)) (@fadd (FlOps L) d x y) /\
  rounds d (@fsub (XROps P) d (exact x) (exact y)) (@fsub (FlOps L) d x y) /\
  rounds d (@fmul (XROps P) d (exact x) (exact y)) (@fmul (FlOps L) d x y) /\
  (y <> Zr true -> rounds d (@fdiv (XROps P) d (exact x) (exact y)) (@fdiv (FlOps L) d x y)) /\
  rounds d (@fsqrt (XROps P) d (exact x)) (@fsqrt (FlOps L) d x) /\
  (forall d', rounds d' (@fcast (XROps P) d' (exact x)) (@fcast (FlOps L) d' x)) /\
  (forall q, rounds F64 (@flit (XROps P) q) (@flit (FlOps L) q)) /\
  rounds F64 (@fpi (XROps P)) (@fpi (FlOps L)).
Proof. exact @rounded_once. Qed.
Print Assumptions C95_rounded_once.

(** Sign changes, absolute values, signs, maxima, minima, rounding to an integer, conversion to an integer and every comparison of floats are exact: they commute with the numbers the floats stand for. *)
Theorem C95_exact_operations : forall (L : Libm) (P : Platform) (d : fdt) (x y : fl), in_format d x -> in_format d y ->
  exact (@fneg (FlOps L) x) = @fneg (XROps P) (exact x) /\
  exact (@fabs (FlOps L) x) = @fabs (XROps P) (exact x) /\
  exact (@fsign (FlOps L) x) = @fsign (XROps P) (exact x) /\
  exact (@fmax (FlOps L) x y) = @fmax (XROps P) (exact x) (exact y) /\
  exact (@fmin (FlOps L) x y) = @fmin (XROps P) (exact x) (exact y) /\
  exact (@ffloor (FlOps L) x) = @ffloor (XROps P) (exact x) /\
  exact (@fround (FlOps L) x) = @fround (XROps P) (exact x) /\
  exact (@fstop (FlOps L) x) = @fstop (XROps P) (exact x) /\
  @ftoZ (FlOps L) x = @ftoZ (XROps P) (exact x) /\
  @flt (FlOps L) x y = @flt (XROps P) (exact x) (exact y) /\
  @fle (FlOps L) x y = @fle (XROps P) (exact x) (exact y) /\
  @feqb (FlOps L) x y = @feqb (XROps P) (exact x) (exact y) /\
  @fisnan (FlOps L) x = @fisnan (XROps P) (exact x) /\
  @fisfinite (FlOps L) x = @fisfinite (XROps P) (exact x).
Proof. exact @exact_operations. Qed.
Print Assumptions C95_exact_operations.

(** When the exact result is a number of the dtype (or an infinity or NaN) the float result is exactly that number, and no other float result is possible. *)
Theorem C95_no_rounding : forall (d : fdt) (e : XR) (x : fl), rounds d e x -> representable d e -> exact x = e.
Proof. exact @no_rounding. Qed.
Print Assumptions C95_no_rounding.

(** The special values of the remaining elementary functions of the exact arithmetic are those of IEEE-754: powers (anything to the power 0, 1 to any power, 0 and the infinities to positive and negative powers, a negative number to a fractional power), exponential, logarithm and cosine. *)
Theorem C95_special_values : forall (P : Platform) (d : fdt) (a b : R),
  let pow := @fpow (XROps P) d in
  (forall x, pow x (Fin 0) = Fin 1) /\ (forall y, pow (Fin 1) y = Fin 1) /\
  (forall y, y <> Fin 0 -> pow NaN y = NaN) /\ (a <> 1 -> pow (Fin a) NaN = NaN) /\ pow PInf NaN = NaN /\ pow NInf NaN = NaN /\
  (0 < b -> pow (Fin 0) (Fin b) = Fin 0 /\ pow PInf (Fin b) = PInf /\ pow PInf (Fin (- b)) = Fin 0 /\ pow (Fin 0) (Fin (- b)) = PInf /\ pow NInf (Fin (- b)) = Fin 0) /\
  (forall n, (0 < n)%Z -> pow NInf (Fin (IZR n)) = if Z.even n then PInf else NInf) /\
  (0 < b -> (forall n, b <> IZR n) -> pow NInf (Fin b) = PInf) /\
  (a < 0 -> (forall n, b <> IZR n) -> pow (Fin a) (Fin b) = NaN) /\
  (Rabs a < 1 -> pow (Fin a) PInf = Fin 0 /\ pow (Fin a) NInf = PInf) /\
  (1 < Rabs a -> pow (Fin a) PInf = PInf /\ pow (Fin a) NInf = Fin 0) /\
  pow (Fin (-1)) PInf = Fin 1 /\ pow (Fin (-1)) NInf = Fin 1 /\
  pow PInf PInf = PInf /\ pow NInf PInf = PInf /\ pow PInf NInf = Fin 0 /\ pow NInf NInf = Fin 0 /\
  @fexp (XROps P) d PInf = PInf /\ @fexp (XROps P) d NInf = Fin 0 /\ @fexp (XROps P) d NaN = NaN /\
  @flog (XROps P) d (Fin 0) = NInf /\ (a < 0 -> @flog (XROps P) d (Fin a) = NaN) /\ @flog (XROps P) d PInf = PInf /\ @flog (XROps P) d NInf = NaN /\ @flog (XROps P) d NaN = NaN /\
  @flog1p (XROps P) d (Fin (-1)) = NInf /\ (a < -1 -> @flog1p (XROps P) d (Fin a) = NaN) /\ @flog1p (XROps P) d PInf = PInf /\ @flog1p (XROps P) d NInf = NaN /\ @flog1p (XROps P) d NaN = NaN /\
  @fcos (XROps P) d PInf = NaN /\ @fcos (XROps P) d NInf = NaN /\ @fcos (XROps P) d NaN = NaN /\
  @frsqrt (XROps P) d (Fin 0) = PInf /\ (a < 0 -> @frsqrt (XROps P) d (Fin a) = NaN) /\ @frsqrt (XROps P) d PInf = Fin 0 /\ @frsqrt (XROps P) d NInf = NaN /\ @frsqrt (XROps P) d NaN = NaN.
Proof. exact @special_values. Qed.
Print Assumptions C95_special_values.

Example C95_example : forall (P : Platform) (L : Libm),
  exact (@fadd (FlOps L) F16 (Nz 1) (Nz 2)) = Fin 3 /\
  @fadd (FlOps L) BF16 (If false) (If true) = Na /\ @fadd (XROps P) BF16 PInf NInf = NaN /\
  @fdiv (FlOps L) F32 (Nz 1) (Zr false) = If false /\ @fdiv (XROps P) F32 (Fin 1) (Fin 0) = PInf.
Proof. exact @agree_example. Qed.
