(** Generated by tools/genprops.py from P_ieee11.v: property theorems only. *)
From Verif Require Import P_ieee11.
From Flocq Require Import Core.Core IEEE754.BinarySingleNaN.
Open Scope R_scope.
#[local] Existing Instance FlOps.

(** IEEE arithmetic, exponential_decay (smooth or staircase) with a decay rate in (0,1) that does not vanish in the default float dtype, init_value finite there and >= 0, on any platform whose pow is a number in [0,1] that never grows with the exponent: up to transition_begin the value is init_value; at no later step does the schedule increase, in spite of the rounding of every operation; without an end value it stays finite and in [0, init_value]; with one (not NaN, infinities allowed) it is at no step below it, and where it is not exactly end_value it is the schedule without end value. *)
Theorem C72_exponential_ieee : forall `{L : Libm} (i r : fl) (steps begin c c' : Z) (stair : bool) (e : fl), pow_decreasing L ->
  (0 < steps <= int32_max)%Z -> (c <= c' <= int32_max)%Z ->
  fisfinite (fcast defdt i) = true -> fle fzero (fcast defdt i) = true -> flt fzero (fcast defdt r) = true -> flt r fone = true -> fisnan (fcast defdt e) = false ->
  let v := exponential_decay i steps r begin stair None in
  let w := exponential_decay i steps r begin stair (Some e) in
  ((c <= Z.max begin 0)%Z -> v c = fcast defdt i) /\
  fle (v c') (v c) = true /\ fisfinite (v c) = true /\ fle fzero (v c) = true /\ fle (v c) (fcast defdt i) = true /\
  fle (w c') (w c) = true /\ fle (fcast defdt e) (w c) = true /\ (w c = fcast defdt e \/ w c = v c).
Proof. exact @exp_decay_ieee. Qed.
Print Assumptions C72_exponential_ieee.

Example C72_exponential_example : pow_decreasing cr_libm /\ let O := FlOps cr_libm in
  fisfinite (Ops := O) (@fcast O (@defdt O) (Nz 1)) = true /\ fle (Ops := O) (@fzero O) (@fcast O (@defdt O) (Nz 1)) = true /\
  flt (Ops := O) (@fzero O) (@fcast O (@defdt O) (Nz (/ 2))) = true /\ flt (Ops := O) (Nz (/ 2)) (@fone O) = true /\
  exponential_decay (O := O) (Nz 1) 10%Z (Nz (/ 2)) 0%Z false None 10%Z = Nz (/ 2).
Proof. exact @exp_decay_example. Qed.

(** In any arithmetic and any dtype d: for labels whose last axis has n > 0 categories smooth_labels keeps shape and dtype and maps every label x to (1-alpha)*x + alpha/n: the two constants are computed in float64 and rounded to d, the product and the sum are made in d; a rank-0 array raises IndexError and an empty last axis ZeroDivisionError. *)
Theorem C48_smooth_any_arithmetic : forall `{O : Ops} (labels : tensor) (alpha : F),
  match shp labels with
  | [] => smooth_labels labels alpha = Err EIndex
  | s => let n := last s 0%nat in let d := dt labels in
    (n = 0%nat -> smooth_labels labels alpha = Err EZeroDiv) /\
    ((0 < n)%nat -> exists r, smooth_labels labels alpha = Ok r /\ dt r = d /\ shp r = shp labels /\
      dat r = map (fun x => fadd d (fmul d (fcast d (fsub F64 fone alpha)) x) (fcast d (fdiv F64 alpha (fofZ (Z.of_nat n))))) (dat labels))
  end.
Proof. exact @smooth_ops. Qed.
Print Assumptions C48_smooth_any_arithmetic.

(** IEEE arithmetic, any dtype, any number (up to 2^31-1) of categories, alpha in [0,1]: labels in [0,1] stay in [0,1] (never 1 + an ulp, so that they are again valid targets of sigmoid_binary_cross_entropy), and the order of any two finite labels is kept: the class with the largest label still has it. *)
Theorem C74_smooth_labels_ieee : forall `{L : Libm} (labels r : tensor) (alpha : fl), smooth_labels labels alpha = Ok r ->
  (Z.of_nat (last (shp labels) 0%nat) <= int32_max)%Z ->
  fisfinite alpha = true -> fle fzero alpha = true -> fle alpha fone = true -> Forall (in_format (dt labels)) (dat labels) ->
  (forall i x y, nth_error (dat labels) i = Some x -> nth_error (dat r) i = Some y ->
     fisfinite x = true -> fle fzero x = true -> fle x fone = true -> fisfinite y = true /\ fle fzero y = true /\ fle y fone = true) /\
  (forall i j x y x' y', nth_error (dat labels) i = Some x -> nth_error (dat r) i = Some y -> nth_error (dat labels) j = Some x' -> nth_error (dat r) j = Some y' ->
     fisfinite x = true -> fisfinite x' = true -> fle x x' = true -> fle y y' = true).
Proof. exact @smooth_ieee. Qed.
Print Assumptions C74_smooth_labels_ieee.

Example C74_smooth_example : let O := FlOps cr_libm in let labels := mkT F16 [2%nat] [Nz 1; Zr false] in
  (exists r, smooth_labels (O := O) labels (Nz (/ 2)) = Ok r) /\ Forall (in_format F16) (dat labels) /\
  fle (Ops := O) (@fzero O) (Nz (/ 2)) = true /\ fle (Ops := O) (Nz (/ 2)) (@fone O) = true.
Proof. exact @smooth_example. Qed.
