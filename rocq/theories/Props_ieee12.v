(** Generated by tools/genprops.py from P_ieee12.v: property theorems only. *)
From Verif Require Import P_ieee12.
From Flocq Require Import Core.Core IEEE754.BinarySingleNaN.
Open Scope R_scope.
#[local] Existing Instance FlOps.

(** IEEE arithmetic, cosine_decay_schedule with decay_steps >= 1, alpha a float64 in [0,1] and init_value >= 0 finite in the default float dtype, on any platform whose cosine never grows on [0, pi] (and the few units in the last place beyond to which pi * count / decay_steps may be rounded) and stays in [-1,1]: the value is finite, never increases with the count in spite of the rounding of every operation, never exceeds init_value, never falls below the rounded product of init_value and alpha, and is constant from decay_steps on. *)
Theorem C72_cosine_ieee : forall `{L : Libm} (i alpha : fl) (steps c c' : Z) (v : Z -> fl), cos_decreasing L ->
  cosine_decay_schedule i steps alpha = Ok v -> (steps <= int32_max)%Z -> (0 <= c <= c')%Z ->
  fisfinite (fcast defdt i) = true -> fle fzero (fcast defdt i) = true -> in_format F64 alpha -> fisfinite alpha = true -> fle fzero alpha = true -> fle alpha fone = true ->
  fisfinite (v c) = true /\ fle (v c') (v c) = true /\ fle (v c) (fcast defdt i) = true /\
  fle (fmul defdt (fcast defdt i) (fcast defdt alpha)) (v c) = true /\ ((steps <= c)%Z -> v c = v steps).
Proof. exact @cosine_ieee. Qed.
Print Assumptions C72_cosine_ieee.

Example C72_cosine_example : cos_decreasing cr_libm /\ let O := FlOps cr_libm in
  (exists v, cosine_decay_schedule (O := O) (Nz 1) 1000%Z (Zr false) = Ok v) /\
  fisfinite (Ops := O) (@fcast O (@defdt O) (Nz 1)) = true /\ fle (Ops := O) (@fzero O) (@fcast O (@defdt O) (Nz 1)) = true /\
  in_format F64 (Zr false) /\ fle (Ops := O) (@fzero O) (Zr false) = true /\ fle (Ops := O) (Zr false) (@fone O) = true.
Proof. exact @cosine_example. Qed.
