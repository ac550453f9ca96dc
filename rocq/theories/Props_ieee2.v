(** Generated by tools/genprops.py from P_ieee2.v: property theorems only. *)
From Verif Require Import P_ieee2.
From Flocq Require Import Core.Core IEEE754.BinarySingleNaN.
Open Scope R_scope.
#[local] Existing Instance FlOps.

(** clip(max_delta) in IEEE arithmetic of each dtype, for every gradient bit pattern and every non-negative Python float max_delta: with D = max_delta rounded to the dtype, the output is NaN exactly when the gradient is, otherwise lies in [-D, D]; it equals the gradient when that already lies in [-D, D], D when the gradient is above, -D when below (infinities included). *)
Theorem C69_clip_ieee : forall `{L : Libm} (m : fl), in_format F64 m -> fle fzero m = true ->
  femits true (clip m) (fun d g _ n y => let D := fcast d m in
    fisnan y = fisnan (g n) /\
    (fisnan (g n) = false -> fle (fneg D) y = true /\ fle y D = true) /\
    (fle (fneg D) (g n) = true -> fle (g n) D = true -> feqb y (g n) = true) /\
    (fle D (g n) = true -> feqb y D = true) /\
    (fle (g n) (fneg D) = true -> feqb y (fneg D) = true)).
Proof. exact @clip_ieee. Qed.
Print Assumptions C69_clip_ieee.

(** apply_updates on trees of the same dtypes, in IEEE arithmetic, for every bit pattern: the result has the shapes and dtypes of the parameters, and a finite parameter and update give the correctly rounded sum, +-inf on overflow; a NaN appears only when the parameter or the update is NaN or both are infinite. *)
Theorem C73_apply_updates_ieee : forall `{L : Libm} (p u : tree tensor), avals u = avals p -> trwf u -> trwf p ->
  exists r, apply_updates p u = Ok r /\ like p r /\
    forall pos d x y, leafdt p pos = d -> elt p pos = Some x -> elt u pos = Some y ->
    exists z, elt r pos = Some z /\ in_format d z /\
      (fisfinite x = true -> fisfinite y = true ->
         (Rabs (rnd d (fval x + fval y)) < bpow radix2 (femax d) -> fisfinite z = true /\ fval z = rnd d (fval x + fval y)) /\
         (bpow radix2 (femax d) <= Rabs (rnd d (fval x + fval y)) -> exists s, z = If s)) /\
      (fisnan z = true -> fisnan x = true \/ fisnan y = true \/ (fisfinite x = false /\ fisfinite y = false)).
Proof. exact @apply_ieee. Qed.
Print Assumptions C73_apply_updates_ieee.

(** however many updates are applied one after the other: if every element of every update is finite and at most 2^-(p+2) times the parameter (p the precision of the dtype: 11, 8, 24, 53 bits), the parameters never change: after any number of steps every parameter compares equal to its initial value. *)
Theorem C73_small_updates_are_lost : forall `{L : Libm} (us : list (tree tensor)) (p : tree tensor), trwf p ->
  Forall (fun u => avals u = avals p /\ trwf u) us ->
  (forall pos x, elt p pos = Some x -> in_format (leafdt p pos) x /\ fisfinite x = true) ->
  Forall (fun u => forall pos x y, elt p pos = Some x -> elt u pos = Some y ->
     fisfinite y = true /\ Rabs (fval y) <= bpow radix2 (- fprec (leafdt p pos) - 2) * Rabs (fval x)) us ->
  exists r, apply_all p us = Ok r /\ like p r /\
    forall pos x, elt p pos = Some x -> exists z, elt r pos = Some z /\ feqb z x = true.
Proof. exact @apply_stagnates. Qed.
Print Assumptions C73_small_updates_are_lost.
