(** Generated by tools/genprops.py from P_guard.v: property theorems only. *)
From Verif Require Import P_guard.
From Flocq Require Import Core.Core IEEE754.BinarySingleNaN.
From Coq Require Import List.
Import ListNotations.
Open Scope R_scope.
#[local] Existing Instance FlOps.

(** IEEE arithmetic of every dtype: chain(zero_nans(), clip(c), sgd step). Whatever the gradients are - NaN, infinities, any bit pattern, chosen adversarially at every step from the current parameters - and however many steps are made, no call raises and no parameter ever becomes NaN or infinite: with c <= 2^k and |learning rate| <= 2^l (a number or a schedule) every parameter stays below max(|initial value|, 2^(p+2+k+l)) in magnitude, p the precision of its dtype, because rounding absorbs updates that are too small; only this bound has to be representable. *)
Theorem C88_sgd : forall `{L : Libm} (c : fl) (LR : lrate) (k l : Z) (p : tree tensor) grad T,
  chain [zero_nans; clip c; scale_by_learning_rate LR] = Ok T ->
  clip_ok p c (fun _ => bpow radix2 k) -> rate_ok p LR l ->
  (forall d, has_dtype p d -> (SpecFloat.emin (fprec d) (femax d) <= k + l)%Z /\ (fprec d + 2 + (k + l) < femax d)%Z) ->
  finite_params p -> any_gradients p grad ->
  forall n, exists q s, fit T grad n p = Ok (q, s) /\ like p q /\
    forall pos x, elt p pos = Some x -> exists y, elt q pos = Some y /\ in_format (leafdt p pos) y /\ fisfinite y = true /\
      Rabs (fval y) <= Rmax (Rabs (fval x)) (bpow radix2 (fprec (leafdt p pos) + 2 + (k + l))).
Proof. exact @guarded_sgd. Qed.
Print Assumptions C88_sgd.

(** the same with momentum (nesterov or not): chain(zero_nans(), clip(c), trace(decay), learning rate) keeps every parameter finite for ever, if c <= (1 - decay) 2^k. *)
Theorem C88_momentum : forall `{L : Libm} (c decay : fl) (nesterov : bool) (LR : lrate) (k l : Z) (p : tree tensor) grad T,
  chain [zero_nans; clip c; trace decay nesterov None; scale_by_learning_rate LR] = Ok T ->
  clip_ok p c (fun d => (1 - fval (fcast d decay)) * bpow radix2 k) -> rate_ok p LR l ->
  (forall d, has_dtype p d -> fisfinite (fcast d decay) = true /\ 0 <= fval (fcast d decay) < 1 /\ (0 <= k < femax d)%Z /\ (SpecFloat.emin (fprec d) (femax d) <= k + l)%Z /\ (fprec d + 2 + (k + l) < femax d)%Z) ->
  finite_params p -> any_gradients p grad ->
  forall n, exists q s, fit T grad n p = Ok (q, s) /\ like p q /\
    forall pos x, elt p pos = Some x -> exists y, elt q pos = Some y /\ in_format (leafdt p pos) y /\ fisfinite y = true /\
      Rabs (fval y) <= Rmax (Rabs (fval x)) (bpow radix2 (fprec (leafdt p pos) + 2 + (k + l))).
Proof. exact @guarded_momentum. Qed.
Print Assumptions C88_momentum.

(** the same for Adam with its default hyperparameters on float32, bfloat16 and float64 parameters: chain(zero_nans(), clip(c), scale_by_adam(), learning rate) never makes a parameter NaN or infinite, whatever the gradients, however long the run; c <= 2^k with 0 <= k <= 90, |learning rate| <= 2^l, and 2^(p+34+k+l) representable (float32: k + l <= 69). The platform's pow needs to satisfy 0 <= pow(x,t) <= x + 2^-12 for 0<x<1, t>=1 only. *)
Theorem C88_adam : forall `{L : Libm} (c : fl) (LR : lrate) (k l : Z) (p : tree tensor) grad T, pow_sane L ->
  chain [zero_nans; clip c; scale_by_adam (flit (9 # 10)) (flit (999 # 1000)) (flit (1 # 100000000)) fzero; scale_by_learning_rate LR] = Ok T ->
  clip_ok p c (fun _ => bpow radix2 k) -> rate_ok p LR l ->
  (forall d, has_dtype p d -> d <> F16 /\ (0 <= k <= 90)%Z /\ (SpecFloat.emin (fprec d) (femax d) <= k + 32 + l)%Z /\ (fprec d + 2 + (k + 32 + l) < femax d)%Z) ->
  finite_params p -> any_gradients p grad ->
  forall n, exists q s, fit T grad n p = Ok (q, s) /\ like p q /\
    forall pos x, elt p pos = Some x -> exists y, elt q pos = Some y /\ in_format (leafdt p pos) y /\ fisfinite y = true /\
      Rabs (fval y) <= Rmax (Rabs (fval x)) (bpow radix2 (fprec (leafdt p pos) + 2 + (k + 32 + l))).
Proof. exact @guarded_adam. Qed.
Print Assumptions C88_adam.

Example C88_example : let p := fone1 F32 (Nz 1) in let nan := fun (_ : nat) (_ : tree (gt fl)) => fone1 F32 Na in
  (forall n, exists q s T, chain (O := FlOps cr_libm) [zero_nans (O := FlOps cr_libm); clip (O := FlOps cr_libm) (Nz 1); scale_by_adam (O := FlOps cr_libm) (@flit (FlOps cr_libm) (9 # 10)) (@flit (FlOps cr_libm) (999 # 1000)) (@flit (FlOps cr_libm) (1 # 100000000)) (@fzero (FlOps cr_libm)); scale_by_learning_rate (O := FlOps cr_libm) (@LConst (FlOps cr_libm) (Nz 1))] = Ok T /\
     fit (O := FlOps cr_libm) T nan n p = Ok (q, s) /\ exists y, elt q (0%nat, 0%nat) = Some y /\ ffin y = true) /\
  (forall n, exists q s T, chain (O := FlOps cr_libm) [zero_nans (O := FlOps cr_libm); clip (O := FlOps cr_libm) (Nz 1); scale_by_learning_rate (O := FlOps cr_libm) (@LConst (FlOps cr_libm) (Nz 1))] = Ok T /\
     fit (O := FlOps cr_libm) T nan n p = Ok (q, s) /\ exists y, elt q (0%nat, 0%nat) = Some y /\ ffin y = true /\ Rabs (fval y) <= bpow radix2 26) /\
  (exists q s T, sgd (O := FlOps cr_libm) (@LConst (FlOps cr_libm) (Nz 1)) None false = Ok T /\ fit (O := FlOps cr_libm) T nan 1 p = Ok (q, s) /\ elt q (0%nat, 0%nat) = Some Na).
Proof. exact @guarded_example. Qed.

(** IEEE arithmetic, clip_by_global_norm on any tree of one dtype and ANY values: every element of the result is NaN or finite and at most max_norm in magnitude; the only elements turned into NaN are those of a tree with a NaN and the infinite ones; an infinite element does become NaN (finding: zero_nans before clip_by_global_norm does not help against infinities). *)
Theorem C88_global_norm_range : forall `{L : Libm} (u : tree tensor) (m : fl) (d : fdt) st par, sum_sane L -> sum_nan L ->
  trwf u -> Forall (fun t => dt t = d /\ Forall (in_format d) (dat t)) (leaves u) ->
  fisfinite (fcast d m) = true -> bpow radix2 (min_norm_exp d) <= fval (fcast d m) ->
  exists u', update (clip_by_global_norm m) u st par = Ok (u', st) /\ like u u' /\
    forall pos x, elt u pos = Some x -> exists y, elt u' pos = Some y /\ in_format d y /\
      (fisnan y = true \/ (fisfinite y = true /\ Rabs (fval y) <= fval (fcast d m))) /\
      (fisnan y = true <-> (fisfinite x = false \/ exists pos' x', elt u pos' = Some x' /\ fisnan x' = true)).
Proof. exact @cbgn_range. Qed.
Print Assumptions C88_global_norm_range.

(** IEEE arithmetic, parameters of one dtype: chain(clip_by_global_norm(c), zero_nans(), learning rate), in this order, is safe too: whatever the gradients, no parameter ever becomes NaN or infinite. Platform assumptions: a sum of non-negative terms is at least each of them, and a sum with a NaN is NaN. *)
Theorem C88_global_norm : forall `{L : Libm} (c : fl) (d : fdt) (LR : lrate) (k l : Z) (p : tree tensor) grad T, sum_sane L -> sum_nan L ->
  chain [clip_by_global_norm c; zero_nans; scale_by_learning_rate LR] = Ok T ->
  Forall (fun t => dt t = d) (leaves p) ->
  fisfinite (fcast d c) = true -> bpow radix2 (min_norm_exp d) <= fval (fcast d c) <= bpow radix2 k -> rate_ok p LR l ->
  (SpecFloat.emin (fprec d) (femax d) <= k + l)%Z -> (fprec d + 2 + (k + l) < femax d)%Z ->
  finite_params p -> any_gradients p grad ->
  forall n, exists q s, fit T grad n p = Ok (q, s) /\ like p q /\
    forall pos x, elt p pos = Some x -> exists y, elt q pos = Some y /\ in_format (leafdt p pos) y /\ fisfinite y = true /\
      Rabs (fval y) <= Rmax (Rabs (fval x)) (bpow radix2 (fprec (leafdt p pos) + 2 + (k + l))).
Proof. exact @guarded_global_norm. Qed.
Print Assumptions C88_global_norm.

Example C88_global_norm_example : let p := fone1 F32 (Nz 1) in let inf := fun (_ : nat) (_ : tree (gt fl)) => fone1 F32 (If false) in
  (forall n, exists q s T, chain (O := FlOps cr_libm) [clip_by_global_norm (O := FlOps cr_libm) (Nz 1); zero_nans (O := FlOps cr_libm); scale_by_learning_rate (O := FlOps cr_libm) (@LConst (FlOps cr_libm) (Nz 1))] = Ok T /\
     fit (O := FlOps cr_libm) T inf n p = Ok (q, s) /\ exists y, elt q (0%nat, 0%nat) = Some y /\ ffin y = true) /\
  (exists q s T, chain (O := FlOps cr_libm) [zero_nans (O := FlOps cr_libm); clip_by_global_norm (O := FlOps cr_libm) (Nz 1)] = Ok T /\ fit (O := FlOps cr_libm) T inf 1 p = Ok (q, s) /\ elt q (0%nat, 0%nat) = Some Na).
Proof. exact @guarded_norm_example. Qed.

(** the formats are those of float16, bfloat16, float32 and float64: the largest finite number (65504; 255*2^120; (2^24-1)*2^104; (2^53-1)*2^971), the smallest positive one (2^-24; 2^-133; 2^-149; 2^-1074) and the successor of 1 (1+2^-10; 1+2^-7; 1+2^-23; 1+2^-52). *)
Theorem C07_formats : forall d : fdt,
  (in_format d (Nz (max_finite d)) /\ forall r, in_format d (Nz r) -> Rabs r <= max_finite d) /\
  (in_format d (Nz (min_positive d)) /\ forall r, in_format d (Nz r) -> min_positive d <= Rabs r) /\
  (in_format d (Nz (1 + machine_eps d)) /\ forall r, in_format d (Nz r) -> 1 < r -> 1 + machine_eps d <= r).
Proof. exact @dtype_formats. Qed.
Print Assumptions C07_formats.
