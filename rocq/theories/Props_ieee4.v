(** Generated by tools/genprops.py from P_ieee4.v: property theorems only. *)
From Verif Require Import P_ieee4.
From Flocq Require Import Core.Core IEEE754.BinarySingleNaN.
Open Scope R_scope.
#[local] Existing Instance FlOps.

(** scale_by_adam with its default hyperparameters (b1=0.9, b2=0.999, eps=1e-8, eps_root=0) on float32, bfloat16 and float64 leaves: for gradients bounded by 2^122 the update is never NaN, at any step of any run. The only assumption on the platform's pow is pow(x, t) in [0, x + 2^-12] for 0<x<1, t>=1. *)
Theorem C70_adam_defaults_never_nan : forall `{L : Libm}, pow_sane L ->
  femits true (scale_by_adam (flit (9 # 10)) (flit (999 # 1000)) (flit (1 # 100000000)) fzero) (fun d g _ n y => d <> F16 ->
    (forall i, (i <= n)%nat -> fisfinite (g i) = true /\ Rabs (fval (g i)) <= bpow radix2 122) -> fisnan y = false).
Proof. exact @adam_defaults. Qed.
Print Assumptions C70_adam_defaults_never_nan.

Example C69_example : exists outs, trains (O := FlOps cr_libm) (clip (O := FlOps cr_libm) (Nz 1)) (fone1 F16 (Zr true)) (fhist F16 [Nz 3; If true; Na; Nz (-1)]) outs /\
  (exists y, oelt outs 0 (0%nat, 0%nat) = Some y /\ feqb (Ops := FlOps cr_libm) y (Nz 1) = true) /\
  (exists y, oelt outs 1 (0%nat, 0%nat) = Some y /\ feqb (Ops := FlOps cr_libm) y (Nz (-1)) = true) /\
  (exists y, oelt outs 2 (0%nat, 0%nat) = Some y /\ fisnan (Ops := FlOps cr_libm) y = true).
Proof. exact @clip_ieee_example. Qed.

Example C70_example : exists outs, trains (O := FlOps cr_libm)
    (scale_by_adam (O := FlOps cr_libm) (@flit (FlOps cr_libm) (9 # 10)) (@flit (FlOps cr_libm) (999 # 1000)) (@flit (FlOps cr_libm) (1 # 100000000)) (@fzero (FlOps cr_libm)))
    (fone1 BF16 (Zr true)) (fhist BF16 [Zr false; Nz (-3); Nz 7]) outs /\
  forall n, (n < 3)%nat -> exists y, oelt outs n (0%nat, 0%nat) = Some y /\ fisnan (Ops := FlOps cr_libm) y = false.
Proof. exact @adam_defaults_example. Qed.

Example C73_example : forall n, exists r, apply_all (O := FlOps cr_libm) (fone1 BF16 (Nz 256)) (repeat (fone1 BF16 (Nz (/ 4))) n) = Ok r /\
  exists z, elt r (0%nat, 0%nat) = Some z /\ feqb (Ops := FlOps cr_libm) z (Nz 256) = true.
Proof. exact @stagnates_example. Qed.
