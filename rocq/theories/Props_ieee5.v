(** Generated by tools/genprops.py from P_ieee5.v: property theorems only. *)
From Verif Require Import P_ieee5.
From Flocq Require Import Core.Core IEEE754.BinarySingleNaN.
Open Scope R_scope.
#[local] Existing Instance FlOps.

(** (finding) the default eps = 1e-8 rounds to exactly 0 in float16. *)
Theorem C71_eps_vanishes_in_float16 : forall `{L : Libm}, fcast F16 (flit (1 # 100000000)) = Zr false.
Proof. exact @eps_f16. Qed.
Print Assumptions C71_eps_vanishes_in_float16.

(** (finding) the default b2 = 0.999 rounds to exactly 1 in bfloat16. *)
Theorem C71_b2_is_one_in_bfloat16 : forall `{L : Libm}, fcast BF16 (flit (999 # 1000)) = Nz 1.
Proof. exact @b2_bf16. Qed.
Print Assumptions C71_b2_is_one_in_bfloat16.

(** (finding) scale_by_adam with its default hyperparameters on a float16 leaf emits NaN for an element whose gradients have all been 0 so far (e.g. an unused embedding row): eps vanishes and 0/0 remains. *)
Theorem C71_adam_float16_zero_gradient_nan : forall `{L : Libm}, pow_sane L ->
  femits true (scale_by_adam (flit (9 # 10)) (flit (999 # 1000)) (flit (1 # 100000000)) fzero) (fun d g _ n y =>
    d = F16 -> (forall i, (i <= n)%nat -> feqb (g i) fzero = true) -> fisnan y = true).
Proof. exact @adam_f16_nan. Qed.
Print Assumptions C71_adam_float16_zero_gradient_nan.

(** (finding) with the default b2 = 0.999 the second moment of a bfloat16 leaf never decreases: whatever the (non-NaN) gradient, one step of scale_by_adam from any state with a non-negative second moment yields one at least as large. *)
Theorem C71_bfloat16_second_moment_never_decays : forall `{L : Libm} (b1 eps eps_root : fl) n (u mu nu : tree tensor) par,
  avals mu = avals u -> avals nu = avals u -> trwf u -> trwf mu -> trwf nu ->
  exists u' mu' nu', update (scale_by_adam b1 (flit (999 # 1000)) eps eps_root) u (SNode NAdam [SInt I32 (cnt n); STree mu; STree nu]) par =
      Ok (u', SNode NAdam [SInt I32 (cnt (S n)); STree mu'; STree nu']) /\ like u nu' /\
    forall pos g m v, leafdt u pos = BF16 -> elt u pos = Some g -> elt mu pos = Some m -> elt nu pos = Some v -> in_format BF16 v ->
      fisnan g = false -> fle fzero v = true -> exists v', elt nu' pos = Some v' /\ fle v v' = true.
Proof. exact @bf16_nu. Qed.
Print Assumptions C71_bfloat16_second_moment_never_decays.

(** (finding) scale_by_stddev with its default hyperparameters (decay=0.9, eps=1e-8, initial_scale=0; what rmsprop(centered=True) uses) in float32: an element whose gradient is constantly 11 gets the update NaN at the 136th step, because rounding makes nu - mu^2 + eps negative; on every platform whose rsqrt of a negative number is NaN. *)
Theorem C76_stddev_cancellation_nan : forall `{L : Libm}, (forall d r, r < 0 -> l_rsqrt L d (Nz r) = Na) ->
  femits true (scale_by_stddev (flit (9 # 10)) (flit (1 # 100000000)) fzero) (fun d g _ n y =>
    d = F32 -> n = 135%nat -> (forall i, (i <= n)%nat -> g i = Nz 11) -> fisnan y = true).
Proof. exact @stddev_nan. Qed.
Print Assumptions C76_stddev_cancellation_nan.

Example C71_example : exists outs, trains (O := FlOps cr_libm)
    (scale_by_adam (O := FlOps cr_libm) (@flit (FlOps cr_libm) (9 # 10)) (@flit (FlOps cr_libm) (999 # 1000)) (@flit (FlOps cr_libm) (1 # 100000000)) (@fzero (FlOps cr_libm)))
    (fone1 F16 (Nz 1)) (fhist F16 [Zr false; Zr true]) outs /\
  forall n, (n < 2)%nat -> exists y, oelt outs n (0%nat, 0%nat) = Some y /\ fisnan (Ops := FlOps cr_libm) y = true.
Proof. exact @adam_f16_example. Qed.

Example C76_example : exists outs, trains (O := FlOps cr_libm)
    (scale_by_stddev (O := FlOps cr_libm) (@flit (FlOps cr_libm) (9 # 10)) (@flit (FlOps cr_libm) (1 # 100000000)) (@fzero (FlOps cr_libm)))
    (fone1 F32 (Nz 1)) (fhist F32 (repeat (Nz 11) 200)) outs /\
  exists y, oelt outs 135 (0%nat, 0%nat) = Some y /\ fisnan (Ops := FlOps cr_libm) y = true.
Proof. exact @stddev_nan_example. Qed.
