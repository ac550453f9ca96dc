(** Generated by tools/genprops.py from P_multi2.v: property theorems only. *)
From Verif Require Import P_multi2.
From Coq Require Import List.
Import ListNotations.
Open Scope nat_scope.

(** for every element-wise optimiser (refined by a scalar machine: identity, scale, schedules, clip, trace, ema, adam, rms, ... of any hyper-parameters), every fixed k from 1 to 2^31-1, sum or mean, and histories of any length, in any arithmetic: MultiSteps succeeds, and at an element with gradients g its n-th output is zero, except that at calls k, 2k, 3k, ... it is exactly what the optimiser emits at its own j-th call on the element's history of block sums (means), each accumulated in order of arrival. *)
Theorem C31_elementwise : forall `{O : Ops} (T : GT) (M : machine) (k : nat) (use_mean : bool) (p : tree tensor) (H : list (tree tensor * option (tree tensor))),
  (1 <= k)%nat -> (Z.of_nat k < 2 ^ 31)%Z -> refines true T M -> trwf p -> hist_ok true p H ->
  exists outs, trains (multi_steps T (fun _ => Z.of_nat k) use_mean) p H outs /\ length outs = length H /\ Forall (like p) outs /\
    forall n pos g, (n < length H)%nat -> (forall i, (i <= n)%nat -> helt H i pos = Some (g i)) ->
      exists x, elt p pos = Some x /\
        oelt outs n pos = Some (if (S n mod k =? 0)%nat then mout M (leafdt p pos) x (block_grad use_mean (leafdt p pos) k g) (fun _ => fzero) (n / k) else fcast (leafdt p pos) fzero).
Proof. exact @multi_elementwise. Qed.
Print Assumptions C31_elementwise.
