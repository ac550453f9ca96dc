(** Generated by tools/genprops.py from P_accum.v: property theorems only. *)
From Verif Require Import P_accum.
From Coq Require Import List.
Import ListNotations.
Open Scope R_scope.

(** with accumulator_dtype = d, in any arithmetic, for every tree of parameters (any dtypes) and every history: init and every update succeed, the accumulators have dtype d (float64 being float32 unless x64 is enabled) and the parameters' shapes from the first state to the last, the outputs have the promoted dtype, and every element accumulates g + decay * t at the promoted dtype, rounded to d between calls, starting from zero; with nesterov the output is g + decay * (new t). *)
Theorem C12_accumulator : forall `{O : Ops} (decay : F) (nesterov : bool) (d : fdt) (p : tree tensor) (H : list (tree tensor * option (tree tensor))), trwf p -> hist_ok true p H ->
  let T := trace decay nesterov (Some d) in let D := effective d in
  exists s0 outs acc, init T p = Ok s0 /\ run T s0 H = Ok (outs, SNode NTrace [STree acc]) /\ length outs = length H /\
    avals acc = redtype (fun _ => D) (avals p) /\ Forall (fun o => avals o = redtype (fun dg => promote dg D) (avals p)) outs /\
    forall pos x (g : nat -> F), elt p pos = Some x -> (forall i, (i < length H)%nat -> helt H i pos = Some (g i)) ->
      let dg := leafdt p pos in let dp := promote dg D in
      elt acc pos = Some (trace_acc decay dg D g (length H)) /\
      forall n, (n < length H)%nat -> oelt outs n pos = Some (
        let t := trace_new decay dg D (g n) (trace_acc decay dg D g n) in
        if nesterov then fadd dp (conv dg dp (g n)) (fmul dp (fcast dp decay) t) else t).
Proof. exact @trace_accumulator. Qed.
Print Assumptions C12_accumulator.

(** the same for ema with accumulator_dtype = d: the accumulators have dtype d throughout; every element accumulates (1-decay) g + decay e at the promoted dtype, rounded to d between calls; with debias the unrounded new average divided by 1 - decay^(n+1) is emitted at the promoted dtype, without it the gradient itself. *)
Theorem C13_accumulator : forall `{O : Ops} (decay : F) (debias : bool) (d : fdt) (p : tree tensor) (H : list (tree tensor * option (tree tensor))), trwf p -> hist_ok true p H ->
  let T := ema decay debias (Some d) in let D := effective d in
  exists s0 outs c acc, init T p = Ok s0 /\ run T s0 H = Ok (outs, SNode NEma [SInt I32 c; STree acc]) /\ length outs = length H /\ c = Z.min (Z.of_nat (length H)) (2 ^ 31 - 1) /\
    avals acc = redtype (fun _ => D) (avals p) /\ Forall (fun o => avals o = redtype (fun dg => if debias then promote dg D else dg) (avals p)) outs /\
    forall pos x (g : nat -> F), elt p pos = Some x -> (forall i, (i < length H)%nat -> helt H i pos = Some (g i)) ->
      let dg := leafdt p pos in let dp := promote dg D in
      elt acc pos = Some (ema_acc decay dg D g (length H)) /\
      forall n, (n < length H)%nat -> oelt outs n pos = Some (
        let k := Z.min (Z.of_nat (S n)) (2 ^ 31 - 1) in
        if debias then fdiv dp (ema_new decay dg D (g n) (ema_acc decay dg D g n)) (conv defdt dp (fsub defdt (fcast defdt fone) (fpow defdt (fcast defdt decay) (fcast defdt (fofZ k)))))
        else g n).
Proof. exact @ema_accumulator. Qed.
Print Assumptions C13_accumulator.

(** hence in exact arithmetic the accumulator's dtype does not change what trace emits: the outputs are the sums of decay^(n-i) g_i of C12. *)
Theorem C12_accumulator_exact : forall `{P : Platform} (decay : R) (nesterov : bool) (d : fdt) (p : tree tensor) (H : list (tree tensor * option (tree tensor))), trwf p -> hist_ok true p H ->
  exists s0 outs sf, init (trace (Fin decay) nesterov (Some d)) p = Ok s0 /\ run (trace (Fin decay) nesterov (Some d)) s0 H = Ok (outs, sf) /\
    forall pos x (g : nat -> R), elt p pos = Some x -> (forall i, (i < length H)%nat -> helt H i pos = Some (Fin (g i))) ->
      forall n, (n < length H)%nat -> let t := sum_f_R0 (fun i => decay ^ (n - i) * g i) n in oelt outs n pos = Some (Fin (if nesterov then g n + decay * t else t)).
Proof. exact @trace_accumulator_exact. Qed.
Print Assumptions C12_accumulator_exact.

Example C12_accumulator_example : forall `{P : Platform}, trwf ex_p /\ hist_ok true ex_p ex_H /\ promote F32 BF16 = F32 /\ promote F16 BF16 = F32 /\ effective BF16 = BF16 /\
  exists s0 outs sf, init (trace (Fin (1 / 2)) false (Some BF16)) ex_p = Ok s0 /\ run (trace (Fin (1 / 2)) false (Some BF16)) s0 ex_H = Ok (outs, sf) /\ oelt outs 2 (0%nat, 1%nat) = Some (Fin (17 / 4)).
Proof. exact @accumulator_example. Qed.
