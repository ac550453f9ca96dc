(** Generated by tools/genprops.py from P_wrap.v: property theorems only. *)
From Verif Require Import P_wrap.
From Coq Require Import List.
Import ListNotations.
Open Scope list_scope.
Open Scope nat_scope.

(** for any inner transformation, any bound and any history of fewer than 2^31 updates on which the wrapper does not raise: its outputs and the inner state it keeps are exactly those of the reference execution (finite updates, and non-finite ones whose current run of consecutive non-finite updates is longer than the bound, go to the inner transformation; all other updates give zeros and leave the inner state untouched); in the state, notfinite_count is the length of the current run, last_finite the flag of the last update and total_notfinite the number of non-finite updates so far. *)
Theorem C30_trace : forall `{O : Ops} (inner : GT) (max : Z) (p0 : tree tensor) (H : list (tree tensor * option (tree tensor))) (s0 s1 : state) (outs : list (tree tensor)),
  (Z.of_nat (length H) < 2 ^ 31)%Z -> init (apply_if_finite inner max) p0 = Ok s0 -> run (apply_if_finite inner max) s0 H = Ok (outs, s1) ->
  exists si0 sf, init inner p0 = Ok si0 /\ finite_ref inner max [] si0 H = Ok (outs, sf) /\
    let flags := rev (map (fun h => tree_finite (fst h)) H) in
    s1 = SNode NIfFinite [SInt iw64 (Z.of_nat (bad_run flags)); SBool (hd true flags); SInt iw64 (Z.of_nat (bad_total flags)); sf].
Proof. exact @apply_if_finite_trace. Qed.
Print Assumptions C30_trace.

(** the wrapper never raises around an inner transformation that does not raise and keeps shapes, dtypes and state structure (in particular every transformation refined by an element-wise machine), on any history of fewer than 2^31 updates like the parameters - whatever non-finite values they contain. *)
Theorem C30_total : forall `{O : Ops} (np : bool) (inner : GT) (max : Z) (p0 : tree tensor) (I : state -> Prop) (H : list (tree tensor * option (tree tensor))),
  steady np inner p0 I -> hist_ok np p0 H -> (Z.of_nat (length H) < 2 ^ 31)%Z ->
  exists outs, trains (apply_if_finite inner max) p0 H outs.
Proof. exact @apply_if_finite_total. Qed.
Print Assumptions C30_total.

(** if no run of consecutive non-finite updates ever exceeds the bound, training with the wrapper is exactly training the inner transformation on the sub-history of finite updates: the outputs at the finite steps are the inner ones, the others are zeros, and the inner state is that of the sub-history. *)
Theorem C30_filtered : forall `{O : Ops} (inner : GT) (max : Z) (p0 : tree tensor) (H : list (tree tensor * option (tree tensor))) (s0 s1 : state) (outs : list (tree tensor)),
  (Z.of_nat (length H) < 2 ^ 31)%Z -> init (apply_if_finite inner max) p0 = Ok s0 -> run (apply_if_finite inner max) s0 H = Ok (outs, s1) ->
  (forall n, n <= length H -> (Z.of_nat (bad_run (rev (map (fun h => tree_finite (fst h)) (firstn n H)))) <= max)%Z) ->
  let fin := fun h : tree tensor * option (tree tensor) => tree_finite (fst h) in
  exists si0 sf outs' c l t, init inner p0 = Ok si0 /\ run inner si0 (filter fin H) = Ok (outs', sf) /\ s1 = SNode NIfFinite [c; l; t; sf] /\
    outs' = map snd (filter (fun x => fin (fst x)) (combine H outs)) /\
    Forall (fun x => fin (fst x) = true \/ snd x = zeros_of (fst (fst x))) (combine H outs).
Proof. exact @apply_if_finite_filtered. Qed.
Print Assumptions C30_filtered.

(** for any inner transformation and predicate, on any history of fewer than 2^31 calls on which it does not raise, maybe_update's outputs and inner state are exactly those of applying the inner transformation at the calls n (from 0) with should_update_fn(n) true and passing updates and inner state through untouched at the others; the counter in the state is the number of calls. *)
Theorem C34_trace : forall `{O : Ops} (inner : GT) (f : Z -> bool) (p0 : tree tensor) (H : list (tree tensor * option (tree tensor))) (s0 s1 : state) (outs : list (tree tensor)),
  (Z.of_nat (length H) < 2 ^ 31)%Z -> init (maybe_update inner f) p0 = Ok s0 -> run (maybe_update inner f) s0 H = Ok (outs, s1) ->
  exists si0 sf, init inner p0 = Ok si0 /\ maybe_ref inner f 0 si0 H = Ok (outs, sf) /\
    s1 = SNode NMaybe [sf; SInt iw64 (Z.of_nat (length H))].
Proof. exact @maybe_update_trace. Qed.
Print Assumptions C34_trace.

(** and it never raises around an inner transformation that does not raise and keeps shapes, dtypes and state structure. *)
Theorem C34_total : forall `{O : Ops} (np : bool) (inner : GT) (f : Z -> bool) (p0 : tree tensor) (I : state -> Prop) (H : list (tree tensor * option (tree tensor))),
  steady np inner p0 I -> hist_ok np p0 H -> (Z.of_nat (length H) < 2 ^ 31)%Z ->
  exists outs, trains (maybe_update inner f) p0 H outs.
Proof. exact @maybe_update_total. Qed.
Print Assumptions C34_total.

(** a predicate that is always true gives exactly the inner transformation (whenever the wrapper runs the outputs are the inner ones, and around an inner transformation that does not raise and keeps shapes, dtypes and state structure the two run on the same histories), and one that is always false the identity. *)
Theorem C34_always_never : forall `{O : Ops} (inner : GT) (p0 : tree tensor) (H : list (tree tensor * option (tree tensor))) (outs : list (tree tensor)), (Z.of_nat (length H) < 2 ^ 31)%Z ->
  (trains (maybe_update inner (fun _ => true)) p0 H outs -> trains inner p0 H outs) /\
  (forall np I, steady np inner p0 I -> hist_ok np p0 H -> trains inner p0 H outs -> trains (maybe_update inner (fun _ => true)) p0 H outs) /\
  (trains (maybe_update inner (fun _ => false)) p0 H outs -> outs = map fst H).
Proof. exact @maybe_update_const. Qed.
Print Assumptions C34_always_never.

Example C30_example : forall `{P : Platform}, trains (apply_if_finite (scale (Fin 2)) 1) (one (Fin 1)) (ones_hist [Fin 5; NaN; PInf; Fin 7]) [one (Fin 10); one (Fin 0); one PInf; one (Fin 14)].
Proof. exact @apply_if_finite_example. Qed.

Example C34_example : forall `{P : Platform}, trains (maybe_update (scale (Fin 2)) Z.odd) (one (Fin 1)) (ones_hist [Fin 5; Fin 6; Fin 7]) [one (Fin 5); one (Fin 12); one (Fin 7)].
Proof. exact @maybe_update_example. Qed.
