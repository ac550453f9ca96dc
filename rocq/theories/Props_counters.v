(** Generated by tools/genprops.py from P_counters.v: property theorems only. *)
From Verif Require Import P_counters.
From Coq Require Import List.
Import ListNotations.
Open Scope list_scope.
Open Scope nat_scope.

(** what the wrapped counter shows: the only number of the counter's range congruent to the true count; the true count itself below the limit, the smallest negative number at the limit, and a negative number for the 2^(bits-1) counts from there. *)
Theorem C65_signed : forall (bits z : Z), (1 <= bits)%Z ->
  ((- 2 ^ (bits - 1) <= signed bits z < 2 ^ (bits - 1))%Z /\ (signed bits z mod 2 ^ bits = z mod 2 ^ bits)%Z /\
   forall y, (- 2 ^ (bits - 1) <= y < 2 ^ (bits - 1))%Z -> (y mod 2 ^ bits = z mod 2 ^ bits)%Z -> y = signed bits z) /\
  ((0 <= z < 2 ^ (bits - 1))%Z -> signed bits z = z) /\ signed bits (2 ^ (bits - 1)) = (- 2 ^ (bits - 1))%Z /\
  ((2 ^ (bits - 1) <= z < 2 ^ bits)%Z -> (signed bits z < 0)%Z).
Proof. exact @signed_spec. Qed.
Print Assumptions C65_signed.

(** for histories of ANY length: the predicate of maybe_update is called on the wrapped number of earlier calls (32 bits, or 64 with x64), the inner transformation is applied exactly when it answers true, and the counter in the state is the wrapped number of calls. *)
Theorem C65_maybe_update : forall `{O : Ops} (inner : GT) (f : Z -> bool) (p0 : tree tensor) (H : list (tree tensor * option (tree tensor))) (s0 s1 : state) (outs : list (tree tensor)),
  init (maybe_update inner f) p0 = Ok s0 -> run (maybe_update inner f) s0 H = Ok (outs, s1) ->
  exists si0 sf, init inner p0 = Ok si0 /\ maybe_ref inner (fun n => f (signed counter_bits n)) 0 si0 H = Ok (outs, sf) /\
    s1 = SNode NMaybe [sf; SInt iw64 (signed counter_bits (Z.of_nat (length H)))].
Proof. exact @maybe_update_wraps. Qed.
Print Assumptions C65_maybe_update.

(** and it never raises, whatever the length, around an inner transformation that does not raise and keeps shapes, dtypes and state structure. *)
Theorem C65_maybe_update_total : forall `{O : Ops} (np : bool) (inner : GT) (f : Z -> bool) (p0 : tree tensor) (I : state -> Prop) (H : list (tree tensor * option (tree tensor))),
  steady np inner p0 I -> hist_ok np p0 H -> exists outs, trains (maybe_update inner f) p0 H outs.
Proof. exact @maybe_update_total_any. Qed.
Print Assumptions C65_maybe_update_total.

(** for histories of ANY length: apply_if_finite counts the current run and the total of non-finite updates modulo the counter's width, and accepts a non-finite update exactly when the wrapped length of the run exceeds the bound. *)
Theorem C65_apply_if_finite : forall `{O : Ops} (inner : GT) (max : Z) (p0 : tree tensor) (H : list (tree tensor * option (tree tensor))) (s0 s1 : state) (outs : list (tree tensor)),
  init (apply_if_finite inner max) p0 = Ok s0 -> run (apply_if_finite inner max) s0 H = Ok (outs, s1) ->
  exists si0 sf, init inner p0 = Ok si0 /\ wrapped_finite_ref inner max [] si0 H = Ok (outs, sf) /\
    let flags := rev (map (fun h => tree_finite (fst h)) H) in
    s1 = SNode NIfFinite [SInt iw64 (signed counter_bits (Z.of_nat (bad_run flags))); SBool (hd true flags);
                          SInt iw64 (signed counter_bits (Z.of_nat (bad_total flags))); sf].
Proof. exact @apply_if_finite_wraps. Qed.
Print Assumptions C65_apply_if_finite.

(** and it never raises, whatever the length, around an inner transformation that does not raise and keeps shapes, dtypes and state structure. *)
Theorem C65_apply_if_finite_total : forall `{O : Ops} (np : bool) (inner : GT) (max : Z) (p0 : tree tensor) (I : state -> Prop) (H : list (tree tensor * option (tree tensor))),
  steady np inner p0 I -> hist_ok np p0 H -> exists outs, trains (apply_if_finite inner max) p0 H outs.
Proof. exact @apply_if_finite_total_any. Qed.
Print Assumptions C65_apply_if_finite_total.

(** for histories of ANY length and any mini-step schedule with values from 1 to 2^31: MultiSteps behaves as the block execution whose j-th block has k(wrapped j) gradients; the state's gradient step is the wrapped number of complete blocks, so has_updated answers false right after a complete block whenever that wrapped number is not positive. *)
Theorem C65_multi_steps : forall `{O : Ops} (opt : GT) (k : Z -> Z) (use_mean : bool) (p0 : tree tensor) (H : list (tree tensor * option (tree tensor))) (s0 s1 : state) (outs : list (tree tensor)),
  trwf p0 -> (forall j, (1 <= k j <= 2 ^ 31)%Z) -> Forall (like p0) (map fst H) ->
  init (multi_steps opt k use_mean) p0 = Ok s0 -> run (multi_steps opt k use_mean) s0 H = Ok (outs, s1) ->
  let kw := fun i => k (signed counter_bits i) in
  exists Bs rest Gs si0 os sf S,
    map fst H = concat Bs ++ rest /\ block_sizes kw 0 Bs /\ (Z.of_nat (length rest) < kw (Z.of_nat (length Bs)))%Z /\
    block_values use_mean p0 kw 0 Bs Gs /\ init opt p0 = Ok si0 /\ run opt si0 (map (fun G => (G, None)) Gs) = Ok (os, sf) /\
    outs = blocks_out Bs os ++ map zeros_of rest /\
    s1 = SNode NMulti [SInt iw64 (Z.of_nat (length rest)); SInt iw64 (signed counter_bits (Z.of_nat (length Bs))); sf; STree S] /\ block_sum p0 rest S /\
    (multi_has_updated s1 = Ok true <-> rest = [] /\ (0 < signed counter_bits (Z.of_nat (length Bs)))%Z).
Proof. exact @multi_steps_wraps. Qed.
Print Assumptions C65_multi_steps.

(** and nothing raises, whatever the length, when the wrapped optimiser ignores params, does not raise and keeps shapes, dtypes and state structure. *)
Theorem C65_multi_steps_total : forall `{O : Ops} (opt : GT) (k : Z -> Z) (use_mean : bool) (p0 : tree tensor) (I : state -> Prop) (H : list (tree tensor * option (tree tensor))),
  trwf p0 -> (forall j, (1 <= k j <= 2 ^ 31)%Z) -> steady true opt p0 I -> Forall (like p0) (map fst H) ->
  exists outs, trains (multi_steps opt k use_mean) p0 H outs.
Proof. exact @multi_steps_total_any. Qed.
Print Assumptions C65_multi_steps_total.

Example C65_example : forall `{P : Platform} (n : nat), @x64 (XROps P) = false -> Z.of_nat n = (2 ^ 31)%Z ->
  let H := repeat (one (Fin 5), Some (one (Fin 1))) n in
  hist_ok true (one (Fin 1)) H /\
  exists outs s0 sf, init (maybe_update (scale (Fin 2)) (fun s => (0 <=? s)%Z)) (one (Fin 1)) = Ok s0 /\
    run (maybe_update (scale (Fin 2)) (fun s => (0 <=? s)%Z)) s0 H = Ok (outs, SNode NMaybe [sf; SInt I32 (- 2 ^ 31)]) /\
    rmap fst (update (maybe_update (scale (Fin 2)) (fun s => (0 <=? s)%Z)) (one (Fin 5)) (SNode NMaybe [sf; SInt I32 (- 2 ^ 31)]) None) = Ok (one (Fin 5)) /\
    rmap fst (update (maybe_update (scale (Fin 2)) (fun s => (0 <=? s)%Z)) (one (Fin 5)) s0 None) = Ok (one (Fin 10)).
Proof. exact @counters_example. Qed.
