(** Generated by tools/genprops.py from P_priv.v: property theorems only. *)
From Verif Require Import P_priv.


(** In any arithmetic, for every history of batches whose leaves share a dtype d: the aggregate never raises, drops the batch axis, keeps structure and dtype, and element i of leaf j at call n is ( sum over the examples b of x_b / max(norm_b / clip, 1) + (clip * noise_multiplier) * z ) / B, z the sample of dtype d drawn with that (call, leaf)'s own key; norm_b is the square root of the sum over the leaves of the sums of the squares of example b; every operation is made in d (the product of the two constants in float64), with the constants rounded to d. *)
Theorem C38_any_arithmetic : forall `{O : Ops} (C m : F) (seed : Z) (p0 : tree tensor) (H : list (tree tensor * option (tree tensor))) (d : fdt),
  (forall k n, length (ksplit k n) = n) -> Forall (fun h => (exists B, batch B (fst h)) /\ Forall (fun g => dt g = d) (leaves (fst h))) H ->
  exists outs, trains (differentially_private_aggregate C m seed) p0 H outs /\ length outs = length H /\
    forall n u par B, nth_error H n = Some (u, par) -> batch B u -> exists o, nth_error outs n = Some o /\ tdef o = tdef u /\
      forall j l k, nth_error (leaves u) j = Some l -> drawn (prng_key seed) (map (fun h => length (leaves (fst h))) H) n j = Some k ->
        exists lo, nth_error (leaves o) j = Some lo /\ shp lo = tl (shp l) /\ dt lo = d /\
          forall i, i < prodn (tl (shp l)) ->
            let x b := nth (b * prodn (tl (shp l)) + i) (dat l) fzero in
            let clipped b := fdiv d (x b) (fmax (fdiv d (example_norm d (leaves u) b) (fcast d C)) (fcast d fone)) in
            let noise := fmul d (fcast d (fmul F64 C m)) (knormal k d (tl (shp l)) i) in
            nth_error (dat lo) i = Some (fdiv d (fadd d (fsum d (map clipped (seq 0 B))) noise) (fcast d (fofZ (Z.of_nat B)))).
Proof. exact @dp_ops. Qed.
Print Assumptions C38_any_arithmetic.

(** for every fast optimiser, period, step size and reset flag, and params that are no namedtuple (an array, a dict, a list, ...): lookahead's init accepts them as the fast parameters - it returns what it returns for the pair of those params and any slow params - but every update given them raises, whatever the updates and the state. *)
Theorem C36_plain_params : forall `{O : Ops} (opt T : GT) (k : Z) (a : F) (reset : bool), lookahead opt k a reset = Ok T ->
  forall p, plain_params p -> (forall slow, init T p = init T (LookaheadParams p slow)) /\ forall u s, exists e, update T u s (Some p) = Err e.
Proof. exact @look_plain. Qed.
Print Assumptions C36_plain_params.

Example C36_plain_example : forall `{O : Ops}, let p := Node KList [Leaf (mkT F32 [] [fone])] in
  plain_params p /\ exists T, lookahead (scale fone) 3 fone true = Ok T /\ exists s, init T p = Ok s.
Proof. exact @look_plain_example. Qed.
