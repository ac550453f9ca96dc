(** Generated by tools/genprops.py from P_agc.v: property theorems only. *)
From Verif Require Import P_agc.

(** In any arithmetic, for trees of equal structure, shapes and dtypes with leaves of supported rank: adaptive_grad_clip keeps structure, shapes and dtypes, and in a leaf of dtype d every element g of a unit becomes g where norm(unit) < clipping * max(norm(param unit), eps), else g * (that bound / max(norm(unit), 1e-6)); a norm is the sum of the squares of the unit's elements to the power 1/2; every operation is made in d. *)
Theorem C06_any_arithmetic : forall `{O : Ops} (u p : tree tensor) (c eps : F) (st : state), avals u = avals p -> trwf u -> trwf p ->
  Forall (fun t => one_unit (shp t) = true \/ (2 <= length (shp t) <= 4)%nat) (leaves u) ->
  exists u', update (adaptive_grad_clip c eps) u st (Some p) = Ok (u', st) /\ like u u' /\
    forall l a b r, nth_error (leaves u) l = Some a -> nth_error (leaves p) l = Some b -> nth_error (leaves u') l = Some r ->
      forall o, valid (shp a) o ->
        let d := dt a in
        let norm x := fpow d (fsum d (map (fun j => fmul d (tget x j) (tget x j)) (unit_members (shp a) o))) (fcast d (flit (1 # 2))) in
        let bound := fmul d (fcast d c) (fmax (norm b) (fcast d eps)) in
        tget r o = if flt (norm a) bound then tget a o else fmul d (tget a o) (fdiv d bound (fmax (norm a) (fcast d (flit (1 # 1000000))))).
Proof. exact @agc_ops. Qed.
Print Assumptions C06_any_arithmetic.
