(** Generated by tools/genprops.py from P_trust.v: property theorems only. *)
From Verif Require Import P_trust.
From Flocq Require Import Core.Core IEEE754.BinarySingleNaN.
Open Scope R_scope.
#[local] Existing Instance FlOps.

(** In any arithmetic and for any dtypes: scale_by_trust_ratio never raises on updates and params of one structure; a leaf of updates (dtype d) with its parameter (dtype e) is multiplied, in the promoted dtype, by one number for the whole leaf: the parameter's norm over the update's - each the square root of the sum of squares computed in the array's own dtype, or min_norm if that is not smaller - divided in the promoted dtype, or by 1 if one of the two is 0. The shape is kept, the dtype becomes the promoted one. *)
Theorem C24_any_arithmetic : forall `{O : Ops} (u p : tree tensor) (m : F) (st : state), tdef u = tdef p -> trwf u ->
  exists u', update (scale_by_trust_ratio m) u st (Some p) = Ok (u', st) /\ tdef u' = tdef u /\
    forall j a b r, nth_error (leaves u) j = Some a -> nth_error (leaves p) j = Some b -> nth_error (leaves u') j = Some r ->
      let D := promote (dt b) (dt a) in
      dt r = D /\ shp r = shp a /\ dat r = map (fun x => fmul D (conv (dt a) D x) (trust_ratio (dt a) (dt b) m (dat a) (dat b))) (dat a).
Proof. exact @trust_ops. Qed.
Print Assumptions C24_any_arithmetic.

(** (finding) IEEE arithmetic, finite updates and parameters of one dtype, any finite min_norm >= 0: (1) if the square of one parameter of a leaf overflows the dtype (|p| >= 256 in float16, 1.8e19 in float32 and bfloat16) and the update's norm is finite and not 0, the trust ratio is infinite and every element of that leaf becomes +-inf, or NaN where the update was 0; (2) if the square of one element of the update overflows instead, and the parameter's norm is finite and not 0, every element of that leaf becomes 0. *)
Theorem C24_overflow_ieee : forall `{L : Libm} (u p : tree tensor) (m : fl) (st : state) (d : fdt), sum_sane L -> tdef u = tdef p -> trwf u ->
  fisfinite (fcast d m) = true -> 0 <= fval (fcast d m) ->
  exists u', update (scale_by_trust_ratio m) u st (Some p) = Ok (u', st) /\
    forall j a b r, nth_error (leaves u) j = Some a -> nth_error (leaves p) j = Some b -> nth_error (leaves u') j = Some r -> dt a = d -> dt b = d ->
      Forall (fun x => fisfinite x = true) (dat a) -> Forall (fun x => fisfinite x = true) (dat b) ->
      ((exists v, In v (dat b) /\ fmul d v v = If false) -> fisfinite (norm_row d m (dat a)) = true -> feqb (norm_row d m (dat a)) fzero = false ->
         Forall (fun y => y = Na \/ exists s, y = If s) (dat r)) /\
      ((exists v, In v (dat a) /\ fmul d v v = If false) -> fisfinite (norm_row d m (dat b)) = true -> feqb (norm_row d m (dat b)) fzero = false ->
         Forall (fun y => exists s, y = Zr s) (dat r)).
Proof. exact @trust_overflow. Qed.
Print Assumptions C24_overflow_ieee.

Example C24_overflow_example : exists u',
  update (scale_by_trust_ratio (O := FlOps cr_libm) (Zr false)) (fone1 F16 (Nz 1)) EmptyState (Some (fone1 F16 (Nz 256))) = Ok (u', EmptyState) /\
  exists r, nth_error (leaves u') 0 = Some r /\ Forall (fun y => y = Na \/ exists s, y = If s) (dat r).
Proof. exact @trust_overflow_example. Qed.
