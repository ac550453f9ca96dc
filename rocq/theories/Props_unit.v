(** Generated by tools/genprops.py from P_unit.v: property theorems only. *)
From Verif Require Import P_unit.
Open Scope R_scope.

(** For every pair of trees of one structure with equal shapes (dtypes arbitrary), finite elements, c, eps >= 0 and leaves of supported rank: it succeeds, keeps structure and shapes, and for every leaf and every unit of it there is k >= 0 with output = k * input on that unit, the unit's norm is at most c*max(norm of the param unit, eps), and a unit whose norm is below that bound is unchanged. *)
Theorem C06_adaptive_grad_clip : forall `{P : Platform} (u p : tree tensor) (c eps : R) (st : state),
  0 <= c -> 0 <= eps -> tmap (fun t => shp t) u = tmap (fun t => shp t) p -> trwf u -> trwf p -> finite_tree u -> finite_tree p ->
  Forall (fun t => one_unit (shp t) = true \/ (2 <= length (shp t) <= 4)%nat) (leaves u) ->
  exists u', update (adaptive_grad_clip (Fin c) (Fin eps)) u st (Some p) = Ok (u', st) /\ tmap (fun t => shp t) u' = tmap (fun t => shp t) u /\
    forall l a b r, nth_error (leaves u) l = Some a -> nth_error (leaves p) l = Some b -> nth_error (leaves u') l = Some r ->
      forall o, valid (shp a) o ->
        let bound := c * Rmax (unit_norm b o) eps in
        unit_norm r o <= bound /\
        (exists k, 0 <= k /\ forall j, In j (unit_members (shp a) o) -> tget r j = Fin (k * rget a j)) /\
        (unit_norm a o < bound -> forall j, In j (unit_members (shp a) o) -> tget r j = tget a j).
Proof. exact @agc_spec. Qed.
Print Assumptions C06_adaptive_grad_clip.

(** A leaf with at least two non-trivial dimensions and rank above 4 makes it raise ValueError, in any arithmetic. *)
Theorem C06_unsupported_rank_raises : forall `{O : Ops} (u p : tree tensor) (c eps : F) (st : state),
  Exists (fun t => one_unit (shp t) = false /\ (4 < length (shp t))%nat) (leaves u) ->
  update (adaptive_grad_clip c eps) u st (Some p) = Err EValue.
Proof. exact @agc_rank. Qed.
Print Assumptions C06_unsupported_rank_raises.

(** Without params it raises ValueError. *)
Theorem C06_params_required : forall `{O : Ops} (c eps : F) u st, update (adaptive_grad_clip c eps) u st None = Err EValue.
Proof. exact @agc_none. Qed.
Print Assumptions C06_params_required.

Example C06_example : forall `{P : Platform}, exists u',
  update (adaptive_grad_clip (Fin (1/2)) (Fin (1/1000))) (ex_g 2) EmptyState (Some ex_p) = Ok (u', EmptyState) /\ tmap (fun t => shp t) u' = tmap (fun t => shp t) ex_p.
Proof. exact @agc_example. Qed.

(** For every finite tree, structure, shapes, dtypes and state are kept; leaves of rank below 2 are unchanged; in a leaf of rank >= 2 each slice along axis 0 has a constant c subtracted from all its elements, and its elements then sum to 0 (so its mean is 0). *)
Theorem C27_centralize : forall `{P : Platform} (u : tree tensor) (st : state) par, trwf u -> finite_tree u ->
  exists u', update centralize u st par = Ok (u', st) /\ like u u' /\ finite_tree u' /\
    forall l a r, nth_error (leaves u) l = Some a -> nth_error (leaves u') l = Some r ->
      ((length (shp a) < 2)%nat -> r = a) /\
      (forall n0 rest, shp a = n0 :: rest -> rest <> [] -> forall i, (i < n0)%nat ->
         exists c, (forall j, valid rest j -> tget r (i :: j) = Fin (rget a (i :: j) - c)) /\
           rsum (map (fun j => rget r (i :: j)) (indices rest)) = 0).
Proof. exact @centralize_spec. Qed.
Print Assumptions C27_centralize.

(** In any arithmetic (IEEE, with rounding, NaN and infinities): leaves of rank below 2 are returned as they are; in a leaf of dtype d and rank >= 2 every element has the mean of its slice along axis 0 subtracted - sum, division by the number of elements and subtraction all made in d. *)
Theorem C27_any_arithmetic : forall `{O : Ops} (u : tree tensor) (st : state) par, trwf u ->
  exists u', update centralize u st par = Ok (u', st) /\ like u u' /\
    forall l a r, nth_error (leaves u) l = Some a -> nth_error (leaves u') l = Some r ->
      ((length (shp a) < 2)%nat -> r = a) /\
      (forall n0 rest, shp a = n0 :: rest -> rest <> [] -> forall i j, (i < n0)%nat -> valid rest j ->
         tget r (i :: j) = fsub (dt a) (tget a (i :: j)) (fdiv (dt a) (fsum (dt a) (map (fun j => tget a (i :: j)) (indices rest))) (fcast (dt a) (fofZ (Z.of_nat (prodn rest)))))).
Proof. exact @centralize_ops. Qed.
Print Assumptions C27_any_arithmetic.

(** Centralizing twice is centralizing once. *)
Theorem C27_idempotent : forall `{P : Platform} (u u' : tree tensor) (st st' : state) par, trwf u -> finite_tree u ->
  update centralize u st par = Ok (u', st') -> update centralize u' st' par = Ok (u', st').
Proof. exact @centralize_idem. Qed.
Print Assumptions C27_idempotent.

Example C27_example : forall `{P : Platform}, exists u', update centralize (ex_g 3) EmptyState None = Ok (u', EmptyState) /\
  elt u' (0%nat, 1%nat) = Some (Fin 3).
Proof. exact @centralize_example. Qed.
