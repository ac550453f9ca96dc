(** Generated by tools/genprops.py from P_elem.v: property theorems only. *)
From Verif Require Import P_elem.
Open Scope R_scope.

(** For every int32 value the increment is c+1 below 2^31-1 and 2^31-1 at 2^31-1: no wrap-around. *)
Theorem C01_safe_int32_increment : forall c, (- 2 ^ 31 <= c <= 2 ^ 31 - 1)%Z ->
  safe_int32_increment I32 c = Ok (if (c <? 2 ^ 31 - 1)%Z then c + 1 else 2 ^ 31 - 1)%Z.
Proof. exact @inc_value. Qed.
Print Assumptions C01_safe_int32_increment.

(** A counter started at 0 and incremented n times is min(n, 2^31-1), for every n: it never decreases and never becomes negative. *)
Theorem C01_counter_never_wraps : forall n, increments n 0 = Ok (Z.min (Z.of_nat n) (2 ^ 31 - 1))%Z.
Proof. exact @inc_iter. Qed.
Print Assumptions C01_counter_never_wraps.

(** A counter of another integer dtype is rejected by an assertion. *)
Theorem C01_other_dtypes_rejected : forall c, safe_int32_increment I64 c = Err EAssert.
Proof. exact @inc_dtype. Qed.
Print Assumptions C01_other_dtypes_rejected.

Example C01_example : safe_int32_increment I32 2147483647 = Ok 2147483647%Z /\ safe_int32_increment I32 41 = Ok 42%Z.
Proof. exact @inc_example. Qed.

(** For arbitrary transformations, params, histories: chain(t, rest...) emits outs on a history iff t emits some mid on it and chain(rest...) emits outs on mid fed with the same params. (chain of one is that transformation, next theorem.) *)
Theorem C03_chain_is_a_pipeline : forall `{O : Ops} (t t' : GT) (ts : list GT) (c r : GT) (p : tree tensor) H outs,
  chain (t :: t' :: ts) = Ok c -> chain (t' :: ts) = Ok r ->
  (trains c p H outs <->
   exists mid, trains t p H mid /\ trains r p (combine mid (map snd H)) outs).
Proof. exact @chain_pipeline. Qed.
Print Assumptions C03_chain_is_a_pipeline.

(** chain(t) emits exactly what t emits. *)
Theorem C03_chain_of_one : forall `{O : Ops} (t c : GT) p H outs, chain [t] = Ok c -> (trains c p H outs <-> trains t p H outs).
Proof. exact @chain_one. Qed.
Print Assumptions C03_chain_of_one.

(** Grouping does not matter: a chain of two chains emits what the flat chain emits. *)
Theorem C03_nesting_is_irrelevant : forall `{O : Ops} (a b : list GT) (ca cb c cc : GT) p H outs,
  chain a = Ok ca -> chain b = Ok cb -> chain [ca; cb] = Ok c -> chain (a ++ b) = Ok cc ->
  (trains c p H outs <-> trains cc p H outs).
Proof. exact @chain_nest. Qed.
Print Assumptions C03_nesting_is_irrelevant.

(** identity anywhere in a chain changes nothing. *)
Theorem C03_identity_is_neutral : forall `{O : Ops} (a b : list GT) (c c' : GT) p H outs,
  chain (a ++ identity :: b) = Ok c -> chain (a ++ b) = Ok c' -> (trains c p H outs <-> trains c' p H outs).
Proof. exact @chain_identity. Qed.
Print Assumptions C03_identity_is_neutral.

(** The state is a list with one slot per transformation: each transformation is called with the previous one's updates, its own slot and the caller's params. *)
Theorem C03_each_slot_own_state : forall `{O : Ops} (ts : list GT) (c : GT) u s p u' s',
  chain ts = Ok c -> update c u s p = Ok (u', s') ->
  exists nm (ss ss' : list state) (us : list (tree tensor)),
    s = SNode nm ss /\ s' = SNode NList ss' /\
    length ss = length ts /\ length ss' = length ts /\ length us = S (length ts) /\
    nth_error us 0 = Some u /\ nth_error us (length ts) = Some u' /\
    forall i t si ui, nth_error ts i = Some t -> nth_error ss i = Some si -> nth_error us i = Some ui ->
      exists uj sj, update t ui si p = Ok (uj, sj) /\ nth_error us (S i) = Some uj /\ nth_error ss' i = Some sj.
Proof. exact @chain_slots. Qed.
Print Assumptions C03_each_slot_own_state.

(** chain of any non-empty list of transformations succeeds, and its init succeeds exactly when every transformation's does; the initial state is the list of their initial states, in order. *)
Theorem C03_chain_builds : forall `{O : Ops} (ts : list GT) (p : tree tensor), ts <> [] ->
  exists c, chain ts = Ok c /\ forall s, init c p = Ok s <->
    exists ss, s = SNode NList ss /\ length ss = length ts /\
      forall i t, nth_error ts i = Some t -> exists si, init t p = Ok si /\ nth_error ss i = Some si.
Proof. exact @chain_builds. Qed.
Print Assumptions C03_chain_builds.

(** A state with the wrong number of slots raises ValueError, and chain() without arguments raises. *)
Theorem C03_wrong_state_length_raises : forall `{O : Ops} (ts : list GT) (c : GT) nm ss u p,
  chain ts = Ok c -> length ts <> length ss -> update c u (SNode nm ss) p = Err EValue /\ chain ([] : list GT) = Err EValue.
Proof. exact @chain_errors. Qed.
Print Assumptions C03_wrong_state_length_raises.

Example C03_example : forall `{P : Platform}, exists c outs,
  chain [scale (Fin 2); clip (Fin 5); trace (Fin 1) false None] = Ok c /\ trains c ex_p ex_H outs /\
  oelt outs 2 (0%nat, 1%nat) = Some (Fin 11).
Proof. exact @chain_example. Qed.

(** For every tree, clip(d), d >= 0, keeps structure, shapes, dtypes and state; every finite element x becomes x if -d <= x <= d, d if x > d, -d if x < -d (so all results lie in [-d, d]); infinities become +-d. *)
Theorem C04_clip : forall `{P : Platform} (c : R) (u : tree tensor) (st : state) par, 0 <= c -> trwf u ->
  exists u', update (clip (Fin c)) u st par = Ok (u', st) /\ like u u' /\
    (forall pos x, elt u pos = Some (Fin x) -> exists y, elt u' pos = Some (Fin y) /\ - c <= y <= c /\
       (- c <= x <= c -> y = x) /\ (c < x -> y = c) /\ (x < - c -> y = - c)) /\
    (forall pos, elt u pos = Some PInf -> elt u' pos = Some (Fin c)) /\
    (forall pos, elt u pos = Some NInf -> elt u' pos = Some (Fin (- c))).
Proof. exact @clip_spec. Qed.
Print Assumptions C04_clip.

(** Clipping what has been clipped changes nothing, whatever the elements (NaN and infinities included). *)
Theorem C04_clip_idempotent : forall `{P : Platform} (c : R) (u u' : tree tensor) (st st' : state) par, 0 <= c ->
  update (clip (Fin c)) u st par = Ok (u', st') -> update (clip (Fin c)) u' st' par = Ok (u', st').
Proof. exact @clip_idem. Qed.
Print Assumptions C04_clip_idempotent.

Example C04_example : forall `{P : Platform}, exists u', update (clip (Fin 3)) (ex_g 2) EmptyState None = Ok (u', EmptyState) /\
  elt u' (0%nat, 1%nat) = Some (Fin 2) /\ elt u' (1%nat, 2%nat) = Some (Fin 3).
Proof. exact @clip_example. Qed.

(** If updates have the structure and shapes of params (dtypes arbitrary), apply_updates succeeds, the result has exactly the structure, shapes and dtypes of params, and each element is p + u computed in the promoted dtype and cast to the dtype of p. *)
Theorem C09_apply_updates : forall `{O : Ops} (p u : tree tensor), tmap shp p = tmap shp u -> trwf p -> trwf u ->
  exists r, apply_updates p u = Ok r /\ like p r /\
    forall pos x y, elt p pos = Some x -> elt u pos = Some y ->
      let dp := leafdt p pos in let du := leafdt u pos in let D := promote dp du in
      elt r pos = Some (conv D dp (fadd D (conv dp D x) (conv du D y))).
Proof. exact @apply_updates_spec. Qed.
Print Assumptions C09_apply_updates.

(** If the two tree structures differ in any way, it raises instead of returning. *)
Theorem C09_structure_mismatch_raises : forall `{O : Ops} (p u : tree tensor), tdef p <> tdef u -> exists e, apply_updates p u = Err e.
Proof. exact @apply_updates_mismatch. Qed.
Print Assumptions C09_structure_mismatch_raises.

(** Equal shapes are needed: an update that broadcasts to a larger shape silently changes the parameter's shape. *)
Theorem C09_broadcasting_update_changes_the_shape_refuted : forall `{P : Platform}, exists r,
  apply_updates (Leaf (mkT F32 [1%nat] [Fin 1])) (Leaf (mkT F32 [2%nat] [Fin 1; Fin 2])) = Ok r /\
  avals r = Leaf (F32, [2%nat]).
Proof. exact @apply_updates_broadcast. Qed.
Print Assumptions C09_broadcasting_update_changes_the_shape_refuted.

Example C09_example : forall `{P : Platform}, exists r, apply_updates (Leaf (mkT BF16 [2%nat] [Fin 1; Fin 2])) (Leaf (mkT F32 [2%nat] [Fin 3; Fin 5])) = Ok r
  /\ avals r = Leaf (BF16, [2%nat]) /\ elt r (0%nat, 1%nat) = Some (Fin 7).
Proof. exact @apply_updates_example. Qed.

(** Applying the constrained updates gives max(0, p+u) at every element with finite p and u: never a negative parameter. *)
Theorem C07_params_become_max_0 : forall `{P : Platform} (u p : tree tensor) st, avals u = avals p -> trwf u -> trwf p ->
  exists u' r, update keep_params_nonnegative u st (Some p) = Ok (u', st) /\ like p u' /\
    apply_updates p u' = Ok r /\ like p r /\
    forall pos x y, elt p pos = Some (Fin x) -> elt u pos = Some (Fin y) -> elt r pos = Some (Fin (Rmax 0 (x + y))).
Proof. exact @nonneg_exact. Qed.
Print Assumptions C07_params_become_max_0.

(** Without params it raises ValueError. *)
Theorem C07_params_required : forall `{O : Ops} u st, update keep_params_nonnegative u st None = Err EValue.
Proof. exact @nonneg_none. Qed.
Print Assumptions C07_params_required.

(** The documentation's "params that are already negative are made exactly zero" fails when p+u > 0: p = -1, u = 3 gives 2. *)
Theorem C07_negative_params_not_always_zeroed_refuted : forall `{P : Platform}, exists u' r,
  update keep_params_nonnegative (one (Fin 3)) EmptyState (Some (one (Fin (-1)))) = Ok (u', EmptyState) /\
  apply_updates (one (Fin (-1))) u' = Ok r /\ elt r (0%nat, 0%nat) = Some (Fin 2).
Proof. exact @nonneg_doc. Qed.
Print Assumptions C07_negative_params_not_always_zeroed_refuted.

Example C07_example : forall `{P : Platform}, exists u' r,
  update keep_params_nonnegative (ex_g 3) EmptyState (Some ex_p) = Ok (u', EmptyState) /\
  apply_updates ex_p u' = Ok r /\ elt r (1%nat, 1%nat) = Some (Fin 1) /\ elt r (1%nat, 3%nat) = Some (Fin 3).
Proof. exact @nonneg_example. Qed.

(** For every arithmetic with a NaN test, every updates tree, state and params: the output has the structure, shapes and dtypes of the updates, exactly the NaN elements are replaced by 0, and the new state flags leaf j iff leaf j of this very update contains a NaN, whatever the previous state (i.e. whatever the history). *)
Theorem C08_zero_nans : forall `{O : Ops} (u : tree tensor) (st : state) par,
  exists u' flags, update zero_nans u st par = Ok (u', SNode NZeroNans [SBTree flags]) /\
    avals u' = avals u /\ tdef flags = tdef u /\
    (forall pos x, elt u pos = Some x -> elt u' pos = Some (if fisnan x then fcast (leafdt u pos) fzero else x)) /\
    (forall j l, nth_error (leaves u) j = Some l ->
       exists b, nth_error (leaves flags) j = Some b /\ (b = true <-> exists x, In x (dat l) /\ fisnan x = true)).
Proof. exact @zero_nans_spec. Qed.
Print Assumptions C08_zero_nans.

(** Initially no leaf is flagged. *)
Theorem C08_zero_nans_init : forall `{O : Ops} (p : tree tensor),
  exists flags, init zero_nans p = Ok (SNode NZeroNans [SBTree flags]) /\ tdef flags = tdef p /\ Forall (fun b => b = false) (leaves flags).
Proof. exact @zero_nans_init. Qed.
Print Assumptions C08_zero_nans_init.

Example C08_example : forall `{P : Platform}, exists u',
  update zero_nans (Node KList [Leaf (mkT F32 [2%nat] [NaN; PInf]); one (Fin 3)]) (SNode NZeroNans []) None =
  Ok (u', SNode NZeroNans [SBTree (Node KList [Leaf true; Leaf false])]) /\ elt u' (0%nat, 0%nat) = Some (Fin 0) /\ elt u' (0%nat, 1%nat) = Some PInf.
Proof. exact @zero_nans_example. Qed.

(** Element-wise step*new + (1-step)*old, hence between old and new for 0 <= step <= 1, equal to new for step 1 and to old for step 0. *)
Theorem C10_incremental_update : forall `{P : Platform} (new old : tree tensor) (s : R),
  avals new = avals old -> trwf new -> trwf old ->
  exists r, incremental_update new old (Fin s) = Ok r /\ like old r /\
    forall pos x y, elt new pos = Some (Fin x) -> elt old pos = Some (Fin y) ->
      exists v, elt r pos = Some (Fin v) /\ v = s * x + (1 - s) * y /\
        (0 <= s <= 1 -> Rmin x y <= v <= Rmax x y) /\ (s = 1 -> v = x) /\ (s = 0 -> v = y).
Proof. exact @incremental_spec. Qed.
Print Assumptions C10_incremental_update.

(** Maintained over n calls against the online values x 0 .. x (n-1), the copy is (1-s)^n y0 + s sum (1-s)^(n-1-i) x_i; against a constant x the distance is exactly (1-s)^n (y0 - x). *)
Theorem C10_polyak_average : forall `{P : Platform} (old : tree tensor) (news : list (tree tensor)) (s : R),
  trwf old -> Forall (like old) news ->
  exists r, polyak old news (Fin s) = Ok r /\ like old r /\
    forall pos (x : nat -> R) y0, let n := length news in
      (forall i t, nth_error news i = Some t -> elt t pos = Some (Fin (x i))) -> elt old pos = Some (Fin y0) ->
      exists v, elt r pos = Some (Fin v) /\
        v = (1 - s) ^ n * y0 + s * rsumn (fun i => (1 - s) ^ (n - 1 - i) * x i) n /\
        (forall c, (forall i, (i < n)%nat -> x i = c) -> v - c = (1 - s) ^ n * (y0 - c)).
Proof. exact @polyak_spec. Qed.
Print Assumptions C10_polyak_average.

Example C10_example : forall `{P : Platform}, exists r, polyak ex_p [ex_g 1; ex_g 2] (Fin (1/2)) = Ok r /\ elt r (0%nat, 1%nat) = Some (Fin (7/4)).
Proof. exact @polyak_example. Qed.

(** A target copy maintained along steps start, start+1, ... is, after any number of steps, exactly the online parameters of the last step divisible by k, or the initial target if there was none: never a mixture. *)
Theorem C11_periodic_update : forall `{O : Ops} (k start : Z) (target : tree tensor) (online : list (tree tensor)),
  (1 <= k)%Z -> Forall (fun o => avals o = avals target) online ->
  exists r, maintain k start target online = Ok r /\
    ((forall i, (i < length online)%nat -> ((start + Z.of_nat i) mod k <> 0)%Z) -> r = target) /\
    (forall i o, nth_error online i = Some o -> ((start + Z.of_nat i) mod k = 0)%Z ->
       (forall j, (i < j < length online)%nat -> ((start + Z.of_nat j) mod k <> 0)%Z) -> r = o).
Proof. exact @periodic_spec. Qed.
Print Assumptions C11_periodic_update.

Example C11_example : forall `{P : Platform}, maintain 2 1 (one (Fin 0)) [one (Fin 1); one (Fin 2); one (Fin 3)] = Ok (one (Fin 2)).
Proof. exact @periodic_example. Qed.

(** For every element-wise transformation or chain of such, in any arithmetic: take two trainings, possibly on different trees and at different positions holding the same dtype, whose gradient histories (and params histories, if params are used) agree at the two positions up to step n. Then the outputs of step n agree there, whatever the other elements, the initial params and everything else do (NaN and Inf included). *)
Theorem C66_element_independence : forall `{O : Ops} np (T : GT), elementwise np T ->
  forall (p p' : tree tensor) H H', trwf p -> trwf p' -> hist_ok np p H -> hist_ok np p' H' ->
  exists outs outs', trains T p H outs /\ trains T p' H' outs' /\
    forall n pos pos', (n < length H)%nat -> (n < length H')%nat ->
      leafdt p pos = leafdt p' pos' ->
      (forall i, (i <= n)%nat -> exists x, helt H i pos = Some x /\ helt H' i pos' = Some x) ->
      (np = false -> forall i, (i <= n)%nat -> exists x, hpelt H i pos = Some x /\ hpelt H' i pos' = Some x) ->
      exists y, oelt outs n pos = Some y /\ oelt outs' n pos' = Some y.
Proof. exact @element_independence. Qed.
Print Assumptions C66_element_independence.

(** zero_nans too: an output element is a function of the same input element of the same call only. *)
Theorem C66_zero_nans_element_independence : forall `{O : Ops} (u v : tree tensor) s s' par par' pos x,
  elt u pos = Some x -> elt v pos = Some x -> leafdt u pos = leafdt v pos ->
  exists u' t v' t' y, update zero_nans u s par = Ok (u', t) /\ update zero_nans v s' par' = Ok (v', t') /\
    elt u' pos = Some y /\ elt v' pos = Some y.
Proof. exact @zero_nans_elt. Qed.
Print Assumptions C66_zero_nans_element_independence.

Example C66_example : forall `{P : Platform}, exists c,
  chain [clip (Fin 1); scale_by_adam (Fin (9/10)) (Fin (99/100)) (Fin 1) (Fin 0); add_decayed_weights (Fin (1/2)); scale (Fin (-1))] = Ok c /\
  elementwise false c.
Proof. exact @element_independence_example. Qed.
