(** Generated by tools/genprops.py from P_inject.v: property theorems only. *)
From Verif Require Import P_inject.
From Coq Require Import String List.
Import ListNotations.
Open Scope list_scope.

(** for every factory, static names, bound arguments (distinct names) and every interleaving of updates and manual writes to state.hyperparams, over gradients whose first leaf has the dtype of the first parameter leaf: running the wrapped transformation gives exactly (same outputs, same inner state, same errors) the reference execution, in which the n-th update is the update of inner_factory called with: each scheduled parameter equal to its schedule at n (not n-1; saturating at 2^31-1) whatever was written to it, each numeric one equal to the last written value or else its initial value, floats converted to that dtype, and static/bool/other arguments passed through; init uses the schedules at 0. Any arithmetic. *)
Theorem C46_inject : forall `{O : Ops} (Obj : Type) (f : factory Obj) (static : list string) (args : list (string * arg)) (p : tree tensor) (h : list hop) (T : GT) (dtype : option fdt),
  NoDup (map fst args) -> inject_hyperparams f static args = Ok T -> leaf_dtype p = dtype -> Forall (ufirst dtype) h ->
  rmap (fun r : list (tree tensor) * state => (fst r, inner_of (snd r))) (let* s := init T p in exec T static args h s) =
  (let* g0 := f (map (fun ka => value_init static dtype (fst ka) (snd ka)) args) in
   let* si := init g0 p in
   ref_run f static args dtype [] h si).
Proof. exact @inject_spec. Qed.
Print Assumptions C46_inject.

(** after any history of updates and writes ending in an update, reading a scheduled hyper-parameter from the state gives its schedule's value at the number of updates made, and reading a numeric one gives the last written value (or its initial value), floats converted to the gradients' dtype; a static argument, a flag or an object has no entry (KeyError). *)
Theorem C46_reads : forall `{O : Ops} (Obj : Type) (f : factory Obj) (static : list string) (args : list (string * arg)) (p : tree tensor) (h : list hop) (u : tree tensor) (q : option (tree tensor))
    (T : GT) (dtype : option fdt) (s0 s1 : state) (outs : list (tree tensor)),
  NoDup (map fst args) -> inject_hyperparams f static args = Ok T -> leaf_dtype p = dtype -> Forall (ufirst dtype) (h ++ [Upd u q]) ->
  init T p = Ok s0 -> exec T static args (h ++ [Upd u q]) s0 = Ok (outs, s1) ->
  forall k,
    (forall sch, mem k static = false -> In (k, ASched sch) args -> get_hyperparam static args k s1 = Ok (in_dtype dtype (sch (Z.min (Z.of_nat (S (n_updates h))) (2 ^ 31 - 1))))) /\
    (forall v, mem k static = false -> In (k, ANum v) args -> get_hyperparam static args k s1 = Ok (in_dtype dtype (last_written k v h))) /\
    (mem k static = true \/ (forall sch, ~ In (k, ASched sch) args) /\ (forall v, ~ In (k, ANum v) args) -> get_hyperparam static args k s1 = Err EKey).
Proof. exact @inject_reads. Qed.
Print Assumptions C46_reads.

(** a static name that is not a parameter of the factory raises ValueError. *)
Theorem C46_static_check : forall `{O : Ops} (Obj : Type) (f : factory Obj) (static : list string) (args : list (string * arg)) (k : string),
  In k static -> ~ In k (map fst args) -> inject_hyperparams f static args = Err EValue.
Proof. exact @inject_static. Qed.
Print Assumptions C46_static_check.

Example C46_example : forall `{P : Platform},
  let f := fun l : list (arg (Obj := unit)) => match l with [ANum (ArrF d x); ANum (ArrF _ _); ABool true] => Ok (scale x) | _ => Err EType end in
  let args := [("lr"%string, ASched (fun n => PyF (Fin (IZR n)))); ("m"%string, ANum (PyF (Fin 0))); ("flag"%string, ABool true)] in
  exists T, inject_hyperparams f [] args = Ok T /\
    rmap fst (let* s := init T (one (Fin 1)) in exec T [] args [Upd (one (Fin 5)) None; Write "lr"%string (PyF (Fin 7)); Upd (one (Fin 5)) None] s)
    = Ok [one (Fin 5); one (Fin 10)].
Proof. exact @inject_example. Qed.
