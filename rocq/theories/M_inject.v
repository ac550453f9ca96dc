(** schedule.py: inject_hyperparams. *)
From Verif Require Export M_schedule.
From Coq Require Import String List.
Import ListNotations.
Open Scope Z_scope.
Open Scope list_scope.

Section Inject.
  Context `{O : Ops}.
  (** Numeric hyper-parameter values: a Python float, a float array of rank 0, or an integer (a
      Python int or an int32 array).  Simplification: arrays of higher rank are not represented. *)
  Inductive hnum := PyF (x : F) | ArrF (d : fdt) (x : F) | IntV (z : Z).
  (** Arguments of a factory; [Obj] stands for everything that is neither bool, callable nor number. *)
  Context {Obj : Type}.
  Inductive arg := ABool (b : bool) | ASched (f : Z -> hnum) | ANum (v : hnum) | AObj (o : Obj).

  (** schedule.py:493-497 (_convert_floats); [None] is the missing dtype ([jnp.asarray(x, None)]). *)
  Definition convert_floats (x : hnum) (dtype : option fdt) : hnum :=
    match x, dtype with
    | PyF x, Some d => ArrF d (fcast d x)
    | PyF x, None => ArrF defdt (fcast defdt x)
    | ArrF d' x, Some d => ArrF d (conv d' d x)
    | ArrF d' x, None => ArrF d' x
    | IntV z, _ => IntV z
    end.
  (** [getattr(next(iter(jax.tree_leaves(t)), None), 'dtype', None)] *)
  Definition first_dtype (t : tree tensor) : option fdt := match leaves t with x :: _ => Some (dt x) | [] => None end.

  (** Python dicts with string keys, in insertion order. *)
  Fixpoint dget {A} (l : list (string * A)) (k : string) : option A :=
    match l with [] => None | (k', v) :: r => if String.eqb k k' then Some v else dget r k end.
  Fixpoint dset {A} (l : list (string * A)) (k : string) (v : A) : list (string * A) :=
    match l with
    | [] => [(k, v)]
    | (k', v') :: r => if String.eqb k k' then (k', v) :: r else (k', v') :: dset r k v
    end.
  Definition dupdate {A} (l m : list (string * A)) : list (string * A) := fold_left (fun d x => dset d (fst x) (snd x)) m l.

  (** The hyper-parameter leaves inside a state. *)
  Definition enc (v : hnum) : state :=
    match v with PyF x => SNode NList [SNum F64 x] | ArrF d x => SNum d x | IntV z => SInt I32 z end.
  Definition dec (s : state) : result hnum :=
    match s with
    | SNum d x => Ok (ArrF d x) | SInt I32 z => Ok (IntV z) | SNode NList [SNum F64 x] => Ok (PyF x)
    | _ => Err EType
    end.

  Definition mem (k : string) (l : list string) : bool := existsb (String.eqb k) l.

  (** A factory called with all its parameters bound, in the order of its signature. *)
  Definition factory := list arg -> result GT.

  Section Wrapped.
    Variable f : factory.
    Variable static : list string.
    Variable args : list (string * arg).

    (** schedule.py:568-577: the classification of the bound arguments *)
    Definition sched_hps : list (string * (Z -> hnum)) :=
      flat_map (fun ka => if mem (fst ka) static then [] else match snd ka with ASched s => [(fst ka, s)] | _ => [] end) args.
    Definition numeric_hps : list (string * hnum) :=
      flat_map (fun ka => if mem (fst ka) static then [] else match snd ka with ANum v => [(fst ka, v)] | _ => [] end) args.
    Definition is_other (k : string) (a : arg) : bool :=
      mem k static || match a with ABool _ | AObj _ => true | _ => false end.

    (** schedule.py:579-580 (schedule_fn) *)
    Definition schedule_fn (count : Z) (dtype : option fdt) : list (string * hnum) :=
      map (fun kf => (fst kf, convert_floats (snd kf count) dtype)) sched_hps.

    (** [inner_factory( **other_hps, **hparams)]: every parameter gets its value. *)
    Definition call_inner (hps : list (string * hnum)) : result GT :=
      f (map (fun ka => if is_other (fst ka) (snd ka) then snd ka
                        else match dget hps (fst ka) with Some v => ANum v | None => snd ka end) args).

    (** The keys of the [hyperparams] dict. *)
    Definition hp_keys : list string := map fst numeric_hps ++ map fst sched_hps.

    (** schedule.py:582-590 (init_fn) *)
    Definition inject_init (p : tree tensor) : result state :=
      let dtype := first_dtype p in
      let hps := dupdate (map (fun kv => (fst kv, convert_floats (snd kv) dtype)) numeric_hps) (schedule_fn 0 dtype) in
      let* g := call_inner hps in
      let* si := init g p in
      Ok (SNode NInject [SInt I32 0; SNode NDict (map (fun kv => enc (snd kv)) hps); si]).

    (** schedule.py:592-603 (update_fn) *)
    Definition inject_update (u : tree tensor) (s : state) (p : option (tree tensor)) : result (tree tensor * state) :=
      match s with
      | SNode NInject [SInt w count; SNode NDict vals; si] =>
        let* count_inc := safe_int32_increment w count in
        let dtype := first_dtype u in
        let* vs := mapM dec vals in
        let hps := dupdate (map (fun kv => (fst kv, convert_floats (snd kv) dtype)) (combine hp_keys vs)) (schedule_fn count_inc dtype) in
        let* g := call_inner hps in
        let* (u', si') := update g u si p in
        Ok (u', SNode NInject [SInt w count_inc; SNode NDict (map (fun kv => enc (snd kv)) hps); si'])
      | _ => Err EAttr
      end.

    (** The user's [state.hyperparams[k] = v] for an existing key (a new key makes the next factory
        call fail with TypeError in Python; here the assignment itself raises). *)
    Definition set_hyperparam (k : string) (v : hnum) (s : state) : result state :=
      match s with
      | SNode NInject [c; SNode NDict vals; si] =>
        if mem k hp_keys
        then Ok (SNode NInject [c; SNode NDict (map snd (dset (combine hp_keys vals) k (enc v))); si])
        else Err EType
      | _ => Err EAttr
      end.
    (** The user reads [state.hyperparams[k]]. *)
    Definition get_hyperparam (k : string) (s : state) : result hnum :=
      match s with
      | SNode NInject [c; SNode NDict vals; si] =>
        match dget (combine hp_keys vals) k with Some e => dec e | None => Err EKey end
      | _ => Err EAttr
      end.
  End Wrapped.

  (** schedule.py:507-607 (inject_hyperparams): [static] must be parameters of the factory.  The
      arguments are the bound ones, defaults applied, one per parameter in signature order.
      Simplification: factories with *args or **kwargs parameters are not represented. *)
  Definition inject_hyperparams (f : factory) (static : list string) (args : list (string * arg)) : result GT :=
    if forallb (fun k => mem k (map fst args)) static
    then Ok (mkGT (inject_init f static args) (inject_update f static args))
    else Err EValue.
End Inject.
Arguments hnum {O}.
Arguments arg {O Obj}.
Arguments factory {O} Obj.
