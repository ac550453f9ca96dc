(** Generated by tools/genprops.py from P_pipe.v: property theorems only. *)
From Verif Require Import P_pipe.
From Coq Require Import List.
Import ListNotations.
Open Scope list_scope.
Open Scope nat_scope.

(** Take any optimiser assembled, to any depth of nesting, from the element-wise transformations, learning rates, zero_nans, clip_by_global_norm, adaptive_grad_clip, centralize, scale_by_trust_ratio, add_noise and scale_by_sm3 with chain, apply_if_finite, maybe_update, MultiSteps, flatten and masked, in any arithmetic (NaN and Inf included): init succeeds, no call of update on any history raises, every update has the structure, shapes and dtypes of the parameters, and the state always has the structure, shapes and dtypes it had at init. *)
Theorem C87_never_raises : forall `{O : Ops} (np : bool) (p : tree tensor) (T : GT) (H : list (tree tensor * option (tree tensor))),
  pipeline np p T -> trwf p -> calls_ok np p H ->
  exists s0 outs s1, init T p = Ok s0 /\ run T s0 H = Ok (outs, s1) /\ length outs = length H /\ Forall (like p) outs /\ ssig s1 = ssig s0.
Proof. exact @pipelines_run. Qed.
Print Assumptions C87_never_raises.

(** Checkpointing. Stop such an optimiser after any number of steps and keep only the arrays of its state (jax.tree_leaves); in a new process call init on any parameters of the same signature and put the saved arrays into that state's structure. The result is the state that was saved, and the rest of the run returns exactly the updates and the final state of the run that was never interrupted. *)
Theorem C87_resume : forall `{O : Ops} (np : bool) (p p' : tree tensor) (T : GT) (H1 H2 : list (tree tensor * option (tree tensor))),
  pipeline np p T -> trwf p -> calls_ok np p (H1 ++ H2) -> like p p' ->
  exists s0 out1 s1 out2 s2 f0, init T p = Ok s0 /\ run T s0 H1 = Ok (out1, s1) /\ run T s0 (H1 ++ H2) = Ok (out1 ++ out2, s2) /\
    init T p' = Ok f0 /\ restore f0 (save s1) = Some s1 /\ run T s1 H2 = Ok (out2, s2).
Proof. exact @pipelines_resume. Qed.
Print Assumptions C87_resume.

(** Training never raises: for every such optimiser, every well-formed parameters, any number of steps and any gradient function whose result has the signature of the parameters (its values may be anything, NaN and Inf included), the loop of update and apply_updates succeeds at every step, the parameters keep their structure, shapes and dtypes, and the optimiser state keeps its signature. *)
Theorem C87_training : forall `{O : Ops} (np : bool) (p : tree tensor) (T : GT) (grad : nat -> tree tensor -> tree tensor) (n : nat),
  pipeline np p T -> trwf p -> (forall i q, like p q -> like p (grad i q)) ->
  exists s0 q s, init T p = Ok s0 /\ fit T grad n p = Ok (q, s) /\ like p q /\ ssig s = ssig s0.
Proof. exact @pipelines_train. Qed.
Print Assumptions C87_training.

Example C87_example : forall `{P : Platform}, exists a c f, ex_pipe a c f /\ pipeline false ex_p f /\ trwf ex_p /\ calls_ok false ex_p ex_H /\
  pipeline true ex_p (multi_steps (chain_gt [flatten (scale (Fin 2)); zero_nans]) (fun _ => 3%Z) true) /\
  exists s0 outs s1, init f ex_p = Ok s0 /\ run f s0 ex_H = Ok (outs, s1) /\ length outs = 3 /\ restore s0 (save s1) = Some s1.
Proof. exact @pipe_example. Qed.

(** apply_if_finite reports an update as finite (the second field of its state, last_finite) exactly when every element of every leaf is an ordinary number: neither an infinity nor NaN, in exact and in IEEE arithmetic. *)
Theorem C30_what_is_finite : forall (P : Platform) (L : Libm) (max : Z),
  (forall (inner : @GT (XROps P)) u s par u' s', update (apply_if_finite inner max) u s par = Ok (u', s') ->
     exists last n1 n2 rest, s' = SNode NIfFinite [n1; SBool last; n2; rest] /\ (last = true <-> forall pos x, elt u pos = Some x -> x <> PInf /\ x <> NInf /\ x <> NaN)) /\
  (forall (inner : @GT (FlOps L)) u s par u' s', update (apply_if_finite inner max) u s par = Ok (u', s') ->
     exists last n1 n2 rest, s' = SNode NIfFinite [n1; SBool last; n2; rest] /\ (last = true <-> forall pos x, elt u pos = Some x -> x <> If false /\ x <> If true /\ x <> Na)).
Proof. exact @finite_means. Qed.
Print Assumptions C30_what_is_finite.
