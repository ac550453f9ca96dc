(** optax/_src/alias.py.  Python floats are [F]; the defaults that the aliases leave to the
    transformations they call are written out. *)
From Verif Require Export M_privacy M_clipping.

Section Model.
  Context `{O : Ops}.

  (** alias.py:27 (ScalarOrSchedule) *)
  Inductive lrate := LConst (x : F) | LSched (f : Z -> F).

  (** alias.py:30-33 (_scale_by_learning_rate) *)
  Definition scale_by_learning_rate (lr : lrate) : GT :=
    match lr with
    | LSched f => scale_by_schedule (fun count => fneg (f count))
    | LConst x => scale (fneg x)
    end.

  (** [transform.trace(decay=momentum, nesterov=nesterov) if momentum is not None else base.identity()] *)
  Definition opt_trace (momentum : option F) (nesterov : bool) : GT :=
    match momentum with Some m => trace m nesterov None | None => identity end.

  (** transform.py:515 (additive_weight_decay) *)
  Definition additive_weight_decay := add_decayed_weights.

  (** alias.py:36-66 (adabelief); scale_by_belief's eps_root defaults to 1e-16 (transform.py:340-345) *)
  Definition adabelief (lr : lrate) (b1 b2 eps : F) : result GT :=
    chain [scale_by_belief b1 b2 eps (flit (1 # 10000000000000000)); scale_by_learning_rate lr].
  (** alias.py:69-99 (adagrad) *)
  Definition adagrad (lr : lrate) (initial_accumulator_value eps : F) : result GT :=
    chain [scale_by_rss initial_accumulator_value eps; scale_by_learning_rate lr].
  (** alias.py:102-134 (adam) *)
  Definition adam (lr : lrate) (b1 b2 eps eps_root : F) : result GT :=
    chain [scale_by_adam b1 b2 eps eps_root; scale_by_learning_rate lr].
  (** alias.py:137-177 (adamw) *)
  Definition adamw (lr : lrate) (b1 b2 eps eps_root weight_decay : F) : result GT :=
    chain [scale_by_adam b1 b2 eps eps_root; additive_weight_decay weight_decay; scale_by_learning_rate lr].
  (** alias.py:180-209 (fromage): [mult] is a weakly typed array of the default dtype; the Python
      arithmetic [1 + learning_rate ** 2] is done first. *)
  Definition fromage_mult (lr : F) : F :=
    fdiv defdt (fcast defdt fone) (fsqrt defdt (fcast defdt (fadd F64 fone (fmul F64 lr lr)))).
  Definition fromage (lr min_norm : F) : result GT :=
    let mult := fromage_mult lr in
    chain [scale_by_trust_ratio min_norm;
           scale_by_learning_rate (LConst (fmul defdt (fcast defdt lr) mult));
           add_decayed_weights (fsub defdt mult (fcast defdt fone))].
  (** alias.py:212-250 (lamb); scale_by_trust_ratio's min_norm defaults to 0.0 (transform.py:559-561) *)
  Definition lamb (lr : lrate) (b1 b2 eps eps_root weight_decay : F) : result GT :=
    chain [scale_by_adam b1 b2 eps eps_root; add_decayed_weights weight_decay;
           scale_by_trust_ratio fzero; scale_by_learning_rate lr].
  (** alias.py:253-280 (noisy_sgd) *)
  Definition noisy_sgd (lr : lrate) (eta gamma : F) (seed : Z) : result GT :=
    chain [scale_by_learning_rate lr; add_noise eta gamma seed].
  (** alias.py:283-319 (radam); building scale_by_radam evaluates 2./(1 - b2) on Python floats
      (transform.py:453), which raises ZeroDivisionError for b2 = 1. *)
  Definition radam (lr : lrate) (b1 b2 eps eps_root threshold : F) : result GT :=
    if feqb (py1m b2) fzero then Err EZeroDiv else
    chain [scale_by_radam b1 b2 eps eps_root threshold; scale_by_learning_rate lr].
  (** alias.py:322-374 (rmsprop) *)
  Definition rmsprop (lr : lrate) (decay eps initial_scale : F) (centered : bool) (momentum : option F) (nesterov : bool) : result GT :=
    if centered
    then chain [scale_by_stddev decay eps initial_scale; scale_by_learning_rate lr; opt_trace momentum nesterov]
    else chain [scale_by_rms decay eps initial_scale; scale_by_learning_rate lr; opt_trace momentum nesterov].
  (** alias.py:377-404 (sgd) *)
  Definition sgd (lr : lrate) (momentum : option F) (nesterov : bool) : result GT :=
    chain [opt_trace momentum nesterov; scale_by_learning_rate lr].
  (** alias.py:407-436 (sm3); scale_by_sm3's b2 and eps default to 1.0 and 1e-8 (transform.py:728-732) *)
  Definition sm3 (lr momentum : F) : result GT :=
    chain [scale_by_sm3 momentum fone (flit (1 # 100000000)); scale (fneg lr)].
  (** alias.py:439-469 (yogi); scale_by_yogi's eps_root and initial_accumulator_value default to 0.0
      and 1e-6 (transform.py:382-388) *)
  Definition yogi (lr : lrate) (b1 b2 eps : F) : result GT :=
    chain [scale_by_yogi b1 b2 eps fzero (flit (1 # 1000000)); scale_by_learning_rate lr].
  (** alias.py:472-514 (dpsgd) *)
  Definition dpsgd (lr : lrate) (l2_norm_clip noise_multiplier : F) (seed : Z) (momentum : option F) (nesterov : bool) : result GT :=
    chain [differentially_private_aggregate l2_norm_clip noise_multiplier seed; opt_trace momentum nesterov; scale_by_learning_rate lr].
End Model.
