(** optax/_src/loss.py.  [chex.assert_type([x], float)] always passes: arrays of this model hold floats. *)
From Verif Require Export M_clipping.
From Coq Require Import QArith.

Section Model.
  Context `{O : Ops}.

  (** [predictions - targets], or [predictions] when targets is None. *)
  Definition errors (predictions : tensor) (targets : option tensor) : result tensor :=
    match targets with Some t => bin fsub predictions t | None => Ok predictions end.
  (** loss.py:32-54 (l2_loss) *)
  Definition l2_loss (predictions : tensor) (targets : option tensor) : result tensor :=
    let* e := errors predictions targets in Ok (sl fmul (flit (1 # 2)) (tsquare e)).

  (** loss.py:57-86 (huber_loss).  All operands have the shape of the errors. *)
  Definition huber_loss (predictions : tensor) (targets : option tensor) (delta : F) : result tensor :=
    let* e := errors predictions targets in
    let abs_errors := un (fun _ => fabs) e in
    let quadratic := sr (fun _ => fmin) abs_errors delta in
    let* linear := bin fsub abs_errors quadratic in
    bin fadd (sl fmul (flit (1 # 2)) (tsquare quadratic)) (sl fmul delta linear).

  (** Python's float division: a zero divisor raises. *)
  Definition pydivZ (x : F) (n : Z) : result F :=
    if (n =? 0)%Z then Err EZeroDiv else Ok (fdiv F64 x (fofZ n)).
  (** [x.shape[-1]] *)
  Definition last_dim (s : list nat) : result nat := match s with [] => Err EIndex | _ => Ok (last s 0%nat) end.
  (** loss.py:89-113 (smooth_labels) *)
  Definition smooth_labels (labels : tensor) (alpha : F) : result tensor :=
    let* num_categories := last_dim (shp labels) in
    let* c := pydivZ alpha (Z.of_nat num_categories) in
    Ok (sr fadd (sl fmul (fsub F64 fone alpha) labels) c).

  (** chex.assert_is_broadcastable(a, b): [a] broadcasts to exactly [b]; AssertionError otherwise. *)
  Fixpoint dims_broadcast (a b : list nat) : bool :=
    match a, b with
    | [], [] => true
    | m :: a', n :: b' => ((m =? n)%nat || (m =? 1)%nat) && dims_broadcast a' b'
    | _, _ => false
    end.
  Definition assert_broadcastable (a b : list nat) : result unit :=
    if (length a <=? length b)%nat && dims_broadcast a (skipn (length b - length a) b) then Ok tt else Err EAssert.

  (** jnp.logaddexp on two floats of one dtype: amax + log1p(exp(-|x1 - x2|)), or x1 + x2 when x1 - x2 is NaN. *)
  Definition logaddexp (d : fdt) (x1 x2 : F) : F :=
    let amax := fmax x1 x2 in
    let delta := fsub d x1 x2 in
    if fisnan delta then fadd d x1 x2
    else fadd d amax (flog1p d (fexp d (fneg (fabs delta)))).
  (** jax.nn.softplus and jax.nn.log_sigmoid *)
  Definition softplus (d : fdt) (x : F) : F := logaddexp d x (fcast d fzero).
  Definition log_sigmoid (d : fdt) (x : F) : F := fneg (softplus d (fneg x)).
  (** loss.py:116-139 (sigmoid_binary_cross_entropy) *)
  Definition sigmoid_binary_cross_entropy (logits labels : tensor) : result tensor :=
    let* _ := assert_broadcastable (shp logits) (shp labels) in
    let log_p := un log_sigmoid logits in
    let log_not_p := un log_sigmoid (un (fun _ => fneg) logits) in
    let* a := bin fmul (un (fun _ => fneg) labels) log_p in
    let* b := bin fmul (sl fsub fone labels) log_not_p in
    bin fsub a b.

  (** Reductions over the last axis.  [row t o] lists the entries t[o, 0], ..., t[o, n-1]. *)
  Definition row (t : tensor) (o : list nat) : list F := map (fun j => tget t (o ++ [j])) (seq 0 (last (shp t) 0%nat)).
  (** f over axis=-1, keepdims=True; rank-0 arrays raise ValueError. *)
  Definition last_keep (f : fdt -> list F -> F) (t : tensor) : result tensor :=
    match shp t with
    | [] => Err EValue
    | s => Ok (tab (dt t) (removelast s ++ [1%nat]) (fun o => f (dt t) (row t (removelast o))))
    end.
  (** f over axis=-1. *)
  Definition last_drop (f : fdt -> list F -> F) (t : tensor) : result tensor :=
    match shp t with
    | [] => Err EValue
    | s => Ok (tab (dt t) (removelast s) (fun o => f (dt t) (row t o)))
    end.
  (** jax.nn.log_softmax(x, axis=-1); max over an empty axis raises ValueError. *)
  Definition log_softmax (x : tensor) : result tensor :=
    match last_dim (shp x) with
    | Ok (S _) =>
      let* m := last_keep (fun _ => max_list) x in
      let* shifted := bin fsub x (un (fun _ => fstop) m) in
      let* s := last_keep fsum (un fexp shifted) in
      bin fsub shifted (un flog s)
    | _ => Err EValue
    end.
  (** loss.py:142-166 (softmax_cross_entropy) *)
  Definition softmax_cross_entropy (logits labels : tensor) : result tensor :=
    let* _ := assert_broadcastable (shp logits) (shp labels) in
    let* ls := log_softmax logits in
    let* w := bin fmul labels ls in
    let* s := last_drop fsum w in
    Ok (un (fun _ => fneg) s).

  (** loss.py:169-202 (cosine_similarity).  jnp.vectorize of safe_norm with signature (k)->() treats the last axis as
      the vector; a rank-0 array raises ValueError. *)
  Definition row_norms (t : tensor) (epsilon : F) : result tensor :=
    last_keep (fun d l => safe_norm (mkT d [length l] l) epsilon) t.
  Definition cosine_similarity (predictions targets : tensor) (epsilon : F) : result tensor :=
    let* _ := assert_broadcastable (shp predictions) (shp targets) in
    let* nt := row_norms targets epsilon in
    let* unit_targets := bin fdiv targets nt in
    let* np := row_norms predictions epsilon in
    let* unit_predictions := bin fdiv predictions np in
    let* w := bin fmul unit_targets unit_predictions in
    last_drop fsum w.
  (** loss.py:205-229 (cosine_distance) *)
  Definition cosine_distance (predictions targets : tensor) (epsilon : F) : result tensor :=
    let* _ := assert_broadcastable (shp predictions) (shp targets) in
    let* c := cosine_similarity predictions targets epsilon in
    Ok (sl fsub fone c).
End Model.
