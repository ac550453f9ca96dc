(** optax/_src/numerics.py, optax/_src/combine.py and the norm helpers of linear_algebra.py. *)
From Verif Require Export State.

Section Model.
  Context `{O : Ops}.

  (** numerics.py:37-52 (safe_int32_increment).  [chex.assert_type] rejects other dtypes.
      [count + one] is int32 arithmetic, evaluated by jnp.where in both cases (it wraps). *)
  Definition int32_max : Z := (2 ^ 31 - 1)%Z.
  Definition safe_int32_increment (w : iw) (count : Z) : result Z :=
    match w with
    | I32 => Ok (if (count <? int32_max)%Z then iwrap I32 (count + 1) else int32_max)
    | I64 => Err EAssert
    end.

  (** jnp.linalg.norm(x) for ord=None: sqrt(sum(x * x)) in the dtype of x. *)
  Definition tsquare (x : tensor) : tensor := un (fun d a => fmul d a a) x.
  Definition norm (x : tensor) : F := fsqrt (dt x) (tsum (tsquare x)).

  (** numerics.py:21-34 (safe_norm); the scalar result has the dtype of [x]. *)
  Definition safe_norm (x : tensor) (min_norm : F) : F :=
    let m := fcast (dt x) min_norm in
    let n := norm x in
    let x' := if fle n m then ones_like x else x in
    if fle n m then m else norm x'.

  (** linear_algebra.py:25-28 (global_norm): sqrt of the Python-[sum] of the per-leaf sums of
      squares.  [sum] starts from the integer 0 and adds left to right; the accumulator's dtype is
      the promotion of the leaves seen so far.  Without leaves the result is sqrt(0) in the default
      dtype. *)
  Definition add_scalars (a b : fdt * F) : fdt * F :=
    let d := promote (fst a) (fst b) in (d, fadd d (conv (fst a) d (snd a)) (conv (fst b) d (snd b))).
  Definition pysum (l : list (fdt * F)) : fdt * F :=
    match l with
    | [] => (defdt, fcast defdt fzero)
    | (d, x) :: r => fold_left add_scalars r (d, fadd d (fcast d fzero) x)
    end.
  Definition global_norm (t : tree tensor) : fdt * F :=
    let '(d, s) := pysum (map (fun x => (dt x, tsum (tsquare x))) (leaves t)) in (d, fsqrt d s).

  (** combine.py:20-53 (chain).  [zip( *args)] unpacks into two names, so no argument at all raises
      ValueError when [chain] is called. *)
  Fixpoint chain_init (ts : list GT) (p : tree tensor) : result (list state) :=
    match ts with
    | [] => Ok []
    | t :: r => let* s := init t p in let* ss := chain_init r p in Ok (s :: ss)
    end.
  Fixpoint chain_update (ts : list GT) (ss : list state) (u : tree tensor) (p : option (tree tensor))
    : result (tree tensor * list state) :=
    match ts, ss with
    | t :: r, s :: q =>
      let* (u1, s1) := update t u s p in
      let* (u2, ss2) := chain_update r q u1 p in
      Ok (u2, s1 :: ss2)
    | _, _ => Ok (u, [])
    end.
  Definition chain_gt (ts : list GT) : GT :=
    mkGT (fun p => rmap (SNode NList) (chain_init ts p))
         (fun u s p =>
            match s with
            | SNode _ ss =>
              if Nat.eqb (length ts) (length ss)
              then let* (u', ss') := chain_update ts ss u p in Ok (u', SNode NList ss')
              else Err EValue
            | _ => Err EType
            end).
  Definition chain (ts : list GT) : result GT :=
    match ts with [] => Err EValue | _ => Ok (chain_gt ts) end.
End Model.
