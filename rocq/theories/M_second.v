(** optax/_src/second_order.py. *)
From Verif Require Export M_wrappers M_estim M_linalg.
Open Scope nat_scope.

Section Gen.
  Context `{O : Ops}.
  (** second_order.py:40-41 (ravel): jax.flatten_util.ravel_pytree(p)[0].  Dtypes are promoted; a tree
      without leaves gives an empty float32 vector. *)
  Definition ravel_tree (t : tree tensor) : result tensor :=
    match leaves t with [] => Ok (mkT F32 [0] []) | _ => flat_cat t end.
  (** ravel_pytree(params)[1](v): split, reshape, convert every piece to the dtype of its leaf.
      TypeError when the dtype of v is not the promoted one (raised by the function itself when the
      leaves have several dtypes, otherwise by jax.jvp, which wants tangents of the dtype of the
      primals) or a piece has the wrong size.  Simplification: v has rank 1. *)
  Definition unravel_tree (params : tree tensor) (v : tensor) : result (tree tensor) :=
    match leaves params with
    | [] => tunflatten params []
    | ls =>
      let* flat := ravel_tree params in
      let* _ := rguard (fdt_eqb (dt v) (dt flat)) EType in
      let* _ := rguard (length (shp v) =? 1) EType in
      let* pieces := split_reshape (dt v) (dat v) ls in
      tunflatten params (map2 (fun x y => astype (dt x) y) ls pieces)
    end.
  (** jnp.eye(n), of the default dtype. *)
  Definition eye_default (n : nat) : tensor := tab defdt [n; n] (fun o => if hd 0 o =? nth 1 o 0 then fone else fzero).
  (** jnp.vdot of two vectors. *)
  Definition vdot_p (u v : tensor) : result (fdt * F) :=
    let* _ := rguard (length (dat u) =? length (dat v)) EType in
    let d := promote (dt u) (dt v) in
    Ok (d, fsum d (map2 (fun a b => fmul d (conv (dt u) d a) (conv (dt v) d b)) (dat u) (dat v))).
End Gen.

Section Second.
  Context {P : Platform}.
  Notation dr := (DualOps P). Notation xr := (XROps P).
  Context {I Tg : Type}.
  (** jax.grad, as it acts on dual numbers (differentiating the gradient). *)
  Context (grad : (tree (gt dual) -> dual) -> tree (gt dual) -> result (tree (gt dual))).
  (** A loss: params, inputs, targets. *)
  Definition loss_fun := tree (gt dual) -> I -> Tg -> dual.

  (** The arguments of jax.jvp: every parameter with its tangent. *)
  Definition pair_tree (params tangents : tree (gt XR)) : result (tree (gt dual)) :=
    tunflatten params (map2 (fun p t => mkT (dt p) (shp p) (map2 (fun a b => (a, b) : dual) (dat p) (dat t))) (leaves params) (leaves tangents)).

  (** second_order.py:44-66 (hvp). *)
  Definition hvp (loss : loss_fun) (v : gt XR) (params : tree (gt XR)) (inputs : I) (targets : Tg) : result (tree (gt XR)) :=
    let* tangents := @unravel_tree xr params v in
    let* p := pair_tree params tangents in
    let* g := grad (fun p => loss p inputs targets) p in
    Ok (emapt (fun _ => snd) g).

  (** second_order.py:69-89 (hessian_diag). *)
  Definition hessian_diag (loss : loss_fun) (params : tree (gt XR)) (inputs : I) (targets : Tg) : result (gt XR) :=
    let* flat := @ravel_tree xr params in
    let vs := @eye_default xr (length (dat flat)) in
    @vmap_s xr (fun v => let* h := hvp loss v params inputs targets in let* h := @ravel_tree xr h in @vdot_p xr v h) vs.

  (** second_order.py:92-111 (fisher_diag). *)
  Definition fisher_diag (negative_log_likelihood : loss_fun) (params : tree (gt XR)) (inputs : I) (targets : Tg) : result (gt XR) :=
    let* g := grad (fun p => negative_log_likelihood p inputs targets) (emapt (fun _ a => dconst a) params) in
    let* flat := @ravel_tree xr (emapt (fun _ => fst) g) in
    Ok (@tsquare xr flat).
End Second.
