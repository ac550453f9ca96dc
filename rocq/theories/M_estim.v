(** optax/_src/stochastic_gradient_estimators.py and the distribution of optax/_src/utils.py. *)
From Verif Require Export M_utils Dual.
Open Scope nat_scope.

Section Gen.
  Context `{O : Ops}.

  (** x[k] *)
  Definition slice0 (x : tensor) (k : nat) : tensor := tab (dt x) (tl (shp x)) (fun o => tget x (k :: o)).
  (** jax.vmap(f)(x) for a function returning a scalar of the dtype of its argument. *)
  Definition vmap_fn (f : tensor -> F) (x : tensor) : tensor :=
    tab (dt x) [hd 0 (shp x)] (fun o => f (slice0 x (hd 0 o))).
  (** jax.vmap of a function that may raise: it is traced once, whatever the number of rows. *)
  Definition vmap_s (f : tensor -> result (fdt * F)) (x : tensor) : result tensor :=
    let* (d, _) := f (slice0 x 0) in
    let* l := mapM f (map (slice0 x) (seq 0 (hd 0 (shp x)))) in
    Ok (mkT d [hd 0 (shp x)] (map snd l)).
  (** jax.vmap(jax.vmap(f, 1, 0)) on an array of rank 3: entry [n, j] is f of the column t[n, :, j]. *)
  Definition vmap_columns (f : tensor -> F) (t : tensor) : tensor :=
    tab (dt t) [nth 0 (shp t) 0; nth 2 (shp t) 0]
        (fun o => f (tab (dt t) [nth 1 (shp t) 0] (fun i => tget t [nth 0 o 0; hd 0 i; nth 1 o 0]))).

  (** utils.py:69-70 (multi_normal, MultiNormalDiagFromLogScale.__init__).  Shapes that do not
      broadcast raise ValueError. *)
  Record normal_dist := mkND { nd_mean : tensor; nd_log_scale : tensor; nd_scale : tensor; nd_shape : list nat }.
  Definition multi_normal (loc log_scale : tensor) : result normal_dist :=
    let scale := un fexp log_scale in
    match bshape (shp loc) (shp scale) with
    | Some s => Ok (mkND loc log_scale scale s)
    | None => Err EValue
    end.
  (** utils.py:73-100 (MultiNormalDiagFromLogScale.sample). *)
  Definition nd_sample (dist : normal_dist) (shape : list nat) (seed : key) : result tensor :=
    let s := shape ++ nd_shape dist in
    let z := mkT defdt s (map (knormal seed defdt s) (seq 0 (prodn s))) in
    let* a := bin fmul z (nd_scale dist) in
    bin fadd a (nd_mean dist).
  (** jax.scipy.stats.norm.logpdf. *)
  Definition logpdf (x loc scale : tensor) : result tensor :=
    let D := promote (promote (dt x) (dt loc)) (dt scale) in
    let x := astype D x in let loc := astype D loc in let scale := astype D scale in
    let* scale_sqrd := bin fmul scale scale in
    let log_normalizer := un flog (sl fmul (fmul F64 (fofZ 2) fpi) scale_sqrd) in
    let* c := bin fsub x loc in
    let* quadratic := bin fdiv (tsquare c) scale_sqrd in
    let* s := bin fadd log_normalizer quadratic in
    Ok (sr fdiv s (fofZ (-2))).
  (** utils.py:73-100 (MultiNormalDiagFromLogScale.log_prob), for one sample: the sum over the parameter axes.  Simplification:
      a point of another rank than the parameters (whose log_prob is not a scalar) is TypeError. *)
  Definition nd_log_prob (dist : normal_dist) (x : tensor) : result (fdt * F) :=
    let* l := logpdf x (nd_mean dist) (nd_scale dist) in
    if (length (shp l) =? length (nd_shape dist)) then Ok (dt l, tsum l) else Err EType.

  (** N x D draws of one of the samplers of jax.random (default dtype). *)
  Definition draws (w : law) (k : key) (s : list nat) : tensor := mkT defdt s (map (kdraw w k s) (seq 0 (prodn s))).
  Definition normals (k : key) (s : list nat) : tensor := mkT defdt s (map (knormal k defdt s) (seq 0 (prodn s))).
  Definition split2 (rng : key) : result (key * key) :=
    match ksplit rng 2 with [a; b] => Ok (a, b) | _ => Err EValue end.
  (** stochastic_gradient_estimators.py:187-250 (measure_valued_estimation_mean).  np.sqrt(2 * np.pi)
      is a numpy float64, an array of the default dtype to jax. *)
  Definition measure_valued_estimation_mean (function : tensor -> F) (dist : normal_dist) (rng : key) (num_samples : nat) (coupling : bool) : result tensor :=
    let mean := nd_mean dist in
    let std := un fexp (nd_log_scale dist) in
    let* dist_samples := nd_sample dist [num_samples] rng in
    let* (pos_rng, neg_rng) := split2 rng in
    let pos_sample := draws LWeibull pos_rng (shp dist_samples) in
    let neg_sample := if coupling then pos_sample else draws LWeibull neg_rng (shp dist_samples) in
    let* sp := bin fmul std pos_sample in
    let* positive_diag := bin fadd mean sp in
    let* sn := bin fmul std neg_sample in
    let* negative_diag := bin fsub mean sn in
    let* base_dist_samples := tile_second_to_last_dim dist_samples in
    let* positive := set_diags base_dist_samples positive_diag in
    let* negative := set_diags base_dist_samples negative_diag in
    let* c := bin fmul (scalar defdt (fcast defdt (fsqrt F64 (fmul F64 (fofZ 2) fpi)))) std in
    let* diff := bin fsub (vmap_columns function positive) (vmap_columns function negative) in
    let* grads := bin fdiv diff c in
    if shape_eqb (shp grads) (num_samples :: shp std) then Ok grads else Err EAssert.
  (** stochastic_gradient_estimators.py:253-316 (measure_valued_estimation_std). *)
  Definition measure_valued_estimation_std (function : tensor -> F) (dist : normal_dist) (rng : key) (num_samples : nat) (coupling : bool) : result tensor :=
    let mean := nd_mean dist in
    let std := un fexp (nd_log_scale dist) in
    let* dist_samples := nd_sample dist [num_samples] rng in
    let* (pos_rng, neg_rng) := split2 rng in
    let pos_sample := draws LMaxwell pos_rng (shp dist_samples) in
    let* neg_sample := if coupling then bin fmul (draws LUniform neg_rng (shp dist_samples)) pos_sample
                       else Ok (normals neg_rng (shp dist_samples)) in
    let* sp := bin fmul std pos_sample in
    let* positive_diag := bin fadd mean sp in
    let* sn := bin fmul std neg_sample in
    let* negative_diag := bin fadd mean sn in
    let* base_dist_samples := tile_second_to_last_dim dist_samples in
    let* positive := set_diags base_dist_samples positive_diag in
    let* negative := set_diags base_dist_samples negative_diag in
    let c := std in
    let* diff := bin fsub (vmap_columns function positive) (vmap_columns function negative) in
    let* grads := bin fdiv diff c in
    if shape_eqb (shp grads) (num_samples :: shp std) then Ok grads else Err EAssert.
End Gen.

(** ** Estimators that differentiate: the user's function and the distribution are given on dual
    numbers (their values are the first components). *)
Section Diff.
  Context {P : Platform}.
  Notation dr := (DualOps P). Notation xr := (XROps P).

  (** A distribution: what the library uses of it. *)
  Record ddist := mkDD { dd_sample : nat -> p_key P -> result (gt dual); dd_log_prob : gt dual -> result (fdt * dual) }.
  (** A distribution builder: utils.multi_normal itself or another callable. *)
  Inductive builder := BNormal | BOther (mk : list (gt dual) -> result ddist).
  (** dist_builder( *params) *)
  Definition build (b : builder) (params : list (gt dual)) : result ddist :=
    match b with
    | BNormal =>
      match params with
      | [loc; log_scale] => let* d := @multi_normal dr loc log_scale in
                            Ok (mkDD (fun n k => @nd_sample dr d [n] k) (@nd_log_prob dr d))
      | _ => Err EType
      end
    | BOther mk => mk params
    end.
  Definition lift (x : gt XR) : gt dual := emap (fun _ => dconst) x.
  Definition primal (x : gt dual) : gt XR := emap (fun _ => fst) x.
  (** The value of a function of arrays. *)
  Definition valf (f : gt dual -> dual) (x : gt XR) : XR := fst (f (lift x)).

  (** The parameters with the unit tangent at entry [k] of the [i]-th array. *)
  Definition basis (params : list (gt XR)) (i : nat) (k : list nat) : list (gt dual) :=
    map2 (fun j p => tab (dt p) (shp p) (fun o => (@tget xr p o, if (j =? i) && shape_eqb o k then Fin 1 else Fin 0)))
         (seq 0 (length params)) params.
  (** jax.jacfwd(g)(params): one array per parameter, indexed by the output and then the parameter. *)
  Definition jacfwd (g : list (gt dual) -> result (gt dual)) (params : list (gt XR)) : result (list (gt XR)) :=
    let* y0 := g (map lift params) in
    mapM (fun ip =>
            let '(i, p) := ip in
            let* ys := mapM (fun k => g (basis params i k)) (indices (shp p)) in
            let r := length (shp y0) in
            Ok (tab (dt y0) (shp y0 ++ shp p)
                    (fun o => snd (@tget dr (nth (ravel (shp p) (skipn r o)) ys y0) (firstn r o)))))
         (combine (seq 0 (length params)) params).

  (** stochastic_gradient_estimators.py:42-86 (score_function_jacobians). *)
  Definition score_function_jacobians (function : gt dual -> dual) (params : list (gt XR)) (dist_builder : builder) (rng : p_key P) (num_samples : nat) : result (list (gt XR)) :=
    jacfwd (fun params =>
      let* dist := build dist_builder params in
      let one_sample_surrogate_fn x :=
        let* (dl, lp) := dd_log_prob dist x in
        let D := promote (dt x) dl in
        Ok (D, @fmul dr D (@conv dr (dt x) D (function x)) (@conv dr dl D lp)) in
      let* samples := dd_sample dist num_samples rng in
      let samples := emap (fun _ => @fstop dr) samples in
      @vmap_s dr one_sample_surrogate_fn samples) params.

  (** stochastic_gradient_estimators.py:89-133 (pathwise_jacobians). *)
  Definition pathwise_jacobians (function : gt dual -> dual) (params : list (gt XR)) (dist_builder : builder) (rng : p_key P) (num_samples : nat) : result (list (gt XR)) :=
    jacfwd (fun params =>
      let* dist := build dist_builder params in
      let* samples := dd_sample dist num_samples rng in
      Ok (@vmap_fn dr function samples)) params.

  (** stochastic_gradient_estimators.py:136-184 (measure_valued_jacobians). *)
  Definition measure_valued_jacobians (coupling : bool) (function : gt dual -> dual) (params : list (gt XR)) (dist_builder : builder) (rng : p_key P) (num_samples : nat) : result (list (gt XR)) :=
    match dist_builder with
    | BOther _ => Err EValue
    | BNormal =>
      match params with
      | [loc; log_scale] =>
        let* dist := @multi_normal xr loc log_scale in
        let* m := @measure_valued_estimation_mean xr (valf function) dist rng num_samples coupling in
        let* s := @measure_valued_estimation_std xr (valf function) dist rng num_samples coupling in
        let* s := @bin xr (@fmul xr) (@un xr (@fexp xr) log_scale) s in
        Ok [m; s]
      | _ => Err EType
      end
    end.
End Diff.
