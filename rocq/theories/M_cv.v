(** optax/_src/control_variates.py. *)
From Verif Require Export M_estim M_linalg.
Open Scope nat_scope.

Section Gen.
  Context `{O : Ops}.
  (** jnp.mean of a vector *)
  Definition vmean (t : tensor) : F := fdiv (dt t) (fsum (dt t) (dat t)) (fofZ (Z.of_nat (length (dat t)))).
  (** jnp.mean(t, axis=0) and jnp.var(t, axis=0) of a matrix *)
  Definition mean0 (t : tensor) : tensor :=
    let n := nth 0 (shp t) 0 in
    tab (dt t) (tl (shp t)) (fun o => fdiv (dt t) (fsum (dt t) (map (fun i => tget t (i :: o)) (seq 0 n))) (fofZ (Z.of_nat n))).
  Definition var0 (t : tensor) : result tensor :=
    let* c := bin fsub t (mean0 t) in Ok (mean0 (tsquare c)).

  (** control_variates.py:182-202 (the state update of moving_avg_baseline).  The value is an array
      scalar of dtype [dv], the count a Python int; `jnp.ones([])` has the default dtype.  The
      function returns scalars of the dtype of the samples. *)
  Definition ma_update (decay : F) (zero_debias heuristic : bool) (function : tensor -> F) (samples : tensor) (state : (fdt * F) * Z) : result ((fdt * F) * Z) :=
    let '((dv, value), i) := state in
    let* iteration_decay :=
      if heuristic then
        if (i =? -10)%Z then Err EZeroDiv
        else Ok (fmin decay (fdiv F64 (fadd F64 fone (fofZ i)) (fadd F64 (fofZ 10) (fofZ i))))
      else Ok decay in
    let updated_value := fmul dv iteration_decay value in
    let m := vmean (vmap_fn function samples) in
    let du := promote dv (dt samples) in
    let updated_value := fadd du (conv dv du updated_value) (conv (dt samples) du (fmul (dt samples) (fsub F64 fone iteration_decay) m)) in
    let '(du, updated_value) :=
      if zero_debias then
        let dd := promote du defdt in
        (dd, fdiv dd (conv du dd updated_value) (fsub defdt fone (fpow defdt iteration_decay (fofZ (i + 1)))))
      else (du, updated_value) in
    Ok ((du, fstop updated_value), (i + 1)%Z).

  (** control_variates.py:400-417 (compute_coeff). *)
  Definition compute_coeff (eps : F) (param_cv_jacs param_f_jacs : tensor) : result (fdt * F) :=
    let* _ := rguard (length (shp param_f_jacs) =? 2) EAssert in
    let* _ := rguard (length (shp param_cv_jacs) =? 2) EAssert in
    let mean_f := mean0 param_f_jacs in
    let mean_cv := mean0 param_cv_jacs in
    let* a := bin fsub param_f_jacs mean_f in
    let* b := bin fsub param_cv_jacs mean_cv in
    let* ab := bin fmul a b in
    let cov := mean0 ab in
    let* _ := rguard (length (shp cov) =? 1) EAssert in
    let* v := var0 param_cv_jacs in
    let d := promote (dt cov) (dt v) in
    Ok (d, fstop (fdiv d (conv (dt cov) d (tsum cov)) (conv (dt v) d (fadd (dt v) (tsum v) (fcast (dt v) eps))))).

  (** control_variates.py:318-334 (one parameter of control_variates_jacobians).  A coefficient is
      the Python float 1.0 ([None]) or an array scalar. *)
  Definition scale_by_coeff (c : option (fdt * F)) (t : tensor) : result tensor :=
    match c with None => Ok (sl fmul fone t) | Some (d, c) => bin fmul (scalar d c) t end.
  Definition combine_jacobians (num_samples data_dim : nat) (c : option (fdt * F)) (f_jac cv_jac cv_grad ev_grad param : tensor) : result tensor :=
    let* _ := rguard (shape_eqb (shp f_jac) [num_samples; data_dim]) EAssert in
    let* _ := rguard (shape_eqb (shp cv_jac) [num_samples; data_dim]) EAssert in
    let* _ := rguard (shape_eqb (shp cv_grad) [data_dim]) EAssert in
    let* _ := rguard (shape_eqb (shp ev_grad) [data_dim]) EAssert in
    let* x := scale_by_coeff c cv_jac in
    let* param_jacobians := bin fsub f_jac x in
    let* x := scale_by_coeff c cv_grad in
    let* param_jacobians := bin fsub param_jacobians x in
    let* x := scale_by_coeff c ev_grad in
    let* param_jacobians := bin fadd param_jacobians x in
    let* _ := rguard (shape_eqb (shp param_jacobians) (num_samples :: shp param)) EAssert in
    Ok param_jacobians.
End Gen.

Section CV.
  Context {P : Platform}.
  Notation dr := (DualOps P). Notation xr := (XROps P).

  (** control_variates.py:65-69 (ControlVariate): the value for one sample, the closed-form expected
      value, the state update.  The first two are differentiated, so they act on dual numbers. *)
  Record cvariate (St : Type) := mkCV {
    cv_value : list (gt dual) -> gt dual -> St -> dual;
    cv_expected : list (gt dual) -> St -> dual;
    cv_update : list (gt XR) -> gt XR -> St -> result St }.
  #[global] Arguments mkCV {St}. #[global] Arguments cv_value {St}. #[global] Arguments cv_expected {St}. #[global] Arguments cv_update {St}.
  (** A gradient estimator (score_function_jacobians, pathwise_jacobians, measure_valued_jacobians
      or the user's own). *)
  Definition estimator := (gt dual -> dual) -> list (gt XR) -> builder -> p_key P -> nat -> result (list (gt XR)).
  Definition nan_dual : dual := (NaN, NaN).

  (** control_variates.py:72-140 (control_delta_method).  [grad] and [hessian] are jax.grad and
      jax.hessian.  Simplification: an exception inside (shapes that do not fit) is the value NaN. *)
  Definition vecmat (v m : gt dual) : gt dual :=
    tab (dt v) [nth 1 (shp m) 0] (fun o => @fsum dr (dt v) (map (fun i => @fmul dr (dt v) (@tget dr v [i]) (@tget dr m [i; hd 0 o])) (seq 0 (nth 0 (shp m) 0)))).
  Definition control_delta_method (grad hessian : (gt dual -> dual) -> gt dual -> gt dual) (function : gt dual -> dual) : cvariate unit :=
    mkCV
      (fun params sample _ =>
         let mean_dist := nth 0 params (mkT F32 [] []) in
         match @bin dr (@fsub dr) sample mean_dist with
         | Ok centered_sample =>
           let d := dt centered_sample in
           let grads := grad function mean_dist in
           let hessians := hessian function mean_dist in
           let control_variate := function mean_dist in
           let control_variate := @fadd dr d control_variate (@vdot dr centered_sample grads) in
           @fadd dr d control_variate (@fdiv dr d (@vdot dr (vecmat centered_sample hessians) centered_sample) (@fofZ dr 2))
         | Err _ => nan_dual
         end)
      (fun params _ =>
         let mean_dist := nth 0 params (mkT F32 [] []) in
         let var_dist := @tsquare dr (@un dr (@fexp dr) (nth 1 params (mkT F32 [] []))) in
         let hessians := hessian function mean_dist in
         let hess_diags := tab (dt hessians) [nth 0 (shp hessians) 0] (fun o => @tget dr hessians [hd 0 o; hd 0 o]) in
         match @bin dr (@fmul dr) var_dist hess_diags with
         | Ok vh =>
           let d := dt vh in
           let expected_second_order_term := @fdiv dr d (@tsum dr vh) (@fofZ dr 2) in
           @fadd dr d (function mean_dist) expected_second_order_term
         | Err _ => nan_dual
         end)
      (fun _ _ state => Ok state).

  (** control_variates.py:143-204 (moving_avg_baseline). *)
  Definition moving_avg_baseline (decay : XR) (zero_debias heuristic : bool) (function : gt dual -> dual) : cvariate ((fdt * XR) * Z) :=
    mkCV (fun _ _ state => dconst (snd (fst state)))
         (fun _ state => dconst (snd (fst state)))
         (fun _ samples state => @ma_update xr decay zero_debias heuristic (valf function) samples state).

  (** jax.grad(g)(params) of a scalar function, computed forward (one tangent per entry).
      Simplification: jax differentiates in reverse mode. *)
  Definition grad_of (g : list (gt dual) -> dual) (params : list (gt XR)) : list (gt XR) :=
    map2 (fun i p => tab (dt p) (shp p) (fun k => snd (g (@basis P params i k)))) (seq 0 (length params)) params.
  (** control_variates.py:207-208 (_map) under jnp.mean. *)
  Definition mean_map {St} (cv : list (gt dual) -> gt dual -> St -> dual) (params : list (gt dual)) (samples : gt dual) (state : St) : dual :=
    @vmean dr (@vmap_fn dr (fun x => cv params x state) samples).

  (** control_variates.py:339-419 (estimate_control_variate_coefficients). *)
  Definition estimate_control_variate_coefficients {St} (function : gt dual -> dual) (control_variate_from_function : (gt dual -> dual) -> cvariate St) (grad_estimator : estimator)
      (params : list (gt XR)) (dist_builder : builder) (rng : p_key P) (num_samples : nat) (control_variate_state : St) (eps : XR) : result (list (fdt * XR)) :=
    let* (cv_rng, _) := @split2 xr rng in
    let stochastic_cv := cv_value (control_variate_from_function function) in
    let* cv_jacobians := grad_estimator (fun x => stochastic_cv (map lift params) x control_variate_state) params dist_builder cv_rng num_samples in
    let* function_jacobians := grad_estimator function params dist_builder cv_rng num_samples in
    mapM (fun i => match nth_error cv_jacobians i, nth_error function_jacobians i with
                   | Some c, Some f => @compute_coeff xr eps c f
                   | _, _ => Err EIndex
                   end) (seq 0 (length params)).

  (** control_variates.py:211-336 (control_variates_jacobians).  The default eps of the coefficients
      is 1e-3. *)
  Definition control_variates_jacobians {St} (function : gt dual -> dual) (control_variate_from_function : (gt dual -> dual) -> cvariate St) (grad_estimator : estimator)
      (params : list (gt XR)) (dist_builder : builder) (rng : p_key P) (num_samples : nat) (control_variate_state : St) (estimate_cv_coeffs : bool) (estimate_cv_coeffs_num_samples : nat) : result (list (gt XR) * St) :=
    let control_variate := control_variate_from_function function in
    let* data_dim := match params with p :: _ => match shp p with n :: _ => Ok n | [] => Err EIndex end | [] => Err EIndex end in
    let* cv_coeffs :=
      if estimate_cv_coeffs then
        let* l := estimate_control_variate_coefficients function control_variate_from_function grad_estimator params dist_builder rng estimate_cv_coeffs_num_samples control_variate_state (@flit xr (1 # 1000)) in
        Ok (map Some l)
      else Ok (repeat None (length params)) in
    let* function_jacobians := grad_estimator function params dist_builder rng num_samples in
    let* dist := build dist_builder (map lift params) in
    let* samples := dd_sample dist num_samples rng in
    let samples := primal samples in
    let* control_variate_state := cv_update control_variate params samples control_variate_state in
    let samples_fn x := cv_value control_variate (map lift params) x control_variate_state in
    let* cv_jacobians := grad_estimator samples_fn params dist_builder rng num_samples in
    let param_fn x := mean_map (cv_value control_variate) x (lift samples) control_variate_state in
    let cv_param_grads := grad_of param_fn params in
    let expected_value_grads := grad_of (fun x => cv_expected control_variate x control_variate_state) params in
    let* jacobians := mapM (fun ip =>
        let '(i, param) := ip in
        match nth_error function_jacobians i, nth_error cv_jacobians i, nth_error cv_param_grads i, nth_error expected_value_grads i, nth_error cv_coeffs i with
        | Some fj, Some cj, Some cg, Some eg, Some c => @combine_jacobians xr num_samples data_dim c fj cj cg eg param
        | _, _, _, _, _ => Err EIndex
        end) (combine (seq 0 (length params)) params) in
    Ok (jacobians, control_variate_state).
End CV.
