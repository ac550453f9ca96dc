(** Generated by tools/genprops.py from P_delta.v: property theorems only. *)
From Verif Require Import P_delta.
From Coq Require Import List ZArith.
Import ListNotations.
Open Scope R_scope.

(** control_delta_method, for every twice differentiable function phi (with gradient g and symmetric Hessian H, given by jax.grad and jax.hessian), every mean, log-scale and sample: the control variate is the second-order Taylor polynomial of phi at the mean, evaluated at the sample, and its closed-form expectation is phi(mu) + 1/2 sum sigma_i^2 H_ii(mu). *)
Theorem C58_delta : forall `{P : Platform} (grad hess : (gt dual -> dual) -> gt dual -> gt dual) (f : gt dual -> dual) (D : nat) (phi : rvec -> R) (g : rvec -> rvec) (H : rvec -> rmat) (T : rvec -> nat -> nat -> nat -> R) (loc ls x : gt XR) (d dx : fdt) (mu s v : rvec),
  derivatives grad hess f D phi g H T -> is_vec loc d D mu -> is_vec ls d D s -> is_vec x dx D v ->
  fst (cv_value (control_delta_method grad hess f) (map lift [loc; ls]) (lift x) tt) = Fin (phi mu + Sig D (fun i => g mu i * (v i - mu i)) + Sig D (fun i => Sig D (fun j => (v i - mu i) * H mu i j * (v j - mu j))) / 2) /\
  fst (cv_expected (control_delta_method grad hess f) (map lift [loc; ls]) tt) = Fin (phi mu + Sig D (fun i => exp (s i) ^ 2 * H mu i i) / 2).
Proof. exact @delta_values. Qed.
Print Assumptions C58_delta.

(** The closed-form expectation is the expectation of the control variate: for every linear functional E on functions of z with E 1 = 1, E z_i = 0 and E z_i z_j = [i = j] (the moments of a standard normal vector), E of the control variate at mu + sigma z is the returned expectation. *)
Theorem C58_delta_expected : forall `{P : Platform} (grad hess : (gt dual -> dual) -> gt dual -> gt dual) (f : gt dual -> dual) (D : nat) (phi : rvec -> R) (g : rvec -> rvec) (H : rvec -> rmat) (T : rvec -> nat -> nat -> nat -> R) (loc ls : gt XR) (d dx : fdt) (mu s : rvec) (E : (rvec -> R) -> R),
  derivatives grad hess f D phi g H T -> is_vec loc d D mu -> is_vec ls d D s ->
  (forall a b u v, E (fun z => a * u z + b * v z) = a * E u + b * E v) -> (forall u v, (forall z, u z = v z) -> E u = E v) ->
  E (fun _ => 1) = 1 -> (forall i, (i < D)%nat -> E (fun z => z i) = 0) -> (forall i j, (i < D)%nat -> (j < D)%nat -> E (fun z => z i * z j) = if (i =? j)%nat then 1 else 0) ->
  exists h e, (forall z, fst (cv_value (control_delta_method grad hess f) (map lift [loc; ls]) (lift (point dx D (fun i => mu i + exp (s i) * z i))) tt) = Fin (h z)) /\
    fst (cv_expected (control_delta_method grad hess f) (map lift [loc; ls]) tt) = Fin e /\ E h = e.
Proof. exact @delta_expected. Qed.
Print Assumptions C58_delta_expected.

(** The delta method with the pathwise estimator, for every function with third derivatives T, all sizes and draws: entry [n, k] for the mean is grad_k(x_n) minus the linearised gradient g_k(mu) + sum_j H_kj (x_nj - mu_j), plus g_k(mu), minus half the difference between the sample mean and the exact expectation of the second-order form of T; for the log-scale it is the same gradient difference times sigma_k z_nk, plus sigma_k^2 H_kk. *)
Theorem C58_delta_pathwise : forall `{P : Platform} (grad hess : (gt dual -> dual) -> gt dual -> gt dual) (f : gt dual -> dual) (D N : nat) (phi : rvec -> R) (g : rvec -> rvec) (H : rvec -> rmat) (T : rvec -> nat -> nat -> nat -> R) (loc ls : gt XR) (d : fdt) (mu s : rvec) (rng : p_key P) (z : nat -> nat -> R),
  let x := gauss mu s z in
  derivatives grad hess f D phi g H T -> is_vec loc d D mu -> is_vec ls d D s -> draws_are (p_knormal P rng (@defdt (XROps P)) [N; D]) N D z -> (0 < N)%nat ->
  exists jm js d1 d2, control_variates_jacobians f (control_delta_method grad hess) pathwise_jacobians [loc; ls] BNormal rng N tt false 20 = Ok ([jm; js], tt) /\
    is_rect jm d1 N D (fun n k => g (x n) k - (g mu k + Sig D (fun j => H mu k j * (x n j - mu j))) + g mu k
      - (mean_of N (fun m => Sig D (fun i => Sig D (fun j => (x m i - mu i) * T mu i j k * (x m j - mu j)))) - Sig D (fun i => exp (s i) ^ 2 * T mu i i k)) / 2) /\
    is_rect js d2 N D (fun n k => (g (x n) k - (g mu k + Sig D (fun j => H mu k j * (x n j - mu j)))) * (exp (s k) * z n k) + exp (s k) ^ 2 * H mu k k).
Proof. exact @delta_pathwise. Qed.
Print Assumptions C58_delta_pathwise.

(** For a quadratic function a + b.v + 1/2 v.Qv the delta method removes all variance: with the pathwise, the score-function and the measure-valued estimator (coupled or not), whatever is drawn, every row of the jacobian for the mean is b + Q mu and every row of the one for the log-scale is sigma_k^2 Q_kk, the exact gradient of the expectation. *)
Theorem C58_delta_exact : forall `{P : Platform} (grad hess : (gt dual -> dual) -> gt dual -> gt dual) (f : gt dual -> dual) (D N : nat) (a : R) (b : rvec) (Q : rmat) (coupling : bool) (est : estimator) (loc ls : gt XR) (d : fdt) (mu s : rvec) (rng pos neg : p_key P) (z w w' m u z' : nat -> nat -> R),
  derivatives grad hess f D (quadratic D a b Q) (fun v i => b i + Sig D (fun j => Q i j * v j)) (fun _ => Q) (fun _ _ _ _ => 0) ->
  is_vec loc d D mu -> is_vec ls d D s -> (0 < N)%nat ->
  draws_are (p_knormal P rng (@defdt (XROps P)) [N; D]) N D z -> p_ksplit P rng 2 = [pos; neg] -> draws_are (p_kdraw P LWeibull pos [N; D]) N D w -> draws_are (p_kdraw P LWeibull (if coupling then pos else neg) [N; D]) N D w' -> draws_are (p_kdraw P LMaxwell pos [N; D]) N D m ->
  (if coupling then draws_are (p_kdraw P LUniform neg [N; D]) N D u else draws_are (p_knormal P neg (@defdt (XROps P)) [N; D]) N D z') ->
  (est = pathwise_jacobians \/ est = score_function_jacobians \/ est = measure_valued_jacobians coupling) ->
  exists jm js d1 d2, control_variates_jacobians f (control_delta_method grad hess) est [loc; ls] BNormal rng N tt false 20 = Ok ([jm; js], tt) /\
    is_rect jm d1 N D (fun _ k => b k + Sig D (fun j => Q k j * mu j)) /\ is_rect js d2 N D (fun _ k => exp (s k) ^ 2 * Q k k).
Proof. exact @delta_exact. Qed.
Print Assumptions C58_delta_exact.

(** When the sample mean of the control variate's jacobian plus that of its derivative in the parameters equals the derivative of its closed-form expectation, the mean over the samples of every returned jacobian is that of the estimator alone, for every function, control variate, estimator and coefficient. *)
Theorem C58_mean_unchanged : forall `{P : Platform} (St : Type) (f : gt dual -> dual) (mk : (gt dual -> dual) -> cvariate St) (est : estimator) (params : list (gt XR)) (b : builder) (rng : p_key P) (N D M : nat) (st st' : St) (dist : ddist) (smp : gt dual)
  (fj cj : list (gt XR)) (estimate : bool) (c : nat -> R) (da db : nat -> fdt) (A B : nat -> nat -> nat -> R) (h : nat -> R) (dh : nat -> nat -> nat -> R) (e : R) (de : nat -> nat -> R),
  let cv := mk f in
  params <> [] -> (forall p, In p params -> shp p = [D]) -> (0 < N)%nat ->
  build b (map lift params) = Ok dist -> dd_sample dist N rng = Ok smp -> hd 0%nat (shp smp) = N -> cv_update cv params (primal smp) st = Ok st' ->
  est f params b rng N = Ok fj -> est (fun x => cv_value cv (map lift params) x st') params b rng N = Ok cj ->
  (forall i, (i < length params)%nat -> exists t, nth_error fj i = Some t /\ is_rect t (da i) N D (A i)) ->
  (forall i, (i < length params)%nat -> exists t, nth_error cj i = Some t /\ is_rect t (db i) N D (B i)) ->
  (forall i n k, (i < length params)%nat -> (n < N)%nat -> (k < D)%nat -> cv_value cv (basis params i [k]) (@slice0 (DualOps P) (lift (primal smp)) n) st' = fd (h n) (dh i n k)) ->
  (forall i k, (i < length params)%nat -> (k < D)%nat -> cv_expected cv (basis params i [k]) st' = fd e (de i k)) ->
  (if estimate then exists l, estimate_control_variate_coefficients f mk est params b rng M st (Fin (1 / 1000)) = Ok l /\ forall i, (i < length params)%nat -> exists dc, nth_error l i = Some (dc, Fin (c i))
   else forall i, c i = 1) ->
  (forall i k, (i < length params)%nat -> (k < D)%nat -> mean_of N (fun n => B i n k) + mean_of N (fun n => dh i n k) = de i k) ->
  exists js, control_variates_jacobians f mk est params b rng N st estimate M = Ok (js, st') /\ length js = length params /\
  forall i j, nth_error js i = Some j -> exists d J, is_rect j d N D J /\ forall k, (k < D)%nat -> mean_of N (fun n => J n k) = mean_of N (fun n => A i n k).
Proof. exact @cv_mean_unchanged. Qed.
Print Assumptions C58_mean_unchanged.

Example C58_delta_example : exists jm js d1 d2, @control_variates_jacobians ones_platform _ sum_sq (@control_delta_method ones_platform sq_grad sq_hess) (@score_function_jacobians ones_platform) [ex_loc; ex_ls] BNormal 0%nat 1%nat tt false 20 = Ok ([jm; js], tt) /\
  is_rect jm d1 1 2 (fun _ k => if (k =? 0)%nat then 6 else 8) /\ is_rect js d2 1 2 (fun _ _ => 2).
Proof. exact @delta_example. Qed.

Example C58_example : exists jm js dv' d1 d2, @control_variates_jacobians ones_platform _ sum_sq (@moving_avg_baseline ones_platform (Fin (1/2)) true false) (@score_function_jacobians ones_platform) [ex_loc; ex_ls] BNormal 0%nat 1%nat ((F32, Fin 0), Z.of_nat 0) false 20 = Ok ([jm; js], ((dv', Fin 41), Z.of_nat 1)) /\
  is_rect jm d1 1 2 (fun _ _ => 0) /\ is_rect js d2 1 2 (fun _ _ => 0).
Proof. exact @baseline_example. Qed.
