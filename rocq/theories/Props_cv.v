(** Generated by tools/genprops.py from P_cv.v: property theorems only. *)
From Verif Require Import P_cv.
From Coq Require Import List ZArith.
Import ListNotations.
Open Scope R_scope.

(** control_variates_jacobians, for every function, control variate (with any state), gradient estimator, distribution builder, key, number of parameters, dimension and number of samples: the state is updated once, on the samples drawn with the same key, before use; and entry [n, k] of the jacobian of parameter i is A[n,k] - c (B[n,k] + mean over the samples of the derivative of the control variate with respect to entry k of the parameter - the derivative of its closed-form expectation), where A and B are the estimator's jacobians of the function and of the control variate (parameters held fixed, updated state) on the same key, and c is 1 or the estimated coefficient of the parameter. *)
Theorem C58_algebra : forall `{P : Platform} (St : Type) (f : gt dual -> dual) (mk : (gt dual -> dual) -> cvariate St) (est : estimator) (params : list (gt XR)) (b : builder) (rng : p_key P) (N D M : nat) (st st' : St) (dist : ddist) (smp : gt dual)
  (fj cj : list (gt XR)) (estimate : bool) (c : nat -> R) (da db : nat -> fdt) (A B : nat -> nat -> nat -> R) (h : nat -> R) (dh : nat -> nat -> nat -> R) (e : R) (de : nat -> nat -> R),
  let cv := mk f in
  params <> [] -> (forall p, In p params -> shp p = [D]) -> (0 < N)%nat ->
  build b (map lift params) = Ok dist -> dd_sample dist N rng = Ok smp -> hd 0%nat (shp smp) = N -> cv_update cv params (primal smp) st = Ok st' ->
  est f params b rng N = Ok fj -> est (fun x => cv_value cv (map lift params) x st') params b rng N = Ok cj ->
  (forall i, (i < length params)%nat -> exists t, nth_error fj i = Some t /\ is_rect t (da i) N D (A i)) ->
  (forall i, (i < length params)%nat -> exists t, nth_error cj i = Some t /\ is_rect t (db i) N D (B i)) ->
  (forall i n k, (i < length params)%nat -> (n < N)%nat -> (k < D)%nat -> cv_value cv (basis params i [k]) (@slice0 (DualOps P) (lift (primal smp)) n) st' = fd (h n) (dh i n k)) ->
  (forall i k, (i < length params)%nat -> (k < D)%nat -> cv_expected cv (basis params i [k]) st' = fd e (de i k)) ->
  (if estimate then exists l, estimate_control_variate_coefficients f mk est params b rng M st (Fin (1 / 1000)) = Ok l /\ forall i, (i < length params)%nat -> exists dc, nth_error l i = Some (dc, Fin (c i))
   else forall i, c i = 1) ->
  exists js, control_variates_jacobians f mk est params b rng N st estimate M = Ok (js, st') /\ length js = length params /\
  forall i j, nth_error js i = Some j -> exists d, is_rect j d N D (fun n k => A i n k - c i * (B i n k + mean_of N (fun m => dh i m k) - de i k)).
Proof. exact @cv_algebra. Qed.
Print Assumptions C58_algebra.

(** estimate_control_variate_coefficients, for every function, control variate, estimator and state: it draws on the first half of the split key and with the state as given; the coefficient of a parameter is the sum over the dimensions of the sample covariances of the two jacobians divided by the sum of the sample variances of the control variate's jacobian plus eps. *)
Theorem C58_coefficients : forall `{P : Platform} (St : Type) (f : gt dual -> dual) (mk : (gt dual -> dual) -> cvariate St) (est : estimator) (params : list (gt XR)) (b : builder) (rng k1 k2 : p_key P) (N D : nat) (st : St) (eps : R)
  (fj cj : list (gt XR)) (da db : nat -> fdt) (A B : nat -> nat -> nat -> R),
  (0 < N)%nat -> p_ksplit P rng 2 = [k1; k2] ->
  est (fun x => cv_value (mk f) (map lift params) x st) params b k1 N = Ok cj -> est f params b k1 N = Ok fj ->
  (forall i, (i < length params)%nat -> exists t, nth_error fj i = Some t /\ is_rect t (da i) N D (A i)) ->
  (forall i, (i < length params)%nat -> exists t, nth_error cj i = Some t /\ is_rect t (db i) N D (B i)) ->
  (forall i, (i < length params)%nat -> total_var N D (B i) + eps <> 0) ->
  exists l, estimate_control_variate_coefficients f mk est params b rng N st (Fin eps) = Ok l /\ length l = length params /\
  forall i, (i < length params)%nat -> exists dc, nth_error l i = Some (dc, Fin (total_cov N D (A i) (B i) / (total_var N D (B i) + eps))).
Proof. exact @cv_coefficients. Qed.
Print Assumptions C58_coefficients.

(** With eps = 0 the returned coefficient of every parameter minimises the summed sample variance of (function jacobian - c * control variate jacobian) over all c; with eps > 0 that variance is still never larger than the one without control variate. *)
Theorem C58_optimal : forall `{P : Platform} (St : Type) (f : gt dual -> dual) (mk : (gt dual -> dual) -> cvariate St) (est : estimator) (params : list (gt XR)) (b : builder) (rng k1 k2 : p_key P) (N D : nat) (st : St) (eps : R)
  (fj cj : list (gt XR)) (da db : nat -> fdt) (A B : nat -> nat -> nat -> R),
  (0 < N)%nat -> 0 <= eps -> p_ksplit P rng 2 = [k1; k2] ->
  est (fun x => cv_value (mk f) (map lift params) x st) params b k1 N = Ok cj -> est f params b k1 N = Ok fj ->
  (forall i, (i < length params)%nat -> exists t, nth_error fj i = Some t /\ is_rect t (da i) N D (A i)) ->
  (forall i, (i < length params)%nat -> exists t, nth_error cj i = Some t /\ is_rect t (db i) N D (B i)) ->
  (forall i, (i < length params)%nat -> 0 < total_var N D (B i)) ->
  exists l, estimate_control_variate_coefficients f mk est params b rng N st (Fin eps) = Ok l /\ length l = length params /\
  forall i, (i < length params)%nat -> exists dc c, nth_error l i = Some (dc, Fin c) /\
    (eps = 0 -> forall c', total_var N D (fun n k => A i n k - c * B i n k) <= total_var N D (fun n k => A i n k - c' * B i n k)) /\
    total_var N D (fun n k => A i n k - c * B i n k) <= total_var N D (A i).
Proof. exact @cv_optimal. Qed.
Print Assumptions C58_optimal.

(** The update of moving_avg_baseline, for every function, decay, state and samples: with d the decay, or min(decay, (1+i)/(10+i)) under the early-training heuristic, the new value is d * value + (1-d) * (mean of the function over the samples), divided by 1 - d^(i+1) when debiasing, and the count is i+1. *)
Theorem C58_baseline_update : forall `{P : Platform} (f : gt dual -> dual) (phi : rvec -> R) (decay v : R) (zd heuristic : bool) (params : list (gt XR)) (t : gt XR) (d dv : fdt) (N D i : nat) (A : nat -> rvec),
  computes f d D phi -> (0 < N)%nat -> is_rect t d N D A -> debias zd (it_decay heuristic decay i) i <> 0 ->
  exists dv', cv_update (moving_avg_baseline (Fin decay) zd heuristic f) params t ((dv, Fin v), Z.of_nat i) =
    Ok ((dv', Fin ((it_decay heuristic decay i * v + (1 - it_decay heuristic decay i) * mean_of N (fun n => phi (A n))) / debias zd (it_decay heuristic decay i) i)), Z.of_nat (i + 1)).
Proof. exact @baseline_update. Qed.
Print Assumptions C58_baseline_update.

(** Finding: with a constant decay in (0,1) and zero debiasing, the baseline of a function with the constant value m > 0 is m after the first batch but strictly larger than m after every later one: the debiased value is fed back and debiased again. *)
Theorem C58_double_debias : forall `{P : Platform} (f : gt dual -> dual) (m decay : R) (d dv : fdt) (N D : nat) (hist : list (gt XR)),
  computes f d D (fun _ => m) -> (0 < N)%nat -> 0 < decay < 1 -> 0 < m -> hist <> [] -> (forall t, In t hist -> exists A, is_rect t d N D A) ->
  exists dv' v, baseline_run f decay true false hist ((dv, Fin 0), 0%Z) = Ok ((dv', Fin v), Z.of_nat (length hist)) /\ (length hist = 1%nat -> v = m) /\ ((1 < length hist)%nat -> m < v).
Proof. exact @double_debias. Qed.
Print Assumptions C58_double_debias.

(** With the score-function estimator the baseline b (the value after its update on the drawn samples) is subtracted from the function: entry [n, k] is (phi(x_n) - b) times the score, for the mean and the log-scale. *)
Theorem C58_baseline_score : forall `{P : Platform} (f : gt dual -> dual) (phi : rvec -> R) (decay v : R) (zd heuristic : bool) (loc ls : gt XR) (d dv : fdt) (D N i0 : nat) (mu s : rvec) (rng : p_key P) (z : nat -> nat -> R),
  let D1 := promote (@defdt (XROps P)) d in
  let e := it_decay heuristic decay i0 in
  let b := (e * v + (1 - e) * mean_of N (fun n => phi (gauss mu s z n))) / debias zd e i0 in
  (forall v0, f (dpoint D1 D v0 (fun _ => 0)) = fd (phi v0) 0) -> is_vec loc d D mu -> is_vec ls d D s -> draws_are (p_knormal P rng (@defdt (XROps P)) [N; D]) N D z -> (0 < N)%nat -> debias zd e i0 <> 0 ->
  exists jm js dv' d1 d2, control_variates_jacobians f (moving_avg_baseline (Fin decay) zd heuristic) score_function_jacobians [loc; ls] BNormal rng N ((dv, Fin v), Z.of_nat i0) false 20 = Ok ([jm; js], ((dv', Fin b), Z.of_nat (i0 + 1))) /\
    is_rect jm d1 N D (fun n k => (phi (gauss mu s z n) - b) * ((gauss mu s z n k - mu k) / exp (s k) ^ 2)) /\
    is_rect js d2 N D (fun n k => (phi (gauss mu s z n) - b) * (((gauss mu s z n k - mu k) / exp (s k)) ^ 2 - 1)).
Proof. exact @baseline_score. Qed.
Print Assumptions C58_baseline_score.

(** With the pathwise estimator, and with the measure-valued one (coupled or not), the baseline changes nothing: the jacobians are those of the estimator alone. *)
Theorem C58_baseline_no_effect : forall `{P : Platform} (f : gt dual -> dual) (phi : rvec -> R) (grad : rvec -> rvec) (decay v : R) (zd heuristic coupling : bool) (loc ls : gt XR) (d dv : fdt) (D N i0 : nat) (mu s : rvec) (rng pos neg : p_key P) (z w w' m u z' : nat -> nat -> R),
  let D1 := promote (@defdt (XROps P)) d in
  let e := it_decay heuristic decay i0 in
  is_vec loc d D mu -> is_vec ls d D s -> draws_are (p_knormal P rng (@defdt (XROps P)) [N; D]) N D z -> (0 < N)%nat -> debias zd e i0 <> 0 -> computes f D1 D phi ->
  (differentiates f D1 D phi grad ->
   exists jm js st' d1 d2, control_variates_jacobians f (moving_avg_baseline (Fin decay) zd heuristic) pathwise_jacobians [loc; ls] BNormal rng N ((dv, Fin v), Z.of_nat i0) false 20 = Ok ([jm; js], st') /\
     is_rect jm d1 N D (fun n k => grad (gauss mu s z n) k) /\ is_rect js d2 N D (fun n k => grad (gauss mu s z n) k * (exp (s k) * z n k))) /\
  (p_ksplit P rng 2 = [pos; neg] -> draws_are (p_kdraw P LWeibull pos [N; D]) N D w -> draws_are (p_kdraw P LWeibull (if coupling then pos else neg) [N; D]) N D w' -> draws_are (p_kdraw P LMaxwell pos [N; D]) N D m ->
   (if coupling then draws_are (p_kdraw P LUniform neg [N; D]) N D u else draws_are (p_knormal P neg (@defdt (XROps P)) [N; D]) N D z') ->
   exists jm js st' d1 d2 gm gs A B, control_variates_jacobians f (moving_avg_baseline (Fin decay) zd heuristic) (measure_valued_jacobians coupling) [loc; ls] BNormal rng N ((dv, Fin v), Z.of_nat i0) false 20 = Ok ([jm; js], st') /\
     measure_valued_jacobians coupling f [loc; ls] BNormal rng N = Ok [gm; gs] /\ is_rect gm D1 N D A /\ is_rect gs D1 N D B /\ is_rect jm d1 N D A /\ is_rect js d2 N D B).
Proof. exact @baseline_no_effect. Qed.
Print Assumptions C58_baseline_no_effect.
