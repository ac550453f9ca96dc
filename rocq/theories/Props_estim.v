(** Generated by tools/genprops.py from P_estim.v: property theorems only. *)
From Verif Require Import P_estim.
From Coq Require Import List.
Import ListNotations.
Open Scope R_scope.

(** measure_valued_estimation_mean, for every function f, number of samples N, dimension D, and all draws: entry [n, k] is (f(x_n with coordinate k replaced by mu_k + sigma_k w) - f(x_n with coordinate k replaced by mu_k - sigma_k w')) / (sqrt(2 pi) sigma_k), where x_n is the n-th Gaussian sample, w the [n, k] Weibull draw and w' the same draw with coupling and an independent one (other key) without. *)
Theorem C57_mean : forall `{P : Platform} (f : gt XR -> XR) (loc ls : gt XR) (d : fdt) (D N : nat) (mu s : rvec) (dist : normal_dist) (rng pos neg : p_key P) (coupling : bool) (z w w' : nat -> nat -> R),
  is_vec loc d D mu -> is_vec ls d D s -> @multi_normal (XROps P) loc ls = Ok dist -> p_ksplit P rng 2 = [pos; neg] ->
  draws_are (p_knormal P rng defdt [N; D]) N D z -> draws_are (p_kdraw P LWeibull pos [N; D]) N D w -> draws_are (p_kdraw P LWeibull (if coupling then pos else neg) [N; D]) N D w' ->
  let D1 := promote defdt d in
  exists g, @measure_valued_estimation_mean (XROps P) f dist rng N coupling = Ok g /\ dt g = D1 /\ shp g = [N; D] /\ twf g /\
  forall n k, (n < N)%nat -> (k < D)%nat ->
    @tget (XROps P) g [n; k] = xdiv (xsub (f (point D1 D (upd (gauss mu s z n) k (mu k + exp (s k) * w n k)))) (f (point D1 D (upd (gauss mu s z n) k (mu k - exp (s k) * w' n k)))))
                                     (Fin (sqrt (2 * PI) * exp (s k))).
Proof. exact @mv_mean. Qed.
Print Assumptions C57_mean.

(** measure_valued_estimation_std: entry [n, k] is (f(x_n with coordinate k replaced by mu_k + sigma_k m) - f(x_n with coordinate k replaced by mu_k + sigma_k v)) / sigma_k, where m is the [n, k] double-sided Maxwell draw and v is u * m for a uniform draw u with coupling, and a standard normal draw of the other key without. *)
Theorem C57_std : forall `{P : Platform} (f : gt XR -> XR) (loc ls : gt XR) (d : fdt) (D N : nat) (mu s : rvec) (dist : normal_dist) (rng pos neg : p_key P) (coupling : bool) (z m u z' : nat -> nat -> R),
  is_vec loc d D mu -> is_vec ls d D s -> @multi_normal (XROps P) loc ls = Ok dist -> p_ksplit P rng 2 = [pos; neg] ->
  draws_are (p_knormal P rng defdt [N; D]) N D z -> draws_are (p_kdraw P LMaxwell pos [N; D]) N D m ->
  (if coupling then draws_are (p_kdraw P LUniform neg [N; D]) N D u else draws_are (p_knormal P neg defdt [N; D]) N D z') ->
  let D1 := promote defdt d in
  exists g, @measure_valued_estimation_std (XROps P) f dist rng N coupling = Ok g /\ dt g = D1 /\ shp g = [N; D] /\ twf g /\
  forall n k, (n < N)%nat -> (k < D)%nat ->
    @tget (XROps P) g [n; k] = xdiv (xsub (f (point D1 D (upd (gauss mu s z n) k (mu k + exp (s k) * m n k))))
                                          (f (point D1 D (upd (gauss mu s z n) k (mu k + exp (s k) * (if coupling then u n k * m n k else z' n k))))))
                                     (Fin (exp (s k))).
Proof. exact @mv_std. Qed.
Print Assumptions C57_std.

(** measure_valued_jacobians returns the estimate for the mean and, for the log-scale parameter, sigma_k times the estimate for the scale, that is exactly the difference of the two function values; each is an N x D array, all coordinates other than k are those of the n-th sample and shared by both evaluations. *)
Theorem C57_jacobians : forall `{P : Platform} (f : gt dual -> dual) (phi : rvec -> R) (loc ls : gt XR) (d : fdt) (D N : nat) (mu s : rvec) (rng pos neg : p_key P) (coupling : bool) (z w w' m u z' : nat -> nat -> R),
  let D1 := promote (@defdt (XROps P)) d in
  computes f D1 D phi -> is_vec loc d D mu -> is_vec ls d D s -> p_ksplit P rng 2 = [pos; neg] ->
  draws_are (p_knormal P rng (@defdt (XROps P)) [N; D]) N D z -> draws_are (p_kdraw P LWeibull pos [N; D]) N D w -> draws_are (p_kdraw P LWeibull (if coupling then pos else neg) [N; D]) N D w' ->
  draws_are (p_kdraw P LMaxwell pos [N; D]) N D m ->
  (if coupling then draws_are (p_kdraw P LUniform neg [N; D]) N D u else draws_are (p_knormal P neg (@defdt (XROps P)) [N; D]) N D z') ->
  exists gm gs, measure_valued_jacobians coupling f [loc; ls] BNormal rng N = Ok [gm; gs] /\
    is_rect gm D1 N D (fun n k => (phi (upd (gauss mu s z n) k (mu k + exp (s k) * w n k)) - phi (upd (gauss mu s z n) k (mu k - exp (s k) * w' n k))) / (sqrt (2 * PI) * exp (s k))) /\
    is_rect gs D1 N D (fun n k => phi (upd (gauss mu s z n) k (mu k + exp (s k) * m n k)) - phi (upd (gauss mu s z n) k (mu k + exp (s k) * (if coupling then u n k * m n k else z' n k)))).
Proof. exact @mv_jacobians. Qed.
Print Assumptions C57_jacobians.

(** A constant function gives exactly zero gradients, with or without coupling, whatever is drawn. *)
Theorem C57_constant : forall `{P : Platform} (f : gt dual -> dual) (c : R) (loc ls : gt XR) (d : fdt) (D N : nat) (mu s : rvec) (rng pos neg : p_key P) (coupling : bool) (z w w' m u z' : nat -> nat -> R),
  let D1 := promote (@defdt (XROps P)) d in
  computes f D1 D (fun _ => c) -> is_vec loc d D mu -> is_vec ls d D s -> p_ksplit P rng 2 = [pos; neg] ->
  draws_are (p_knormal P rng (@defdt (XROps P)) [N; D]) N D z -> draws_are (p_kdraw P LWeibull pos [N; D]) N D w -> draws_are (p_kdraw P LWeibull (if coupling then pos else neg) [N; D]) N D w' ->
  draws_are (p_kdraw P LMaxwell pos [N; D]) N D m ->
  (if coupling then draws_are (p_kdraw P LUniform neg [N; D]) N D u else draws_are (p_knormal P neg (@defdt (XROps P)) [N; D]) N D z') ->
  exists gm gs, measure_valued_jacobians coupling f [loc; ls] BNormal rng N = Ok [gm; gs] /\ is_rect gm D1 N D (fun _ _ => 0) /\ is_rect gs D1 N D (fun _ _ => 0).
Proof. exact @mv_constant. Qed.
Print Assumptions C57_constant.

(** With coupling, the affine function a + sum b_i x_i has at every sample the mean gradient b_k times the factor 2w/sqrt(2 pi) (w the Weibull draw, whose expectation is sqrt(pi/2), so that the factor has expectation 1) and the log-scale gradient b_k sigma_k m (1 - u): no other coordinate and no sample x_n enters. *)
Theorem C57_affine : forall `{P : Platform} (f : gt dual -> dual) (a : R) (b : rvec) (loc ls : gt XR) (d : fdt) (D N : nat) (mu s : rvec) (rng pos neg : p_key P) (z w m u : nat -> nat -> R),
  let D1 := promote (@defdt (XROps P)) d in
  computes f D1 D (fun v => a + Sig D (fun i => b i * v i)) -> is_vec loc d D mu -> is_vec ls d D s -> p_ksplit P rng 2 = [pos; neg] ->
  draws_are (p_knormal P rng (@defdt (XROps P)) [N; D]) N D z -> draws_are (p_kdraw P LWeibull pos [N; D]) N D w ->
  draws_are (p_kdraw P LMaxwell pos [N; D]) N D m -> draws_are (p_kdraw P LUniform neg [N; D]) N D u ->
  exists gm gs, measure_valued_jacobians true f [loc; ls] BNormal rng N = Ok [gm; gs] /\
    is_rect gm D1 N D (fun n k => b k * (2 * w n k / sqrt (2 * PI))) /\ is_rect gs D1 N D (fun n k => b k * exp (s k) * m n k * (1 - u n k)).
Proof. exact @mv_affine. Qed.
Print Assumptions C57_affine.

(** A distribution builder other than multi_normal raises ValueError, whatever it is; so do mean and log-scale arrays whose common shape is not of rank 1. *)
Theorem C57_errors : forall `{P : Platform} (f : gt dual -> dual) (params : list (gt XR)) (rng pos neg : p_key P) (N : nat) (coupling : bool),
  (forall mk, measure_valued_jacobians coupling f params (BOther mk) rng N = Err EValue) /\
  (forall loc ls, params = [loc; ls] -> twf loc -> twf ls -> shp loc = shp ls -> p_ksplit P rng 2 = [pos; neg] -> length (shp loc) <> 1%nat ->
     measure_valued_jacobians coupling f params BNormal rng N = Err EValue).
Proof. exact @mv_errors. Qed.
Print Assumptions C57_errors.
