(** Generated by tools/genprops.py from P_score.v: property theorems only. *)
From Verif Require Import P_score.
From Coq Require Import List.
Import ListNotations.
Open Scope R_scope.

(** pathwise_jacobians with multi_normal, for every function phi with gradient grad, every number of samples and dimension and all draws z: the reparameterised sample is x_n = mu + sigma z_n, the jacobian for the mean is grad_k phi(x_n) and the one for the log-scale is grad_k phi(x_n) sigma_k z_nk. *)
Theorem C68_pathwise : forall `{P : Platform} (f : gt dual -> dual) (phi : rvec -> R) (grad : rvec -> rvec) (loc ls : gt XR) (d : fdt) (D N : nat) (mu s : rvec) (rng : p_key P) (z : nat -> nat -> R),
  let D1 := promote (@defdt (XROps P)) d in
  differentiates f D1 D phi grad -> is_vec loc d D mu -> is_vec ls d D s -> draws_are (p_knormal P rng (@defdt (XROps P)) [N; D]) N D z ->
  exists jm js, pathwise_jacobians f [loc; ls] BNormal rng N = Ok [jm; js] /\
    is_rect jm D1 N D (fun n k => grad (gauss mu s z n) k) /\ is_rect js D1 N D (fun n k => grad (gauss mu s z n) k * (exp (s k) * z n k)).
Proof. exact @pathwise. Qed.
Print Assumptions C68_pathwise.

(** score_function_jacobians with multi_normal, for every function phi (of which only values at the samples are used), number of samples, dimension and all draws: with x_n = mu + sigma z_n, the jacobian for the mean is phi(x_n) (x_nk - mu_k)/sigma_k^2 and the one for the log-scale phi(x_n) (((x_nk - mu_k)/sigma_k)^2 - 1), that is phi times the gradient of the log density; the dependence of the samples on the parameters is not differentiated. *)
Theorem C68_score : forall `{P : Platform} (f : gt dual -> dual) (phi : rvec -> R) (loc ls : gt XR) (d : fdt) (D N : nat) (mu s : rvec) (rng : p_key P) (z : nat -> nat -> R),
  let D1 := promote (@defdt (XROps P)) d in
  (forall v, f (dpoint D1 D v (fun _ => 0)) = fd (phi v) 0) -> is_vec loc d D mu -> is_vec ls d D s -> draws_are (p_knormal P rng (@defdt (XROps P)) [N; D]) N D z ->
  exists jm js, score_function_jacobians f [loc; ls] BNormal rng N = Ok [jm; js] /\
    is_rect jm D1 N D (fun n k => phi (gauss mu s z n) * ((gauss mu s z n k - mu k) / exp (s k) ^ 2)) /\
    is_rect js D1 N D (fun n k => phi (gauss mu s z n) * (((gauss mu s z n k - mu k) / exp (s k)) ^ 2 - 1)).
Proof. exact @score. Qed.
Print Assumptions C68_score.

(** The log_prob of multi_normal at every point is the logarithm of the density of the diagonal Gaussian with the given means and the exponentials of the given log-scales. *)
Theorem C68_log_prob : forall `{P : Platform} (loc ls xt : gt XR) (d dx0 : fdt) (D : nat) (mu s x : rvec),
  is_vec loc d D mu -> is_vec ls d D s -> is_vec xt dx0 D x ->
  exists dist, @multi_normal (XROps P) loc ls = Ok dist /\ @nd_log_prob (XROps P) dist xt = Ok (promote dx0 d, Fin (ln (density D mu (fun i => exp (s i)) x))).
Proof. exact @normal_log_prob. Qed.
Print Assumptions C68_log_prob.

(** The samples of multi_normal are mean + scale * standard normal draw, element-wise, with the key given; the result has a leading sample axis. *)
Theorem C68_sample : forall `{P : Platform} (loc ls : gt XR) (d : fdt) (D N : nat) (mu s : rvec) (seed : p_key P) (z : nat -> nat -> R),
  is_vec loc d D mu -> is_vec ls d D s -> draws_are (p_knormal P seed (@defdt (XROps P)) [N; D]) N D z ->
  exists dist r, @multi_normal (XROps P) loc ls = Ok dist /\ @nd_sample (XROps P) dist [N] seed = Ok r /\ is_rect r (promote (@defdt (XROps P)) d) N D (fun n i => mu i + exp (s i) * z n i).
Proof. exact @normal_sample. Qed.
Print Assumptions C68_sample.

Example C57_example : exists gm gs, @measure_valued_jacobians ones_platform true sum_sq [ex_loc; ex_ls] BNormal 0%nat 1%nat = Ok [gm; gs] /\
  is_rect gm F32 1 2 (fun n k => (if (k =? 0)%nat then 12 else 16) / sqrt (2 * PI)) /\ is_rect gs F32 1 2 (fun _ _ => 0).
Proof. exact @mv_example. Qed.

Example C68_example : exists jm js km ks,
  @pathwise_jacobians ones_platform sum_sq [ex_loc; ex_ls] BNormal 0%nat 1%nat = Ok [jm; js] /\ is_rect jm F32 1 2 (fun _ k => if (k =? 0)%nat then 8 else 10) /\ is_rect js F32 1 2 (fun _ k => if (k =? 0)%nat then 8 else 10) /\
  @score_function_jacobians ones_platform sum_sq [ex_loc; ex_ls] BNormal 0%nat 1%nat = Ok [km; ks] /\ is_rect km F32 1 2 (fun _ _ => 41) /\ is_rect ks F32 1 2 (fun _ _ => 0).
Proof. exact @est_example. Qed.
