(** Generated by tools/genprops.py from P_expect.v: property theorems only. *)
From Verif Require Import P_expect.
From Coquelicot Require Import Coquelicot.
From Coq Require Import List.
Import ListNotations.
Open Scope R_scope.

(** The four laws used below are probability laws, their total mass is 1, and every continuous function of at most exponential growth has an expectation under the normal law of every mean and standard deviation. *)
Theorem C79_laws : E_normal (fun _ => 1) 1 /\ E_weibull (fun _ => 1) 1 /\ E_maxwell (fun _ => 1) 1 /\ E_uniform (fun _ => 1) 1 /\
  forall h, (forall x, continuous h x) -> tame h -> exists J : R -> R -> R, forall m s, E_normal (fun x => h (m + exp s * x)) (J m s).
Proof. exact @laws_ok. Qed.
Print Assumptions C79_laws.

(** score_function_jacobians with multi_normal is unbiased. Fix every draw but the standard normal draw t behind entry k of sample n, for any continuous function of at most exponential growth along that coordinate: the [n, k] entries of the two jacobians, as functions of t, have as expectation exactly the derivative of the expected function value with respect to the mean, respectively the log-scale. The function need not be differentiable. *)
Theorem C79_score : forall `{P : Platform} (f : gt dual -> dual) (phi : rvec -> R) (loc ls : gt XR) (d : fdt) (D N : nat) (mu s : rvec) (rng : R -> p_key P) (z : nat -> nat -> R) (n k : nat) (Jm Js : R -> R),
  let D1 := promote (@defdt (XROps P)) d in let h := along phi (gauss mu s z n) k in
  (forall v, f (dpoint D1 D v (fun _ => 0)) = fd (phi v) 0) -> is_vec loc d D mu -> is_vec ls d D s -> (n < N)%nat -> (k < D)%nat ->
  (forall t, draws_are (p_knormal P (rng t) (@defdt (XROps P)) [N; D]) N D (setd z n k t)) ->
  (forall x, continuous h x) -> tame h ->
  (forall m, E_normal (fun x => h (m + exp (s k) * x)) (Jm m)) -> (forall r, E_normal (fun x => h (mu k + exp r * x)) (Js r)) ->
  exists (gm gs : R -> R) (dm ds : R),
    (forall t, exists jm js, score_function_jacobians f [loc; ls] BNormal (rng t) N = Ok [jm; js] /\ @tget (XROps P) jm [n; k] = Fin (gm t) /\ @tget (XROps P) js [n; k] = Fin (gs t)) /\
    E_normal gm dm /\ is_derive Jm (mu k) dm /\ E_normal gs ds /\ is_derive Js (s k) ds.
Proof. exact @score_unbiased. Qed.
Print Assumptions C79_score.

(** pathwise_jacobians with multi_normal is unbiased, in the same sense, for every function that is continuously differentiable along the coordinate, with value and derivative of at most exponential growth. *)
Theorem C79_pathwise : forall `{P : Platform} (f : gt dual -> dual) (phi : rvec -> R) (grad : rvec -> rvec) (loc ls : gt XR) (d : fdt) (D N : nat) (mu s : rvec) (rng : R -> p_key P) (z : nat -> nat -> R) (n k : nat) (Jm Js : R -> R),
  let D1 := promote (@defdt (XROps P)) d in let h := along phi (gauss mu s z n) k in let h' := fun x => grad (upd (gauss mu s z n) k x) k in
  differentiates f D1 D phi grad -> is_vec loc d D mu -> is_vec ls d D s -> (n < N)%nat -> (k < D)%nat ->
  (forall t, draws_are (p_knormal P (rng t) (@defdt (XROps P)) [N; D]) N D (setd z n k t)) ->
  (forall x, is_derive h x (h' x)) -> (forall x, continuous h' x) -> tame h -> tame h' ->
  (forall m, E_normal (fun x => h (m + exp (s k) * x)) (Jm m)) -> (forall r, E_normal (fun x => h (mu k + exp r * x)) (Js r)) ->
  exists (gm gs : R -> R) (dm ds : R),
    (forall t, exists jm js, pathwise_jacobians f [loc; ls] BNormal (rng t) N = Ok [jm; js] /\ @tget (XROps P) jm [n; k] = Fin (gm t) /\ @tget (XROps P) js [n; k] = Fin (gs t)) /\
    E_normal gm dm /\ is_derive Jm (mu k) dm /\ E_normal gs ds /\ is_derive Js (s k) ds.
Proof. exact @pathwise_unbiased. Qed.
Print Assumptions C79_pathwise.

(** measure_valued_jacobians, with or without coupling, is unbiased for the mean: a is the Weibull draw of the first key at entry [n, k], b that of the second (unused with coupling), everything else is held fixed; the expectation over both of the [n, k] entry is the derivative of the expected function value. No derivative of the function is assumed. *)
Theorem C79_measure_mean : forall `{P : Platform} (f : gt dual -> dual) (phi : rvec -> R) (loc ls : gt XR) (d : fdt) (D N : nat) (mu s : rvec) (rng pos neg : R -> R -> p_key P) (coupling : bool) (z w w' : nat -> nat -> R) (n k : nat) (Jm : R -> R),
  let D1 := promote (@defdt (XROps P)) d in let h := along phi (gauss mu s z n) k in
  computes f D1 D phi -> is_vec loc d D mu -> is_vec ls d D s -> (n < N)%nat -> (k < D)%nat ->
  (forall a b, 0 <= a -> 0 <= b -> p_ksplit P (rng a b) 2 = [pos a b; neg a b] /\ draws_are (p_knormal P (rng a b) (@defdt (XROps P)) [N; D]) N D z /\
    draws_are (p_kdraw P LWeibull (pos a b) [N; D]) N D (setd w n k a) /\ draws_are (p_kdraw P LWeibull (neg a b) [N; D]) N D (setd w' n k b) /\
    exists m u z', draws_are (p_kdraw P LMaxwell (pos a b) [N; D]) N D m /\ draws_are (p_kdraw P LUniform (neg a b) [N; D]) N D u /\ draws_are (p_knormal P (neg a b) (@defdt (XROps P)) [N; D]) N D z') ->
  (forall x, continuous h x) -> tame h -> (forall m, E_normal (fun x => h (m + exp (s k) * x)) (Jm m)) ->
  exists (g : R -> R -> R) (avg : R -> R) (dm : R),
    (forall a b, 0 <= a -> 0 <= b -> exists gm gs, measure_valued_jacobians coupling f [loc; ls] BNormal (rng a b) N = Ok [gm; gs] /\ @tget (XROps P) gm [n; k] = Fin (g a b)) /\
    (forall a, E_weibull (g a) (avg a)) /\ E_weibull avg dm /\ is_derive Jm (mu k) dm.
Proof. exact @mv_mean_unbiased. Qed.
Print Assumptions C79_measure_mean.

(** measure_valued_jacobians is unbiased for the log-scale: a is the double-sided Maxwell draw of the first key at entry [n, k] and b the second key's draw there, uniform with coupling and normal without; the expectation over b and then a of the [n, k] entry is the derivative of the expected function value with respect to the log-scale. *)
Theorem C79_measure_scale : forall `{P : Platform} (f : gt dual -> dual) (phi : rvec -> R) (loc ls : gt XR) (d : fdt) (D N : nat) (mu s : rvec) (rng pos neg : R -> R -> p_key P) (coupling : bool) (z m u z' : nat -> nat -> R) (n k : nat) (Js : R -> R),
  let D1 := promote (@defdt (XROps P)) d in let h := along phi (gauss mu s z n) k in
  computes f D1 D phi -> is_vec loc d D mu -> is_vec ls d D s -> (n < N)%nat -> (k < D)%nat ->
  (forall a b, (coupling = true -> 0 <= b <= 1) -> p_ksplit P (rng a b) 2 = [pos a b; neg a b] /\ draws_are (p_knormal P (rng a b) (@defdt (XROps P)) [N; D]) N D z /\
    draws_are (p_kdraw P LMaxwell (pos a b) [N; D]) N D (setd m n k a) /\
    (if coupling then draws_are (p_kdraw P LUniform (neg a b) [N; D]) N D (setd u n k b) else draws_are (p_knormal P (neg a b) (@defdt (XROps P)) [N; D]) N D (setd z' n k b)) /\
    exists w w', draws_are (p_kdraw P LWeibull (pos a b) [N; D]) N D w /\ draws_are (p_kdraw P LWeibull (neg a b) [N; D]) N D w') ->
  (forall x, continuous h x) -> tame h -> (forall r, E_normal (fun x => h (mu k + exp r * x)) (Js r)) ->
  exists (g : R -> R -> R) (avg : R -> R) (ds : R),
    (forall a b, (coupling = true -> 0 <= b <= 1) -> exists gm gs, measure_valued_jacobians coupling f [loc; ls] BNormal (rng a b) N = Ok [gm; gs] /\ @tget (XROps P) gs [n; k] = Fin (g a b)) /\
    (forall a, if coupling then E_uniform (g a) (avg a) else E_normal (g a) (avg a)) /\ E_maxwell avg ds /\ is_derive Js (s k) ds.
Proof. exact @mv_scale_unbiased. Qed.
Print Assumptions C79_measure_scale.

Example C79_example : exists (gm gs cm : R -> R),
  (forall t, exists jm js, @score_function_jacobians ex_keys sum_sq [ex_loc; ex_ls] BNormal (t, 0, 0%nat) 1 = Ok [jm; js] /\ @tget (XROps ex_keys) jm [0; 0]%nat = Fin (gm t) /\ @tget (XROps ex_keys) js [0; 0]%nat = Fin (gs t)) /\
  E_normal gm 6 /\ E_normal gs 2 /\
  (exists g : R -> R -> R, (forall a b, 0 <= a -> 0 <= b -> exists jm js, @measure_valued_jacobians ex_keys false sum_sq [ex_loc; ex_ls] BNormal (a, b, 3%nat) 1 = Ok [jm; js] /\ @tget (XROps ex_keys) jm [0; 0]%nat = Fin (g a b)) /\
    (forall a, E_weibull (g a) (cm a)) /\ E_weibull cm 6).
Proof. exact @expect_example. Qed.
