(** Generated by tools/genprops.py from P_dual.v: property theorems only. *)
From Verif Require Import P_dual.
From Coq Require Import List.
Import ListNotations.
Open Scope R_scope.

(** forward-mode differentiation of safe_norm(x, m), for every array x of finite values, every m >= 0 and every direction: the value is max(||x||, m) and the tangent is finite, 0 where ||x|| <= m and <x, t>/||x|| elsewhere. *)
Theorem C02_gradient : forall `{P : Platform} (x : gt dual) (l : list (R * R)) (m : R), carries x l -> 0 <= m ->
  @safe_norm (DualOps P) x (dconst (Fin m)) =
    fd (Rmax (norm2 (map fst l)) m) (if Rle_dec (norm2 (map fst l)) m then 0 else inner l / norm2 (map fst l)).
Proof. exact @safe_norm_jvp. Qed.
Print Assumptions C02_gradient.

(** this tangent is the derivative at s = 0 of s |-> max(||x + s t||, m), wherever ||x|| <> m (m >= 0). *)
Theorem C02_derivative : forall (l : list (R * R)) (m : R), 0 <= m -> norm2 (map fst l) <> m ->
  derivable_pt_lim (fun s => Rmax (norm2 (along l s)) m) 0 (if Rle_dec (norm2 (map fst l)) m then 0 else inner l / norm2 (map fst l)).
Proof. exact @safe_norm_derivative. Qed.
Print Assumptions C02_derivative.

(** the same differentiation of the naive jnp.maximum(jnp.linalg.norm(x), m) at x = 0 has a NaN tangent, for every m and every direction. *)
Theorem C02_naive : forall `{P : Platform} (x : gt dual) (l : list (R * R)) (m : R), carries x l -> (forall p, In p l -> fst p = 0) ->
  @naive_norm (DualOps P) x (dconst (Fin m)) = (Fin (Rmax 0 m), NaN).
Proof. exact @naive_nan. Qed.
Print Assumptions C02_naive.

(** a finding: with a negative min_norm the masking never applies and the tangent at x = 0 is NaN. *)
Theorem C02_negative_min : forall `{P : Platform} (x : gt dual) (l : list (R * R)) (m : R), carries x l -> (forall p, In p l -> fst p = 0) -> m < 0 ->
  @safe_norm (DualOps P) x (dconst (Fin m)) = (Fin 0, NaN).
Proof. exact @safe_norm_negative. Qed.
Print Assumptions C02_negative_min.

Example C02_gradient_example : forall `{P : Platform}, let x : gt dual := mkT F32 [2%nat] [fd 3 1; fd 4 0] in
  carries x [(3, 1); (4, 0)] /\ @safe_norm (DualOps P) x (dconst (Fin 1)) = fd 5 (3 / 5) /\ @safe_norm (DualOps P) x (dconst (Fin 6)) = fd 6 0.
Proof. exact @safe_norm_jvp_example. Qed.
