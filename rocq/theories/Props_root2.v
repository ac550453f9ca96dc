(** Generated by tools/genprops.py from P_root2.v: property theorems only. *)
From Verif Require Import P_root2.
From Coq Require Import List.
Import ListNotations.
Open Scope R_scope.

(** For p = 1, 2, 4 or 8, every symmetric positive semidefinite n x n matrix A (n >= 2), start vector v <> 0, positive ridge_epsilon, tolerance >= 0 and iteration bound k + 1: if (1 - mu)^(2^k) is at most the tolerance, where mu = min(1, (1 + p) ridge / (2 |B|_F)) / 2^p, then the reported error is within the tolerance and bounds every entry of H^p B - I, unless the very first step raised the error by 20 percent or more, in which case the returned matrix is the initial multiple of the identity. The second case is impossible when (1 + p) <v, B v> <= 2 |B|_F <v, v> for all v (always so for p = 1). *)
Theorem C54_converges : forall `{P : Platform} (draw : nat -> F) (matrix : tensor) (d : fdt) (n : nat) (A : rmat) (v : rvec) (p : Z) (k : nat) (eps tol : R),
  is_mat matrix d n A -> (2 <= n)%nat -> msym n A -> mpsd n A -> (forall i, draw i = Fin (v i)) -> ~ vzero n v -> In p [1; 2; 4; 8]%Z -> 0 < eps -> 0 <= tol ->
  exists (out : tensor) (s : R) (h : tensor) (H : rmat) (e r : R),
  power_iteration draw matrix 100 (Fin (1 / 1000000)) = Ok (out, Fin s) /\ 0 <= s /\
  matrix_inverse_pth_root draw matrix p (Z.of_nat (S k)) (Fin eps) (Fin tol) = Ok (h, Fin e) /\ is_mat h d n H /\
  let B := damped A (ridge_of eps s) in
  is_residual n (Z.to_nat p) H B r /\ r <= e /\
  ((1 - newton_rate n p B (ridge_of eps s)) ^ (2 ^ k) <= tol ->
     (e <= tol \/ meq n H (startH n p B) /\ r * (12 / 10) <= e) /\
     (p = 1%Z \/ (forall w, (1 + IZR p) * ip n w (mv n B w) <= 2 * fro n B * ip n w w) -> e <= tol)).
Proof. exact @root_converges. Qed.
Print Assumptions C54_converges.

(** with the default arguments (100 steps, ridge_epsilon = 1e-6, error_tolerance = 1e-6) this covers every symmetric positive semidefinite matrix whose damped version has Frobenius norm at most 10^4, however badly conditioned: all entries of H^p B - I are within 1e-6, unless the first step was abandoned. *)
Theorem C54_defaults : forall `{P : Platform} (draw : nat -> F) (matrix : tensor) (d : fdt) (n : nat) (A : rmat) (v : rvec) (p : Z),
  is_mat matrix d n A -> (2 <= n)%nat -> msym n A -> mpsd n A -> (forall i, draw i = Fin (v i)) -> ~ vzero n v -> In p [1; 2; 4; 8]%Z ->
  exists (out : tensor) (s : R) (h : tensor) (H : rmat) (e r : R),
  power_iteration draw matrix 100 (Fin (1 / 1000000)) = Ok (out, Fin s) /\ 0 <= s /\
  matrix_inverse_pth_root draw matrix p 100 (Fin (1 / 1000000)) (Fin (1 / 1000000)) = Ok (h, Fin e) /\ is_mat h d n H /\
  let B := damped A (1 / 1000000 * Rmax s (1 / 10000000000000000)) in
  is_residual n (Z.to_nat p) H B r /\ r <= e /\
  (fro n B <= 10000 ->
     (e <= 1 / 1000000 \/ meq n H (startH n p B) /\ r * (12 / 10) <= e) /\
     (p = 1%Z \/ (forall w, (1 + IZR p) * ip n w (mv n B w) <= 2 * fro n B * ip n w w) -> e <= 1 / 1000000)).
Proof. exact @root_defaults. Qed.
Print Assumptions C54_defaults.

Example C54_converges_example : forall `{P : Platform}, exists h H e r s, matrix_inverse_pth_root (fun i => if Nat.eqb i 0 then Fin 1 else Fin 0) ex_matrix 1 100 (Fin (1 / 1000000)) (Fin (1 / 1000000)) = Ok (h, Fin e) /\ is_mat h F32 2 H /\ 2 <= s <= 3 /\
  is_residual 2 1 H (damped ex_A (ridge_of (1 / 1000000) s)) r /\ r <= 1 / 1000000.
Proof. exact @root_converges_example. Qed.

(** the second case does occur. For the symmetric 4 x 4 matrix I + 0.9 S, whose eigenvalues are 0.1 and 1.9, p = 4, every start vector v <> 0, every ridge_epsilon up to 1/2000, every iteration bound >= 2 and every tolerance below 0.4, the loop is abandoned at the first step: the returned matrix is a multiple of the identity, off by at least 0.4 in some entry of H^4 B - I, and the reported error (which belongs to another matrix) is at least 0.64. *)
Theorem C54_gives_up : forall `{P : Platform} (draw : nat -> F) (d : fdt) (v : rvec) (N : Z) (eps tol : R),
  (forall i, draw i = Fin (v i)) -> ~ vzero 4 v -> (2 <= N)%Z -> 0 < eps <= 1 / 2000 -> tol < 4 / 10 ->
  is_mat (A4_tensor d) d 4 A4 /\ (forall w, 1 / 10 * ip 4 w w <= ip 4 w (mv 4 A4 w) <= 19 / 10 * ip 4 w w) /\
  exists (h : tensor) (c e r s : R), matrix_inverse_pth_root draw (A4_tensor d) 4 N (Fin eps) (Fin tol) = Ok (h, Fin e) /\ is_mat h d 4 (mscal c idm) /\ 0 <= s <= 19 / 10 /\
  is_residual 4 4 (mscal c idm) (damped A4 (ridge_of eps s)) r /\ 4 / 10 <= r /\ 64 / 100 <= e.
Proof. exact @root_gives_up. Qed.
Print Assumptions C54_gives_up.
