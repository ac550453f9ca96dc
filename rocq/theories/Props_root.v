(** Generated by tools/genprops.py from P_root.v: property theorems only. *)
From Verif Require Import P_root.
From Coq Require Import List.
Import ListNotations.
Open Scope R_scope.

(** For p = 1, 2, 4 or 8, every symmetric positive semidefinite n x n matrix A (n >= 2) of finite entries, every start vector v <> 0, positive ridge_epsilon, tolerance and iteration bound: the call returns a matrix H and an error e such that H commutes with the damped matrix B = A + ridge I and the largest entry r of |H^p B - I| is at most e. Precisely: after k <= num_iters steps of the coupled Newton iteration, either H = H_k, r = e, and (e <= tolerance or k = num_iters); or the iteration was abandoned because the error grew, H = H_(k-1) is the iterate before the last, and e >= 1.2 r (so the reported error is not that of the returned matrix). No earlier step met a stopping criterion: before step k every error was above the tolerance and grew by less than 20 percent. The ridge is ridge_epsilon * max(s, 1e-16) where s >= 0 is the value returned by power_iteration. *)
Theorem C54_residual : forall `{P : Platform} (draw : nat -> F) (matrix : tensor) (d : fdt) (n : nat) (A : rmat) (v : rvec) (p : Z) (N : Z) (eps tol : R),
  is_mat matrix d n A -> (2 <= n)%nat -> msym n A -> mpsd n A -> (forall i, draw i = Fin (v i)) -> ~ vzero n v -> In p [1; 2; 4; 8]%Z -> (0 <= N)%Z -> 0 < eps ->
  exists (out : tensor) (s : R) (h : tensor) (H : rmat) (e r : R) (k : nat),
  power_iteration draw matrix 100 (Fin (1 / 1000000)) = Ok (out, Fin s) /\ 0 <= s /\
  matrix_inverse_pth_root draw matrix p N (Fin eps) (Fin tol) = Ok (h, Fin e) /\ is_mat h d n H /\
  let B := damped A (ridge_of eps s) in let newton := iterH n p (Z.to_nat p) (startM n p B) (startH n p B) in
  comm n B H /\ is_residual n (Z.to_nat p) H B r /\ r <= e /\ (Z.of_nat k <= N)%Z /\
  (meq n H (newton k) /\ r = e /\ (e <= tol \/ Z.of_nat k = N) \/ (1 <= k)%nat /\ meq n H (newton (k - 1)%nat) /\ r * (12 / 10) <= e) /\
  (forall j, (j < k)%nat -> exists rj, is_residual n (Z.to_nat p) (newton j) B rj /\ tol < rj /\ (j = 0%nat \/ exists r', is_residual n (Z.to_nat p) (newton (j - 1)%nat) B r' /\ rj < r' * (12 / 10))).
Proof. exact @root_residual. Qed.
Print Assumptions C54_residual.

(** for a 1 x 1 matrix a >= 0 and every p >= 1 the result is exact: h^p (a + ridge) = 1, and the reported error is 0. (The result has the dtype promoted with float32, unlike the general case.) *)
Theorem C54_one_by_one : forall `{P : Platform} (draw : nat -> F) (matrix : tensor) (d : fdt) (a v0 : R) (p : Z) (N : Z) (eps tol : R),
  matrix = mkT d [1; 1]%nat [Fin a] -> 0 <= a -> draw 0%nat = Fin v0 -> v0 <> 0 -> (1 <= p)%Z -> 0 < eps ->
  exists (s h : R), 0 <= s /\ matrix_inverse_pth_root draw matrix p N (Fin eps) (Fin tol) = Ok (mkT (promote d F32) [1; 1]%nat [Fin h], Fin 0) /\
  0 < h /\ h ^ Z.to_nat p * (a + ridge_of eps s) = 1.
Proof. exact @root_1x1. Qed.
Print Assumptions C54_one_by_one.

(** for p = 3 the loop multiplies by the fourth power, so the returned matrix is not an inverse cube root although the reported error is small: for every 2 x 2 matrix a I with a > 0, every ridge_epsilon > 0, every start vector v <> 0, tolerance 0.01 and num_iters >= 10, the reported error is at most 0.01, but every diagonal entry of H^3 B - I is at least 0.05. *)
Theorem C54_p3_is_wrong : forall `{P : Platform} (draw : nat -> F) (d : fdt) (a : R) (v : rvec) (N : Z) (eps : R),
  0 < a -> 0 < eps -> (forall i, draw i = Fin (v i)) -> ~ vzero 2 v -> (10 <= N)%Z ->
  exists (s e : R) (h : tensor) (H : rmat), matrix_inverse_pth_root draw (mkT d [2; 2]%nat [Fin a; Fin 0; Fin 0; Fin a]) 3 N (Fin eps) (Fin (1 / 100)) = Ok (h, Fin e) /\ is_mat h d 2 H /\ 0 <= s /\
  e <= 1 / 100 /\ forall i, (i < 2)%nat -> 5 / 100 <= mm 2 (mpow 2 H 3) (damped (mscal a idm) (ridge_of eps s)) i i - 1.
Proof. exact @root_p3. Qed.
Print Assumptions C54_p3_is_wrong.

Example C54_example : forall `{P : Platform}, exists h H e r, matrix_inverse_pth_root (fun i => if Nat.eqb i 0 then Fin 1 else Fin 0) ex_matrix 2 100 (Fin (1 / 1000000)) (Fin (1 / 1000000)) = Ok (h, Fin e) /\ is_mat h F32 2 H /\
  exists s, 0 <= s /\ is_residual 2 2 H (damped ex_A (ridge_of (1 / 1000000) s)) r /\ r <= e.
Proof. exact @root_example. Qed.

(** in any arithmetic, on every square matrix of size n >= 2, for every p, ridge, tolerance, iteration bound and start vector, the call returns (its loop makes at most num_iters steps): a matrix of the same shape and dtype, and an error. *)
Theorem C54_terminates : forall `{O : Ops} (draw : nat -> F) (matrix : tensor) (n : nat) (p N : Z) (eps tol : F), shp matrix = [n; n] -> twf matrix -> (2 <= n)%nat ->
  exists h e, matrix_inverse_pth_root draw matrix p N eps tol = Ok (h, e) /\ dt h = dt matrix /\ shp h = [n; n] /\ twf h.
Proof. exact @root_terminates. Qed.
Print Assumptions C54_terminates.
