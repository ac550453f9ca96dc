(** Generated by tools/genprops.py from P_power.v: property theorems only. *)
From Verif Require Import P_power.
From Coq Require Import List.
Import ListNotations.
Open Scope R_scope.

(** in any arithmetic, on every square matrix and whatever start vector is drawn, the loop of power_iteration stops after at most num_iters steps (none if num_iters <= 0) and the call returns a vector of the size and dtype of the matrix. *)
Theorem C53_terminates : forall `{O : Ops} (draw : nat -> F) (matrix : tensor) (n : nat) (N : Z) (tol : F), shp matrix = [n; n] ->
  exists k st v s, exits (pi_cond N) (pi_body matrix tol) (0%Z, tab (dt matrix) [n] (fun o => fcast (dt matrix) (draw (hd 0%nat o))), fcast (dt matrix) fzero, true) k st /\
  (k <= Z.to_nat N)%nat /\ power_iteration draw matrix N tol = Ok (v, s) /\ s = snd (fst st) /\ dt v = dt matrix /\ shp v = [n].
Proof. exact @power_terminates. Qed.
Print Assumptions C53_terminates.

(** a matrix that is not of rank 2 or not square is rejected. *)
Theorem C53_rejects : forall `{O : Ops} (draw : nat -> F) (matrix : tensor) (N : Z) (tol : F), (forall n, shp matrix <> [n; n]) ->
  exists e, power_iteration draw matrix N tol = Err e.
Proof. exact @power_rejects. Qed.
Print Assumptions C53_rejects.

(** For every square matrix A of finite entries and every start vector v such that A^j v <> 0 for all j <= num_iters, with num_iters >= 1: the call performs some number k of steps, 1 <= k <= num_iters; it returns the vector A^k v / ||A^k v|| and the Rayleigh quotient of A^(k-1) v; and k is the first step at which two successive estimates differ by at most the tolerance (or k = num_iters). *)
Theorem C53_value : forall `{P : Platform} (draw : nat -> F) (matrix : tensor) (d : fdt) (n : nat) (A : rmat) (v : rvec) (N : Z) (tol : R),
  is_mat matrix d n A -> (forall i, draw i = Fin (v i)) -> (1 <= N)%Z -> (forall j, (Z.of_nat j <= N)%Z -> ~ vzero n (krylov n A v j)) ->
  exists (k : nat) (out : tensor), (1 <= k)%nat /\ (Z.of_nat k <= N)%Z /\
  power_iteration draw matrix N (Fin tol) = Ok (out, Fin (rayleigh n A (krylov n A v (k - 1)))) /\
  is_vec out d n (fun i => krylov n A v k i / vnorm n (krylov n A v k)) /\
  (forall j, (1 <= j)%nat -> (j < k)%nat -> tol < Rabs (estimate n A v j - estimate n A v (j - 1))) /\
  (Z.of_nat k = N \/ Rabs (estimate n A v k - estimate n A v (k - 1)) <= tol).
Proof. exact @power_value. Qed.
Print Assumptions C53_value.

(** for a symmetric matrix it suffices that A v <> 0; the returned vector then has norm 1 and the returned value s is u.Au for the unit vector u whose image Au has the direction of the returned vector. *)
Theorem C53_symmetric : forall `{P : Platform} (draw : nat -> F) (matrix : tensor) (d : fdt) (n : nat) (A : rmat) (v : rvec) (N : Z) (tol : R),
  is_mat matrix d n A -> (forall i, draw i = Fin (v i)) -> (1 <= N)%Z -> msym n A -> ~ vzero n (mv n A v) ->
  exists out s w u, power_iteration draw matrix N (Fin tol) = Ok (out, Fin s) /\ is_vec out d n w /\
  vnorm n w = 1 /\ vnorm n u = 1 /\ s = ip n u (mv n A u) /\ veq n w (fun i => mv n A u i / vnorm n (mv n A u)).
Proof. exact @power_symmetric. Qed.
Print Assumptions C53_symmetric.

(** for a symmetric positive semidefinite matrix and a start vector v with A v <> 0, the returned value is non-negative, at least the Rayleigh quotient of v, and at most every upper bound L of the quadratic form (in particular at most the largest eigenvalue). *)
Theorem C53_bounds : forall `{P : Platform} (draw : nat -> F) (matrix : tensor) (d : fdt) (n : nat) (A : rmat) (v : rvec) (N : Z) (tol : R),
  is_mat matrix d n A -> (forall i, draw i = Fin (v i)) -> (1 <= N)%Z -> msym n A -> mpsd n A -> ~ vzero n (mv n A v) ->
  exists out s, power_iteration draw matrix N (Fin tol) = Ok (out, Fin s) /\ 0 <= s /\ ip n v (mv n A v) / ip n v v <= s /\
  forall L, (forall w, ip n w (mv n A w) <= L * ip n w w) -> s <= L.
Proof. exact @power_bounds. Qed.
Print Assumptions C53_bounds.

(** if a symmetric matrix has a unit eigenvector e with eigenvalue lam > 0, contracts the orthogonal complement of e by mu < lam, and the start vector has a component a <> 0 along e and a remainder w orthogonal to e, then a call that makes all num_iters = k+1 steps (e.g. with a negative tolerance) returns a value within 2 lam (mu/lam)^(2k) |w|^2 / a^2 of lam. *)
Theorem C53_converges : forall `{P : Platform} (draw : nat -> F) (matrix : tensor) (d : fdt) (n : nat) (A : rmat) (e w : rvec) (a lam mu tol : R) (k : nat),
  is_mat matrix d n A -> msym n A -> ip n e e = 1 -> veq n (mv n A e) (fun i => lam * e i) -> 0 <= mu < lam ->
  (forall x, ip n x e = 0 -> ip n (mv n A x) (mv n A x) <= mu * mu * ip n x x) ->
  a <> 0 -> ip n w e = 0 -> (forall i, draw i = Fin (a * e i + w i)) -> tol < 0 ->
  exists out s, power_iteration draw matrix (Z.of_nat (S k)) (Fin tol) = Ok (out, Fin s) /\
  Rabs (s - lam) <= 2 * lam * (mu / lam) ^ (2 * k) * (ip n w w / (a * a)).
Proof. exact @power_converges. Qed.
Print Assumptions C53_converges.

(** started at an eigenvector with non-zero eigenvalue lam, of any square matrix, the call returns lam. *)
Theorem C53_eigenvector : forall `{P : Platform} (draw : nat -> F) (matrix : tensor) (d : fdt) (n : nat) (A : rmat) (v : rvec) (N : Z) (tol lam : R),
  is_mat matrix d n A -> (forall i, draw i = Fin (v i)) -> (1 <= N)%Z -> ~ vzero n v -> lam <> 0 -> veq n (mv n A v) (fun i => lam * v i) ->
  exists out, power_iteration draw matrix N (Fin tol) = Ok (out, Fin lam) /\ exists c, is_vec out d n (fun i => c * v i) /\ Rabs c = / vnorm n v.
Proof. exact @power_eigen. Qed.
Print Assumptions C53_eigenvector.

(** if the start vector v <> 0 is mapped to 0 (e.g. the zero matrix) and the tolerance is non-negative, the value 0 is returned after one step, and the returned vector is NaN in every entry. *)
Theorem C53_kernel : forall `{P : Platform} (draw : nat -> F) (matrix : tensor) (d : fdt) (n : nat) (A : rmat) (v : rvec) (N : Z) (tol : R),
  is_mat matrix d n A -> (forall i, draw i = Fin (v i)) -> (1 <= N)%Z -> ~ vzero n v -> vzero n (mv n A v) -> 0 <= tol ->
  exists out, power_iteration draw matrix N (Fin tol) = Ok (out, Fin 0) /\ dt out = d /\ shp out = [n] /\ forall i, (i < n)%nat -> tget out [i] = NaN.
Proof. exact @power_kernel. Qed.
Print Assumptions C53_kernel.

Example C53_example : forall `{P : Platform}, exists out s, power_iteration (fun i => if Nat.eqb i 0 then Fin 1 else Fin 0) ex_matrix 100 (Fin (1 / 1000000)) = Ok (out, Fin s) /\ 2 <= s <= 3.
Proof. exact @power_example. Qed.

Example C53_converges_example : forall `{P : Platform} (k : nat), exists out s, power_iteration (fun i => if Nat.eqb i 0 then Fin 1 else Fin 0) ex_matrix (Z.of_nat (S k)) (Fin (-1)) = Ok (out, Fin s) /\ Rabs (s - 3) <= 6 * (1 / 3) ^ (2 * k).
Proof. exact @power_converges_example. Qed.
