(** Generated by tools/genprops.py from P_target.v: property theorems only. *)
From Verif Require Import P_target.
From Coq Require Import List Reals ZArith.
Import ListNotations.
Open Scope R_scope.

(** A copy kept with incremental_update(step_size s), 0 < s <= 1: if no online element moves by more than d per step, the copy is within (1-s)^(n+1) D + d (1-s)/s of the online value after n+1 calls, D being the initial distance: the lag is at most d (1-s)/s in the long run, 199 steps for s = 0.005. *)
Theorem C105_lag : forall `{P : Platform} (old : tree tensor) (online : nat -> tree tensor) (s d D : R), trwf old -> (forall n, like old (online n)) -> 0 < s <= 1 -> 0 <= d ->
  exists r : nat -> tree tensor, (forall n, polyak old (map online (seq 0 n)) (Fin s) = Ok (r n) /\ like old (r n)) /\
    forall pos y0 (x : nat -> R), elt old pos = Some (Fin y0) -> (forall n, elt (online n) pos = Some (Fin (x n))) -> Rabs (y0 - x 0%nat) <= D -> (forall n, Rabs (x (S n) - x n) <= d) ->
      forall n, exists v, elt (r (S n)) pos = Some (Fin v) /\ Rabs (v - x n) <= (1 - s) ^ S n * D + d * ((1 - s) / s).
Proof. exact @copy_lag. Qed.
Print Assumptions C105_lag.

(** If an online element converges, so does the copy kept with any step_size 0 < s <= 1, to the same limit, whatever the copy started from. *)
Theorem C105_converges : forall `{P : Platform} (old : tree tensor) (online : nat -> tree tensor) (s : R), trwf old -> (forall n, like old (online n)) -> 0 < s <= 1 ->
  exists r : nat -> tree tensor, (forall n, polyak old (map online (seq 0 n)) (Fin s) = Ok (r n)) /\
    forall pos y0 (x : nat -> R) (l : R), elt old pos = Some (Fin y0) -> (forall n, elt (online n) pos = Some (Fin (x n))) -> Un_cv x l -> exists v, (forall n, elt (r n) pos = Some (Fin (v n))) /\ Un_cv v l.
Proof. exact @copy_converges. Qed.
Print Assumptions C105_converges.

(** The loss of the copy: for every convex f and 0 <= s <= 1, f at the copy after n calls is at most (1-s)^n f(copy_0) + s sum_{i<n} (1-s)^(n-1-i) f(online_i), the same average of the losses of the online parameters. *)
Theorem C105_jensen : forall `{P : Platform} (old : tree tensor) (online : nat -> tree tensor) (f : list R -> R) (s : R), trwf old -> finite_tree old -> (forall n, point_of old (online n)) -> convex_on (length (rvals old)) f -> 0 <= s <= 1 ->
  forall n, exists r, polyak old (map online (seq 0 n)) (Fin s) = Ok r /\ point_of old r /\ f (rvals r) <= (1 - s) ^ n * f (rvals old) + s * rsumn (fun i => (1 - s) ^ (n - 1 - i) * f (rvals (online i))) n.
Proof. exact @copy_jensen. Qed.
Print Assumptions C105_jensen.

(** A copy kept with periodic_update(update_period k), k >= 1, at steps 0, 1, 2, ... is at step n the online parameters of step n - (n mod k): exactly, in any arithmetic. *)
Theorem C105_periodic : forall `{O : Ops} (k n : nat) (target : tree tensor) (online : nat -> tree tensor), (1 <= k)%nat -> (forall i, avals (online i) = avals target) ->
  maintain (Z.of_nat k) 0 target (map online (seq 0 (S n))) = Ok (online (n - n mod k)%nat).
Proof. exact @periodic_copy. Qed.
Print Assumptions C105_periodic.

(** End to end: train with any optimiser of this library behind zero_nans, clip(c) and learning rates of magnitude at most A, on any gradients (NaN included), and keep a copy with incremental_update(s), 0 < s <= 1, from the start: nothing ever fails and every element of the copy is at every step within c A (1-s)/s of the online parameters. *)
Theorem C105_guarded : forall `{P : Platform} (np : bool) (T : GT) (p : tree tensor) (c s A : R) (L : lrate) (lr : Z -> R) (grad : nat -> tree tensor -> tree tensor), pipeline np p T -> trwf p -> finite_tree p -> 0 <= c -> (forall z, rate L z = Fin (lr z)) -> (forall i q, point_of p q -> like p (grad i q)) ->
  0 < s <= 1 -> (forall z, Rabs (lr z) <= A) ->
  exists Tg (x r : nat -> tree tensor), guarded T c L = Ok Tg /\ (forall n, exists st, fit Tg grad n p = Ok (x n, st)) /\ (forall n, polyak p (map x (seq 0 n)) (Fin s) = Ok (r n)) /\
    forall n i, (i < length (rvals p))%nat -> Rabs (nth i (rvals (r (S n))) 0 - nth i (rvals (x n)) 0) <= c * A * ((1 - s) / s).
Proof. exact @guarded_copy. Qed.
Print Assumptions C105_guarded.

Example C105_example : forall `{P : Platform}, let p := Leaf (mkT F32 [2%nat] [Fin 2; Fin 3]) in
  (exists Tg (x r : nat -> tree tensor), guarded identity 1 (LConst (Fin (1/100))) = Ok Tg /\ (forall n, exists st, fit Tg (fun _ _ => Leaf (mkT F32 [2%nat] [NaN; Fin 5])) n p = Ok (x n, st)) /\ (forall n, polyak p (map x (seq 0 n)) (Fin (1/10)) = Ok (r n)) /\
    forall n i, (i < 2)%nat -> Rabs (nth i (rvals (r (S n))) 0 - nth i (rvals (x n)) 0) <= 9 / 100) /\
  (forall online, (forall i, avals (online i) = avals p) -> maintain 3 0 p (map online (seq 0 6)) = Ok (online 3%nat)) /\
  convex_on 2 (fun v => nth 0 v 0 * nth 0 v 0).
Proof. exact @target_example. Qed.
