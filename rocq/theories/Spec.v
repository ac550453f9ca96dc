(** The small vocabulary used in the statements of the properties.  Nothing here depends on the
    model of the code. *)
From Coq Require Export Reals List Arith ZArith Lia Lra.
Export ListNotations.
Open Scope R_scope.

(** The int32 call counter: number of calls, saturating at 2^31-1. *)
Definition satcount (n : nat) : nat := Nat.min n (Z.to_nat (2 ^ 31 - 1)).

(** sum_{i<=n} b^(n-i) * f i *)
Definition wsum (b : R) (f : nat -> R) (n : nat) : R := sum_f_R0 (fun i => b ^ (n - i) * f i) n.

(** Exponential moving average after the updates f 0, ..., f n, started from v0. *)
Definition ema_of (b v0 : R) (f : nat -> R) (n : nat) : R := b ^ (S n) * v0 + (1 - b) * wsum b f n.

(** Sum of a list of reals. *)
Definition rsum (l : list R) : R := fold_right Rplus 0 l.
(** Euclidean norm of a list of reals. *)
Definition norm2 (l : list R) : R := sqrt (rsum (map (fun x => x * x) l)).
Arguments wsum : simpl never.
Arguments ema_of : simpl never.
Arguments rsum : simpl never.
Arguments norm2 : simpl never.

(** Numpy broadcasting: an array of shape [a] broadcasts to shape [b] when [b] is some leading axes followed by axes that match [a]'s one by one, each of [a]'s sizes being equal to [b]'s or 1. *)
Definition broadcasts_to (a b : list nat) : Prop := exists pre b', b = pre ++ b' /\ Forall2 (fun m n => m = n \/ m = 1%nat) a b'.
