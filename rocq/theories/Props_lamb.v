(** Generated by tools/genprops.py from P_lamb.v: property theorems only. *)
From Verif Require Import P_lamb.
From Coq Require Import List.
Import ListNotations.
Open Scope R_scope.

(** Put scale_by_trust_ratio() and a learning rate (fixed or schedule) behind any transformations that propose a finite direction d for each element from the history of its gradients and values. Then for every finite parameters and gradients training never fails and everything stays finite, and at every step each leaf a (a layer, as a vector) becomes a - lr (|a|/|d|) d, or a - lr d when a or d is zero. *)
Theorem C99_layers : forall `{P : Platform} (As : list GT) (L : lrate) (lr : Z -> R) (dir : (nat -> R) -> (nat -> R) -> nat -> R) (p : tree tensor) (gs : list (tree tensor)), (forall c, rate L c = Fin (lr c)) ->
  emits false (chain_gt As) (fun g q n y => y = Fin (dir g q n)) -> trwf p -> finite_tree p -> Forall (P_regret.point_of p) gs ->
  let T := chain_gt (As ++ [scale_by_trust_ratio (Fin 0); scale_by_learning_rate L]) in
  exists s0 qs sf, init T p = Ok s0 /\ train_loop T s0 p gs = Ok (qs, sf) /\ length qs = length gs /\ Forall (P_regret.point_of p) qs /\
    forall n j, (n < length gs)%nat -> trust_step (lr (count_at n)) (layer (nth n (p :: qs) p) j) (directions dir p gs (p :: qs) n j) (layer (nth n qs p) j).
Proof. exact @layer_steps. Qed.
Print Assumptions C99_layers.

(** lamb is such an optimiser, its direction being Adam's plus weight_decay times the parameter (0 <= b1, b2 < 1, eps > 0, eps_root >= 0; any learning rate, also negative or zero, and any weight_decay). *)
Theorem C99_lamb : forall `{P : Platform} (L : lrate) (lr : Z -> R) (b1 b2 eps er wd : R) (p : tree tensor) (gs : list (tree tensor)), (forall c, rate L c = Fin (lr c)) ->
  0 <= b1 < 1 -> 0 <= b2 < 1 -> 0 < eps -> 0 <= er -> trwf p -> finite_tree p -> Forall (P_regret.point_of p) gs ->
  exists T s0 qs sf, lamb L (Fin b1) (Fin b2) (Fin eps) (Fin er) (Fin wd) = Ok T /\ init T p = Ok s0 /\ train_loop T s0 p gs = Ok (qs, sf) /\ length qs = length gs /\ Forall (P_regret.point_of p) qs /\
    forall n j, (n < length gs)%nat -> trust_step (lr (count_at n)) (layer (nth n (p :: qs) p) j) (directions (fun g q n => adam_dir b1 b2 eps er g n + wd * q n) p gs (p :: qs) n j) (layer (nth n qs p) j).
Proof. exact @lamb_steps. Qed.
Print Assumptions C99_lamb.

(** Along every run whose layers move by such steps, lr being the rates of the steps, the norm of a non-zero layer changes by a factor between 1 - |lr| and 1 + |lr| per step whatever the gradients; the layer moves by exactly |lr| times its norm, however small the gradients are, unless the proposed direction is zero, when it does not move. If every |lr| < 1 a non-zero layer never becomes zero and its norm after n steps is between the products of the (1 - |lr|) and of the (1 + |lr|) times the initial one. *)
Theorem C99_relative : forall `{P : Platform} (lr : Z -> R) (dir : (nat -> R) -> (nat -> R) -> nat -> R) (p : tree tensor) (gs qs : list (tree tensor)) (j : nat), trwf p -> Forall (P_regret.point_of p) qs -> length qs = length gs ->
  (forall n, (n < length gs)%nat -> trust_step (lr (count_at n)) (layer (nth n (p :: qs) p) j) (directions dir p gs (p :: qs) n j) (layer (nth n qs p) j)) ->
  (forall n, (n < length gs)%nat -> let a := layer (nth n (p :: qs) p) j in let b := layer (nth n qs p) j in let d := directions dir p gs (p :: qs) n j in let l := Rabs (lr (count_at n)) in 0 < norm2 a ->
     (0 < norm2 d -> norm2 (P_regret.vsub b a) = l * norm2 a) /\ (norm2 d = 0 -> b = a) /\ (1 - l) * norm2 a <= norm2 b <= (1 + l) * norm2 a) /\
  ((forall c, Rabs (lr c) < 1) -> 0 < norm2 (layer p j) -> forall n, (n <= length gs)%nat ->
     0 < product (fun i => 1 - Rabs (lr (count_at i))) n /\
     norm2 (layer p j) * product (fun i => 1 - Rabs (lr (count_at i))) n <= norm2 (layer (nth n (p :: qs) p) j) <= norm2 (layer p j) * product (fun i => 1 + Rabs (lr (count_at i))) n).
Proof. exact @layer_norms. Qed.
Print Assumptions C99_relative.

(** A finding: with a learning rate of constant size l > 0 such a run cannot settle at any non-zero value v of a layer: of any two consecutive values of the layer, one is at distance at least l |v| / (2 + l) from v, unless the direction proposed between them is exactly zero, or the layer is: the gradients do not slow it down however small they become, only a schedule does. *)
Theorem C99_cannot_settle : forall (l : R) (a d b v : list R), length d = length a -> length v = length a -> trust_step l a d b -> 0 < norm2 a -> 0 < norm2 d -> 0 < Rabs l ->
  Rabs l * norm2 v / (2 + Rabs l) <= Rmax (norm2 (P_regret.vsub a v)) (norm2 (P_regret.vsub b v)).
Proof. exact @cannot_settle. Qed.
Print Assumptions C99_cannot_settle.

Example C99_example : forall `{P : Platform}, let p := Leaf (mkT F32 [2%nat] [Fin 3; Fin 4]) in let g := Leaf (mkT F32 [2%nat] [Fin 1; Fin 0]) in
  exists T s0 q sf, lamb (LConst (Fin (1/10))) (Fin (9/10)) (Fin (999/1000)) (Fin 1) (Fin 0) (Fin 0) = Ok T /\ init T p = Ok s0 /\ train_loop T s0 p [g] = Ok ([q], sf) /\ layer p 0 = [3; 4] /\ layer q 0 = [5/2; 4].
Proof. exact @lamb_example. Qed.
