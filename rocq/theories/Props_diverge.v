(** Generated by tools/genprops.py from P_diverge.v: property theorems only. *)
From Verif Require Import P_diverge.
From Coq Require Import List.
Import ListNotations.
Open Scope R_scope.

(** Finding. For every learning rate lr > 0, every b1, b2 with b1^2 < b2 (the defaults in particular), eps > 0 and eps_root >= 0, and every speed M there is a training set of N examples with linear losses, whose average loss grows with every parameter (the gradients of an epoch add up to 1), such that adam run on its gradients epoch after epoch increases every parameter by at least lr * M in every epoch, for ever, while sgd with the same learning rate decreases every parameter by lr in every epoch. *)
Theorem C83_adam_diverges : forall `{P : Platform} (lr b1 b2 eps er M : R), 0 < lr -> 0 <= b1 < 1 -> 0 < b2 < 1 -> b1 * b1 < b2 -> 0 < eps -> 0 <= er ->
  exists N, (2 <= N)%nat /\ rsum (map (cyc N) (seq 0 N)) = 1 /\ forall (p : tree tensor) (epochs : nat), trwf p -> finite_tree p ->
    let gs := map (fun i => cyc_grad N i p) (seq 0 (epochs * N)) in
    (exists T s0 qs sf, adam (LConst (Fin lr)) (Fin b1) (Fin b2) (Fin eps) (Fin er) = Ok T /\ init T p = Ok s0 /\ train_loop T s0 p gs = Ok (qs, sf) /\ length qs = (epochs * N)%nat /\ Forall (point_of p) qs /\
      forall j e, (j < length (rvals p))%nat -> (e <= epochs)%nat -> nth j (rvals p) 0 + INR e * (lr * M) <= nth j (rvals (nth (e * N) (p :: qs) p)) 0) /\
    (exists T s0 qs sf, sgd (LConst (Fin lr)) None false = Ok T /\ init T p = Ok s0 /\ train_loop T s0 p gs = Ok (qs, sf) /\ length qs = (epochs * N)%nat /\ Forall (point_of p) qs /\
      forall j e, (j < length (rvals p))%nat -> (e <= epochs)%nat -> nth j (rvals (nth (e * N) (p :: qs) p)) 0 = nth j (rvals p) 0 - INR e * lr).
Proof. exact @adam_diverges. Qed.
Print Assumptions C83_adam_diverges.

(** adam: whatever finite gradients it is given, the training loop never fails and after t steps no parameter has moved further than adam_max b1 b2 times the sum of the t learning rates, adam_max being 1/sqrt((1-b2)(1-b1^2/b2)) (about 72.7 with the default b1, b2). *)
Theorem C84_adam_speed : forall `{P : Platform} (L : lrate) (lr : Z -> R) (b1 b2 eps er : R) (p : tree tensor) (gs : list (tree tensor)), (forall c, rate L c = Fin (lr c)) -> (forall c, 0 <= lr c) -> 0 <= b1 < 1 -> 0 < b2 < 1 -> b1 * b1 < b2 -> 0 < eps -> 0 <= er ->
  trwf p -> finite_tree p -> Forall (point_of p) gs ->
  exists T s0 qs sf, adam L (Fin b1) (Fin b2) (Fin eps) (Fin er) = Ok T /\ init T p = Ok s0 /\ train_loop T s0 p gs = Ok (qs, sf) /\ length qs = length gs /\ Forall (point_of p) qs /\
    forall j t, (j < length (rvals p))%nat -> (t <= length gs)%nat -> Rabs (nth j (rvals (nth t (p :: qs) p)) 0 - nth j (rvals p) 0) <= adam_max b1 b2 * rsum (map (fun i => lr (count_at i)) (seq 0 t)).
Proof. exact @adam_speed. Qed.
Print Assumptions C84_adam_speed.

(** adamw: if every learning rate lr has 0 <= lr and lr * weight_decay <= 1, weight_decay > 0 then, whatever finite gradients it is given, the training loop never fails and no parameter ever exceeds in magnitude the larger of its initial magnitude and adam_max b1 b2 / weight_decay. *)
Theorem C84_adamw_bounded : forall `{P : Platform} (L : lrate) (lr : Z -> R) (b1 b2 eps er wd : R) (p : tree tensor) (gs : list (tree tensor)), (forall c, rate L c = Fin (lr c)) -> (forall c, 0 <= lr c /\ lr c * wd <= 1) -> 0 <= b1 < 1 -> 0 < b2 < 1 -> b1 * b1 < b2 -> 0 < eps -> 0 <= er -> 0 < wd ->
  trwf p -> finite_tree p -> Forall (point_of p) gs ->
  exists T s0 qs sf, adamw L (Fin b1) (Fin b2) (Fin eps) (Fin er) (Fin wd) = Ok T /\ init T p = Ok s0 /\ train_loop T s0 p gs = Ok (qs, sf) /\ length qs = length gs /\ Forall (point_of p) qs /\
    forall j t, (j < length (rvals p))%nat -> (t <= length gs)%nat -> Rabs (nth j (rvals (nth t (p :: qs) p)) 0) <= Rmax (Rabs (nth j (rvals p) 0)) (adam_max b1 b2 / wd).
Proof. exact @adamw_bounded. Qed.
Print Assumptions C84_adamw_bounded.

Example C83_example : forall `{P : Platform}, let p := Leaf (mkT F32 [2%nat] [Fin 5; Fin 1]) in
  exists N T s0 qs sf, (2 <= N)%nat /\ rsum (map (cyc N) (seq 0 N)) = 1 /\ adam (LConst (Fin (1/1000))) (Fin (9/10)) (Fin (999/1000)) (Fin (1/100000000)) (Fin 0) = Ok T /\ init T p = Ok s0 /\
    train_loop T s0 p (map (fun i => cyc_grad N i p) (seq 0 (100 * N))) = Ok (qs, sf) /\ 6 <= nth 0 (rvals (nth (100 * N) (p :: qs) p)) 0 /\ 2 <= nth 1 (rvals (nth (100 * N) (p :: qs) p)) 0.
Proof. exact @adam_diverges_example. Qed.

Example C84_example : forall `{P : Platform}, let p := Leaf (mkT F32 [2%nat] [Fin 5; Fin 1]) in forall N n,
  exists T s0 qs sf, adamw (LConst (Fin (1/1000))) (Fin (1/2)) (Fin (3/4)) (Fin (1/100000000)) (Fin 0) (Fin (1/10)) = Ok T /\ init T p = Ok s0 /\
    train_loop T s0 p (map (fun i => cyc_grad N i p) (seq 0 n)) = Ok (qs, sf) /\ forall t, (t <= n)%nat -> Rabs (nth 0 (rvals (nth t (p :: qs) p)) 0) <= 25.
Proof. exact @adamw_bounded_example. Qed.
