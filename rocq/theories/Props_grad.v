(** Generated by tools/genprops.py from P_grad.v: property theorems only. *)
From Verif Require Import P_grad.
From Coq Require Import List.
Import ListNotations.
Open Scope R_scope.

(** differentiating l2_loss gives, at every element, (prediction - target) times the tangent of the error. *)
Theorem C67_l2_gradient : forall `{P : Platform} (p t : gt dual) (s : list nat), twf p -> twf t -> bshape (shp p) (shp t) = Some s ->
  exists r, @l2_loss (DualOps P) p (Some t) = Ok r /\ shp r = s /\ twf r /\
  forall o a a' b b', valid s o -> @bget (DualOps P) p o = fd a a' -> @bget (DualOps P) t o = fd b b' ->
    @tget (DualOps P) r o = fd ((a - b) ^ 2 / 2) ((a - b) * (a' - b')).
Proof. exact @l2_jvp. Qed.
Print Assumptions C67_l2_gradient.

(** differentiating huber_loss gives, at every element and also at |error| = delta and error = 0, the error clipped to [-delta, delta] times the tangent of the error. *)
Theorem C67_huber_gradient : forall `{P : Platform} (p t : gt dual) (delta : R) (s : list nat), twf p -> twf t -> bshape (shp p) (shp t) = Some s -> 0 <= delta ->
  exists r, @huber_loss (DualOps P) p (Some t) (dconst (Fin delta)) = Ok r /\ shp r = s /\ twf r /\
  forall o a a' b b', valid s o -> @bget (DualOps P) p o = fd a a' -> @bget (DualOps P) t o = fd b b' ->
    @tget (DualOps P) r o = fd (huber_of delta (a - b)) (clamp (- delta) delta (a - b) * (a' - b')).
Proof. exact @huber_jvp. Qed.
Print Assumptions C67_huber_gradient.

(** differentiating sigmoid_binary_cross_entropy gives, at every element, (sigmoid(logit) - label) times the logit's tangent (minus logit times the label's tangent). *)
Theorem C67_bce_gradient : forall `{P : Platform} (x l : gt dual), twf x -> twf l -> broadcasts_to (shp x) (shp l) ->
  exists r, @sigmoid_binary_cross_entropy (DualOps P) x l = Ok r /\ shp r = shp l /\ twf r /\
  forall o a a' b b', valid (shp l) o -> @bget (DualOps P) x o = fd a a' -> @tget (DualOps P) l o = fd b b' ->
    @tget (DualOps P) r o = fd (bce a b) ((sigmoid a - b) * a' - a * b').
Proof. exact @bce_jvp. Qed.
Print Assumptions C67_bce_gradient.

(** differentiating softmax_cross_entropy with constant labels gives, at every row, sum_j (softmax(logits)_j * (sum of the labels) - label_j) * tangent_j; for labels that sum to one this is the familiar softmax(logits) - labels. *)
Theorem C67_softmax_ce_gradient : forall `{P : Platform} (x l : gt dual) (B B' : list nat) (n : nat), twf x -> twf l -> shp l = B ++ [n] -> shp x = B' ++ [n] -> (0 < n)%nat -> broadcasts_to (shp x) (shp l) ->
  exists r, @softmax_cross_entropy (DualOps P) x l = Ok r /\ shp r = B /\ twf r /\
  forall o (xs : list (R * R)) (ls : list R), valid B o -> @row (DualOps P) x (bidx B' o) = map (fun p => fd (fst p) (snd p)) xs -> @row (DualOps P) l o = map (fun b => fd b 0) ls ->
    @tget (DualOps P) r o = fd (cross_entropy ls (softmax (map fst xs))) (rsum (map2 Rmult (map2 (fun p b => p * rsum ls - b) (softmax (map fst xs)) ls) (map snd xs))).
Proof. exact @ce_jvp. Qed.
Print Assumptions C67_softmax_ce_gradient.

Example C67_example : forall `{P : Platform}, exists r, @huber_loss (DualOps P) (mkT F32 [2%nat] [fd 3 1; fd (1 / 2) 1]) (Some (mkT F32 [2%nat] [fd 0 0; fd 0 0])) (dconst (Fin 1)) = Ok r /\
  @tget (DualOps P) r [0%nat] = fd (huber_of 1 3) 1 /\ @tget (DualOps P) r [1%nat] = fd (huber_of 1 (1 / 2)) (1 / 2).
Proof. exact @grad_example. Qed.
