(** Generated by tools/genprops.py from P_loss.v: property theorems only. *)
From Verif Require Import P_loss.
From Coq Require Import List.
Import ListNotations.
Open Scope R_scope.

(** for predictions and targets of broadcastable shapes, l2_loss has the broadcast shape and the promoted dtype, and every element is half the squared error. *)
Theorem C47_l2_loss : forall `{P : Platform} (p t : tensor) (s : list nat), twf p -> twf t -> bshape (shp p) (shp t) = Some s ->
  exists r, l2_loss p (Some t) = Ok r /\ joined p t r s /\ forall o a b, valid s o -> bget p o = Fin a -> bget t o = Fin b -> tget r o = Fin ((a - b) ^ 2 / 2).
Proof. exact @l2_value. Qed.
Print Assumptions C47_l2_loss.

(** without targets the losses are those with targets zero: half the square and the Huber function of the predictions, of the same shape and dtype. *)
Theorem C47_targets_default : forall `{P : Platform} (p : tensor) (delta : R), twf p -> 0 <= delta ->
  exists r h, l2_loss p None = Ok r /\ huber_loss p None (Fin delta) = Ok h /\ aval r = aval p /\ aval h = aval p /\ twf r /\ twf h /\
  forall o a, valid (shp p) o -> tget p o = Fin a -> tget r o = Fin (a ^ 2 / 2) /\ tget h o = Fin (huber_of delta a).
Proof. exact @no_targets. Qed.
Print Assumptions C47_targets_default.

(** for delta >= 0 every element of huber_loss is err^2/2 when |err| <= delta and delta*(|err| - delta/2) beyond. *)
Theorem C47_huber_loss : forall `{P : Platform} (p t : tensor) (delta : R) (s : list nat), twf p -> twf t -> bshape (shp p) (shp t) = Some s -> 0 <= delta ->
  exists r, huber_loss p (Some t) (Fin delta) = Ok r /\ joined p t r s /\ forall o a b, valid s o -> bget p o = Fin a -> bget t o = Fin b ->
    tget r o = Fin (if Rle_dec (Rabs (a - b)) delta then (a - b) * (a - b) / 2 else delta * (Rabs (a - b) - delta / 2)).
Proof. exact @huber_value. Qed.
Print Assumptions C47_huber_loss.

(** the Huber function is non-negative, even, at most half the square, continuous, and differentiable everywhere with derivative the l2 derivative clipped to [-delta, delta]. *)
Theorem C47_huber_shape : forall delta, 0 <= delta -> (forall e, 0 <= huber_of delta e /\ huber_of delta (- e) = huber_of delta e /\ huber_of delta e <= e ^ 2 / 2 /\ continuity_pt (huber_of delta) e /\
  derivable_pt_lim (huber_of delta) e (clamp (- delta) delta e)).
Proof. exact @huber_shape. Qed.
Print Assumptions C47_huber_shape.

(** for labels whose last axis has n > 0 categories, smooth_labels keeps shape and dtype and maps every row l to (1-alpha)*l + alpha/n. *)
Theorem C48_smooth_labels : forall `{P : Platform} (labels : tensor) (alpha : R) (B : list nat) (n : nat), twf labels -> shp labels = B ++ [n] -> (0 < n)%nat ->
  exists r, smooth_labels labels (Fin alpha) = Ok r /\ aval r = aval labels /\ twf r /\ forall o ls, valid B o -> row labels o = map Fin ls -> row r o = map Fin (map (fun l => (1 - alpha) * l + alpha / INR n) ls).
Proof. exact @smooth_value. Qed.
Print Assumptions C48_smooth_labels.

(** with 0 <= alpha <= 1, a row that is a probability distribution stays one. *)
Theorem C48_distributions : forall `{P : Platform} (labels : tensor) (alpha : R) (B : list nat) (n : nat) (o : list nat) (ls : list R), twf labels -> shp labels = B ++ [n] -> (0 < n)%nat -> 0 <= alpha <= 1 -> valid B o -> row labels o = map Fin ls -> distribution ls ->
  exists r ls', smooth_labels labels (Fin alpha) = Ok r /\ row r o = map Fin ls' /\ distribution ls'.
Proof. exact @smooth_distribution. Qed.
Print Assumptions C48_distributions.

(** for a one-hot row the greedy category gets (1-alpha) + alpha/n and every other alpha/n. *)
Theorem C48_one_hot : forall `{P : Platform} (labels : tensor) (alpha : R) (B : list nat) (n k : nat) (o : list nat), twf labels -> shp labels = B ++ [n] -> (k < n)%nat -> valid B o ->
  row labels o = map (fun j => Fin (if (j =? k)%nat then 1 else 0)) (seq 0 n) ->
  exists r, smooth_labels labels (Fin alpha) = Ok r /\ forall j, (j < n)%nat -> tget r (o ++ [j]) = Fin (if (j =? k)%nat then (1 - alpha) + alpha / INR n else alpha / INR n).
Proof. exact @smooth_one_hot. Qed.
Print Assumptions C48_one_hot.

(** labels without axes raise IndexError and an empty last axis raises ZeroDivisionError. *)
Theorem C48_errors : forall `{O : Ops} (labels : tensor) (alpha : F) (B : list nat), (shp labels = [] -> smooth_labels labels alpha = Err EIndex) /\ (shp labels = B ++ [0%nat] -> smooth_labels labels alpha = Err EZeroDiv).
Proof. exact @smooth_errors. Qed.
Print Assumptions C48_errors.

(** for logits broadcastable to the labels, sigmoid_binary_cross_entropy has the labels' shape and every element is -l*ln(sigmoid x) - (1-l)*ln(1 - sigmoid x). *)
Theorem C49_sigmoid_bce : forall `{P : Platform} (x l : tensor), twf x -> twf l -> broadcasts_to (shp x) (shp l) ->
  exists r, sigmoid_binary_cross_entropy x l = Ok r /\ joined l x r (shp l) /\ forall o a b, valid (shp l) o -> bget x o = Fin a -> tget l o = Fin b -> tget r o = Fin (- b * ln (sigmoid a) - (1 - b) * ln (1 - sigmoid a)).
Proof. exact @bce_value. Qed.
Print Assumptions C49_sigmoid_bce.

(** that value is >= 0 when 0 <= l <= 1, is unchanged by (x, l) -> (-x, 1-l), and is zero only in the limit: it is positive for every finite logit. *)
Theorem C49_nonnegative_symmetric : forall x l, 0 <= l <= 1 -> 0 < bce x l /\ bce (- x) (1 - l) = bce x l.
Proof. exact @bce_shape. Qed.
Print Assumptions C49_nonnegative_symmetric.

(** logits that do not broadcast to the labels' shape raise AssertionError. *)
Theorem C49_not_broadcastable : forall `{O : Ops} (x l : tensor), ~ broadcasts_to (shp x) (shp l) -> sigmoid_binary_cross_entropy x l = Err EAssert /\ softmax_cross_entropy x l = Err EAssert /\ forall eps, cosine_similarity x l eps = Err EAssert /\ cosine_distance x l eps = Err EAssert.
Proof. exact @bce_assert. Qed.
Print Assumptions C49_not_broadcastable.

(** for logits broadcastable to labels, both with n > 0 classes on the last axis, softmax_cross_entropy drops that axis and every element is -sum_i l_i ln softmax(x)_i of its rows. *)
Theorem C50_softmax_cross_entropy : forall `{P : Platform} (x l : tensor) (B B' : list nat) (n : nat), twf x -> twf l -> shp l = B ++ [n] -> shp x = B' ++ [n] -> (0 < n)%nat -> broadcasts_to (shp x) (shp l) ->
  exists r, softmax_cross_entropy x l = Ok r /\ joined l x r B /\ forall o xs ls, valid B o -> row x (bidx B' o) = map Fin xs -> row l o = map Fin ls -> tget r o = Fin (cross_entropy ls (softmax xs)).
Proof. exact @ce_value. Qed.
Print Assumptions C50_softmax_cross_entropy.

(** for rows of equal positive length: the value is >= 0 when the labels are non-negative; adding a constant to all logits of a row does not change it; if the labels are a distribution it is at least their entropy, with equality when softmax(x) equals the labels. *)
Theorem C50_shape : forall xs ls, length ls = length xs -> xs <> [] -> Forall (fun l => 0 <= l) ls ->
  0 <= cross_entropy ls (softmax xs) /\ (forall c, cross_entropy ls (softmax (map (fun x => x + c) xs)) = cross_entropy ls (softmax xs)) /\
  (rsum ls = 1 -> entropy ls <= cross_entropy ls (softmax xs)) /\ (softmax xs = ls -> cross_entropy ls (softmax xs) = entropy ls).
Proof. exact @ce_shape. Qed.
Print Assumptions C50_shape.

(** labels or logits without axes, or with no classes, raise ValueError. *)
Theorem C50_errors : forall `{O : Ops} (x l : tensor) (B : list nat), broadcasts_to (shp x) (shp l) -> shp x = [] \/ shp x = B ++ [0%nat] -> softmax_cross_entropy x l = Err EValue.
Proof. exact @ce_errors. Qed.
Print Assumptions C50_errors.

(** (finding) logits whose last axis has size 1 pass the broadcast assertion against labels with any number n of classes, and the loss is then 0 everywhere, whatever the finite logits and labels: the softmax runs over the single logit class before the labels are broadcast. *)
Theorem C50_one_logit_class : forall `{P : Platform} (x l : tensor) (B B' : list nat) (n : nat), twf x -> twf l -> shp l = B ++ [n] -> shp x = B' ++ [1%nat] -> broadcasts_to B' B -> Forall (fun a => exists v, a = Fin v) (dat x) -> Forall (fun a => exists v, a = Fin v) (dat l) ->
  exists r, softmax_cross_entropy x l = Ok r /\ joined l x r B /\ forall o, valid B o -> tget r o = Fin 0.
Proof. exact @ce_one_class. Qed.
Print Assumptions C50_one_logit_class.

(** for predictions broadcastable to targets with n entries on the last axis, cosine_similarity drops that axis; wherever the two rows have non-zero clamped norms max(||.||, epsilon) the value is their dot product divided by those norms, and cosine_distance is 1 minus it. *)
Theorem C51_cosine_similarity : forall `{P : Platform} (x t : tensor) (eps : R) (B B' : list nat) (n : nat), twf x -> twf t -> shp t = B ++ [n] -> shp x = B' ++ [n] -> broadcasts_to (shp x) (shp t) ->
  exists r r', cosine_similarity x t (Fin eps) = Ok r /\ joined t x r B /\ cosine_distance x t (Fin eps) = Ok r' /\ joined t x r' B /\
  forall o xs ts, valid B o -> row x (bidx B' o) = map Fin xs -> row t o = map Fin ts -> Rmax (norm2 ts) eps <> 0 -> Rmax (norm2 xs) eps <> 0 ->
    tget r o = Fin (dot ts xs / (Rmax (norm2 ts) eps * Rmax (norm2 xs) eps)) /\ tget r' o = Fin (1 - dot ts xs / (Rmax (norm2 ts) eps * Rmax (norm2 xs) eps)).
Proof. exact @cos_value. Qed.
Print Assumptions C51_cosine_similarity.

(** for rows of equal length, epsilon >= 0 and non-zero clamped norms: the similarity lies in [-1, 1] and the distance in [0, 2]; it is symmetric; it is unchanged by rescaling either row by a positive factor while both norms stay at least epsilon; it is 1 on identical rows of norm at least epsilon. *)
Theorem C51_range : forall eps ts xs, length ts = length xs -> 0 <= eps -> 0 < Rmax (norm2 ts) eps -> 0 < Rmax (norm2 xs) eps ->
  -1 <= cos_of eps ts xs <= 1 /\ 0 <= 1 - cos_of eps ts xs <= 2 /\ cos_of eps xs ts = cos_of eps ts xs /\
  (forall c, 0 < c -> eps <= norm2 ts -> eps <= norm2 (map (Rmult c) ts) -> cos_of eps (map (Rmult c) ts) xs = cos_of eps ts xs) /\
  (eps <= norm2 ts -> xs = ts -> cos_of eps ts xs = 1).
Proof. exact @cos_shape. Qed.
Print Assumptions C51_range.

(** with epsilon = 0 a zero row (of at least one entry) makes similarity and distance NaN, whatever finite row it is compared with. *)
Theorem C51_zero_vector : forall `{P : Platform} (x t : tensor) (B B' : list nat) (n : nat), twf x -> twf t -> shp t = B ++ [n] -> shp x = B' ++ [n] -> (0 < n)%nat -> broadcasts_to (shp x) (shp t) ->
  exists r r', cosine_similarity x t (Fin 0) = Ok r /\ cosine_distance x t (Fin 0) = Ok r' /\
  forall o xs, valid B o -> row x (bidx B' o) = map Fin xs -> row t o = map (fun _ => Fin 0) (seq 0 n) -> tget r o = NaN /\ tget r' o = NaN.
Proof. exact @cos_zero. Qed.
Print Assumptions C51_zero_vector.

Example C47_example : forall `{P : Platform}, exists r, huber_loss (vec [3; - (1 / 2)]) (Some (mkT F32 [] [Fin 0])) (Fin 1) = Ok r /\ shp r = [2%nat] /\ tget r [0%nat] = Fin (5 / 2) /\ tget r [1%nat] = Fin (1 / 8).
Proof. exact @huber_example. Qed.

Example C48_example : forall `{P : Platform}, exists r, smooth_labels (mkT F32 [2%nat; 2%nat] [Fin 0; Fin 1; Fin 1; Fin 0]) (Fin (1 / 10)) = Ok r /\ row r [0%nat] = [Fin (5 / 100); Fin (95 / 100)].
Proof. exact @smooth_example. Qed.

Example C49_example : forall `{P : Platform}, exists r, sigmoid_binary_cross_entropy (mkT F32 [1%nat] [Fin 0]) (vec [1; 0]) = Ok r /\ tget r [0%nat] = Fin (ln 2) /\ tget r [1%nat] = Fin (ln 2).
Proof. exact @bce_example. Qed.

Example C50_example : forall `{P : Platform}, exists r, softmax_cross_entropy (vec [7; 7]) (vec [1; 0]) = Ok r /\ shp r = [] /\ tget r [] = Fin (ln 2).
Proof. exact @ce_example. Qed.

Example C50_one_logit_example : forall `{P : Platform}, exists r, softmax_cross_entropy (mkT F32 [2%nat; 1%nat] [Fin 5; Fin (-3)]) (mkT F32 [2%nat; 3%nat] (map Fin [0; 1; 0; 0; 0; 1])) = Ok r /\ shp r = [2%nat] /\ tget r [0%nat] = Fin 0 /\ tget r [1%nat] = Fin 0.
Proof. exact @ce_one_example. Qed.

Example C51_example : forall `{P : Platform}, exists r, cosine_similarity (vec [3; 4]) (vec [4; 3]) (Fin 0) = Ok r /\ tget r [] = Fin (24 / 25).
Proof. exact @cos_example. Qed.
