(** Generated by tools/genprops.py from P_clip2.v: property theorems only. *)
From Verif Require Import P_clip2.
From Coq Require Import List Reals.
Import ListNotations.
Open Scope R_scope.

(** On gradients of one dtype with finite elements, any tree shape and any max_norm c > 0, clip_by_global_norm(c) returns THE nearest point of the ball of radius c: the result v has norm at most c and |u - v|^2 + |v - y|^2 <= |u - y|^2 for every vector y of norm at most c (in particular v = u when u is in the ball, and every other y is strictly further away). *)
Theorem C102_nearest : forall `{P : Platform} (c : R) (d : fdt) (u : tree tensor) (st : state) par, 0 < c -> trwf u -> finite_tree u -> one_kind d u ->
  exists v, update (clip_by_global_norm (Fin c)) u st par = Ok (v, st) /\ point_of u v /\ norm2 (rvals v) <= c /\ (norm2 (rvals u) <= c -> v = u) /\
    forall y, length y = length (rvals u) -> norm2 y <= c -> sumsq (vsub (rvals u) (rvals v)) + sumsq (vsub (rvals v) y) <= sumsq (vsub (rvals u) y).
Proof. exact @clip_nearest. Qed.
Print Assumptions C102_nearest.

(** Clipping never amplifies a difference: for any two gradient trees of one signature and dtype with finite elements, |clip_by_global_norm(u) - clip_by_global_norm(u')| <= |u - u'| (and <= 2 c). *)
Theorem C102_nonexpansive : forall `{P : Platform} (c : R) (d : fdt) (u u' : tree tensor) (st : state) par, 0 < c -> trwf u -> finite_tree u -> one_kind d u -> point_of u u' ->
  exists v v', update (clip_by_global_norm (Fin c)) u st par = Ok (v, st) /\ update (clip_by_global_norm (Fin c)) u' st par = Ok (v', st) /\
    norm2 (vsub (rvals v) (rvals v')) <= Rmin (norm2 (vsub (rvals u) (rvals u'))) (2 * c).
Proof. exact @clip_nonexpansive. Qed.
Print Assumptions C102_nonexpansive.

(** Two clips in a chain are one clip at the smaller bound: chain(clip_by_global_norm(c1), clip_by_global_norm(c2)) returns exactly what clip_by_global_norm(min(c1, c2)) does, in either order. *)
Theorem C102_compose : forall `{P : Platform} (c1 c2 : R) (d : fdt) (u : tree tensor) (st : state) par, 0 < c1 -> 0 < c2 -> trwf u -> finite_tree u -> one_kind d u ->
  exists v T s, update (clip_by_global_norm (Fin (Rmin c1 c2))) u st par = Ok (v, st) /\ chain [clip_by_global_norm (Fin c1); clip_by_global_norm (Fin c2)] = Ok T /\ init T u = Ok s /\ update T u s par = Ok (v, s).
Proof. exact @clip_compose. Qed.
Print Assumptions C102_compose.

(** Element-wise clipping composes the same way, for ANY elements (NaN and infinities included): chain(clip(c1), clip(c2)) is clip(min(c1, c2)); it returns the nearest number of [-c, c] and never amplifies a difference. *)
Theorem C102_clip_compose : forall `{P : Platform} (c1 c2 : R), 0 <= c1 -> 0 <= c2 ->
  (forall (u : tree tensor) (st : state) par, exists v T s, update (clip (Fin (Rmin c1 c2))) u st par = Ok (v, st) /\ chain [clip (Fin c1); clip (Fin c2)] = Ok T /\ init T u = Ok s /\ update T u s par = Ok (v, s)) /\
  (forall (u u' : tree tensor) (st : state) par v v', update (clip (Fin c1)) u st par = Ok (v, st) -> update (clip (Fin c1)) u' st par = Ok (v', st) -> forall pos x x', elt u pos = Some (Fin x) -> elt u' pos = Some (Fin x') ->
     exists y y', elt v pos = Some (Fin y) /\ elt v' pos = Some (Fin y') /\ Rabs (y - y') <= Rabs (x - x') /\ forall z, - c1 <= z <= c1 -> Rabs (x - y) <= Rabs (x - z)).
Proof. exact @clip_box. Qed.
Print Assumptions C102_clip_compose.

(** Two runs of chain(clip_by_global_norm(c), sgd(lr)), lr >= 0, from the same parameters (one dtype) on two gradient sequences: neither fails, and after n steps the parameters differ by at most lr times the sum of min(|g_t - g'_t|, 2 c); so if at most k of the gradients were replaced by ANY others - corrupted examples, wrong labels, an adversary - the final parameters move by at most 2 lr c k, however large the replacements. *)
Theorem C102_robust : forall `{P : Platform} (lr c : R) (d : fdt) (p : tree tensor) (gs gs' : list (tree tensor)) (k : nat), 0 <= lr -> 0 < c -> trwf p -> finite_tree p -> one_kind d p -> Forall (point_of p) gs -> Forall (point_of p) gs' -> length gs' = length gs ->
  exists T s0 qs qs' sf sf', (let* B := sgd (LConst (Fin lr)) None false in chain [clip_by_global_norm (Fin c); B]) = Ok T /\ init T p = Ok s0 /\ train_loop T s0 p gs = Ok (qs, sf) /\ train_loop T s0 p gs' = Ok (qs', sf') /\
    let gap := norm2 (vsub (rvals (last qs p)) (rvals (last qs' p))) in
    gap <= lr * rsum (map (fun t => Rmin (norm2 (vsub (rvals (nth t gs p)) (rvals (nth t gs' p)))) (2 * c)) (seq 0 (length gs))) /\
    (differ_in k gs gs' -> gap <= 2 * lr * c * INR k).
Proof. exact @clip_robust. Qed.
Print Assumptions C102_robust.

Example C102_example : forall `{P : Platform}, let u := Leaf (mkT F32 [2%nat] [Fin 3; Fin 4]) in let w := Leaf (mkT F32 [2%nat] [Fin 0; Fin 1]) in
  trwf u /\ finite_tree u /\ one_kind F32 u /\ point_of u w /\ differ_in 1 [u; w; u] [u; u; u] /\ norm2 (rvals u) = 5 /\
  exists v, update (clip_by_global_norm (Fin 1)) u EmptyState None = Ok (v, EmptyState) /\ norm2 (rvals v) <= 1 /\ sumsq (vsub (rvals u) (rvals v)) = 16.
Proof. exact @clip2_example. Qed.
