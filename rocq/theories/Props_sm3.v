(** Generated by tools/genprops.py from P_sm3.v: property theorems only. *)
From Verif Require Import P_sm3.
Open Scope R_scope.

(** for every b1, b2, eps >= 0, every tree of parameters of rank >= 1 without empty axes and every history of finite gradients of its shapes, every update succeeds and emits arrays of those shapes whose value at index o is the exponential moving average (decay b1) of the SM3-preconditioned gradients: g / sqrt(a + eps) where a > 0 and 0 otherwise, a being the cover accumulator [sm3_acc] of the specification. *)
Theorem C28_sm3 : forall `{P : Platform} (b1 b2 eps : R) (p : tree tensor) (H : list (tree tensor * option (tree tensor))),
  0 <= eps -> Forall (fun l => shp l <> [] /\ Forall (fun d => (0 < d)%nat) (shp l)) (leaves p) ->
  Forall (fun h => grads_for p (fst h)) H ->
  exists outs, trains (scale_by_sm3 (Fin b1) (Fin b2) (Fin eps)) p H outs /\ length outs = length H /\
    forall n j l o, (n < length H)%nat -> nth_error (leaves p) j = Some l -> valid (shp l) o ->
      exists out t, nth_error outs n = Some out /\ tdef out = tdef p /\ nth_error (leaves out) j = Some t /\ shp t = shp l /\
        tget t o = Fin (ema_of b1 0 (fun i => sm3_up b2 eps (shp l) (hget H j) i o) n).
Proof. exact @sm3_emits. Qed.
Print Assumptions C28_sm3.

(** with b2 = 1 the accumulator of the specification is, at every index of an array of rank >= 1, at least the sum of all squared gradients so far at that index, grows at every step by at least the new squared gradient, and the preconditioned gradient is at most 1 in absolute value (hence every emitted value, by [C28_sm3_bounded]). *)
Theorem C28_sm3_dominates : forall (s : list nat) (G : nat -> list nat -> R) (eps : R) (n : nat) (o : list nat), s <> [] -> valid s o -> 0 <= eps ->
  sum_f_R0 (fun i => G i o * G i o) n <= sm3_acc 1 s G n o /\
  sm3_acc 1 s G n o + G (S n) o * G (S n) o <= sm3_acc 1 s G (S n) o /\
  Rabs (sm3_up 1 eps s G n o) <= 1.
Proof. exact @sm3_dom. Qed.
Print Assumptions C28_sm3_dominates.

(** with b2 = 1 and 0 <= b1 <= 1, every value emitted by scale_by_sm3 is at most 1 in absolute value, whatever the gradients. *)
Theorem C28_sm3_bounded : forall `{P : Platform} (b1 eps : R) (p : tree tensor) (H : list (tree tensor * option (tree tensor))),
  0 <= b1 <= 1 -> 0 <= eps -> Forall (fun l => shp l <> [] /\ Forall (fun d => (0 < d)%nat) (shp l)) (leaves p) ->
  Forall (fun h => grads_for p (fst h)) H ->
  exists outs, trains (scale_by_sm3 (Fin b1) (Fin 1) (Fin eps)) p H outs /\ length outs = length H /\
    forall n j l o, (n < length H)%nat -> nth_error (leaves p) j = Some l -> valid (shp l) o ->
      exists out t v, nth_error outs n = Some out /\ nth_error (leaves out) j = Some t /\ tget t o = Fin v /\ Rabs v <= 1.
Proof. exact @sm3_bounded. Qed.
Print Assumptions C28_sm3_bounded.

(** in any arithmetic, for every tree of parameters that contains a rank-0 array, wherever it stands, and every tree of gradients of the parameters' shapes: init succeeds and the first update raises IndexError. *)
Theorem C28_sm3_scalar_raises : forall `{O : Ops} (b1 b2 eps : F) (p u : tree tensor) par, tmap (fun t => shp t) u = tmap (fun t => shp t) p -> trwf u -> Exists (fun t => shp t = []) (leaves p) ->
  exists st, init (scale_by_sm3 b1 b2 eps) p = Ok st /\ update (scale_by_sm3 b1 b2 eps) u st par = Err EIndex.
Proof. exact @sm3_scalar. Qed.
Print Assumptions C28_sm3_scalar_raises.

Example C28_sm3_scalar_example : forall `{P : Platform}, exists st,
  init (scale_by_sm3 (Fin 0) (Fin 1) (Fin 1)) (Node KList [Leaf (mkT F32 [1%nat] [Fin 2]); Leaf (mkT F32 [] [Fin 1])]) = Ok st /\
  update (scale_by_sm3 (Fin 0) (Fin 1) (Fin 1)) (Node KList [Leaf (mkT F32 [1%nat] [Fin 3]); Leaf (mkT F32 [] [Fin 5])]) st None = Err EIndex.
Proof. exact @sm3_scalar_ex. Qed.

(** a float16 or bfloat16 parameter does not keep its dtype: the very first emitted update of a bfloat16 vector is of the wider default dtype. *)
Theorem C28_sm3_half_precision : forall `{P : Platform} (b1 b2 eps : XR) (g : R), exists out,
  trains (scale_by_sm3 b1 b2 eps) (Leaf (mkT BF16 [1%nat] [Fin 0])) [(Leaf (mkT BF16 [1%nat] [Fin g]), None)] [Leaf out] /\
  dt out = promote BF16 defdt /\ dt out <> BF16.
Proof. exact @sm3_bf16. Qed.
Print Assumptions C28_sm3_half_precision.

Example C28_sm3_example : forall `{P : Platform}, 0 <= 1 <= 1 /\ Forall (fun l => shp l <> [] /\ Forall (fun d => (0 < d)%nat) (shp l)) (leaves ex_p) /\
  Forall (fun h => grads_for ex_p (fst h)) ex_H /\ valid [2%nat; 2%nat] [1%nat; 0%nat].
Proof. exact @sm3_example. Qed.
