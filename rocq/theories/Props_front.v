(** Generated by tools/genprops.py from P_front.v: property theorems only. *)
From Verif Require Import P_front.
From Verif Require Import P_pipe.
From Coq Require Import List.
From Flocq Require Import Core.Core.
Import ListNotations.
Open Scope R_scope.

(** weight decay in front of any optimiser, in any arithmetic, is L2 regularisation of the loss: let G i q be the gradient grad i q plus weight_decay times the parameters q, element by element. Then training chain(add_decayed_weights(weight_decay), *ts) on grad gives exactly, after any number of steps, the parameters and the states of chain( *ts) trained on G, and raises exactly when that does. *)
Theorem C97_l2 : forall `{O : Ops} (wd : F) (ts : list GT) (grad G : nat -> tree tensor -> tree tensor) (p : tree tensor),
  trwf p -> keeps p (chain_gt ts) G ->
  (forall i q, like p q -> elementwise_of (fun d x y z => z = fadd d y (fmul d (fcast d wd) x)) p q (grad i q) (G i q)) ->
  exists a, init (add_decayed_weights wd) p = Ok a /\ forall n, fit (chain_gt (add_decayed_weights wd :: ts)) grad n p = with_front a (fit (chain_gt ts) G n p).
Proof. exact @weight_decay_is_l2. Qed.
Print Assumptions C97_l2.

(** loss scaling, any arithmetic: if multiplying each element of the gradients grad by the constant c gives the element of G, then training chain(scale(c), *ts) on grad is, parameters, states and failures included, training chain( *ts) on G. *)
Theorem C96_unscale : forall `{O : Ops} (c : F) (ts : list GT) (grad G : nat -> tree tensor -> tree tensor) (p : tree tensor),
  trwf p -> keeps p (chain_gt ts) G ->
  (forall i q, like p q -> elementwise_of (fun d _ y z => z = fmul d (fcast d c) y) p q (grad i q) (G i q)) ->
  exists a, init (scale c) p = Ok a /\ forall n, fit (chain_gt (scale c :: ts)) grad n p = with_front a (fit (chain_gt ts) G n p).
Proof. exact @unscale. Qed.
Print Assumptions C96_unscale.

(** loss scaling is exactly undone: multiplying the loss (hence every gradient) by c <> 0 and putting scale(1/c) in front of any optimiser changes nothing in exact arithmetic, NaN and infinite gradients included: same parameters, same states, same failures. *)
Theorem C96_loss_scaling : forall `{P : Platform} (c : R) (ts : list GT) (grad scaled : nat -> tree tensor -> tree tensor) (p : tree tensor), c <> 0 ->
  trwf p -> keeps p (chain_gt ts) grad ->
  (forall i q, like p q -> elementwise_of (fun d _ y z => z = fmul d (Fin c) y) p q (grad i q) (scaled i q)) ->
  exists a, init (scale (Fin (/ c))) p = Ok a /\ forall n, fit (chain_gt (scale (Fin (/ c)) :: ts)) scaled n p = with_front a (fit (chain_gt ts) grad n p).
Proof. exact @loss_scaling. Qed.
Print Assumptions C96_loss_scaling.

(** in IEEE arithmetic, with the scale a power of two: if every scaled gradient is exactly 2^k times the gradient (no overflow or underflow happened in scaling the loss), scale(2^-k) in front of any optimiser gives bit for bit the run without loss scaling, for any dtypes that can represent 2^-k. *)
Theorem C96_float_loss_scaling : forall `{L : Libm} (k : Z) (ts : list (@GT (FlOps L))) (grad scaled : nat -> tree (gt fl) -> tree (gt fl)) (p : tree (gt fl)),
  trwf p -> @keeps (FlOps L) p (@chain_gt (FlOps L) ts) grad ->
  (forall pos x, elt p pos = Some x -> (SpecFloat.emin (fprec (leafdt p pos)) (femax (leafdt p pos)) <= - k < femax (leafdt p pos))%Z) ->
  (forall i q, @like (FlOps L) p q -> @elementwise_of (FlOps L) (fun d _ y y' => in_format d y /\ times_pow2 k y y') p q (grad i q) (scaled i q)) ->
  exists a, @init (FlOps L) (@scale (FlOps L) (Nz (bpow radix2 (- k)))) p = Ok a /\
    forall n, @fit (FlOps L) (@chain_gt (FlOps L) (@scale (FlOps L) (Nz (bpow radix2 (- k))) :: ts)) scaled n p = @with_front (FlOps L) a (@fit (FlOps L) (@chain_gt (FlOps L) ts) grad n p).
Proof. exact @float_loss_scaling. Qed.
Print Assumptions C96_float_loss_scaling.

(** adam absorbs the scale of the loss in eps: training on c times the loss with eps multiplied by c and eps_root by c^2 (c > 0) goes through exactly the same parameters. *)
Theorem C96_adam_units : forall `{P : Platform} (L : lrate) (lr : Z -> R) (b1 b2 eps er c : R) (p : tree tensor) grad grad' n, (forall k, rate L k = Fin (lr k)) ->
  0 <= b1 < 1 -> 0 <= b2 < 1 -> 0 < eps -> 0 <= er -> 0 < c -> trwf p -> finite_tree p -> times_loss p c grad grad' ->
  exists T T', adam L (Fin b1) (Fin b2) (Fin eps) (Fin er) = Ok T /\ adam L (Fin b1) (Fin b2) (Fin (c * eps)) (Fin (c * c * er)) = Ok T' /\ same_run p n T grad T' grad'.
Proof. exact @adam_units. Qed.
Print Assumptions C96_adam_units.

(** adagrad: initial accumulator and eps multiplied by c^2 absorb a factor c > 0 of the loss. *)
Theorem C96_adagrad_units : forall `{P : Platform} (L : lrate) (lr : Z -> R) (a0 eps c : R) (p : tree tensor) grad grad' n, (forall k, rate L k = Fin (lr k)) ->
  0 <= a0 -> 0 < eps -> 0 < c -> trwf p -> finite_tree p -> times_loss p c grad grad' ->
  exists T T', adagrad L (Fin a0) (Fin eps) = Ok T /\ adagrad L (Fin (c * c * a0)) (Fin (c * c * eps)) = Ok T' /\ same_run p n T grad T' grad'.
Proof. exact @adagrad_units. Qed.
Print Assumptions C96_adagrad_units.

(** rmsprop, centered or not, with or without momentum: eps and the initial scale multiplied by c^2 absorb a factor c > 0 of the loss. *)
Theorem C96_rmsprop_units : forall `{P : Platform} (L : lrate) (lr : Z -> R) (b eps v0 c : R) (centered : bool) (m : option R) (nest : bool) (p : tree tensor) grad grad' n, (forall k, rate L k = Fin (lr k)) ->
  0 <= b < 1 -> 0 < eps -> 0 <= v0 -> 0 < c -> trwf p -> finite_tree p -> times_loss p c grad grad' ->
  exists T T', rmsprop L (Fin b) (Fin eps) (Fin v0) centered (option_map Fin m) nest = Ok T /\ rmsprop L (Fin b) (Fin (c * c * eps)) (Fin (c * c * v0)) centered (option_map Fin m) nest = Ok T' /\ same_run p n T grad T' grad'.
Proof. exact @rmsprop_units. Qed.
Print Assumptions C96_rmsprop_units.

(** sgd, with any momentum, nesterov or not: dividing every learning rate by c <> 0 absorbs a factor c of the loss. *)
Theorem C96_sgd_units : forall `{P : Platform} (L L' : lrate) (lr : Z -> R) (c : R) (m : option R) (nest : bool) (p : tree tensor) grad grad' n, (forall k, rate L k = Fin (lr k)) -> (forall k, rate L' k = Fin (lr k / c)) ->
  c <> 0 -> trwf p -> finite_tree p -> times_loss p c grad grad' ->
  exists T T', sgd L (option_map Fin m) nest = Ok T /\ sgd L' (option_map Fin m) nest = Ok T' /\ same_run p n T grad T' grad'.
Proof. exact @sgd_units. Qed.
Print Assumptions C96_sgd_units.

(** radam does not absorb the scale of the loss, whatever eps and eps_root: its first update is - lr times the gradient itself. *)
Theorem C96_radam_not_invariant : forall `{P : Platform} (L : lrate) (lr : Z -> R) (b1 b2 eps er th : R) (p : tree tensor) (g : tree tensor), (forall k, rate L k = Fin (lr k)) ->
  0 <= b1 < 1 -> 0 <= b2 < 1 -> 0 < eps -> 0 <= er -> 4 < th -> trwf p -> like p g ->
  exists T outs, radam L (Fin b1) (Fin b2) (Fin eps) (Fin er) (Fin th) = Ok T /\ trains T p [(g, None)] outs /\
    forall pos x, elt g pos = Some (Fin x) -> oelt outs 0 pos = Some (Fin (- lr 0%Z * x)).
Proof. exact @radam_first. Qed.
Print Assumptions C96_radam_not_invariant.

(** the hypothesis on the optimiser of C96 and C97 holds for every pipeline of C87. *)
Theorem C97_optimisers : forall `{O : Ops} (np : bool) (p : tree tensor) (T : GT) (grad : nat -> tree tensor -> tree tensor),
  pipeline np p T -> trwf p -> (forall i q, like p q -> like p (grad i q)) -> keeps p T grad.
Proof. exact @pipeline_keeps. Qed.
Print Assumptions C97_optimisers.

(** with no data gradient at all, L2 regularisation through adam (weight decay put before it) of any strength weight_decay > 0 goes through exactly the parameters adam goes through on the loss |x|^2/2 with eps divided by weight_decay and eps_root by its square: the strength of the regularisation acts only by rescaling eps. *)
Theorem C97_adam_l2 : forall `{P : Platform} (L : lrate) (lr : Z -> R) (b1 b2 eps er wd : R) (p : tree tensor) zero n, (forall k, rate L k = Fin (lr k)) ->
  0 <= b1 < 1 -> 0 <= b2 < 1 -> 0 < eps -> 0 <= er -> 0 < wd -> trwf p -> finite_tree p -> no_gradient p zero ->
  exists q s s', fit (chain_gt [add_decayed_weights (Fin wd); scale_by_adam (Fin b1) (Fin b2) (Fin eps) (Fin er); scale_by_learning_rate L]) (fun _ => zero) n p = Ok (q, s) /\
    fit (chain_gt [scale_by_adam (Fin b1) (Fin b2) (Fin (eps / wd)) (Fin (er / (wd * wd))); scale_by_learning_rate L]) (fun _ x => x) n p = Ok (q, s').
Proof. exact @adam_l2. Qed.
Print Assumptions C97_adam_l2.

(** decoupled weight decay (adamw) with no data gradient: after n steps every parameter is its initial value times the product of 1 - lr_i weight_decay, i < n. *)
Theorem C97_adamw_decay : forall `{P : Platform} (L : lrate) (lr : Z -> R) (b1 b2 eps er wd : R) (p : tree tensor) (gs : list (tree tensor)), (forall k, rate L k = Fin (lr k)) ->
  0 <= b1 < 1 -> 0 <= b2 < 1 -> 0 < eps -> 0 <= er -> trwf p -> finite_tree p -> Forall (fun g => like p g /\ forall y, In y (vals g) -> y = Fin 0) gs ->
  exists T s0 qs sf, adamw L (Fin b1) (Fin b2) (Fin eps) (Fin er) (Fin wd) = Ok T /\ init T p = Ok s0 /\ train_loop T s0 p gs = Ok (qs, sf) /\ length qs = length gs /\
    forall j t, (j < length (rvals p))%nat -> (t <= length gs)%nat ->
      nth j (rvals (nth t (p :: qs) p)) 0 = nth j (rvals p) 0 * fold_right Rmult 1 (map (fun i => 1 - lr (count_at i) * wd) (seq 0 t)).
Proof. exact @adamw_decay. Qed.
Print Assumptions C97_adamw_decay.

Example C96_example : forall `{P : Platform} (L : Libm),
  let p := Leaf (mkT F32 [1%nat] [Fin 5]) in let pf := Leaf (mkT F16 [1%nat] [Nz 5]) in
  let grad := fun (_ : nat) (q : tree (gt XR)) => q in
  let loss8 := fun (_ : nat) (q : tree (gt XR)) => emapt (fun _ y => xmul (Fin 8) y) q in
  (exists a q s, @fit (XROps P) (chain_gt [scale (Fin (/ 8)); scale (Fin (- (1)))]) loss8 3 p = Ok (q, SNode NList (a :: s)) /\ @fit (XROps P) (chain_gt [scale (Fin (- (1)))]) grad 3 p = Ok (q, SNode NList s)) /\
  (exists T T', adam (O := XROps P) (LConst (Fin 1)) (Fin (9/10)) (Fin (999/1000)) (Fin 1) (Fin 0) = Ok T /\ adam (O := XROps P) (LConst (Fin 1)) (Fin (9/10)) (Fin (999/1000)) (Fin 8) (Fin 0) = Ok T' /\ same_run p 7 T (grad 0%nat) T' (loss8 0%nat)) /\
  (exists a q s, @fit (FlOps L) (@chain_gt (FlOps L) [@scale (FlOps L) (Nz (bpow radix2 (- 3))); @identity (FlOps L)]) (fun _ _ => Leaf (mkT F16 [1%nat] [Nz 24])) 2 pf = Ok (q, SNode NList (a :: s)) /\
     @fit (FlOps L) (@chain_gt (FlOps L) [@identity (FlOps L)]) (fun _ _ => Leaf (mkT F16 [1%nat] [Nz 3])) 2 pf = Ok (q, SNode NList s)).
Proof. exact @front_example. Qed.

Example C97_example : forall `{P : Platform}, let p := Leaf (mkT F32 [2%nat] [Fin 5; Fin (-2)]) in let zero := fun x : tree (gt XR) => emapt (fun _ _ => Fin 0) x in
  trwf p /\ finite_tree p /\ no_gradient p zero /\
  exists q s s', @fit (XROps P) (chain_gt [add_decayed_weights (Fin 100); scale_by_adam (Fin (9/10)) (Fin (999/1000)) (Fin 1) (Fin 0); scale_by_learning_rate (LConst (Fin 1))]) (fun _ => zero) 4 p = Ok (q, s) /\
    @fit (XROps P) (chain_gt [scale_by_adam (Fin (9/10)) (Fin (999/1000)) (Fin (1 / 100)) (Fin (0 / (100 * 100))); scale_by_learning_rate (LConst (Fin 1))]) (fun _ x => x) 4 p = Ok (q, s').
Proof. exact @decay_example. Qed.
