(** Generated by tools/genprops.py from P_look.v: property theorems only. *)
From Verif Require Import P_look.
From Coq Require Import String List.
Import ListNotations.
Open Scope list_scope.
Open Scope nat_scope.

(** a synchronisation period below 1 raises ValueError. *)
Theorem C35_period : forall `{O : Ops} (opt : GT) (k : Z) (a : F) (reset : bool), (k < 1)%Z -> lookahead opt k a reset = Err EValue.
Proof. exact @look_period. Qed.
Print Assumptions C35_period.

(** for every fast optimiser that does not raise and keeps shapes and dtypes (whatever params it is given), every period 1 <= k < 2^31, step size a and starting pair of fast and slow parameters, and every sequence of gradients - with reset_state only for gradients keeping the fast optimiser's states finite and without booleans: the loop of update and apply_updates never raises; the fast optimiser is called once per gradient, its state re-initialised from the current fast parameters at calls k, 2k, ... when reset_state is set and threaded otherwise; every parameter is a (fast, slow) pair shaped like the start; and wherever the start and the fast optimiser's updates are finite, fast and slow follow the recursion of the paper: at calls k, 2k, ... both become slow + a*(fast + u - slow), at all others fast moves by u and slow is unchanged. *)
Theorem C35_loop : forall `{P : Platform} (opt : GT) (k : nat) (a : R) (reset : bool) (fast0 slow0 : tree tensor) (G : tree tensor -> Prop) (I : state -> Prop) (gs : list (tree tensor)) (T : GT) (s0 : state),
  1 <= k -> (Z.of_nat k < 2 ^ 31)%Z -> fast_ok opt fast0 G I -> (reset = true -> (forall s, I s -> plain s) /\ forall s s', I s -> I s' -> ssig s = ssig s') ->
  like fast0 fast0 -> like fast0 slow0 -> Forall (fun g => like fast0 g /\ G g) gs ->
  lookahead opt (Z.of_nat k) (Fin a) reset = Ok T -> init T (LookaheadParams fast0 slow0) = Ok s0 ->
  exists qs us si sf, init opt fast0 = Ok si /\ train_loop T s0 (LookaheadParams fast0 slow0) gs = Ok (qs, SNode NLookahead [sf; SInt I32 (Z.of_nat (length gs mod k))]) /\
    fast_calls opt reset k 0 si (LookaheadParams fast0 slow0) gs qs us sf /\ length qs = length gs /\
    (forall n q, nth_error qs n = Some q -> exists f s, q = LookaheadParams f s /\ like fast0 f /\ like fast0 s /\
       forall pos f0 sl0 u, elt fast0 pos = Some (Fin f0) -> elt slow0 pos = Some (Fin sl0) -> (forall i, i <= n -> oelt us i pos = Some (Fin (u i))) ->
         elt f pos = Some (Fin (fst (look_seq k a f0 sl0 u (S n)))) /\ elt s pos = Some (Fin (snd (look_seq k a f0 sl0 u (S n))))).
Proof. exact @train_loop_spec. Qed.
Print Assumptions C35_loop.

(** for every fast optimiser, parameters and call: if with reset_state=True the fast optimiser's new state and its initial state on the current fast params have the same structure, only finite floats, no booleans and integers in range, the state stored after a call that synchronises is exactly that initial state, and otherwise the optimiser's new state; with reset_state=False it always is the latter. *)
Theorem C36_reset : forall `{P : Platform} (opt : GT) (k : Z) (a : F) (reset : bool) (T : GT) (g f s lu u : tree tensor) (si si' i s' : state) (c : Z),
  lookahead opt k a reset = Ok T -> update T g (SNode NLookahead [si; SInt I32 c]) (Some (LookaheadParams f s)) = Ok (lu, s') ->
  update opt g si (Some (LookaheadParams f s)) = Ok (u, si') -> init opt f = Ok i -> (reset = true -> plain si' /\ plain i /\ ssig si' = ssig i) ->
  s' = SNode NLookahead [(if (reset && (c =? k - 1)%Z)%bool then i else si'); SInt I32 (iwrap I32 (c + 1) mod k)].
Proof. exact @look_reset. Qed.
Print Assumptions C36_reset.

(** a NaN or infinity anywhere in an array of the fast optimiser's state is not reset: after a synchronisation with reset_state=True that entry is NaN. *)
Theorem C36_nan_survives : forall `{P : Platform} (opt : GT) (k : Z) (a : F) (T : GT) (g f s lu u t t0 : tree tensor) (si si' i s' : state) (path : list nat) (pos : nat * nat) (x : XR),
  lookahead opt k a true = Ok T -> update T g (SNode NLookahead [si; SInt I32 (k - 1)]) (Some (LookaheadParams f s)) = Ok (lu, s') ->
  update opt g si (Some (LookaheadParams f s)) = Ok (u, si') -> init opt f = Ok i ->
  state_at si' path = Some (STree t) -> state_at i path = Some (STree t0) -> avals t = avals t0 -> trwf t -> trwf t0 ->
  elt t pos = Some x -> ~ isfin x ->
  exists t', state_at s' (0 :: path) = Some (STree t') /\ elt t' pos = Some NaN.
Proof. exact @look_nan_survives. Qed.
Print Assumptions C36_nan_survives.

(** with reset_state=True every boolean in the fast optimiser's state comes back as an int32 after every call, synchronising or not, so the state changes type. *)
Theorem C36_bools : forall `{O : Ops} (opt : GT) (k : Z) (a : F) (T : GT) (g f s lu u : tree tensor) (si si' s' : state) (path : list nat) (b : bool) (c : Z),
  lookahead opt k a true = Ok T -> update T g (SNode NLookahead [si; SInt I32 c]) (Some (LookaheadParams f s)) = Ok (lu, s') ->
  update opt g si (Some (LookaheadParams f s)) = Ok (u, si') -> state_at si' path = Some (SBool b) ->
  exists z, state_at s' (0 :: path) = Some (SInt I32 z).
Proof. exact @look_bools. Qed.
Print Assumptions C36_bools.

(** a NaN or infinity in the fast optimiser's update makes the slow parameter NaN at once, also at calls that do not synchronise. *)
Theorem C36_nonfinite_update : forall `{P : Platform} (opt : GT) (k : Z) (a : R) (reset : bool) (T : GT) (g f s lu u q' : tree tensor) (si si' s' : state) (c : Z) (pos : nat * nat) (x : XR) (vf vs : R),
  lookahead opt k (Fin a) reset = Ok T -> update T g (SNode NLookahead [si; SInt I32 c]) (Some (LookaheadParams f s)) = Ok (lu, s') ->
  update opt g si (Some (LookaheadParams f s)) = Ok (u, si') -> like f f -> like f u -> like f s -> apply_updates (LookaheadParams f s) lu = Ok q' ->
  elt f pos = Some (Fin vf) -> elt s pos = Some (Fin vs) -> elt u pos = Some x -> ~ isfin x -> (c <> k - 1)%Z ->
  exists f' slow', q' = LookaheadParams f' slow' /\ elt slow' pos = Some NaN.
Proof. exact @look_nonfinite. Qed.
Print Assumptions C36_nonfinite_update.

(** the fast optimiser is handed the whole LookaheadParams pair: whenever it raises on that, so does lookahead; and without params lookahead always raises. *)
Theorem C36_params : forall `{O : Ops} (opt : GT) (k : Z) (a : F) (reset : bool) (T : GT) (g : tree tensor) (si : state) (c : Z), lookahead opt k a reset = Ok T ->
  (forall q e, update opt g si (Some q) = Err e -> update T g (SNode NLookahead [si; SInt I32 c]) (Some q) = Err e) /\
  exists e, update T g (SNode NLookahead [si; SInt I32 c]) None = Err e.
Proof. exact @look_params. Qed.
Print Assumptions C36_params.

(** so lookahead around a chain containing add_decayed_weights, keep_params_nonnegative, scale_by_trust_ratio or adaptive_grad_clip (after transformations that ignore params and do not raise) raises at the very first update, unless the parameters themselves are LookaheadParams pairs. *)
Theorem C36_params_leafwise : forall `{O : Ops} (pre post : list GT) (t T : GT) (k : Z) (a wd clipping eps min_norm : F) (reset : bool) (p0 slow g : tree tensor) (s0 : state),
  like p0 p0 -> like p0 g -> not_pair p0 -> Forall (fun t => exists I, steady true t p0 I) pre ->
  In t [add_decayed_weights wd; keep_params_nonnegative; scale_by_trust_ratio min_norm; adaptive_grad_clip clipping eps] ->
  lookahead (chain_gt (pre ++ t :: post)) k a reset = Ok T -> init T (LookaheadParams p0 slow) = Ok s0 ->
  exists e, update T g s0 (Some (LookaheadParams p0 slow)) = Err e.
Proof. exact @look_params_leafwise. Qed.
Print Assumptions C36_params_leafwise.

(** every elementwise transformation of the model that ignores params (scale, scale_by_schedule, clip, trace, ema, adam, ... and chains of them) is such a fast optimiser, on all gradients. *)
Theorem C35_fast_ok : forall `{O : Ops} (opt : GT) (M : machine) (p0 : tree tensor), refines true opt M -> trwf p0 ->
  exists I, fast_ok opt p0 (fun _ => True) I /\ forall s s', I s -> I s' -> ssig s = ssig s'.
Proof. exact @look_fast_ok. Qed.
Print Assumptions C35_fast_ok.

Example C35_example : forall `{P : Platform}, let opt := trace (Fin (1/2)) false None in let I := fun s : state => exists r, s = SNode NTrace [STree (one (Fin r))] in let G := fun u => exists r, u = one (Fin r) in
  fast_ok opt (one (Fin 0)) G I /\ (forall s, I s -> plain s) /\ (forall s s', I s -> I s' -> ssig s = ssig s') /\
  Forall (fun g => like (one (Fin 0)) g /\ G g) [one (Fin 2); one (Fin 4); one (Fin 8)] /\
  look_seq 2 (1/2) 0 0 (fun n => match n with 0%nat => 2 | 1%nat => 5 | _ => 8 end)%R 3 = (23/2, 7/2)%R.
Proof. exact @look_example. Qed.

Example C36_example : forall `{P : Platform}, let opt := trace (Fin (1/2)) false None in
  exists T lu s', lookahead opt 1 (Fin (1/2)) true = Ok T /\ init T (LookaheadParams (one (Fin 0)) (one (Fin 0))) = Ok (SNode NLookahead [SNode NTrace [STree (one (Fin 0))]; SInt I32 0]) /\
    update T (one NaN) (SNode NLookahead [SNode NTrace [STree (one (Fin 0))]; SInt I32 0]) (Some (LookaheadParams (one (Fin 0)) (one (Fin 0)))) = Ok (lu, s') /\
    s' = SNode NLookahead [SNode NTrace [STree (one NaN)]; SInt I32 0] /\
    not_pair ex_p /\ exists I, steady true (scale (Fin 2)) ex_p I.
Proof. exact @look_limits_example. Qed.
