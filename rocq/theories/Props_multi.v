(** Generated by tools/genprops.py from P_multi.v: property theorems only. *)
From Verif Require Import P_multi.
From Coq Require Import List.
Import ListNotations.
Open Scope list_scope.
Open Scope nat_scope.

(** for any wrapped optimiser, any mini-step schedule k(.) >= 1, sum or mean, and any history of fewer than 2^31 gradients like the parameters on which nothing raises: the history splits into consecutive complete blocks of k(0), k(1), ... gradients followed by an incomplete one; the wrapped optimiser is called exactly once per complete block, on that block's mean (sum) and without params; each complete block emits zeros for all its gradients but the last and the wrapped optimiser's update there, the incomplete one only zeros; the final state holds the number of gradients in the incomplete block, the number of complete blocks, the wrapped optimiser's state after those calls and the incomplete block's sum, and has_updated is true exactly when at least one block is complete and none is in progress. *)
Theorem C31_blocks : forall `{O : Ops} (opt : GT) (k : Z -> Z) (use_mean : bool) (p0 : tree tensor) (H : list (tree tensor * option (tree tensor))) (s0 s1 : state) (outs : list (tree tensor)),
  trwf p0 -> (forall j, (1 <= k j)%Z) -> (Z.of_nat (length H) < 2 ^ 31)%Z -> Forall (like p0) (map fst H) ->
  init (multi_steps opt k use_mean) p0 = Ok s0 -> run (multi_steps opt k use_mean) s0 H = Ok (outs, s1) ->
  exists Bs rest Gs si0 os sf S,
    map fst H = concat Bs ++ rest /\ block_sizes k 0 Bs /\ (Z.of_nat (length rest) < k (Z.of_nat (length Bs)))%Z /\
    block_values use_mean p0 k 0 Bs Gs /\ init opt p0 = Ok si0 /\ run opt si0 (map (fun G => (G, None)) Gs) = Ok (os, sf) /\
    outs = blocks_out Bs os ++ map zeros_of rest /\
    s1 = SNode NMulti [SInt iw64 (Z.of_nat (length rest)); SInt iw64 (Z.of_nat (length Bs)); sf; STree S] /\ block_sum p0 rest S /\
    (multi_has_updated s1 = Ok true <-> rest = [] /\ Bs <> []).
Proof. exact @multi_blocks. Qed.
Print Assumptions C31_blocks.

(** and nothing raises when the wrapped optimiser ignores params, does not raise and keeps shapes, dtypes and state structure. *)
Theorem C31_total : forall `{O : Ops} (opt : GT) (k : Z -> Z) (use_mean : bool) (p0 : tree tensor) (I : state -> Prop) (H : list (tree tensor * option (tree tensor))),
  trwf p0 -> steady true opt p0 I -> Forall (like p0) (map fst H) -> (Z.of_nat (length H) < 2 ^ 31)%Z ->
  exists outs, trains (multi_steps opt k use_mean) p0 H outs.
Proof. exact @multi_steps_total. Qed.
Print Assumptions C31_total.

(** on finite gradients the values the wrapped optimiser sees are the exact sum, or the exact mean when the block has k gradients. *)
Theorem C31_mean : forall `{P : Platform} (use_mean : bool) (p0 : tree tensor) (k : Z) (block : list (tree tensor)) (G : tree tensor) (pos : nat * nat) (x : XR) (g : list R),
  trwf p0 -> Forall (like p0) block -> (1 <= k)%Z -> block_value use_mean p0 k block G -> elt p0 pos = Some x -> map (fun t => elt t pos) block = map (fun r => Some (Fin r)) g ->
  elt G pos = Some (Fin (if use_mean then fold_right Rplus 0 g / IZR k else fold_right Rplus 0 g)%R).
Proof. exact @multi_mean_real. Qed.
Print Assumptions C31_mean.

(** if a transformation raises ValueError when called without params, then MultiSteps around it raises ValueError at the very first update call - even one that would only accumulate, and whatever params are passed. *)
Theorem C32_raises : forall `{O : Ops} (opt : GT) (k : Z -> Z) (use_mean : bool) (p0 g : tree tensor) (par : option (tree tensor)) (s0 : state),
  trwf p0 -> like p0 g -> (forall si u, init opt p0 = Ok si -> like p0 u -> update opt u si None = Err EValue) ->
  init (multi_steps opt k use_mean) p0 = Ok s0 -> update (multi_steps opt k use_mean) g s0 par = Err EValue.
Proof. exact @multi_needs_params. Qed.
Print Assumptions C32_raises.

(** that covers add_decayed_weights, keep_params_nonnegative, scale_by_trust_ratio and adaptive_grad_clip, anywhere in a chain after transformations that ignore params and do not raise. *)
Theorem C32_instances : forall `{O : Ops} (pre post : list GT) (T : GT) (k : Z -> Z) (use_mean : bool) (p0 g : tree tensor) (par : option (tree tensor)) (s0 : state) (wd clipping eps min_norm : F),
  trwf p0 -> like p0 g -> Forall (fun t => exists I, steady true t p0 I) pre ->
  In T [add_decayed_weights wd; keep_params_nonnegative; scale_by_trust_ratio min_norm; adaptive_grad_clip clipping eps] ->
  init (multi_steps (chain_gt (pre ++ T :: post)) k use_mean) p0 = Ok s0 -> update (multi_steps (chain_gt (pre ++ T :: post)) k use_mean) g s0 par = Err EValue.
Proof. exact @multi_needs_params_instances. Qed.
Print Assumptions C32_instances.

Example C31_example : forall `{P : Platform}, let H := ones_hist [Fin 1; Fin 5; Fin 7] in
  (exists I, steady true (scale (Fin 2)) (one (Fin 1)) I) /\ trwf (one (Fin 1)) /\ Forall (like (one (Fin 1))) (map fst H) /\
  exists outs, trains (multi_steps (scale (Fin 2)) (fun _ => 2%Z) true) (one (Fin 1)) H outs /\ outs = [one (Fin 0); one (Fin 6); one (Fin 0)].
Proof. exact @multi_example. Qed.

Example C32_example : forall `{P : Platform}, exists s0,
  init (multi_steps (chain_gt ([scale_by_adam (Fin (9/10)) (Fin (999/1000)) (Fin (1/100)) (Fin 0)] ++ add_decayed_weights (Fin (1/10)) :: [scale (Fin (-1))])) (fun _ => 4%Z) true) ex_p = Ok s0 /\
  update (multi_steps (chain_gt ([scale_by_adam (Fin (9/10)) (Fin (999/1000)) (Fin (1/100)) (Fin 0)] ++ add_decayed_weights (Fin (1/10)) :: [scale (Fin (-1))])) (fun _ => 4%Z) true) (ex_g 1) s0 (Some ex_p) = Err EValue.
Proof. exact @multi_needs_params_example. Qed.
