(** Generated by tools/genprops.py from P_sig.v: property theorems only. *)
From Verif Require Import P_sig.
From Coq Require Import String List.
Import ListNotations.
Open Scope nat_scope.

(** sgd, adam, adabelief, adagrad, radam, rmsprop and yogi (for every learning rate or schedule and every setting, params or no params), on every well-formed parameter tree: no call ever raises, every update has exactly the signature of the parameters, and the state keeps its initial signature. *)
Theorem C64_aliases : forall `{O : Ops} (L : lrate) (b1 b2 eps er th : F) (centered nest : bool) (m : option F) (p : tree tensor) (T : GT),
  In (Ok T) [sgd L m nest; adam L b1 b2 eps er; adabelief L b1 b2 eps; adagrad L b1 eps; radam L b1 b2 eps er th; rmsprop L b1 eps er centered m nest; yogi L b1 b2 eps] -> trwf p ->
  keeps_signatures true T p.
Proof. exact @alias_signatures. Qed.
Print Assumptions C64_aliases.

(** adamw, lamb and fromage, given params at every call: the same. *)
Theorem C64_param_aliases : forall `{O : Ops} (L : lrate) (b1 b2 eps er wd lr mn : F) (p : tree tensor) (T : GT),
  In (Ok T) [adamw L b1 b2 eps er wd; lamb L b1 b2 eps er wd; fromage lr mn] -> trwf p -> keeps_signatures false T p.
Proof. exact @param_alias_signatures. Qed.
Print Assumptions C64_param_aliases.

(** noisy_sgd, for every splittable random generator: the same. *)
Theorem C64_noisy_sgd : forall `{O : Ops} (L : lrate) (eta gamma : F) (seed : Z) (p : tree tensor) (T : GT),
  noisy_sgd L eta gamma seed = Ok T -> (forall k n, length (ksplit k n) = n) -> trwf p -> keeps_signatures true T p.
Proof. exact @noisy_signatures. Qed.
Print Assumptions C64_noisy_sgd.

(** sm3, on trees whose leaves have the default dtype, rank at least one and no empty axis: the same. *)
Theorem C64_sm3 : forall `{O : Ops} (lr b1 : F) (p : tree tensor) (T : GT), sm3 lr b1 = Ok T ->
  Forall (fun l => dt l = defdt /\ shp l <> [] /\ Forall (fun n => 0 < n) (shp l)) (leaves p) -> trwf p -> keeps_signatures true T p.
Proof. exact @sm3_signatures. Qed.
Print Assumptions C64_sm3.

(** dpsgd, fed per-example gradients (one leading batch axis, of any size, on every leaf) for parameters of one dtype: no call raises, every update has the signature of the parameters (without the batch axis), and the state keeps its initial signature. *)
Theorem C64_dpsgd : forall `{O : Ops} (L : lrate) (clip mult : F) (seed : Z) (m : option F) (nest : bool) (p : tree tensor) (T : GT) (H : list (tree tensor * option (tree tensor))),
  dpsgd L clip mult seed m nest = Ok T -> (forall k n, length (ksplit k n) = n) -> trwf p -> Forall (fun h => per_example p (fst h)) H ->
  exists s0 outs s1, init T p = Ok s0 /\ run T s0 H = Ok (outs, s1) /\ length outs = length H /\ Forall (like p) outs /\ ssig s1 = ssig s0.
Proof. exact @dpsgd_signatures. Qed.
Print Assumptions C64_dpsgd.

Example C64_example : exists T s0 outs s1, @sm3 (XROps ones_platform) (Fin (1 / 2)) (Fin (9 / 10)) = Ok T /\ @init (XROps ones_platform) T ex_p = Ok s0 /\ @run (XROps ones_platform) T s0 ex_H = Ok (outs, s1) /\
  length outs = 3 /\ Forall (@like (XROps ones_platform) ex_p) outs /\ ssig s1 = ssig s0 /\ ssig s0 = GNode NList [GNode NSM3 [GTree (Node (KDict ["b"%string; "w"%string]) [Node KList [Leaf (F32, [2])]; Node KList [Leaf (F32, [2]); Leaf (F32, [2])]]); GTree (avals ex_p)]; GNode NEmpty []].
Proof. exact @signatures_example. Qed.
