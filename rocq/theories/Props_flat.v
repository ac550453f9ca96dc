(** Generated by tools/genprops.py from P_flat.v: property theorems only. *)
From Verif Require Import P_flat.
From Coq Require Import List.
Import ListNotations.
Open Scope list_scope.
Open Scope nat_scope.

(** for a non-empty tree of well-formed arrays of one dtype, flatten hands the inner transformation the vector of all elements, leaf after leaf in row-major order, and re-assembling any vector made that way from a tree with the same structure, shapes and dtypes gives back exactly that tree. *)
Theorem C29_roundtrip : forall `{O : Ops} (d : fdt) (u r : tree tensor), trwf u -> uniform d u -> like u r ->
  flat_cat r = Ok (as_vector d r) /\ flat_uncat u (Leaf (as_vector d r)) = Ok r.
Proof. exact @flatten_roundtrip. Qed.
Print Assumptions C29_roundtrip.

(** for every transformation that works element by element (refined by a scalar machine), every non-empty params tree of one dtype and every history like it (params None or like it), flatten around it succeeds and emits exactly the same updates. *)
Theorem C29_transparent : forall `{O : Ops} (np : bool) (inner : GT) (M : machine) (d : fdt) (p0 : tree tensor) (H : list (tree tensor * option (tree tensor))),
  refines np inner M -> trwf p0 -> uniform d p0 -> hist_ok np p0 H -> Forall (full_params p0) H ->
  exists outs, trains inner p0 H outs /\ trains (flatten inner) p0 H outs.
Proof. exact @flatten_transparent. Qed.
Print Assumptions C29_transparent.

(** a tree without leaves makes init, and update on it, raise ValueError. *)
Theorem C29_leafless : forall `{O : Ops} (inner : GT) (u : tree tensor) (s : state), leaves u = [] -> init (flatten inner) u = Err EValue /\ update (flatten inner) u s None = Err EValue.
Proof. exact @flatten_leafless. Qed.
Print Assumptions C29_leafless.

(** when the dtypes of the leaves differ, all leaves of the emitted tree have one dtype - that of the vector the inner transformation returned; flatten(identity()) returns every leaf in the promotion of all the dtypes (so float16 and bfloat16 leaves come back as float32 next to a float32 one). *)
Theorem C29_mixed : forall `{O : Ops} (inner : GT) (u r : tree tensor) (s s' : state) (p : option (tree tensor)),
  update (flatten inner) u s p = Ok (r, s') ->
  (exists d, Forall (fun x => dt x = d) (leaves r)) /\
  (inner = identity -> forall x l, leaves u = x :: l -> Forall (fun y => dt y = fold_left promote (map dt l) (dt x)) (leaves r)).
Proof. exact @flatten_mixed. Qed.
Print Assumptions C29_mixed.

Example C29_example : forall `{P : Platform}, trwf ex_p /\ uniform F32 ex_p /\ hist_ok true ex_p ex_H /\ Forall (full_params ex_p) ex_H /\
  (exists M, refines true (chain_gt [clip (Fin 1); scale_by_adam (Fin (9/10)) (Fin (999/1000)) (Fin (1/100)) (Fin 0); scale (Fin (-1))]) M) /\
  exists r s, update (flatten identity) (Node KTuple [Leaf (mkT F16 [1] [Fin 1]); Leaf (mkT BF16 [2] [Fin 2; Fin 3])]) EmptyState None = Ok (r, s) /\ r = Node KTuple [Leaf (mkT F32 [1] [Fin 1]); Leaf (mkT F32 [2] [Fin 2; Fin 3])].
Proof. exact @flatten_example. Qed.
