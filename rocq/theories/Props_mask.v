(** Generated by tools/genprops.py from P_mask.v: property theorems only. *)
From Verif Require Import P_mask.
From Coq Require Import String List.
Import ListNotations.
Open Scope list_scope.
Open Scope nat_scope.

(** for any inner transformation, mask (a tree or a function giving the same mask for all trees of the history) and history on which nothing raises: the inner state is built from exactly the selected subtrees of the params; at every call the inner transformation receives exactly the selected subtrees of the updates, and of the params when these are truthy (None otherwise); the emitted tree is the given one with its selected subtrees replaced by the inner outputs in order, all others untouched; and the inner state is threaded. *)
Theorem C33_run : forall `{O : Ops} (inner : GT) (mask : tree tensor -> tree bool) (m : tree bool) (p0 : tree tensor) (H : list (tree tensor * option (tree tensor))) (s0 s1 : state) (outs : list (tree tensor)),
  mask p0 = m -> Forall (fun h => mask (fst h) = m) H -> init (masked inner mask) p0 = Ok s0 -> run (masked inner mask) s0 H = Ok (outs, s1) ->
  exists l0 si0 H' os sf, picks m p0 l0 /\ init inner (Node KList l0) = Ok si0 /\ Forall2 (inner_call m) H H' /\ run inner si0 H' = Ok (os, sf) /\
    s1 = SNode NMasked [sf] /\ woven_all m H os outs.
Proof. exact @masked_run. Qed.
Print Assumptions C33_run.

(** a tree that does not have the mask as a prefix makes init and update raise ValueError. *)
Theorem C33_mismatch : forall `{O : Ops} (inner : GT) (mask : tree tensor -> tree bool) (u : tree tensor) (s : state) (p : option (tree tensor)),
  (forall z, ~ split_by (mask u) u z) -> init (masked inner mask) u = Err EValue /\ update (masked inner mask) u s p = Err EValue.
Proof. exact @masked_mismatch. Qed.
Print Assumptions C33_mismatch.

(** with a mask that is False everywhere, every emitted tree is the given one, whatever the inner transformation. *)
Theorem C33_all_false : forall `{O : Ops} (inner : GT) (mask : tree tensor -> tree bool) (u : tree tensor) (s s' : state) (p : option (tree tensor)) (r : tree tensor),
  Forall (fun b => b = false) (leaves (mask u)) -> update (masked inner mask) u s p = Ok (r, s') -> r = u.
Proof. exact @masked_all_false. Qed.
Print Assumptions C33_all_false.

(** None, empty containers and a one-element array holding 0 are passed on as None. *)
Theorem C33_falsy_params : forall `{O : Ops} (inner : GT) (mask : tree tensor -> tree bool) (u : tree tensor) (s : state) (p : option (tree tensor)),
  (p = None \/ (exists k, p = Some (Node k [])) \/ (exists t x, p = Some (Leaf t) /\ dat t = [x] /\ feqb x fzero = true)) ->
  update (masked inner mask) u s p = update (masked inner mask) u s None.
Proof. exact @masked_falsy. Qed.
Print Assumptions C33_falsy_params.

(** for a params tree that is a non-empty container, histories like it with params None or like it, and an inner transformation that on the selected subtrees does not raise and keeps structure, shapes and dtypes, masked never raises. *)
Theorem C33_total : forall `{O : Ops} (np : bool) (inner : GT) (mask : tree tensor -> tree bool) (m : tree bool) (p0 : tree tensor) (l0 : list (tree tensor)) (I : state -> Prop) (H : list (tree tensor * option (tree tensor))),
  container p0 -> mask p0 = m -> Forall (fun h => mask (fst h) = m) H -> picks m p0 l0 -> steady np inner (Node KList l0) I -> hist_ok np p0 H -> Forall (full_params p0) H ->
  exists outs, trains (masked inner mask) p0 H outs.
Proof. exact @masked_total. Qed.
Print Assumptions C33_total.

(** for every transformation that works element by element (refined by a scalar machine) and a mask with the structure of the params: at leaves with mask True the masked transformation emits, over any history, exactly what the transformation emits there (the machine's output for that element's own history), and at leaves with mask False the updates it was given; all-True gives the transformation itself. *)
Theorem C33_elementwise : forall `{O : Ops} (np : bool) (inner : GT) (M : machine) (mask : tree tensor -> tree bool) (m : tree bool) (p0 : tree tensor) (H : list (tree tensor * option (tree tensor))),
  refines np inner M -> trwf p0 -> container p0 -> tdef m = tdef p0 -> mask p0 = m -> Forall (fun h => mask (fst h) = m) H -> hist_ok np p0 H -> Forall (full_params p0) H ->
  exists outs, trains (masked inner mask) p0 H outs /\
    forall n j i b, n < length H -> nth_error (leaves m) j = Some b ->
      (b = false -> oelt outs n (j, i) = helt H n (j, i)) /\
      (b = true -> forall x gs ps, elt p0 (j, i) = Some x -> (forall i', i' <= n -> helt H i' (j, i) = Some (gs i')) -> (np = false -> forall i', i' <= n -> hpelt H i' (j, i) = Some (ps i')) ->
         oelt outs n (j, i) = Some (mout M (leafdt p0 (j, i)) x gs ps n)).
Proof. exact @masked_elementwise. Qed.
Print Assumptions C33_elementwise.

Example C33_example : forall `{P : Platform}, let m := Node (KDict ["b"%string; "w"%string]) [Leaf false; Leaf true] in
  trwf ex_p /\ container ex_p /\ tdef m = tdef ex_p /\ hist_ok false ex_p ex_H /\ Forall (full_params ex_p) ex_H /\ (exists M, refines false (add_decayed_weights (Fin (1/10))) M) /\
  (forall z, ~ split_by m (one (Fin 1)) z).
Proof. exact @masked_example. Qed.
