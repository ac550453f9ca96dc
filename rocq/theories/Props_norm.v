(** Generated by tools/genprops.py from P_norm.v: property theorems only. *)
From Verif Require Import P_norm.
From Coq Require Import Permutation.
Open Scope R_scope.

(** global_norm is the Euclidean norm of all elements of all leaves, whatever the nesting, shapes and dtypes. *)
Theorem C52_global_norm_value : forall `{P : Platform} (u : tree tensor), finite_tree u ->
  snd (global_norm u) = Fin (sqrt (rsum (map (fun x => x * x) (rvals u)))).
Proof. exact @global_norm_is. Qed.
Print Assumptions C52_global_norm_value.

(** It is 0 exactly when every element is 0. *)
Theorem C52_zero_iff : forall `{P : Platform} (u : tree tensor), finite_tree u ->
  (snd (global_norm u) = Fin 0 <-> forall pos x, elt u pos = Some x -> x = Fin 0).
Proof. exact @global_norm_zero. Qed.
Print Assumptions C52_zero_iff.

(** A tree of the same leaf sizes every element of which is c times the corresponding element has |c| times the norm. *)
Theorem C52_homogeneous : forall `{P : Platform} (u w : tree tensor) (c : R), finite_tree u -> tmap (fun t => length (dat t)) w = tmap (fun t => length (dat t)) u ->
  (forall pos x, elt u pos = Some (Fin x) -> elt w pos = Some (Fin (c * x))) ->
  exists n, snd (global_norm u) = Fin n /\ snd (global_norm w) = Fin (Rabs c * n).
Proof. exact @global_norm_scale. Qed.
Print Assumptions C52_homogeneous.

(** For three trees of the same leaf sizes, the third of which is the element-wise sum of the others, the norm of the sum is at most the sum of the norms. *)
Theorem C52_triangle : forall `{P : Platform} (u v w : tree tensor), finite_tree u -> finite_tree v ->
  tmap (fun t => length (dat t)) v = tmap (fun t => length (dat t)) u -> tmap (fun t => length (dat t)) w = tmap (fun t => length (dat t)) u ->
  (forall pos x y, elt u pos = Some (Fin x) -> elt v pos = Some (Fin y) -> elt w pos = Some (Fin (x + y))) ->
  exists a b c, snd (global_norm u) = Fin a /\ snd (global_norm v) = Fin b /\ snd (global_norm w) = Fin c /\ c <= a + b.
Proof. exact @global_norm_triangle. Qed.
Print Assumptions C52_triangle.

(** Any two trees holding the same elements, in any order, nesting, splitting into leaves, shape or dtype, have the same norm. *)
Theorem C52_independent_of_nesting : forall `{P : Platform} (u v : tree tensor), finite_tree u -> Permutation (vals u) (vals v) ->
  snd (global_norm u) = snd (global_norm v).
Proof. exact @global_norm_perm. Qed.
Print Assumptions C52_independent_of_nesting.

Example C52_example : forall `{P : Platform},
  snd (global_norm (Node KList [Leaf (mkT F32 [1%nat] [Fin 3]); Node KTuple [Leaf (mkT BF16 [] [Fin (-4)])]])) = Fin 5.
Proof. exact @global_norm_example. Qed.

(** For every array of finite values, of any shape and dtype, and every real m, safe_norm(x, m) = max(||x||, m). *)
Theorem C02_safe_norm_value : forall `{P : Platform} (t : tensor) (m : R), Forall isfin (dat t) ->
  safe_norm t (Fin m) = Fin (Rmax (norm2 (map xval (dat t))) m).
Proof. exact @safe_norm_is. Qed.
Print Assumptions C02_safe_norm_value.

(** For every finite tree (any nesting, shapes, dtypes) and m > 0, the result is c * updates for one common scalar 0 < c <= 1, where with n the Euclidean norm of all elements of all leaves c = 1 if n < m and c = m/n otherwise; the Euclidean norm of the result is min(n, m); the tree structure and leaf shapes are kept and every leaf gets the dtype all leaf dtypes promote to. *)
Theorem C05_clip_by_global_norm : forall `{P : Platform} (u : tree tensor) (m : R) (st : state) par,
  0 < m -> trwf u -> finite_tree u ->
  let n := norm2 (rvals u) in
  exists u' c, update (clip_by_global_norm (Fin m)) u st par = Ok (u', st) /\ 0 < c <= 1 /\ (n < m -> c = 1) /\ (m <= n -> c = m / n) /\
    tmap (fun t => shp t) u' = tmap (fun t => shp t) u /\ trwf u' /\
    tmap (fun t => dt t) u' = tmap (fun t => fold_left promote (map (fun t' => dt t') (leaves u)) (dt t)) u /\
    (forall pos x, elt u pos = Some (Fin x) -> elt u' pos = Some (Fin (c * x))) /\
    finite_tree u' /\ norm2 (rvals u') = Rmin n m.
Proof. exact @cbgn_spec. Qed.
Print Assumptions C05_clip_by_global_norm.

(** When all leaves have one dtype, shapes and dtypes are exactly preserved, and updates of norm below m are returned bit for bit, in any arithmetic. *)
Theorem C05_below_unchanged : forall `{O : Ops} (u : tree tensor) (m : F) (d : fdt) (st : state) par,
  trwf u -> Forall (fun t => dt t = d) (leaves u) -> flt (snd (global_norm u)) (fcast d m) = true ->
  update (clip_by_global_norm m) u st par = Ok (u, st).
Proof. exact @cbgn_unchanged. Qed.
Print Assumptions C05_below_unchanged.

(** The restriction m > 0 is needed: clip_by_global_norm(0) turns the zero gradient into NaN. *)
Theorem C05_zero_max_norm_refuted : forall `{P : Platform}, exists u', update (clip_by_global_norm (Fin 0)) (one (Fin 0)) EmptyState None = Ok (u', EmptyState) /\
  elt u' (0%nat, 0%nat) = Some NaN.
Proof. exact @cbgn_zero. Qed.
Print Assumptions C05_zero_max_norm_refuted.

(** Dtypes are not always preserved: a bfloat16 leaf next to a float32 leaf comes back as float32. *)
Theorem C05_mixed_dtypes_promoted_refuted : forall `{P : Platform}, exists u',
  update (clip_by_global_norm (Fin 1)) (Node KList [Leaf (mkT BF16 [] [Fin 1]); Leaf (mkT F32 [] [Fin 1])]) EmptyState None = Ok (u', EmptyState) /\
  tmap (fun t => dt t) u' = Node KList [Leaf F32; Leaf F32].
Proof. exact @cbgn_mixed. Qed.
Print Assumptions C05_mixed_dtypes_promoted_refuted.

Example C05_example : forall `{P : Platform}, exists u',
  update (clip_by_global_norm (Fin 1)) (Node KList [one (Fin 3); one (Fin (-4))]) EmptyState None = Ok (u', EmptyState) /\
  elt u' (1%nat, 0%nat) = Some (Fin (- (4 / 5))).
Proof. exact @cbgn_example. Qed.

(** For every updates/params trees of one structure (shapes and dtypes arbitrary) with finite elements and min_norm m >= 0: every leaf is multiplied by one positive number k, so direction and shape are kept and nothing becomes infinite or NaN; k is max(|p|,m)/max(|u|,m) unless one of these is zero, then k = 1. With m = 0 the new norm is the parameter's norm if both norms are non-zero, and the leaf is unchanged if either is zero. *)
Theorem C24_scale_by_trust_ratio : forall `{P : Platform} (u p : tree tensor) (m : R) (st : state),
  0 <= m -> tdef u = tdef p -> trwf u -> finite_tree u -> finite_tree p ->
  exists u', update (scale_by_trust_ratio (Fin m)) u st (Some p) = Ok (u', st) /\ tdef u' = tdef u /\
    forall j a b r, nth_error (leaves u) j = Some a -> nth_error (leaves p) j = Some b -> nth_error (leaves u') j = Some r ->
      exists k, 0 < k /\ leaf_scaled k a r /\
        (0 < Rmax (lnorm b) m -> 0 < Rmax (lnorm a) m -> k = Rmax (lnorm b) m / Rmax (lnorm a) m) /\
        (Rmax (lnorm b) m = 0 \/ Rmax (lnorm a) m = 0 -> k = 1) /\
        (m = 0 -> lnorm a <> 0 -> lnorm b <> 0 -> lnorm r = lnorm b) /\
        (m = 0 -> lnorm a = 0 \/ lnorm b = 0 -> dat r = dat a).
Proof. exact @trust_spec. Qed.
Print Assumptions C24_scale_by_trust_ratio.

(** Without params it raises ValueError. *)
Theorem C24_params_required : forall `{O : Ops} (m : F) u st, update (scale_by_trust_ratio m) u st None = Err EValue.
Proof. exact @trust_none. Qed.
Print Assumptions C24_params_required.

Example C24_example : forall `{P : Platform}, exists u',
  update (scale_by_trust_ratio (Fin 0)) (one (Fin 2)) EmptyState (Some (one (Fin (-3)))) = Ok (u', EmptyState) /\ elt u' (0%nat, 0%nat) = Some (Fin 3).
Proof. exact @trust_example. Qed.
