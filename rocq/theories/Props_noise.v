(** Generated by tools/genprops.py from P_noise.v: property theorems only. *)
From Verif Require Import P_noise.
From Coq Require Import List.
Import ListNotations.
Open Scope list_scope.
Open Scope nat_scope.

(** for an ideal splittable generator and every sequence of calls: the key a leaf's noise is drawn from at a call always exists, no two (call, leaf) pairs draw from the same key, and no key drawn from is ever split, at any call. *)
Theorem C25_keys : forall `{O : Ops} (seed : Z) (cs : list nat), ideal_split ->
  (forall n j, n < length cs -> j < nth n cs 0 -> exists k, drawn (prng_key seed) cs n j = Some k) /\
  (forall n j n' j' k, n < length cs -> n' < length cs -> drawn (prng_key seed) cs n j = Some k -> drawn (prng_key seed) cs n' j' = Some k -> n = n' /\ j = j') /\
  (forall n j m, n < length cs -> m <= length cs -> drawn (prng_key seed) cs n j <> Some (carried (prng_key seed) (firstn m cs))).
Proof. exact @noise_keys. Qed.
Print Assumptions C25_keys.

(** such generators exist, with any samplers: keys as paths. *)
Theorem C25_keys_exist : forall (x : bool) (normal : fkey -> fdt -> list nat -> nat -> XR) (draw : law -> fkey -> list nat -> nat -> XR), @ideal_split (XROps (free_platform x normal draw)).
Proof. exact @free_ideal. Qed.
Print Assumptions C25_keys_exist.

(** for every generator whose split returns as many keys as asked and every history of well-formed gradient trees: add_noise never raises, keeps structure, shapes and dtypes, and adds to every element of every leaf, at the n-th call, (eta / n^gamma) times a normal sample drawn with that (call, leaf)'s own key. *)
Theorem C25_run : forall `{O : Ops} (eta gamma : F) (seed : Z) (p0 : tree tensor) (H : list (tree tensor * option (tree tensor))),
  (forall k n, length (ksplit k n) = n) -> Forall (fun h => trwf (fst h)) H ->
  exists outs, trains (add_noise eta gamma seed) p0 H outs /\ length outs = length H /\
    forall n u par, nth_error H n = Some (u, par) -> exists o, nth_error outs n = Some o /\ like u o /\
      forall j l k i x, nth_error (leaves u) j = Some l -> nth_error (dat l) i = Some x ->
        drawn (prng_key seed) (map (fun h => length (leaves (fst h))) H) n j = Some k ->
        elt o (j, i) = Some (fadd (dt l) x (fmul (dt l) (conv defdt (dt l) (noise_std eta gamma (cnt (S n)))) (knormal k (dt l) (shp l) i))).
Proof. exact @noise_run. Qed.
Print Assumptions C25_run.

(** in exact arithmetic the emitted element is g + eta/n^gamma * z, z the normal sample. *)
Theorem C25_formula : forall `{P : Platform} (eta gamma : R) (seed : Z) (p0 : tree tensor) (H : list (tree tensor * option (tree tensor))),
  (forall k n, length (ksplit k n) = n) -> Forall (fun h => trwf (fst h)) H -> (Z.of_nat (length H) <= int32_max)%Z ->
  exists outs, trains (add_noise (Fin eta) (Fin gamma) seed) p0 H outs /\ length outs = length H /\
    forall n u par j l k i g z, nth_error H n = Some (u, par) -> nth_error (leaves u) j = Some l -> nth_error (dat l) i = Some (Fin g) ->
        drawn (prng_key seed) (map (fun h => length (leaves (fst h))) H) n j = Some k -> knormal k (dt l) (shp l) i = Fin z ->
        oelt outs n (j, i) = Some (Fin (g + eta / Rpower (INR (S n)) gamma * z)).
Proof. exact @noise_formula. Qed.
Print Assumptions C25_formula.

(** the contribution x / max(|x|/C, 1) of an example has Euclidean norm at most C, and is x itself when its norm is at most C. *)
Theorem C37_clip : forall (C : R) (x : list R), (0 < C)%R -> (norm2 (contribution C x) <= C)%R /\ ((norm2 x <= C)%R -> contribution C x = x).
Proof. exact @contribution_norm. Qed.
Print Assumptions C37_clip.

(** for every clipping norm C > 0, every batch of B >= 1 finite per-example gradient trees: one call returns, for a noise vector that depends only on the key and the leaves' shapes and dtypes, exactly (sum over the examples of their contributions + C * noise_multiplier * noise) / B. *)
Theorem C37_aggregate : forall `{P : Platform} (C m : R) (seed : Z) (B : nat) (u : tree tensor) (k : key),
  (0 < C)%R -> (forall k n, length (ksplit k n) = n) -> (forall k d s i, isfin (knormal k d s i)) -> batch B u -> 1 <= B -> finite_tree u ->
  exists noise, (forall u' (par : option (tree tensor)), avals u' = avals u -> batch B u' -> finite_tree u' ->
    exists o s', update (differentially_private_aggregate (Fin C) (Fin m) seed) u' (SNode NDP [SKey k]) par = Ok (o, s') /\ tdef o = tdef u' /\
      vals o = map Fin (map2 (fun s z => (s + C * m * z) / INR B)%R (dp_total C B u') noise)) /\ length noise = length (dp_total C B u).
Proof. exact @dp_aggregate. Qed.
Print Assumptions C37_aggregate.

(** for every clipping norm C > 0, batch size B >= 1, generator state, and two batches of finite gradients of the same shapes that differ in (at most) one example: B times the difference of the two outputs of one call -- the difference of the two sums -- has global norm at most 2 C, whatever the noise. *)
Theorem C37_sensitivity : forall `{P : Platform} (C m : R) (seed : Z) (B i : nat) (u u' : tree tensor) (s : state) (par par' : option (tree tensor)) (o o' : tree tensor) (s1 s1' : state),
  (0 < C)%R -> (forall k n, length (ksplit k n) = n) -> (forall k d s i, isfin (knormal k d s i)) ->
  avals u' = avals u -> batch B u -> batch B u' -> finite_tree u -> finite_tree u' ->
  i < B -> (forall b, b < B -> b <> i -> example u' b = example u b) ->
  update (differentially_private_aggregate (Fin C) (Fin m) seed) u s par = Ok (o, s1) ->
  update (differentially_private_aggregate (Fin C) (Fin m) seed) u' s par' = Ok (o', s1') ->
  (INR B * norm2 (vsub (rvals o) (rvals o')) <= 2 * C)%R.
Proof. exact @dp_sensitivity. Qed.
Print Assumptions C37_sensitivity.

(** adding an all-zero example to a batch leaves the (noised) sum unchanged: B+1 times the new output equals B times the old one. *)
Theorem C37_zero_example : forall `{P : Platform} (C m : R) (seed : Z) (B n : nat) (u u' : tree tensor) (s : state) (par par' : option (tree tensor)) (o o' : tree tensor) (s1 s1' : state),
  (0 < C)%R -> (forall k n, length (ksplit k n) = n) -> (forall k d s i, isfin (knormal k d s i)) -> 1 <= B ->
  map (fun l => (dt l, tl (shp l))) (leaves u') = map (fun l => (dt l, tl (shp l))) (leaves u) -> batch B u -> batch (S B) u' -> finite_tree u -> finite_tree u' ->
  (forall b, b < B -> example u' b = example u b) -> example u' B = repeat 0%R n ->
  update (differentially_private_aggregate (Fin C) (Fin m) seed) u s par = Ok (o, s1) ->
  update (differentially_private_aggregate (Fin C) (Fin m) seed) u' s par' = Ok (o', s1') ->
  map (Rmult (INR (S B))) (rvals o') = map (Rmult (INR B)) (rvals o).
Proof. exact @dp_zero_example. Qed.
Print Assumptions C37_zero_example.

(** the key discipline, for differentially_private_aggregate: for an ideal splittable generator and every sequence of calls on trees with cs leaves, the noise key of every (call, leaf) exists, no two (call, leaf) pairs share one, and none is ever split. *)
Theorem C38_keys : forall `{O : Ops} (seed : Z) (cs : list nat), ideal_split ->
  (forall n j, n < length cs -> j < nth n cs 0 -> exists k, drawn (prng_key seed) cs n j = Some k) /\
  (forall n j n' j' k, n < length cs -> n' < length cs -> drawn (prng_key seed) cs n j = Some k -> drawn (prng_key seed) cs n' j' = Some k -> n = n' /\ j = j') /\
  (forall n j m, n < length cs -> m <= length cs -> drawn (prng_key seed) cs n j <> Some (carried (prng_key seed) (firstn m cs))).
Proof. exact @dp_keys. Qed.
Print Assumptions C38_keys.

(** for every history of batches: the aggregate never raises, drops the batch axis, keeps the tree structure, and element i of leaf j at call n is ( sum over the examples b of x_b / max(|example b|/C, 1) + C * noise_multiplier * z ) / B, z the normal sample drawn with that (call, leaf)'s own key; the sample's dtype is the leaf's when all leaves share one. *)
Theorem C38_formula : forall `{P : Platform} (C m : R) (seed : Z) (p0 : tree tensor) (H : list (tree tensor * option (tree tensor))),
  (0 < C)%R -> (forall k n, length (ksplit k n) = n) -> Forall (fun h => exists B, batch B (fst h)) H ->
  exists outs, trains (differentially_private_aggregate (Fin C) (Fin m) seed) p0 H outs /\ length outs = length H /\
    forall n u par B, nth_error H n = Some (u, par) -> batch B u -> exists o, nth_error outs n = Some o /\ tdef o = tdef u /\
      forall j l k, nth_error (leaves u) j = Some l -> drawn (prng_key seed) (map (fun h => length (leaves (fst h))) H) n j = Some k ->
        exists lo, nth_error (leaves o) j = Some lo /\ shp lo = tl (shp l) /\ ((forall l', In l' (leaves u) -> dt l' = dt l) -> dt lo = dt l) /\
          forall i z, finite_tree u -> 1 <= B -> i < prodn (tl (shp l)) -> knormal k (dt lo) (tl (shp l)) i = Fin z ->
            elt o (j, i) = Some (Fin ((rsum (map (fun b => xval (nth (b * prodn (tl (shp l)) + i) (dat l) NaN) / Rmax (norm2 (example u b) / C) 1)%R (seq 0 B)) + C * m * z) / INR B)%R).
Proof. exact @dp_formula. Qed.
Print Assumptions C38_formula.

(** inconsistent batch sizes and rank-0 leaves are refused: ValueError, except that a tree without leaves or whose first leaf has rank 0 raises IndexError; and nothing else is refused. *)
Theorem C38_errors : forall `{O : Ops} (C m : F) (seed : Z) (u : tree tensor) (k : key) (par : option (tree tensor)), (forall k n, length (ksplit k n) = n) -> trwf u ->
  let r := update (differentially_private_aggregate C m seed) u (SNode NDP [SKey k]) par in
  (r = Err EIndex <-> match leaves u with [] => True | g :: _ => shp g = [] end) /\
  (r = Err EValue <-> exists g B s, hd_error (leaves u) = Some g /\ shp g = B :: s /\ exists g', In g' (leaves u) /\ forall s', shp g' <> B :: s') /\
  ((exists o s, r = Ok (o, s)) <-> exists B, batch B u).
Proof. exact @dp_errors. Qed.
Print Assumptions C38_errors.

Example C25_example : exists outs, @trains (XROps ones_platform) (@add_noise (XROps ones_platform) (Fin 1) (Fin 1) 7) ex_p ex_H outs /\ oelt outs 1 (0, 1) = Some (Fin (2 + 1 / 2)).
Proof. exact @noise_example. Qed.

Example C37_example : exists o s, @update (XROps ones_platform) (@differentially_private_aggregate (XROps ones_platform) (Fin 1) (Fin 1) 7) (dp_ex 3 (3 / 10) 4 (4 / 10)) (@SNode (XROps ones_platform) NDP [@SKey (XROps ones_platform) (FRoot 7)]) None = Ok (o, s) /\
  rvals o = [(3 / 5 + 3 / 10 + 1) / 2; (4 / 5 + 4 / 10 + 1) / 2]%R.
Proof. exact @dp_example. Qed.

Example C38_example : exists outs o, @trains (XROps ones_platform) (@differentially_private_aggregate (XROps ones_platform) (Fin 1) (Fin 1) 7) ex_p [(dp_ex 1 2 3 4, None); (dp_ex 3 (3 / 10) 4 (4 / 10), None)] outs /\ nth_error outs 1 = Some o /\ tdef o = tdef (dp_ex 1 2 3 4) /\
  elt o (1, 0) = Some (Fin ((4 / 5 + 4 / 10 + 1) / 2)).
Proof. exact @dp_run_example. Qed.
