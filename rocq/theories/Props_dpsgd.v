(** Generated by tools/genprops.py from P_dpsgd.v: property theorems only. *)
From Verif Require Import P_dpsgd.
From Coquelicot Require Import Coquelicot.
From Coq Require Import List Reals.
Import ListNotations.
Open Scope list_scope.
Open Scope nat_scope.

(** Whatever per-example gradients (finite, of the declared shapes) the steps compute from the parameters published so far, and whatever noise the generator hands out, T steps of dpsgd updates and apply_updates succeed and there is exactly one sequence of T published parameters, all finite and of the signature of the initial ones. *)
Theorem C81_dpsgd_session : forall (P : Platform) (L : @lrate (XROps P)) (lr : Z -> R) (C m : R) (seed : Z) (mom : option R) (nest : bool) (B T : nat) (p0 : tree (gt XR)) (w : list (list R)) (G : list (list R) -> tree (gt XR)),
  (forall c, rate L c = Fin (lr c)) -> (0 < C)%R -> 1 <= B -> trwf p0 -> finite_tree p0 -> one_dtype p0 -> submits (batches p0 B) B G ->
  noise_shape (total_size (example_shapes (batches p0 B))) T w -> hands_out P seed (example_shapes (batches p0 B)) T w ->
  exists qs, dpsgd_trained (P := P) L C m seed mom nest p0 G T qs /\ length qs = T /\ Forall (@P_regret.point_of P p0) qs /\ forall qs', dpsgd_trained (P := P) L C m seed mom nest p0 G T qs' -> qs' = qs.
Proof. exact @dpsgd_session. Qed.
Print Assumptions C81_dpsgd_session.

(** Training with dpsgd is differentially private. dpsgd of any learning rate or schedule, with or without momentum or Nesterov, standard normal noise; the per-example gradients of each step are any function of the parameters published so far. Two runs whose batches differ, at each step, in at most one example: for every test (with values in [0,1]) of the whole sequence of published parameters, its expectation under the one run is at most e^eps times that under the other plus delta, with the delta of C81_privacy; if the example is all zero in one of the runs, with the delta of C81_removal. *)
Theorem C81_dpsgd : forall (lr : Z -> R) (C m : R) (seed : Z) (mom : option R) (nest : bool) (B T : nat) (p0 : tree (gt XR)) (world : list (list R) -> Platform) (L : forall w, @lrate (XROps (world w))) (G G' : list (list R) -> tree (gt XR)) (phi X X' : list (list R) -> R) (a b eps : R),
  let shapes := example_shapes (batches p0 B) in let n := total_size shapes in
  (forall w c, rate (L w) c = Fin (lr c)) -> (0 < C)%R -> (0 < m)%R -> 1 <= B -> 1 <= T -> trwf p0 -> finite_tree p0 -> one_dtype p0 -> submits (batches p0 B) B G -> submits (batches p0 B) B G' ->
  (forall w, noise_shape n T w -> hands_out (world w) seed shapes T w) ->
  (forall xs, 0 <= phi xs <= 1)%R ->
  (forall w qs, noise_shape n T w -> dpsgd_trained (P := world w) (L w) C m seed mom nest p0 G T qs -> X w = phi (map rvals qs)) ->
  (forall w qs, noise_shape n T w -> dpsgd_trained (P := world w) (L w) C m seed mom nest p0 G' T qs -> X' w = phi (map rvals qs)) ->
  E_blocks n T X a -> E_blocks n T X' b ->
  ((forall h, differ_in_one B (G h) (G' h)) ->
   (forall al, 1 < al -> a <= exp eps * b + exp ((al - 1) * (2 * al * INR T / (m * m) - eps)))%R /\
   (2 * INR T / (m * m) < eps -> a <= exp eps * b + exp (- ((eps - 2 * INR T / (m * m)) * (eps - 2 * INR T / (m * m)) * (m * m) / (8 * INR T))))%R) /\
  ((forall h, differ_in_one_zero B (G h) (G' h)) ->
   (forall al, 1 < al -> a <= exp eps * b + exp ((al - 1) * (al * INR T / (2 * (m * m)) - eps)))%R /\
   (INR T / (2 * (m * m)) < eps -> a <= exp eps * b + exp (- ((eps - INR T / (2 * (m * m))) * (eps - INR T / (2 * (m * m))) * (m * m) / (2 * INR T))))%R).
Proof. exact @dpsgd_privacy. Qed.
Print Assumptions C81_dpsgd.

Example C81_dpsgd_example : exists (X X' : list (list R) -> R) (a b : R), let shapes := example_shapes (batches ds_p 2) in let n := total_size shapes in
  trwf ds_p /\ finite_tree ds_p /\ one_dtype ds_p /\ submits (batches ds_p 2) 2 (ds_grads 2) /\ submits (batches ds_p 2) 2 (ds_grads (-3)) /\ (forall h, differ_in_one 2 (ds_grads 2 h) (ds_grads (-3) h)) /\ (forall h, ds_grads 2 h <> ds_grads (-3) h) /\
  (forall w, noise_shape n 2 w -> hands_out (handing shapes w) 7 shapes 2 w) /\
  (forall w qs, noise_shape n 2 w -> dpsgd_trained (P := handing shapes w) (@LConst (XROps (handing shapes w)) (Fin 1)) 1 1 7 (Some (1 / 2)%R) false ds_p (ds_grads 2) 2 qs -> X w = test_first (map rvals qs)) /\
  (forall w qs, noise_shape n 2 w -> dpsgd_trained (P := handing shapes w) (@LConst (XROps (handing shapes w)) (Fin 1)) 1 1 7 (Some (1 / 2)%R) false ds_p (ds_grads (-3)) 2 qs -> X' w = test_first (map rvals qs)) /\
  E_blocks n 2 X a /\ E_blocks n 2 X' b /\ (a <= exp 6 * b + exp (- (1 / 4)))%R.
Proof. exact @dpsgd_privacy_example. Qed.
