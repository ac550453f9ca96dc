(** Generated by tools/genprops.py from P_dp.v: property theorems only. *)
From Verif Require Import P_dp.
From Coquelicot Require Import Coquelicot.
From Coq Require Import List Reals.
Import ListNotations.
Open Scope list_scope.
Open Scope nat_scope.

(** Whatever gradients the run submits (finite, of the declared shapes, chosen from everything released before) and whatever noise the generator hands out, the T calls succeed and release exactly one sequence of aggregates, of T entries. *)
Theorem C81_session : forall (P : Platform) (C m : R) (seed : Z) (B T : nat) (A : tree (fdt * list nat)) (w : list (list R)) (G : list (list R) -> tree (gt XR)) (p0 : tree (gt XR)),
  (0 < C)%R -> 1 <= B -> submits A B G -> noise_shape (total_size (example_shapes A)) T w -> hands_out P seed (example_shapes A) T w ->
  exists ys, releases (P := P) C m seed p0 G T ys /\ length ys = T /\ forall ys', releases (P := P) C m seed p0 G T ys' -> ys' = ys.
Proof. exact @dp_session. Qed.
Print Assumptions C81_session.

(** Differential privacy of T calls of differentially_private_aggregate with independent standard normal noise. The per-example gradients of each call may depend on everything released before (as they do in training); the two runs differ, at each call, in at most one example of the batch. For every test of the T released aggregates, randomised or not, with values in [0,1], its expectation under the one run is at most e^eps times that under the other, plus delta, with delta = exp((al - 1) (2 al T / noise_multiplier^2 - eps)) for every al > 1: whatever l2_norm_clip, the batch size, the shapes and the gradients. In particular, for eps > 2 T / noise_multiplier^2, delta = exp(- (eps - 2 T / m^2)^2 m^2 / (8 T)). *)
Theorem C81_privacy : forall (C m : R) (seed : Z) (B T : nat) (A : tree (fdt * list nat)) (world : list (list R) -> Platform) (G G' : list (list R) -> tree (gt XR)) (p0 : tree (gt XR)) (phi X X' : list (list R) -> R) (a b eps : R),
  let n := total_size (example_shapes A) in
  (0 < C)%R -> (0 < m)%R -> 1 <= B -> 1 <= T -> submits A B G -> submits A B G' -> (forall h, differ_in_one B (G h) (G' h)) ->
  (forall w, noise_shape n T w -> hands_out (world w) seed (example_shapes A) T w) ->
  (forall ys, 0 <= phi ys <= 1)%R ->
  (forall w ys, noise_shape n T w -> releases (P := world w) C m seed p0 G T ys -> X w = phi ys) ->
  (forall w ys, noise_shape n T w -> releases (P := world w) C m seed p0 G' T ys -> X' w = phi ys) ->
  E_blocks n T X a -> E_blocks n T X' b ->
  (forall al, 1 < al -> a <= exp eps * b + exp ((al - 1) * (2 * al * INR T / (m * m) - eps)))%R /\
  (2 * INR T / (m * m) < eps -> a <= exp eps * b + exp (- ((eps - 2 * INR T / (m * m)) * (eps - 2 * INR T / (m * m)) * (m * m) / (8 * INR T))))%R.
Proof. exact @dp_privacy. Qed.
Print Assumptions C81_privacy.

(** The same when the two runs differ, at each call, in one example that is all zero in one of them (removing a person's data instead of exchanging it): the sensitivity halves, delta = exp((al - 1) (al T / (2 noise_multiplier^2) - eps)), and for eps > T / (2 m^2), delta = exp(- (eps - T / (2 m^2))^2 m^2 / (2 T)). *)
Theorem C81_removal : forall (C m : R) (seed : Z) (B T : nat) (A : tree (fdt * list nat)) (world : list (list R) -> Platform) (G G' : list (list R) -> tree (gt XR)) (p0 : tree (gt XR)) (phi X X' : list (list R) -> R) (a b eps : R),
  let n := total_size (example_shapes A) in
  (0 < C)%R -> (0 < m)%R -> 1 <= B -> 1 <= T -> submits A B G -> submits A B G' -> (forall h, differ_in_one_zero B (G h) (G' h)) ->
  (forall w, noise_shape n T w -> hands_out (world w) seed (example_shapes A) T w) ->
  (forall ys, 0 <= phi ys <= 1)%R ->
  (forall w ys, noise_shape n T w -> releases (P := world w) C m seed p0 G T ys -> X w = phi ys) ->
  (forall w ys, noise_shape n T w -> releases (P := world w) C m seed p0 G' T ys -> X' w = phi ys) ->
  E_blocks n T X a -> E_blocks n T X' b ->
  (forall al, 1 < al -> a <= exp eps * b + exp ((al - 1) * (al * INR T / (2 * (m * m)) - eps)))%R /\
  (INR T / (2 * (m * m)) < eps -> a <= exp eps * b + exp (- ((eps - INR T / (2 * (m * m))) * (eps - INR T / (2 * (m * m))) * (m * m) / (2 * INR T))))%R.
Proof. exact @dp_removal. Qed.
Print Assumptions C81_removal.

(** Such generators exist, for all shapes, numbers of calls, noise vectors and seeds, and they are ideal splittable generators. *)
Theorem C81_generators : forall (shapes : list (list nat)) (w : list (list R)), @ideal_split (XROps (handing shapes w)) /\ forall (seed : Z) (T : nat), hands_out (handing shapes w) seed shapes T w.
Proof. exact @generators_exist. Qed.
Print Assumptions C81_generators.

(** The expectation used above: over T blocks of n independent standard normal draws every function has at most one expectation, constants have themselves, it is linear and monotone, the first draw has the density of the standard normal law, and every bounded Lipschitz function of the draws has one. *)
Theorem C81_expectations : forall (n T : nat),
  (forall k, E_blocks n T (fun _ => k) k) /\
  (forall g g' l l' a b, E_blocks n T g l -> E_blocks n T g' l' -> E_blocks n T (fun w => a * g w + b * g' w)%R (a * l + b * l')%R) /\
  (forall g g' l l', (forall w, noise_shape n T w -> g w <= g' w)%R -> E_blocks n T g l -> E_blocks n T g' l' -> (l <= l')%R) /\
  (forall g l l', E_blocks n T g l -> E_blocks n T g l' -> l = l') /\
  (forall (f : R -> R) l, is_RInt_gen (V := R_NormedModule) (fun x => f x * (exp (- (x * x) / 2) / sqrt (2 * PI)))%R (Rbar_locally m_infty) (Rbar_locally p_infty) l -> E_blocks (S n) (S T) (fun w => f (hd 0%R (hd [] w))) l) /\
  (forall g L M, (0 <= L)%R -> (forall w, noise_shape n T w -> Rabs (g w) <= M)%R -> (forall w w', noise_shape n T w -> noise_shape n T w' -> Rabs (g w - g w') <= L * dist2 w w')%R -> exists l, E_blocks n T g l).
Proof. exact @expectation_ok. Qed.
Print Assumptions C81_expectations.

Example C81_example : exists (X X' : list (list R) -> R) (a b : R), let A := avals (dp_pair 0 0) in let n := total_size (example_shapes A) in
  submits A 2 (adaptive 2) /\ submits A 2 (adaptive (-3)) /\ (forall h, differ_in_one 2 (adaptive 2 h) (adaptive (-3) h)) /\ (forall h, adaptive 2 h <> adaptive (-3) h) /\
  (forall w, noise_shape n 2 w -> hands_out (handing (example_shapes A) w) 7 (example_shapes A) 2 w) /\ (forall ys, 0 <= test_first ys <= 1)%R /\
  (forall w ys, noise_shape n 2 w -> releases (P := handing (example_shapes A) w) 1 1 7 ex_p (adaptive 2) 2 ys -> X w = test_first ys) /\
  (forall w ys, noise_shape n 2 w -> releases (P := handing (example_shapes A) w) 1 1 7 ex_p (adaptive (-3)) 2 ys -> X' w = test_first ys) /\
  E_blocks n 2 X a /\ E_blocks n 2 X' b /\ (a <= exp 6 * b + exp (- (1 / 4)))%R.
Proof. exact @dp_privacy_example. Qed.
