(** Generated by tools/genprops.py from P_sched.v: property theorems only. *)
From Verif Require Import P_sched.
From Coq Require Import Permutation.
Open Scope R_scope.

(** for every transition_steps > 0, begin and power > 0, polynomial_schedule is init_value up to max(begin,0), end_value from max(begin,0)+steps on, and (init-end)*(1-(count-begin)/steps)^power+end in between. *)
Theorem C39_polynomial_values : forall `{P : Platform} (i e p : R) (steps begin c : Z), (0 < steps)%Z -> 0 < p ->
  let b := Z.max 0 begin in
  let v := polynomial_schedule (Fin i) (Fin e) (Fin p) steps begin c in
  ((c <= b)%Z -> v = Fin i) /\
  ((b + steps <= c)%Z -> v = Fin e) /\
  ((b <= c < b + steps)%Z -> v = Fin ((i - e) * Rpower (1 - IZR (c - b) / IZR steps) p + e)).
Proof. exact @poly_values. Qed.
Print Assumptions C39_polynomial_values.

(** for every power >= 0 (and any steps, begin), the value always lies between init_value and end_value, and moves monotonically from the former towards the latter as the count grows. *)
Theorem C39_polynomial_monotone : forall `{P : Platform} (i e p : R) (steps begin : Z), 0 <= p ->
  exists f : Z -> R, (forall c, polynomial_schedule (Fin i) (Fin e) (Fin p) steps begin c = Fin (f c)) /\
    (forall c, Rmin i e <= f c <= Rmax i e) /\
    (forall c c', (c <= c')%Z -> (e <= i -> f c' <= f c) /\ (i <= e -> f c <= f c')).
Proof. exact @poly_mono. Qed.
Print Assumptions C39_polynomial_monotone.

(** transition_steps <= 0 gives the constant init_value, a negative transition_begin behaves as 0, power 0 never leaves init_value (so end_value is not reached), and constant_schedule is constant; all with any arithmetic except the power-0 case. *)
Theorem C39_polynomial_degenerate : forall `{P : Platform} (i e p : XR) (steps begin c : Z),
  ((steps <= 0)%Z -> polynomial_schedule i e p steps begin c = i) /\
  ((begin < 0)%Z -> polynomial_schedule i e p steps begin c = polynomial_schedule i e p steps 0 c) /\
  (forall i' e' : R, polynomial_schedule (Fin i') (Fin e') (Fin 0) steps begin c = Fin i') /\
  constant_schedule i c = i.
Proof. exact @poly_degenerate. Qed.
Print Assumptions C39_polynomial_degenerate.

(** linear_schedule with steps > 0 is init + (end-init)*t/steps at offset t = count - max(begin,0) in [0, steps], init before and end after. *)
Theorem C39_linear : forall `{P : Platform} (i e : R) (steps begin c : Z), (0 < steps)%Z ->
  linear_schedule (Fin i) (Fin e) steps begin c = Fin (i + (e - i) * (IZR (Z.min (Z.max 0 (c - Z.max 0 begin)) steps) / IZR steps)).
Proof. exact @linear_values. Qed.
Print Assumptions C39_linear.

Example C39_example : forall `{P : Platform}, polynomial_schedule (Fin 10) (Fin 2) (Fin 2) 4%Z 3%Z 5%Z = Fin 4.
Proof. exact @poly_example. Qed.

(** for every dictionary of non-negative factors (written in any order) the schedule is built, and its value at every count is init_value times the product of the factors whose boundary is <= count. *)
Theorem C40_piecewise_constant : forall `{P : Platform} (init : R) (l : list (Z * R)), Forall (fun x => 0 <= snd x) l ->
  exists s, piecewise_constant_schedule (Fin init) (Some (map fitem l)) = Ok s /\
    forall c, s c = Fin (init * rprod (map snd (filter (fun x => (fst x <=? c)%Z) l))).
Proof. exact @pc_values. Qed.
Print Assumptions C40_piecewise_constant.

(** two ways of writing the same dictionary give the same schedule. *)
Theorem C40_piecewise_constant_order : forall `{P : Platform} (init : R) (l l' : list (Z * R)) s s', Permutation l l' ->
  piecewise_constant_schedule (Fin init) (Some (map fitem l)) = Ok s ->
  piecewise_constant_schedule (Fin init) (Some (map fitem l')) = Ok s' -> forall c, s c = s' c.
Proof. exact @pc_order. Qed.
Print Assumptions C40_piecewise_constant_order.

(** a negative (or NaN) factor makes the construction raise ValueError, whatever the arithmetic; no dictionary is the constant. *)
Theorem C40_negative_factor : forall `{O : Ops} (init : F) (l : list (Z * F)),
  (Exists (fun x => fle fzero (snd x) = false) l -> piecewise_constant_schedule init (Some l) = Err EValue) /\
  exists s, piecewise_constant_schedule init None = Ok s /\ forall c, s c = init.
Proof. exact @pc_negative. Qed.
Print Assumptions C40_negative_factor.

Example C40_example : forall `{P : Platform}, exists s, piecewise_constant_schedule (Fin 8) (Some (map fitem [(7%Z, / 4); (3%Z, / 2)])) = Ok s /\
  s 2%Z = Fin 8 /\ s 3%Z = Fin 4 /\ s 9%Z = Fin 1.
Proof. exact @pc_example. Qed.

(** the docstring (factors with boundary strictly below the step) is false: with a factor 1/2 at 5 the value at step 5 is already halved. *)
Theorem C40_docstring_refuted : forall `{P : Platform}, exists s, piecewise_constant_schedule (Fin 8) (Some (map fitem [(5%Z, / 2)])) = Ok s /\
  s 4%Z = Fin 8 /\ s 5%Z = Fin 4 /\ 8 * rprod (map snd (filter (fun x => (fst x <? 5)%Z) [(5%Z, / 2)])) = 8.
Proof. exact @pc_docstring. Qed.
Print Assumptions C40_docstring_refuted.

(** for steps > 0 and rate > 0, exponential_decay is (clipped by end_value: from below when rate < 1, from above otherwise) init_value up to max(begin,0) and init*rate^(t/steps) afterwards, t the offset from max(begin,0), with floor(t/steps) when staircase. *)
Theorem C41_exponential_values : forall `{P : Platform} (i r : R) (steps begin c : Z) (stair : bool) (e : option R), (0 < steps)%Z -> 0 < r ->
  exponential_decay (Fin i) steps (Fin r) begin stair (option_map Fin e) c =
  Fin (exp_clip r e (let t := (c - Z.max 0 begin)%Z in if (t <=? 0)%Z then i else i * Rpower r (exp_exponent stair t steps))).
Proof. exact @exp_values. Qed.
Print Assumptions C41_exponential_values.

(** for init >= 0 the schedule is non-increasing in the count when 0 < rate <= 1 and non-decreasing when rate >= 1, with or without staircase and end_value. *)
Theorem C41_exponential_monotone : forall `{P : Platform} (i r : R) (steps begin c c' : Z) (stair : bool) (e : option R) v v', (0 < steps)%Z -> 0 < r -> 0 <= i -> (c <= c')%Z ->
  exponential_decay (Fin i) steps (Fin r) begin stair (option_map Fin e) c = Fin v ->
  exponential_decay (Fin i) steps (Fin r) begin stair (option_map Fin e) c' = Fin v' ->
  (r <= 1 -> v' <= v) /\ (1 <= r -> v <= v').
Proof. exact @exp_mono. Qed.
Print Assumptions C41_exponential_monotone.

(** steps <= 0 or rate = 0 gives the constant init_value (end_value is then ignored), a negative begin behaves as 0, in any arithmetic. *)
Theorem C41_exponential_degenerate : forall `{O : Ops} (i r : F) (steps begin c : Z) (stair : bool) (e : option F),
  ((steps <= 0)%Z \/ feqb r fzero = true -> exponential_decay i steps r begin stair e c = i) /\
  ((begin < 0)%Z -> exponential_decay i steps r begin stair e c = exponential_decay i steps r 0 stair e c).
Proof. exact @exp_degenerate. Qed.
Print Assumptions C41_exponential_degenerate.

Example C41_example : forall `{P : Platform}, exponential_decay (Fin 8) 2%Z (Fin (/2)) 1%Z true (Some (Fin (/4))) 6%Z = Fin 2.
Proof. exact @exp_example. Qed.

(** for decay_steps > 0, cosine_decay_schedule has value init*((1-alpha)*(1+cos(pi*min(count,steps)/steps))/2+alpha): it starts at init, equals alpha*init from decay_steps on and, for init >= 0 and alpha <= 1, is non-increasing on counts >= 0 and stays within [alpha*init, init]. *)
Theorem C42_cosine : forall `{P : Platform} (i a : R) (steps : Z), (0 < steps)%Z -> exists s (f : Z -> R),
  cosine_decay_schedule (Fin i) steps (Fin a) = Ok s /\ (forall c, s c = Fin (f c)) /\
  (forall c, f c = i * ((1 - a) * ((1 + cos (PI * IZR (Z.min c steps) / IZR steps)) / 2) + a)) /\
  f 0%Z = i /\ (forall c, (steps <= c)%Z -> f c = a * i) /\
  (0 <= i -> a <= 1 -> (forall c, a * i <= f c <= i) /\ (forall c c', (0 <= c <= c')%Z -> f c' <= f c)).
Proof. exact @cosine_spec. Qed.
Print Assumptions C42_cosine.

Example C42_example : forall `{P : Platform}, exists s, cosine_decay_schedule (Fin 8) 10 (Fin (1/4)) = Ok s /\ s 0%Z = Fin 8 /\ s 5%Z = Fin 5 /\ s 17%Z = Fin 2.
Proof. exact @cos_example. Qed.

(** non-positive decay_steps raise ValueError. *)
Theorem C42_cosine_raises : forall `{O : Ops} (i a : F) (steps : Z), (steps <= 0)%Z -> cosine_decay_schedule i steps a = Err EValue.
Proof. exact @cosine_raises. Qed.
Print Assumptions C42_cosine_raises.
