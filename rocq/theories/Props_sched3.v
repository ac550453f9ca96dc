(** Generated by tools/genprops.py from P_sched3.v: property theorems only. *)
From Verif Require Import P_sched3.
From Coq Require Import Permutation.
Open Scope R_scope.

(** with k1 = int(pct_start*steps) and k2 = int(pct_final*steps), 0 < k1 < k2 < steps, positive div factors: the schedule is finite; it is the straight line from peak/div at 0 to peak at k1, then back to peak/div at k2, then down to peak/(div*final_div) at steps, and stays there; with peak >= 0, div >= 1, final_div >= 1 it never exceeds peak_value at any count. *)
Theorem C44_linear_onecycle : forall `{P : Platform} (steps k1 k2 : Z) (peak ps pf df ff : R),
  (0 < k1 < k2)%Z -> (k2 < steps)%Z -> 0 <= ps -> 0 <= pf ->
  IZR k1 <= ps * IZR steps < IZR k1 + 1 -> IZR k2 <= pf * IZR steps < IZR k2 + 1 -> 0 < df -> 0 < ff ->
  exists s (f : Z -> R), linear_onecycle_schedule steps (Fin peak) (Fin ps) (Fin pf) (Fin df) (Fin ff) = Ok s /\ (forall c, s c = Fin (f c)) /\
    f 0%Z = peak / df /\ f k1 = peak /\ f k2 = peak / df /\
    (forall c, (steps <= c)%Z -> f c = peak / df / ff) /\
    (forall c, (0 <= c <= k1)%Z -> f c = peak / df + (peak - peak / df) * (IZR c / IZR k1)) /\
    (forall c, (k1 <= c <= k2)%Z -> f c = peak + (peak / df - peak) * (IZR (c - k1) / IZR (k2 - k1))) /\
    (forall c, (k2 <= c <= steps)%Z -> f c = peak / df + (peak / df / ff - peak / df) * (IZR (c - k2) / IZR (steps - k2))) /\
    (0 <= peak -> 1 <= df -> 1 <= ff -> forall c, f c <= peak).
Proof. exact @linear_onecycle. Qed.
Print Assumptions C44_linear_onecycle.

(** with k1 = int(pct_start*steps), 0 < k1 < steps, positive div factors: the schedule is finite, starts at peak/div, rises along a half cosine to peak at k1, falls along a half cosine to peak/(div*final_div) at steps and stays there; with peak >= 0, div >= 1, div*final_div >= 1 it never exceeds peak_value. *)
Theorem C44_cosine_onecycle : forall `{P : Platform} (steps k1 : Z) (peak ps df ff : R),
  (0 < k1 < steps)%Z -> 0 <= ps -> IZR k1 <= ps * IZR steps < IZR k1 + 1 -> 0 < df -> 0 < ff ->
  exists s (f : Z -> R), cosine_onecycle_schedule steps (Fin peak) (Fin ps) (Fin df) (Fin ff) = Ok s /\ (forall c, s c = Fin (f c)) /\
    f 0%Z = peak / df /\ f k1 = peak /\ (forall c, (steps <= c)%Z -> f c = peak / (df * ff)) /\
    (forall c, (0 <= c <= k1)%Z -> f c = peak + (peak / df - peak) * ((1 + cos (PI * (IZR c / IZR k1))) / 2)) /\
    (forall c, (k1 <= c <= steps)%Z -> f c = peak / (df * ff) + (peak - peak / (df * ff)) * ((1 + cos (PI * (IZR (c - k1) / IZR (steps - k1)))) / 2)) /\
    (0 <= peak -> 1 <= df -> 1 <= df * ff -> forall c, f c <= peak).
Proof. exact @cosine_onecycle. Qed.
Print Assumptions C44_cosine_onecycle.

(** non-positive transition_steps raise ValueError (any arithmetic, any other arguments). *)
Theorem C44_raises : forall `{O : Ops} (steps : Z) (peak ps pf df ff : F), (steps <= 0)%Z ->
  linear_onecycle_schedule steps peak ps pf df ff = Err EValue /\ cosine_onecycle_schedule steps peak ps df ff = Err EValue.
Proof. exact @onecycle_raises. Qed.
Print Assumptions C44_raises.

(** if pct_start*transition_steps is below 1 (so int(...) is 0) the one-cycle schedules are NaN at every count. *)
Theorem C44_short_cycle_nan : forall `{P : Platform} (steps k2 : Z) (peak ps pf df ff : R),
  (0 < steps)%Z -> Rabs (ps * IZR steps) < 1 -> (0 <= k2)%Z -> 0 <= pf -> IZR k2 <= pf * IZR steps < IZR k2 + 1 -> 0 < df -> 0 < ff ->
  (exists s, linear_onecycle_schedule steps (Fin peak) (Fin ps) (Fin pf) (Fin df) (Fin ff) = Ok s /\ forall c, s c = NaN) /\
  (exists s, cosine_onecycle_schedule steps (Fin peak) (Fin ps) (Fin df) (Fin ff) = Ok s /\ forall c, s c = NaN).
Proof. exact @onecycle_nan. Qed.
Print Assumptions C44_short_cycle_nan.

Example C44_example : forall `{P : Platform}, exists s, linear_onecycle_schedule 10 (Fin 1) (Fin (3/10)) (Fin (85/100)) (Fin 25) (Fin 10000) = Ok s /\ s 3%Z = Fin 1 /\ s 0%Z = Fin (1/25).
Proof. exact @onecycle_example. Qed.

(** for n+1 schedules and n increasing boundaries, and any step: if the i-th interval (b_i <= step < b_{i+1}, with b_0 = minus infinity and b_{n+1} = infinity) contains the step, join_schedules evaluates exactly the i-th schedule at step - b_i (the 0-th one at the step itself). Any arithmetic, any schedules. *)
Theorem C45_join : forall `{O : Ops} (s0 : schedule) (rest : list schedule) (bs : list Z), length rest = length bs -> increasing bs ->
  exists s, join_schedules (s0 :: rest) bs = Ok s /\
    (forall step, Forall (fun b => (step < b)%Z) bs -> s step = s0 step) /\
    (forall i b si step, nth_error bs i = Some b -> nth_error rest i = Some si -> (b <= step)%Z ->
       (forall b', nth_error bs (S i) = Some b' -> (step < b')%Z) -> s step = si (step - b)%Z).
Proof. exact @join_spec. Qed.
Print Assumptions C45_join.

(** for warmup_steps > 0, decay_steps > warmup_steps and peak_value <> 0: finite everywhere; init_value at 0; the straight line from init to peak up to warmup_steps, where it is exactly peak_value; then the half cosine down to end_value, which it equals from decay_steps on; from warmup_steps on it lies between peak_value and end_value. *)
Theorem C45_warmup_cosine : forall `{P : Platform} (init peak fin : R) (w n : Z), (0 < w < n)%Z -> peak <> 0 ->
  exists s (f : Z -> R), warmup_cosine_decay_schedule (Fin init) (Fin peak) w n (Fin fin) = Ok s /\ (forall c, s c = Fin (f c)) /\
    f 0%Z = init /\ f w = peak /\ (forall c, (n <= c)%Z -> f c = fin) /\
    (forall c, (0 <= c <= w)%Z -> f c = init + (peak - init) * (IZR c / IZR w)) /\
    (forall c, (w <= c <= n)%Z -> f c = fin + (peak - fin) * ((1 + cos (PI * IZR (c - w) / IZR (n - w))) / 2)) /\
    (forall c, (w <= c)%Z -> Rmin peak fin <= f c <= Rmax peak fin).
Proof. exact @warmup_cosine. Qed.
Print Assumptions C45_warmup_cosine.

(** warmup_steps <= 0 starts at peak_value (init_value is never used at counts >= 0); peak_value = 0 raises ZeroDivisionError; decay_steps <= warmup_steps raises ValueError. *)
Theorem C45_warmup_edge_cases : forall `{P : Platform} (init peak fin : R) (w n : Z),
  (peak = 0 -> warmup_cosine_decay_schedule (Fin init) (Fin peak) w n (Fin fin) = Err EZeroDiv) /\
  (peak <> 0 -> (n <= w)%Z -> warmup_cosine_decay_schedule (Fin init) (Fin peak) w n (Fin fin) = Err EValue) /\
  (peak <> 0 -> w = 0%Z -> (0 < n)%Z -> exists s, warmup_cosine_decay_schedule (Fin init) (Fin peak) w n (Fin fin) = Ok s /\ s 0%Z = Fin peak).
Proof. exact @warmup_edges. Qed.
Print Assumptions C45_warmup_edge_cases.

(** for warmup_steps > 0: the straight line from init to peak on [0, warmup_steps), then exactly the exponential decay from peak at the offset count - warmup_steps. *)
Theorem C45_warmup_exponential : forall `{P : Platform} (init peak rate : R) (w steps begin : Z) (stair : bool) (e : option R), (0 < w)%Z ->
  exists s, warmup_exponential_decay_schedule (Fin init) (Fin peak) w steps (Fin rate) begin stair (option_map Fin e) = Ok s /\
    s 0%Z = Fin init /\
    (forall c, (0 <= c < w)%Z -> s c = Fin (init + (peak - init) * (IZR c / IZR w))) /\
    (forall c, (w <= c)%Z -> s c = exponential_decay (Fin peak) steps (Fin rate) begin stair (option_map Fin e) (c - w)%Z) /\
    ((0 < steps)%Z -> 0 < rate -> e = None -> s w = Fin peak) /\
    ((0 < steps)%Z -> 0 < rate < 1 -> forall x, e = Some x -> forall c, (w <= c)%Z -> exists v, s c = Fin v /\ x <= v).
Proof. exact @warmup_exponential. Qed.
Print Assumptions C45_warmup_exponential.

(** for any non-empty list of cycles with positive decay_steps (whose warm-up cosine schedules exist), sgdr_schedule at a step in the i-th cycle - from the sum of the previous decay_steps to the sum including its own, the last cycle being open-ended - is exactly the i-th cycle's warmup_cosine_decay_schedule at the offset from the cycle's start: it restarts at each cumulative boundary. *)
Theorem C45_sgdr : forall `{O : Ops} (l : list cosine_kwargs) (ss : list schedule), l <> [] -> Forall (fun k => (0 < ck_decay k)%Z) l ->
  Forall2 (fun k s => warmup_cosine_decay_schedule (ck_init k) (ck_peak k) (ck_warmup k) (ck_decay k) (ck_end k) = Ok s) l ss ->
  exists s, sgdr_schedule l = Ok s /\
    forall i si step, nth_error ss i = Some si ->
      let start := sumz (map ck_decay (firstn i l)) in
      ((start <= step)%Z \/ i = 0%nat) -> ((step < start + sumz (map ck_decay (firstn 1 (skipn i l))))%Z \/ S i = length l) ->
      s step = si (step - start)%Z.
Proof. exact @sgdr_spec. Qed.
Print Assumptions C45_sgdr.

Example C45_example : forall `{P : Platform}, exists s, warmup_cosine_decay_schedule (Fin 0) (Fin 2) 4 12 (Fin 1) = Ok s /\ s 4%Z = Fin 2 /\ s 100%Z = Fin 1 /\
  exists t, sgdr_schedule [mkCos (Fin 0) (Fin 2) 4 12 (Fin 1); mkCos (Fin 0) (Fin 1) 2 6 (Fin (1/4))] = Ok t /\ t 14%Z = Fin 1.
Proof. exact @warmup_example. Qed.
