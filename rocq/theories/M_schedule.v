(** schedule.py: schedules.  A schedule maps an integer step count to a float. *)
From Verif Require Export M_transform.
Open Scope Z_scope.

(** ** sorted(d.items()) for a dict with integer keys, given by its items in insertion order with
    distinct keys (so that values are never compared). *)
Fixpoint insert_item {A} (x : Z * A) (l : list (Z * A)) : list (Z * A) :=
  match l with
  | [] => [x]
  | y :: r => if fst x <=? fst y then x :: l else y :: insert_item x r
  end.
Definition sorted_items {A} (l : list (Z * A)) : list (Z * A) := fold_right insert_item [] l.
(** A dict literal [{k1: v1, k2: v2, ...}]: a repeated key keeps the last value. *)
Fixpoint dict_set {A} (l : list (Z * A)) (k : Z) (v : A) : list (Z * A) :=
  match l with
  | [] => [(k, v)]
  | (k', v') :: r => if k =? k' then (k', v) :: r else (k', v') :: dict_set r k v
  end.
Definition dict_lit {A} (l : list (Z * A)) : list (Z * A) := fold_left (fun d x => dict_set d (fst x) (snd x)) l [].

Section Sched.
  Context `{O : Ops}.
  Local Notation d := defdt.
  (** An int32 array converted to the default float dtype by true division, etc. *)
  Definition zf (z : Z) : F := fcast d (fofZ z).
  (** Python float arithmetic (float64). *)
  Definition pysub (a b : F) : F := fsub F64 a b.
  (** Python's float division raises ZeroDivisionError. *)
  Definition pydiv (a b : F) : result F := if feqb b fzero then Err EZeroDiv else Ok (fdiv F64 a b).
  (** Multiplication of a bool by a float. *)
  Definition fbool (b : bool) : F := if b then fcast d fone else fcast d fzero.
  (** Python's max(0., sign(z)) on an int32 array: a float. *)
  Definition pos_sign (z : Z) : F := fmax (fcast d fzero) (fcast d (fofZ (Z.sgn z))).

  (** schedule.py:35-46 (constant_schedule) *)
  Definition constant_schedule (value : F) : schedule := fun _ => value.

  (** schedule.py:49-89 (polynomial_schedule).  [jnp.clip(x, 0, n)] is min(max(x,0),n).
      Simplification: for an integer [power] jax uses repeated multiplication instead of pow;
      int32 overflow of [count - transition_begin] is impossible for counts >= 0. *)
  Definition clip_count (count lo hi : Z) : Z := Z.min (Z.max count lo) hi.
  Definition polynomial_schedule (init_value end_value power : F) (transition_steps transition_begin : Z) : schedule :=
    if transition_steps <=? 0 then fun _ => init_value
    else
      let tb := if transition_begin <? 0 then 0 else transition_begin in
      fun count =>
        let c := clip_count (count - tb) 0 transition_steps in
        let frac := fsub d (fcast d fone) (fdiv d (zf c) (zf transition_steps)) in
        fadd d (fmul d (fcast d (pysub init_value end_value)) (fpow d frac (fcast d power))) (fcast d end_value).

  (** schedule.py:93-101 (linear_schedule) *)
  Definition linear_schedule (init_value end_value : F) (transition_steps transition_begin : Z) : schedule :=
    polynomial_schedule init_value end_value fone transition_steps transition_begin.

  (** schedule.py:104-133 (piecewise_constant_schedule); [None] is the missing dict. *)
  Definition pc_step (count : Z) (v : F) (x : Z * F) : F :=
    let ind := pos_sign (fst x - count) in
    fadd d (fmul d (fcast d v) ind) (fmul d (fmul d (fsub d (fcast d fone) ind) (fcast d (snd x))) (fcast d v)).
  Definition piecewise_constant_schedule (init_value : F) (bs : option (list (Z * F))) : result schedule :=
    match bs with
    | None => Ok (fun _ => init_value)
    | Some l =>
      if forallb (fun x => fle fzero (snd x)) l
      then Ok (fun count => fold_left (pc_step count) (sorted_items l) init_value)
      else Err EValue
    end.

  (** schedule.py:136-204 (exponential_decay) *)
  Definition exponential_decay (init_value : F) (transition_steps : Z) (decay_rate : F) (transition_begin : Z)
             (staircase : bool) (end_value : option F) : schedule :=
    if transition_steps <=? 0 then fun _ => init_value
    else if feqb decay_rate fzero then fun _ => init_value
    else
      let tb := if transition_begin <? 0 then 0 else transition_begin in
      fun count =>
        let dc := count - tb in
        let p0 := fdiv d (zf dc) (zf transition_steps) in
        let p := if staircase then ffloor p0 else p0 in
        let v := if dc <=? 0 then fcast d init_value
                 else fmul d (fcast d init_value) (fpow d (fcast d decay_rate) p) in
        match end_value with
        | None => v
        | Some e => if flt decay_rate fone then fmax v (fcast d e) else fmin v (fcast d e)
        end.

  (** schedule.py:207-235 (cosine_decay_schedule) *)
  Definition cosine_decay_schedule (init_value : F) (decay_steps : Z) (alpha : F) : result schedule :=
    if negb (0 <? decay_steps) then Err EValue
    else Ok (fun count =>
      let c := Z.min count decay_steps in
      let x := fdiv d (fmul d (fcast d fpi) (zf c)) (zf decay_steps) in
      let cosine := fmul d (fcast d (flit (1 # 2))) (fadd d (fcast d fone) (fcos d x)) in
      let decayed := fadd d (fmul d (fcast d (py1m alpha)) cosine) (fcast d alpha) in
      fmul d (fcast d init_value) decayed).

  (** schedule.py:238-239 (_linear_interpolate, _cosine_interpolate) on arrays *)
  Definition linear_interpolate (s e pct : F) : F := fadd d (fmul d (fsub d e s) pct) s.
  Definition cosine_interpolate (s e pct : F) : F :=
    fadd d e (fmul d (fdiv d (fsub d s e) (fcast d (flit 2))) (fadd d (fcos d (fmul d (fcast d fpi) pct)) (fcast d fone))).
  Inductive itype := ILinear | ICosine | IOther.

  (** schedule.py:246-290 (piecewise_interpolate_schedule).  jnp.cumprod as a left-to-right scan;
      [indicator.dot(vals)] is the sum of the products of 0/1 with the values. *)
  Fixpoint cumprod (acc : F) (l : list F) : list F :=
    match l with [] => [acc] | x :: r => acc :: cumprod (fmul d acc (fcast d x)) r end.
  (** the intervals: (left bound, right bound, left value, right value) *)
  Fixpoint intervals (bounds : list Z) (values : list F) : list (Z * Z * F * F) :=
    match bounds, values with
    | b0 :: ((b1 :: _) as br), v0 :: ((v1 :: _) as vr) => (b0, b1, v0, v1) :: intervals br vr
    | _, _ => []
    end.
  Definition interp_term (f : F -> F -> F -> F) (count : Z) (i : Z * Z * F * F) : F :=
    let '(b0, b1, v0, v1) := i in
    let pct := fdiv d (zf (count - b0)) (zf (b1 - b0)) in
    fmul d (fbool ((b0 <=? count) && (count <? b1))) (f v0 v1 pct).
  Definition piecewise_interpolate_schedule (ty : itype) (init_value : F) (bs : option (list (Z * F))) : result schedule :=
    let* f := match ty with ILinear => Ok linear_interpolate | ICosine => Ok cosine_interpolate | IOther => Err EValue end in
    let items := sorted_items (match bs with Some l => l | None => [] end) in
    if forallb (fun x => fle fzero (snd x)) items then
      let bounds := 0 :: map fst items in
      let values := cumprod (fcast d init_value) (map snd items) in
      Ok (fun count =>
            fadd d (fsum d (map (interp_term f count) (intervals bounds values)))
                 (fmul d (fbool (last bounds 0 <=? count)) (last values (fcast d fzero))))
    else Err EValue.

  (** schedule.py:293-332 (linear_onecycle_schedule) *)
  Definition pct_of (pct : F) (steps : Z) : Z := ftoZ (fmul F64 pct (fofZ steps)).
  Definition linear_onecycle_schedule (transition_steps : Z) (peak_value pct_start pct_final div_factor final_div_factor : F) : result schedule :=
    if transition_steps <=? 0 then Err EValue
    else
      let* iv := pydiv peak_value div_factor in
      let* inv := pydiv fone div_factor in
      let* fin := pydiv fone final_div_factor in
      piecewise_interpolate_schedule ILinear iv
        (Some (dict_lit [(pct_of pct_start transition_steps, div_factor);
                         (pct_of pct_final transition_steps, inv);
                         (transition_steps, fin)])).

  (** schedule.py:335-370 (cosine_onecycle_schedule) *)
  Definition cosine_onecycle_schedule (transition_steps : Z) (peak_value pct_start div_factor final_div_factor : F) : result schedule :=
    if transition_steps <=? 0 then Err EValue
    else
      let* iv := pydiv peak_value div_factor in
      let* fin := pydiv fone (fmul F64 div_factor final_div_factor) in
      piecewise_interpolate_schedule ICosine iv
        (Some (dict_lit [(pct_of pct_start transition_steps, div_factor); (transition_steps, fin)])).

  (** schedule.py:373-391 (join_schedules).  Simplification: the IndexError of an empty list is
      raised at construction instead of at the first call. *)
  Definition join_schedules (schedules : list schedule) (boundaries : list Z) : result schedule :=
    match schedules with
    | [] => Err EIndex
    | s0 :: rest =>
      Ok (fun step => fold_left (fun out (bs : Z * schedule) => if step <? fst bs then out else snd bs (step - fst bs))
                                (combine boundaries rest) (s0 step))
    end.

  (** schedule.py:394-423 (warmup_cosine_decay_schedule) *)
  Definition warmup_cosine_decay_schedule (init_value peak_value : F) (warmup_steps decay_steps : Z) (end_value : F) : result schedule :=
    let* alpha := pydiv end_value peak_value in
    let* cosine := cosine_decay_schedule peak_value (decay_steps - warmup_steps) alpha in
    join_schedules [linear_schedule init_value peak_value warmup_steps 0; cosine] [warmup_steps].

  (** schedule.py:426-465 (warmup_exponential_decay_schedule) *)
  Definition warmup_exponential_decay_schedule (init_value peak_value : F) (warmup_steps transition_steps : Z) (decay_rate : F)
             (transition_begin : Z) (staircase : bool) (end_value : option F) : result schedule :=
    join_schedules [linear_schedule init_value peak_value warmup_steps 0;
                    exponential_decay peak_value transition_steps decay_rate transition_begin staircase end_value] [warmup_steps].

  (** schedule.py:468-490 (sgdr_schedule); a cycle's keyword arguments as a record. *)
  Record cosine_kwargs := mkCos { ck_init : F; ck_peak : F; ck_warmup : Z; ck_decay : Z; ck_end : F }.
  Fixpoint cum_steps (step : Z) (l : list cosine_kwargs) : list Z :=
    match l with [] => [] | k :: r => (step + ck_decay k) :: cum_steps (step + ck_decay k) r end.
  Definition sgdr_schedule (l : list cosine_kwargs) : result schedule :=
    let* ss := mapM (fun k => warmup_cosine_decay_schedule (ck_init k) (ck_peak k) (ck_warmup k) (ck_decay k) (ck_end k)) l in
    join_schedules ss (removelast (cum_steps 0 l)).
End Sched.
