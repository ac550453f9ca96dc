(** optax/_src/linear_algebra.py: power_iteration and matrix_inverse_pth_root. *)
From Verif Require Export M_numerics M_transform.

(** lax.while_loop(cond, body, init).  Both loops below count their iterations in the first
    component of the state and stop when it reaches [num_iters], so [num_iters] units of fuel are
    enough: the last case below is never reached (theorems C53_terminates and C54_terminates). *)
Fixpoint while_loop {S} (fuel : nat) (cond : S -> bool) (body : S -> result S) (s : S) : result S :=
  if cond s then
    match fuel with
    | O => Err EStop
    | Datatypes.S f => let* s' := body s in while_loop f cond body s'
    end
  else Ok s.

Section Model.
  Context `{O : Ops}.

  (** jnp.einsum('ij,j->i', m, v): matrix times vector.  The order in which XLA adds the products
      is the oracle [fsum]; `precision` is not modelled. *)
  Definition matvec (m v : tensor) : result tensor :=
    match shp m, shp v with
    | [r; c], [c'] =>
      if c =? c' then
        let d := promote (dt m) (dt v) in
        Ok (tab d [r] (fun o => fsum d (map (fun j => fmul d (conv (dt m) d (tget m [hd 0 o; j])) (conv (dt v) d (tget v [j]))) (seq 0 c))))
      else Err EValue
    | _, _ => Err EValue
    end.
  (** jnp.einsum('i,i->', u, v) for two vectors of the same dtype. *)
  Definition vdot (u v : tensor) : F := fsum (dt u) (map2 (fmul (dt u)) (dat u) (dat v)).
  (** jnp.matmul on two matrices. *)
  Definition matmul (a b : tensor) : result tensor :=
    match shp a, shp b with
    | [r; k], [k'; c] =>
      if k =? k' then
        let d := promote (dt a) (dt b) in
        Ok (tab d [r; c] (fun o => fsum d (map (fun l => fmul d (conv (dt a) d (tget a [hd 0 o; l])) (conv (dt b) d (tget b [l; nth 1 o 0]))) (seq 0 k))))
      else Err EType
    | _, _ => Err EType
    end.

  (** The state of the loop of power_iteration: (i, v, s, run_step).  (Its fourth component, s_v, is
      written but never read.) *)
  Definition pi_state : Type := (Z * tensor * F * bool)%type.
  (** linear_algebra.py:58-60 (_iter_condition). *)
  Definition pi_cond (num_iters : Z) (st : pi_state) : bool :=
    let '(i, _, _, run_step) := st in (i <? num_iters)%Z && run_step.
  (** linear_algebra.py:62-70 (_iter_body). *)
  Definition pi_body (matrix : tensor) (error_tolerance : F) (st : pi_state) : result pi_state :=
    let '(i, v, s, _) := st in
    let d := dt matrix in
    let* new_v := bin fdiv v (scalar d (norm v)) in
    let* s_v := matvec matrix new_v in
    let s_new := vdot new_v s_v in
    Ok ((i + 1)%Z, s_v, s_new, flt (fcast d error_tolerance) (fabs (fsub d s_new s))).
  (** linear_algebra.py:31-79 (power_iteration).  [draw j] is the j-th value drawn by
      np.random.uniform(-1, 1, n); nothing is assumed about it.  A matrix that is not of rank 2 is
      rejected by einsum, one that is not square by lax.while_loop (the carry changes shape).
      [num_iters] is an int32 value. *)
  Definition power_iteration (draw : nat -> F) (matrix : tensor) (num_iters : Z) (error_tolerance : F) : result (tensor * F) :=
    match shp matrix with
    | [] => Err EIndex
    | [r; n] =>
      if r =? n then
        let d := dt matrix in
        let v_0 := tab d [n] (fun o => fcast d (draw (hd 0 o))) in
        let* (_, v_out, s_out, _) :=
          while_loop (Z.to_nat num_iters) (pi_cond num_iters) (pi_body matrix error_tolerance)
                     (0%Z, v_0, fcast d fzero, true) in
        let* v_out := bin fdiv v_out (scalar d (norm v_out)) in
        Ok (v_out, s_out)
      else Err EType
    | _ => Err EValue
    end.

  (** jnp.eye(n, dtype=float32). *)
  Definition eye (n : nat) : tensor :=
    tab F32 [n; n] (fun o => fcast F32 (if hd 0 o =? nth 1 o 0 then fone else fzero)).
  (** jnp.max(jnp.abs(m - identity)); no elements raise ValueError. *)
  Definition max_abs_diff (m identity : tensor) : result F :=
    let* e := bin fsub m identity in
    match dat e with [] => Err EValue | _ => Ok (max_list (map fabs (dat e))) end.
  (** linear_algebra.py:125-143 (_unrolled_mat_pow_1, _2, _4, _8). *)
  Definition mat_pow_1 (m : tensor) : result tensor := Ok m.
  Definition mat_pow_2 (m : tensor) : result tensor := matmul m m.
  Definition mat_pow_4 (m : tensor) : result tensor := let* m2 := mat_pow_2 m in matmul m2 m2.
  Definition mat_pow_8 (m : tensor) : result tensor := let* m4 := mat_pow_4 m in matmul m4 m4.
  (** linear_algebra.py:145-163 (mat_power).  jnp.log2(p) is log(p)/log(2) in the default dtype;
      lax.switch clamps its index to the list of branches. *)
  Definition mat_power (m : tensor) (p : Z) : result tensor :=
    let d := defdt in
    let log2p := fdiv d (flog d (fcast d (fofZ p))) (flog d (fcast d (fofZ 2))) in
    let i := ftoZ (fround log2p) in
    if (i <=? 0)%Z then mat_pow_1 m
    else if (i =? 1)%Z then mat_pow_2 m
    else if (i =? 2)%Z then mat_pow_4 m
    else mat_pow_8 m.

  (** The loop state of matrix_inverse_pth_root: (i, mat_m, mat_h, old_mat_h, error, run_step). *)
  Definition root_state : Type := (Z * tensor * tensor * tensor * F * bool)%type.
  (** linear_algebra.py:165-170 (_iter_condition).  [D] is the dtype of the loop's matrices. *)
  Definition root_cond (D : fdt) (num_iters : Z) (error_tolerance : F) (st : root_state) : bool :=
    let '(i, _, _, _, error, run_step) := st in
    (i <? num_iters)%Z && (flt (fcast D error_tolerance) error && run_step).
  (** linear_algebra.py:172-182 (_iter_body). *)
  Definition root_body (D : fdt) (alpha : F) (identity : tensor) (p : Z) (st : root_state) : result root_state :=
    let '(i, mat_m, mat_h, _, error, _) := st in
    let* ai := bin fmul (scalar F32 (fsub F32 (fcast F32 fone) alpha)) identity in
    let* am := bin fmul (scalar F32 alpha) mat_m in
    let* mat_m_i := bin fadd ai am in
    let* pw := mat_power mat_m_i p in
    let* new_mat_m := matmul pw mat_m in
    let* new_mat_h := matmul mat_h mat_m_i in
    let* new_error := max_abs_diff new_mat_m identity in
    Ok ((i + 1)%Z, new_mat_m, new_mat_h, mat_h, new_error, flt new_error (fmul D error (fcast D (flit (12 # 10))))).

  (** linear_algebra.py:82-201 (matrix_inverse_pth_root).  [p] is a positive Python int; [draw] are
      the values drawn inside power_iteration.  The reported error of the 1x1 case is the Python
      integer 0.  The loop runs in the promotion of the matrix dtype with float32. *)
  Definition matrix_inverse_pth_root (draw : nat -> F) (matrix : tensor) (p : Z) (num_iters : Z)
             (ridge_epsilon error_tolerance : F) : result (tensor * F) :=
    match shp matrix with
    | [] => Err EIndex
    | n :: _ =>
      let d := dt matrix in
      let D := promote d F32 in
      let pf := fofZ p in
      let alpha := fcast F32 (fdiv F64 (fneg fone) pf) in
      let identity := eye n in
      let* (_, max_ev) := power_iteration draw matrix 100 (flit (1 # 1000000)) in
      let ridge := fmul d (fcast d ridge_epsilon) (fmax max_ev (fcast d (flit (1 # 10000000000000000)))) in
      if n =? 1 then
        let* dm := bin fadd matrix (scalar d ridge) in
        let* h := bin fpow dm (scalar F32 alpha) in
        Ok (h, fzero)
      else
        let* ri := bin fmul (scalar d ridge) identity in
        let* damped := bin fadd matrix ri in
        let z := fdiv D (fcast D (fofZ (1 + p))) (fmul D (fcast D (fofZ 2)) (norm damped)) in
        let* m0 := bin fmul damped (scalar D z) in
        let* e0 := max_abs_diff m0 identity in
        let* h0 := bin fmul identity (scalar D (fpow D z (fcast D (fdiv F64 fone pf)))) in
        let* (_, mat_m, mat_h, old_mat_h, _, convergence) :=
          while_loop (Z.to_nat num_iters) (root_cond D num_iters error_tolerance) (root_body D alpha identity p)
                     (0%Z, m0, h0, h0, e0, true) in
        let* error := max_abs_diff mat_m identity in
        let c := fcast D (if convergence : bool then fone else fzero) in
        let* a := bin fmul (scalar D c) mat_h in
        let* b := bin fmul (scalar D (fsub D (fcast D fone) c)) old_mat_h in
        let* h := bin fadd a b in
        Ok (astype d h, error)
    end.
End Model.
