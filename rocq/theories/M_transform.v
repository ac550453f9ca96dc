(** optax/_src/transform.py.
    Hyper-parameters are Python floats ([F], used at the dtype of the array they meet).
    Arrays computed from a Python float and the int32 counter are weakly typed of the default float
    dtype ([defdt]). *)
From Verif Require Export M_numerics.

Section Model.
  Context `{O : Ops}.
  Notation updates := (tree tensor).

  (** utils.py:31-35 (canonicalize_dtype): float64 is float32 unless x64 is enabled. *)
  Definition canonicalize_dtype (d : option fdt) : option fdt :=
    match d with Some F64 => Some defdt | _ => d end.
  (** utils.py:38-43 (cast_tree) *)
  Definition cast_tree (t : updates) (d : option fdt) : updates :=
    match d with Some d' => tmap (astype d') t | None => t end.
  (** jnp.zeros_like(t, dtype) *)
  Definition zeros_as (d : option fdt) (t : tensor) : tensor :=
    match d with Some d' => full d' (shp t) fzero | None => zeros_like t end.

  (** Python's [1 - x] on floats. *)
  Definition py1m (x : F) : F := fsub F64 fone x.

  (** transform.py:37-74 (trace) *)
  Definition trace_leaf (decay : F) (g t : tensor) : result tensor := bin fadd g (sl fmul decay t).
  Definition trace (decay : F) (nesterov : bool) (acc : option fdt) : GT :=
    let acc := canonicalize_dtype acc in
    mkGT (fun p => Ok (SNode NTrace [STree (tmap (zeros_as acc) p)]))
         (fun u s _ =>
            match s with
            | SNode NTrace [STree tr] =>
              let f := trace_leaf decay in
              let* new_trace := tmm2 f u tr in
              let* u' := (if nesterov then tmm2 f u new_trace else Ok new_trace) in
              Ok (u', SNode NTrace [STree (cast_tree new_trace acc)])
            | _ => Err EAttr
            end).

  (** [x ** order] for a Python int: lax.integer_pow. *)
  Definition ipow (order : nat) (t : tensor) : tensor :=
    match order with
    | 1 => t
    | 2 => un (fun d x => fmul d x x) t
    | _ => un (fun d x => fpow d x (fofZ (Z.of_nat order))) t
    end.
  (** transform.py:77-80 (_update_moment) *)
  Definition update_moment_leaf (decay : F) (order : nat) (g t : tensor) : result tensor :=
    bin fadd (sl fmul (py1m decay) (ipow order g)) (sl fmul decay t).
  Definition update_moment (u m : updates) (decay : F) (order : nat) : result updates :=
    tmm2 (update_moment_leaf decay order) u m.
  (** [decay**count] and [1 - decay**count] for a Python float and an int32 array. *)
  Definition pow_count (decay : F) (count : Z) : F :=
    fpow defdt (fcast defdt decay) (fcast defdt (fofZ count)).
  Definition bias_corr (decay : F) (count : Z) : F :=
    fsub defdt (fcast defdt fone) (pow_count decay count).
  (** transform.py:83-86 (_bias_correction) *)
  Definition bias_correction (m : updates) (decay : F) (count : Z) : updates :=
    let c := bias_corr decay count in
    tmap (fun t => emap (fun d x => fdiv d x (conv defdt d c)) t) m.

  (** transform.py:95-133 (ema) *)
  Definition ema (decay : F) (debias : bool) (acc : option fdt) : GT :=
    let acc := canonicalize_dtype acc in
    mkGT (fun p => Ok (SNode NEma [SInt I32 0; STree (tmap (zeros_as acc) p)]))
         (fun u s _ =>
            match s with
            | SNode NEma [SInt w count; STree e] =>
              let* new_ema := update_moment u e decay 1 in
              let* count_inc := safe_int32_increment w count in
              let u' := if debias then bias_correction new_ema decay count_inc else u in
              Ok (u', SNode NEma [SInt I32 count_inc; STree (cast_tree new_ema acc)])
            | _ => Err EAttr
            end).

  (** transform.py:141-174 (scale_by_rss) *)
  Definition inv_sqrt_pos (eps : F) (t : tensor) : tensor :=
    emap (fun d x => if flt (fcast d fzero) x then frsqrt d (fadd d x (fcast d eps)) else fcast d fzero) t.
  Definition scale_by_rss (initial eps : F) : GT :=
    mkGT (fun p => Ok (SNode NRss [STree (tmap (fun t => full_like t initial) p)]))
         (fun u s _ =>
            match s with
            | SNode NRss [STree ss] =>
              let* ss' := tmm2 (fun g t => bin fadd (tsquare g) t) u ss in
              let inv := tmap (inv_sqrt_pos eps) ss' in
              let* u' := tmm2 (fun sc g => bin fmul sc g) inv u in
              Ok (u', SNode NRss [STree ss'])
            | _ => Err EAttr
            end).

  (** transform.py:182-213 (scale_by_rms) *)
  Definition rsqrt_eps (eps : F) (t : tensor) : tensor := un (fun d x => frsqrt d (fadd d x (fcast d eps))) t.
  Definition scale_by_rms (decay eps initial_scale : F) : GT :=
    mkGT (fun p => Ok (SNode NRms [STree (tmap (fun t => full_like t initial_scale) p)]))
         (fun u s _ =>
            match s with
            | SNode NRms [STree nu] =>
              let* nu' := update_moment u nu decay 2 in
              let* u' := tmm2 (fun g n => bin fmul g (rsqrt_eps eps n)) u nu' in
              Ok (u', SNode NRms [STree nu'])
            | _ => Err EAttr
            end).

  (** transform.py:222-256 (scale_by_stddev) *)
  Definition stddev_leaf (eps : F) (g m n : tensor) : result tensor :=
    let* c := bin fsub n (tsquare m) in
    bin fmul g (rsqrt_eps eps c).
  Definition scale_by_stddev (decay eps initial_scale : F) : GT :=
    mkGT (fun p => Ok (SNode NStdDev [STree (tmap zeros_like p);
                                      STree (tmap (fun t => full_like t initial_scale) p)]))
         (fun u s _ =>
            match s with
            | SNode NStdDev [STree mu; STree nu] =>
              let* mu' := update_moment u mu decay 1 in
              let* nu' := update_moment u nu decay 2 in
              let* u' := tmm3 (stddev_leaf eps) u mu' nu' in
              Ok (u', SNode NStdDev [STree mu'; STree nu'])
            | _ => Err EAttr
            end).

  (** [lambda m, v: m / (jnp.sqrt(v + eps_root) + eps)] *)
  Definition adam_leaf (eps eps_root : F) (m v : tensor) : result tensor :=
    bin fdiv m (un (fun d x => fadd d (fsqrt d (fadd d x (fcast d eps_root))) (fcast d eps)) v).
  Definition moments0 (n : sname) (mk : tensor -> tensor) (p : updates) : result state :=
    Ok (SNode n [SInt I32 0; STree (tmap mk p); STree (tmap mk p)]).

  (** transform.py:266-304 (scale_by_adam) *)
  Definition scale_by_adam (b1 b2 eps eps_root : F) : GT :=
    mkGT (moments0 NAdam zeros_like)
         (fun u s _ =>
            match s with
            | SNode NAdam [SInt w count; STree mu; STree nu] =>
              let* mu' := update_moment u mu b1 1 in
              let* nu' := update_moment u nu b2 2 in
              let* count_inc := safe_int32_increment w count in
              let mu_hat := bias_correction mu' b1 count_inc in
              let nu_hat := bias_correction nu' b2 count_inc in
              let* u' := tmm2 (adam_leaf eps eps_root) mu_hat nu_hat in
              Ok (u', SNode NAdam [SInt I32 count_inc; STree mu'; STree nu'])
            | _ => Err EAttr
            end).

  (** transform.py:310-330 (scale) *)
  Definition scale (step_size : F) : GT :=
    stateless NEmpty (fun u _ => Ok (tmap (sl fmul step_size) u)).

  (** transform.py:340-379 (scale_by_belief): the prediction error uses the PREVIOUS first moment. *)
  Definition scale_by_belief (b1 b2 eps eps_root : F) : GT :=
    mkGT (moments0 NBelief zeros_like)
         (fun u s _ =>
            match s with
            | SNode NBelief [SInt w count; STree mu; STree nu] =>
              let* mu' := update_moment u mu b1 1 in
              let* pe := tmm2 (bin fsub) u mu in
              let* nu' := update_moment pe nu b2 2 in
              let* count_inc := safe_int32_increment w count in
              let mu_hat := bias_correction mu' b1 count_inc in
              let nu_hat := bias_correction nu' b2 count_inc in
              let* u' := tmm2 (adam_leaf eps eps_root) mu_hat nu_hat in
              Ok (u', SNode NBelief [SInt I32 count_inc; STree mu'; STree nu'])
            | _ => Err EAttr
            end).

  (** transform.py:382-426 (scale_by_yogi); [signed_sq] is squared again by _update_moment(.., 2). *)
  Definition signed_sq_leaf (g v : tensor) : result tensor :=
    let g2 := tsquare g in
    let* d := bin fsub v g2 in
    bin fmul (un (fun _ => fsign) d) g2.
  Definition scale_by_yogi (b1 b2 eps eps_root initial : F) : GT :=
    mkGT (moments0 NAdam (fun t => full_like t initial))
         (fun u s _ =>
            match s with
            | SNode NAdam [SInt w count; STree mu; STree nu] =>
              let* mu' := update_moment u mu b1 1 in
              let* sq := tmm2 signed_sq_leaf u nu in
              let* nu' := update_moment sq nu b2 2 in
              let* count_inc := safe_int32_increment w count in
              let mu_hat := bias_correction mu' b1 count_inc in
              let nu_hat := bias_correction nu' b2 count_inc in
              let* u' := tmm2 (adam_leaf eps eps_root) mu_hat nu_hat in
              Ok (u', SNode NAdam [SInt I32 count_inc; STree mu'; STree nu'])
            | _ => Err EAttr
            end).

  (** transform.py:429-482 (scale_by_radam).  (For b2 = 1 Python raises ZeroDivisionError when the
      transformation is built: modelled in the alias [radam] of M_alias.v, the only caller, not here.)  [ro_inf] is a Python float; [ro] and [r] are weakly
      typed arrays of the default dtype. *)
  Definition radam_ro_inf (b2 : F) : F := fsub F64 (fdiv F64 (flit 2) (py1m b2)) fone.
  Definition radam_ro (b2 : F) (count_inc : Z) : F :=
    let D := defdt in
    let b2t := pow_count b2 count_inc in
    fsub D (fcast D (radam_ro_inf b2))
         (fdiv D (fmul D (fcast D (fofZ (iwrap I32 (2 * count_inc)))) b2t) (fsub D (fcast D fone) b2t)).
  Definition radam_r (b2 ro : F) : F :=
    let D := defdt in
    let c x := fcast D x in
    let ri := radam_ro_inf b2 in
    let den := fmul F64 (fsub F64 ri (flit 4)) (fsub F64 ri (flit 2)) in
    fsqrt D (fdiv D (fmul D (fmul D (fsub D ro (c (flit 4))) (fsub D ro (c (flit 2)))) (c ri))
                    (fmul D (c den) ro)).
  Definition radam_leaf (r eps eps_root : F) (m v : tensor) : result tensor :=
    bin fdiv (sl fmul r m) (un (fun d x => fadd d (fsqrt d (fadd d x (fcast d eps_root))) (fcast d eps)) v).
  Definition scale_by_radam (b1 b2 eps eps_root threshold : F) : GT :=
    mkGT (moments0 NAdam zeros_like)
         (fun u s _ =>
            match s with
            | SNode NAdam [SInt w count; STree mu; STree nu] =>
              let* mu' := update_moment u mu b1 1 in
              let* nu' := update_moment u nu b2 2 in
              let* count_inc := safe_int32_increment w count in
              let ro := radam_ro b2 count_inc in
              let mu_hat := bias_correction mu' b1 count_inc in
              let nu_hat := bias_correction nu' b2 count_inc in
              let* u' := cond_tree (fle (fcast defdt threshold) ro)
                           (tmm2 (radam_leaf (radam_r b2 ro) eps eps_root) mu_hat nu_hat)
                           (Ok mu_hat) in
              Ok (u', SNode NAdam [SInt I32 count_inc; STree mu'; STree nu'])
            | _ => Err EAttr
            end).

  (** transform.py:488-510 (add_decayed_weights) *)
  Definition add_decayed_weights (weight_decay : F) : GT :=
    stateless NEmpty (fun u p =>
      match p with
      | None => Err EValue
      | Some p => tmm2 (fun g p => bin fadd g (sl fmul weight_decay p)) u p
      end).

  (** transform.py:523-547 (scale_by_schedule); a schedule maps the int32 count to a float. *)
  Definition schedule := Z -> F.
  Definition scale_by_schedule (f : schedule) : GT :=
    mkGT (fun _ => Ok (SNode NSchedule [SInt I32 0]))
         (fun u s _ =>
            match s with
            | SNode NSchedule [SInt w count] =>
              let step_size := f count in
              let u' := tmap (sl fmul step_size) u in
              let* count_inc := safe_int32_increment w count in
              Ok (u', SNode NSchedule [SInt I32 count_inc])
            | _ => Err EAttr
            end).

  (** transform.py:559-599 (scale_by_trust_ratio) *)
  Definition trust_leaf (min_norm : F) (u p : tensor) : result tensor :=
    let pn := safe_norm p min_norm in
    let un_ := safe_norm u min_norm in
    let d := promote (dt p) (dt u) in
    let ratio := fdiv d (conv (dt p) d pn) (conv (dt u) d un_) in
    let zero := feqb pn (fcast (dt p) fzero) || feqb un_ (fcast (dt u) fzero) in
    bin fmul u (scalar d (if zero then conv (dt p) d (fcast (dt p) fone) else ratio)).
  Definition scale_by_trust_ratio (min_norm : F) : GT :=
    stateless NTrust (fun u p =>
      match p with
      | None => Err EValue
      | Some p => tmm2 (trust_leaf min_norm) u p
      end).

  (** jax.random.normal(key, shape, dtype) *)
  Definition random_normal (k : key) (d : fdt) (s : list nat) : tensor :=
    mkT d s (map (knormal k d s) (seq 0 (prodn s))).

  (** transform.py:608-646 (add_noise) *)
  Definition add_noise (eta gamma : F) (seed : Z) : GT :=
    mkGT (fun _ => Ok (SNode NNoise [SInt I32 0; SKey (prng_key seed)]))
         (fun u s _ =>
            match s with
            | SNode NNoise [SInt w count; SKey k] =>
              let num_vars := length (leaves u) in
              let* count_inc := safe_int32_increment w count in
              let D := defdt in
              let variance := fdiv D (fcast D eta) (fpow D (fcast D (fofZ count_inc)) (fcast D gamma)) in
              match ksplit k (num_vars + 1) with
              | [] => Err EIndex
              | k0 :: ks =>
                let* kt := tunflatten u ks in
                let* noise := tmm2 (fun g k => Ok (random_normal k (dt g) (shp g))) u kt in
                let* u' := tmm2 (fun g n => bin fadd g (emap (fun d x => fmul d (conv D d variance) x) n)) u noise in
                Ok (u', SNode NNoise [SInt I32 count_inc; SKey k0])
              end
            | _ => Err EAttr
            end).

  (** transform.py:655-688 (apply_every).  A boolean array times a float array: the boolean becomes
      1 or 0 of the array's dtype.  XLA's integer remainder has no meaning for k = 0; a Python
      modulus of a traced count by k = 0 is outside the model (ZeroDivisionError here). *)
  Definition bmul (b : bool) (t : tensor) : tensor := sl fmul (if b then fone else fzero) t.
  Definition apply_every (k : Z) : GT :=
    mkGT (fun p => Ok (SNode NApplyEvery [SInt I32 0; STree (tmap zeros_like p)]))
         (fun u s _ =>
            match s with
            | SNode NApplyEvery [SInt w count; STree ga] =>
              if (k =? 0)%Z then Err EZeroDiv else
              let c := (count mod k)%Z in
              let acc := negb (c =? 0)%Z in
              let* ga' := tmm2 (fun g a => bin fadd (bmul acc a) g) u ga in
              let emit := (c =? k - 1)%Z in
              let u' := tmap (bmul emit) ga' in
              let* count_inc := safe_int32_increment w count in
              Ok (u', SNode NApplyEvery [SInt I32 (count_inc mod k)%Z; STree ga'])
            | _ => Err EAttr
            end).

  (** transform.py:691-695 (_subtract_mean): mean over all axes but the first, keepdims.
      jnp.mean = sum / number of elements. *)
  Definition mean_list (d : fdt) (l : list F) : F := fdiv d (fsum d l) (fcast d (fofZ (Z.of_nat (length l)))).
  Definition not_first (s : list nat) : list bool :=
    match s with [] => [] | _ :: r => false :: map (fun _ => true) r end.
  Definition subtract_mean (g : tensor) : result tensor :=
    if Nat.ltb 1 (length (shp g))
    then bin fsub g (reduce (not_first (shp g)) mean_list g)
    else Ok g.
  (** transform.py:701-719 (centralize) *)
  Definition centralize : GT := stateless NEmpty (fun u _ => tmapM subtract_mean u).

  (** transform.py:728-793 (scale_by_sm3).  [mu] has, in place of every leaf of the parameters, a
      list with one vector per axis, of the default dtype. *)
  Fixpoint tjoin {A} (t : tree (tree A)) : tree A :=
    match t with Leaf a => a | Node k ts => Node k (map tjoin ts) end.
  (** tree_multimap whose function receives the whole subtree of the second tree. *)
  Definition tmm2s {A B C} (f : A -> tree B -> result C) (t : tree A) (r : tree B) : result (tree C) :=
    let* z := tzip t r in tmapM (fun p => f (fst p) (snd p)) z.
  Definition zeros_for_dim (p : tensor) : tree tensor :=
    Node KList (map (fun s => Leaf (full defdt [s] fzero)) (shp p)).
  Definition expanded_shape (s : list nat) (axis : nat) : list nat :=
    map (fun i => if i =? axis then nth i s 0 else 1) (seq 0 (length s)).
  (** jnp.reshape: TypeError when the sizes differ. *)
  Definition reshape (s : list nat) (t : tensor) : result tensor :=
    if Nat.eqb (prodn (shp t)) (prodn s) then Ok (mkT (dt t) s (dat t)) else Err EType.
  (** Python indexing of a list of arrays. *)
  Definition list_item (v : tree tensor) (i : nat) : result tensor :=
    match v with
    | Node _ l => match nth_error l i with Some s => as_leaf s | None => Err EIndex end
    | Leaf _ => Err EType
    end.
  Definition sm3_expand (g : tensor) (v : tree tensor) : result (tree tensor) :=
    let* l := mapM (fun i => let* x := list_item v i in reshape (expanded_shape (shp g) i) x)
                   (seq 0 (length (shp g))) in
    Ok (Node KList (map Leaf l)).
  (** functools.reduce(jnp.minimum, v) *)
  Fixpoint minimum_from (acc : tensor) (l : list (tree tensor)) : result tensor :=
    match l with
    | [] => Ok acc
    | x :: r => let* y := as_leaf x in let* m := bin (fun _ => fmin) acc y in minimum_from m r
    end.
  Definition sm3_new_accum (b2 : F) (g : tensor) (v : tree tensor) : result tensor :=
    let c0 := if feqb b2 fone then fone else py1m b2 in
    let g2 := sl fmul c0 (tsquare g) in
    if Nat.ltb (length (shp g)) 2
    then let* v0 := list_item v 0 in bin fadd g2 (sl fmul b2 v0)
    else match v with
         | Node _ (x :: r) =>
           let* x0 := as_leaf x in
           let* m := minimum_from x0 r in
           bin fadd g2 (sl fmul b2 m)
         | _ => Err EType
         end.
  (** jnp.max over every axis except [i] (result of rank 1); no elements to reduce raises. *)
  Definition max_list (l : list F) : F := match l with [] => fzero | x :: r => fold_left fmax r x end.
  Definition sm3_new_mu (g : tensor) (i : nat) : result tensor :=
    if Nat.ltb (length (shp g)) 2 then Ok g
    else
      let red := map (fun j => negb (j =? i)) (seq 0 (length (shp g))) in
      if existsb (fun j => negb (j =? i) && (nth j (shp g) 0 =? 0)) (seq 0 (length (shp g))) then Err EValue
      else let r := reduce red (fun _ => max_list) g in
           Ok (mkT (dt r) [nth i (shp g) 0] (dat r)).
  Definition sm3_mus (g : tensor) : result (tree tensor) :=
    let* l := mapM (sm3_new_mu g) (seq 0 (length (shp g))) in Ok (Node KList (map Leaf l)).
  Definition scale_by_sm3 (b1 b2 eps : F) : GT :=
    mkGT (fun p => Ok (SNode NSM3 [STree (tjoin (tmap zeros_for_dim p)); STree (tmap zeros_like p)]))
         (fun u s _ =>
            match s with
            | SNode NSM3 [STree mu; STree nu] =>
              let* mu1 := tmm2s sm3_expand u mu in
              let* accum := tmm2s (sm3_new_accum b2) u (tjoin mu1) in
              let inv := tmap (inv_sqrt_pos eps) accum in
              let* up := tmm2 (bin fmul) u inv in
              let* nu' := update_moment up nu b1 1 in
              let* mu' := tmapM sm3_mus accum in
              Ok (nu', SNode NSM3 [STree (tjoin mu'); STree nu'])
            | _ => Err EAttr
            end).
End Model.
