(** optax/_src/clipping.py, optax/_src/constrain.py, optax/_src/update.py. *)
From Verif Require Export M_transform.

Section Model.
  Context `{O : Ops}.
  Notation updates := (tree tensor).

  (** clipping.py:29-48 (clip).  jnp.clip(g, lo, hi) = minimum(hi, maximum(lo, g)). *)
  Definition clip_elt (m : F) (d : fdt) (x : F) : F := fmin (fcast d m) (fmax (fcast d (fneg m)) x).
  Definition clip (max_delta : F) : GT :=
    stateless NEmpty (fun u _ => Ok (tmap (emap (clip_elt max_delta)) u)).

  (** jnp.where(scalar condition, a, b): both operands are promoted to a common dtype. *)
  Definition twhere_s (c : bool) (a b : tensor) : tensor :=
    let d := promote (dt a) (dt b) in astype d (if c then a else b).

  (** clipping.py:54-82 (clip_by_global_norm).  The norm is a strongly typed array: dividing a leaf
      by it promotes the dtype. *)
  Definition cbgn_leaf (gd : fdt) (gn : F) (max_norm : F) (t : tensor) : result tensor :=
    let trigger := flt gn (fcast gd max_norm) in
    let* q := bin fdiv t (scalar gd gn) in
    Ok (twhere_s trigger t (sr fmul q max_norm)).
  Definition clip_by_global_norm (max_norm : F) : GT :=
    stateless NEmpty (fun u _ =>
      let '(gd, gn) := global_norm u in tmapM (cbgn_leaf gd gn max_norm) u).

  (** clipping.py:85-101 (unitwise_norm).  The exponent of [x ** 2] is an integer power; [** 0.5] is
      jnp.power. *)
  Definition squeeze_rank (s : list nat) : nat := length (filter (fun n => negb (n =? 1)) s).
  Definition unit_axes (s : list nat) : result (option (list bool)) :=
    if Nat.leb (squeeze_rank s) 1 then Ok None
    else match s with
         | [_; _] => Ok (Some [true; false])
         | [_; _; _] => Ok (Some [true; false; false])
         | [_; _; _; _] => Ok (Some [true; true; true; false])
         | _ => Err EValue
         end.
  Definition unitwise_norm (x : tensor) : result tensor :=
    let* ax := unit_axes (shp x) in
    let sq := tsquare x in
    let s := match ax with
             | None => scalar (dt x) (tsum sq)
             | Some red => reduce red fsum sq
             end in
    Ok (sr fpow s (flit (1#2))).

  (** jnp.where(cond array, a, b) with broadcasting of the three operands and promotion. *)
  Definition twhere_b (c : gt bool) (a b : tensor) : result tensor :=
    let d := promote (dt a) (dt b) in
    match bshape (shp a) (shp b) with
    | None => Err EType
    | Some s1 =>
      match bshape (shp c) s1 with
      | None => Err EType
      | Some s =>
        Ok (tab d s (fun o =>
              if nth (ravel (shp c) (bidx (shp c) o)) (dat c) false
              then conv (dt a) d (tget a (bidx (shp a) o))
              else conv (dt b) d (tget b (bidx (shp b) o))))
      end
    end.
  (** A comparison of two arrays, broadcast. *)
  Definition bcmp (op : F -> F -> bool) (a b : tensor) : result (gt bool) :=
    let d := promote (dt a) (dt b) in
    match bshape (shp a) (shp b) with
    | None => Err EType
    | Some s => Ok (tab d s (fun o => op (conv (dt a) d (tget a (bidx (shp a) o)))
                                         (conv (dt b) d (tget b (bidx (shp b) o)))))
    end.
  (** clipping.py:104-110 (unitwise_clip) *)
  Definition unitwise_clip (g_norm max_norm grad : tensor) : result tensor :=
    let* trigger := bcmp flt g_norm max_norm in
    let* q := bin fdiv max_norm (emap (fun d x => fmax x (fcast d (flit (1 # 1000000)))) g_norm) in
    let* clipped := bin fmul grad q in
    twhere_b trigger grad clipped.
  (** clipping.py:116-145 (adaptive_grad_clip) *)
  Definition adaptive_grad_clip (clipping eps : F) : GT :=
    stateless NEmpty (fun u p =>
      match p with
      | None => Err EValue
      | Some p =>
        let* g_norm := tmapM unitwise_norm u in
        let* p_norm := tmapM unitwise_norm p in
        let max_norm := tmap (emap (fun d x => fmul d (fcast d clipping) (fmax x (fcast d eps)))) p_norm in
        tmm3 unitwise_clip g_norm max_norm u
      end).

  (** constrain.py:30-55 (keep_params_nonnegative): the structure is that of [params]. *)
  Definition nonneg_leaf (p u : tensor) : result tensor :=
    let* s := bin fadd p u in
    let c := emap (fun d x => flt x (fcast d fzero)) s in
    if shape_eqb (shp p) (shp u) && fdt_eqb (dt p) (dt u)
    then Ok (twhere c (un (fun _ => fneg) p) u)
    else twhere_b c (un (fun _ => fneg) p) u.
  Definition keep_params_nonnegative : GT :=
    stateless NEmpty (fun u p =>
      match p with
      | None => Err EValue
      | Some p => tmm2 nonneg_leaf p u
      end).

  (** constrain.py:68-96 (zero_nans) *)
  Definition zero_nans : GT :=
    mkGT (fun p => Ok (SNode NZeroNans [SBTree (tmap (fun _ => false) p)]))
         (fun u _ _ =>
            Ok (tmap (emap (fun d x => if fisnan x then fcast d fzero else x)) u,
                SNode NZeroNans [SBTree (tmap (fun t => existsb fisnan (dat t)) u)])).

  (** update.py:24-44 (apply_updates) *)
  Definition apply_updates (p u : updates) : result updates :=
    tmm2 (fun p u => let* s := bin fadd p u in Ok (astype (dt p) s)) p u.

  (** update.py:47-70 (incremental_update); [step_size] a Python float. *)
  Definition incremental_update (new old : updates) (step_size : F) : result updates :=
    tmm2 (fun n o => bin fadd (sl fmul step_size n) (sl fmul (py1m step_size) o)) new old.

  (** update.py:73-102 (periodic_update); [update_period] = 0 is outside the model. *)
  Definition periodic_update (new old : updates) (steps : Z) (update_period : Z) : result updates :=
    if (update_period =? 0)%Z then Err EZeroDiv
    else cond_tree (steps mod update_period =? 0)%Z (Ok new) (Ok old).
End Model.
