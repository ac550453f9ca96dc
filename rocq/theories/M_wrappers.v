(** optax/_src/wrappers.py and optax/_src/lookahead.py. *)
From Verif Require Export M_clipping.
From Coq Require Import String List.
Import ListNotations.
Open Scope list_scope.

Section Model.
  Context `{O : Ops}.
  Notation updates := (tree tensor).
  Notation params := (option (tree tensor)).

  (** jnp.int64: int32 unless jax_enable_x64. *)
  Definition iw64 : iw := if x64 then I64 else I32.

  (** wrappers.py:33-82 (flatten).  [jnp.concatenate] of no arrays raises ValueError and promotes
      dtypes otherwise. *)
  Definition flat_cat (t : updates) : result tensor :=
    match leaves t with
    | [] => Err EValue
    | x :: r =>
      let d := fold_left (fun d y => promote d (dt y)) r (dt x) in
      let l := flat_map (fun y => map (conv (dt y) d) (dat y)) (x :: r) in
      Ok (mkT d [List.length l] l)
    end.
  (** jnp.split at the partial sums of the sizes, then jnp.reshape of every piece: the pieces but the
      last have the sizes of the leaves unless the vector is too short, the last one is the rest; a
      piece of the wrong size makes jnp.reshape raise TypeError. *)
  Fixpoint split_reshape (d : fdt) (l : list F) (ls : list tensor) : result (list tensor) :=
    match ls with
    | [] => Ok []
    | [x] => if (List.length l =? prodn (shp x))%nat then Ok [mkT d (shp x) l] else Err EType
    | x :: r =>
      let n := prodn (shp x) in
      if (List.length (firstn n l) =? n)%nat
      then let* q := split_reshape d (skipn n l) r in Ok (mkT d (shp x) (firstn n l) :: q)
      else Err EType
    end.
  (** Simplification: the inner transformation returns one vector (anything else: TypeError). *)
  Definition flat_uncat (u flat : updates) : result updates :=
    match flat with
    | Leaf v =>
      match shp v with
      | [_] => let* ls := split_reshape (dt v) (dat v) (leaves u) in tunflatten u ls
      | _ => Err EType
      end
    | Node _ _ => Err EType
    end.
  Definition flatten (inner : GT) : GT :=
    mkGT (fun p => let* v := flat_cat p in init inner (Leaf v))
         (fun u s p =>
            let* p' := match p with Some q => rmap (fun v => Some (Leaf v)) (flat_cat q) | None => Ok None end in
            let* v := flat_cat u in
            let* (u', s') := update inner (Leaf v) s p' in
            let* r := flat_uncat u u' in
            Ok (r, s')).

  (** wrappers.py:104-156 (apply_if_finite).  [lax.cond] traces both branches. *)
  Definition all_finite (u : updates) : bool := forallb (fun t => forallb fisfinite (dat t)) (leaves u).
  Definition apply_if_finite (inner : GT) (max_consecutive_errors : Z) : GT :=
    mkGT (fun p => let* si := init inner p in Ok (SNode NIfFinite [SInt iw64 0; SBool true; SInt iw64 0; si]))
         (fun u s p =>
            match s with
            | SNode NIfFinite [SInt w notfinite; _; SInt w' total; si] =>
              let isfinite := all_finite u in
              let nf := if isfinite then 0%Z else iwrap w (1 + notfinite) in
              let* (u', si') := cond_us (isfinite || (max_consecutive_errors <? nf)%Z)
                                        (update inner u si p) (Ok (tmap zeros_like u, si)) in
              Ok (u', SNode NIfFinite [SInt w nf; SBool isfinite; SInt w' (iwrap w' ((if isfinite then 0 else 1) + total)); si'])
            | _ => Err EAttr
            end).

  (** wrappers.py:180-268 (MultiSteps): [update] drops params.  [every_k] maps the gradient step to
      the number of mini-steps (a constant function for an int). *)
  Definition multi_acc (grads acc : updates) : result updates := tmm2 (bin fadd) grads acc.
  Definition multi_mean (use_mean : bool) (k : Z) (acc : updates) : updates :=
    if use_mean then tmap (fun t => sr fdiv t (fofZ k)) acc else acc.
  Definition multi_init (opt : GT) (p : updates) : result state :=
    let* si := init opt p in Ok (SNode NMulti [SInt iw64 0; SInt iw64 0; si; STree (tmap zeros_like p)]).
  Definition multi_update (opt : GT) (every_k : Z -> Z) (use_mean : bool) (grads : updates) (s : state) (_ : params)
    : result (updates * state) :=
    match s with
    | SNode NMulti [SInt w mini; SInt w' gstep; si; STree acc0] =>
      let k := every_k gstep in
      let* acc := multi_acc grads acc0 in
      let mid := Ok (tmap zeros_like grads, SNode NMulti [SInt w (iwrap w (mini + 1)); SInt w' gstep; si; STree acc]) in
      let final :=
        let* (u', si') := update opt (multi_mean use_mean k acc) si None in
        Ok (u', SNode NMulti [SInt iw64 0; SInt w' (iwrap w' (gstep + 1)); si'; STree (tmap zeros_like acc)]) in
      cond_us (mini <? k - 1)%Z mid final
    | _ => Err EAttr
    end.
  Definition multi_has_updated (s : state) : result bool :=
    match s with
    | SNode NMulti [SInt _ mini; SInt _ gstep; _; _] => Ok ((mini =? 0) && (0 <? gstep))%Z%bool
    | _ => Err EAttr
    end.
  (** MultiSteps(...).gradient_transformation() *)
  Definition multi_steps (opt : GT) (every_k : Z -> Z) (use_mean : bool) : GT :=
    mkGT (multi_init opt) (multi_update opt every_k use_mean).

  (** Python truth value of [params]: None and empty containers are false, non-empty containers
      true; an array of one element is compared with 0, an empty one is false, any other raises
      ValueError. *)
  Definition truthy (p : params) : result bool :=
    match p with
    | None => Ok false
    | Some (Node KNone _) => Ok false
    | Some (Node _ ts) => Ok (match ts with [] => false | _ => true end)
    | Some (Leaf t) =>
      match dat t with
      | [] => Ok false
      | [x] => Ok (negb (feqb x fzero))
      | _ => Err EValue
      end
    end.
  Definition selected {A} (z : tree (bool * tree A)) : list (tree A) :=
    flat_map (fun p : bool * tree A => if fst p then [snd p] else []) (leaves z).
  (** Replace the selected subtrees by the successive elements of [l]; StopIteration when there are
      too few. *)
  Fixpoint replace_sel {A} (l : list (bool * tree A)) (new : list (tree A)) : result (list (tree A)) :=
    match l with
    | [] => Ok []
    | (false, x) :: r => let* q := replace_sel r new in Ok (x :: q)
    | (true, _) :: r =>
      match new with
      | [] => Err EStop
      | y :: n => let* q := replace_sel r n in Ok (y :: q)
      end
    end.
  (** [iter(new_masked_updates)].  Simplification: iterating an array, or a dict (its keys), is not
      represented (TypeError). *)
  Definition iter_tree {A} (t : tree A) : result (list (tree A)) :=
    match t with
    | Node (KDict _) _ | Leaf _ => Err EType
    | Node KNone _ => Err EType
    | Node _ ts => Ok ts
    end.
  (** wrappers.py:276-344 (masked); a mask tree is the constant function. *)
  Definition masked (inner : GT) (mask : updates -> tree bool) : GT :=
    mkGT (fun p =>
            let* z := tzip (mask p) p in
            let* si := init inner (Node KList (selected z)) in
            Ok (SNode NMasked [si]))
         (fun u s p =>
            let m := mask u in
            let* z := tzip m u in
            let* b := truthy p in
            let* mp := match b, p with
                       | true, Some q => let* y := tzip m q in Ok (Some (Node KList (selected y)))
                       | _, _ => Ok None
                       end in
            match s with
            | SNode NMasked [si] =>
              let* (nu, si') := update inner (Node KList (selected z)) si mp in
              let* it := iter_tree nu in
              let* l := replace_sel (leaves z) it in
              let* t := tunflatten m l in
              Ok (tjoin t, SNode NMasked [si'])
            | _ => Err EAttr
            end).

  (** wrappers.py:353-392 (maybe_update) *)
  Definition maybe_update (inner : GT) (should_update : Z -> bool) : GT :=
    mkGT (fun p => let* si := init inner p in Ok (SNode NMaybe [si; SInt iw64 0]))
         (fun u s p =>
            match s with
            | SNode NMaybe [si; SInt w step] =>
              let* (u', si') := cond_us (should_update step) (update inner u si p) (Ok (u, si)) in
              Ok (u', SNode NMaybe [si'; SInt w (iwrap w (step + 1))])
            | _ => Err EAttr
            end).

  (** ** lookahead.py *)
  (** Attribute access on a pytree: a field of a named tuple, else AttributeError. *)
  Fixpoint field_of {A} (name : string) (fs : list string) (ts : list (tree A)) : result (tree A) :=
    match fs, ts with
    | f :: fr, t :: tr => if String.eqb name f then Ok t else field_of name fr tr
    | _, _ => Err EAttr
    end.
  Definition getattr {A} (t : tree A) (name : string) : result (tree A) :=
    match t with Node (KNT _ fs) ts => field_of name fs ts | _ => Err EAttr end.
  (** lookahead.py:40-60 (LookaheadParams) *)
  Definition LookaheadParams {A} (fast slow : tree A) : tree A :=
    Node (KNT "LookaheadParams" ["fast"%string; "slow"%string]) [fast; slow].

  (** A Python float times a boolean array: a weakly typed float array of the default dtype. *)
  Definition weak_bool (c : F) (b : bool) : F := fmul defdt (fcast defdt c) (fcast defdt (if b then fone else fzero)).
  Definition wmul (w : F) (t : tensor) : tensor := emap (fun d x => fmul d (conv defdt d w) x) t.
  (** lookahead.py:135-191 (_lookahead_update) *)
  Definition lookahead_update (u : updates) (sync_next : bool) (p : updates) (slow_step_size : F) : result updates :=
    let* fast := getattr p "fast" in
    let* slow := getattr p "slow" in
    let* diff := tmm3 (fun f u s => let* x := bin fadd f u in bin fsub x s) fast u slow in
    let slow_u := tmap (wmul (weak_bool slow_step_size sync_next)) diff in
    let* fast_u := tmm2 (fun up df => bin fsub up (wmul (weak_bool (fsub F64 fone slow_step_size) sync_next) df)) u diff in
    Ok (LookaheadParams fast_u slow_u).

  (** The reset of the state, leaf-wise [(1 - sync) * current + sync * init]; integers (and keys,
      arrays of uint32) are computed in their own type, booleans become int32.  Simplification: trees
      of booleans are outside the model (TypeError). *)
  Definition blend_leaf (sync : bool) (c i : tensor) : result tensor :=
    bin fadd (emap (fun d x => fmul d (fcast d (if sync then fzero else fone)) x) c)
             (emap (fun d x => fmul d (fcast d (if sync then fone else fzero)) x) i).
  Definition b2z (b : bool) : Z := if b then 1%Z else 0%Z.
  Fixpoint blend (sync : bool) (c i : state) : result state :=
    match c, i with
    | SInt w a, SInt w' b =>
      if iw_eqb w w' then Ok (SInt w (iwrap w ((1 - b2z sync) * a + b2z sync * b))) else Err EType
    | SBool a, SBool b => Ok (SInt I32 ((1 - b2z sync) * b2z a + b2z sync * b2z b))
    | SKey a, SKey b => Ok (SKey (if sync then b else a))
    | SNum d a, SNum d' b =>
      rmap (fun t => SNum (dt t) (hd fzero (dat t))) (blend_leaf sync (scalar d a) (scalar d' b))
    | STree a, STree b => rmap STree (tmm2 (blend_leaf sync) a b)
    | SNode n l, SNode n' l' =>
      if sname_eqb n n' then
        rmap (SNode n)
             ((fix go (l m : list state) : result (list state) :=
                 match l, m with
                 | [], [] => Ok []
                 | x :: l', y :: m' => let* a := blend sync x y in let* q := go l' m' in Ok (a :: q)
                 | _, _ => Err EValue
                 end) l l')
      else Err EValue
    | SBTree _, SBTree _ => Err EType
    | _, _ => Err EValue
    end.

  (** lookahead.py:63-132 (lookahead) *)
  Definition lookahead (fast_opt : GT) (sync_period : Z) (slow_step_size : F) (reset_state : bool) : result GT :=
    if (sync_period <? 1)%Z then Err EValue else Ok (
    mkGT (fun p =>
            let fp := match getattr p "fast" with Ok f => f | Err _ => p end in
            let* si := init fast_opt fp in
            Ok (SNode NLookahead [si; SInt I32 0]))
         (fun u s p =>
            match s with
            | SNode NLookahead [si; SInt w steps] =>
              let* (u', si') := update fast_opt u si p in
              let sync_next := (steps =? sync_period - 1)%Z in
              match p with
              | None => Err EAttr
              | Some q =>
                let* lu := lookahead_update u' sync_next q slow_step_size in
                let* si'' := (if reset_state
                              then let* f := getattr q "fast" in let* i := init fast_opt f in blend sync_next si' i
                              else Ok si') in
                Ok (lu, SNode NLookahead [si''; SInt w (iwrap w (steps + 1) mod sync_period)%Z])
              end
            | _ => Err EAttr
            end)).
End Model.
