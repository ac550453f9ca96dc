(** optax/_src/privacy.py *)
From Verif Require Export M_transform.

Section Model.
  Context `{O : Ops}.

  (** Example [b] of a leaf with a leading batch axis: [g[b]]. *)
  Definition dp_row (g : tensor) (b : nat) : tensor :=
    let n := prodn (tl (shp g)) in mkT (dt g) (tl (shp g)) (firstn n (skipn (b * n) (dat g))).
  (** jax.vmap(global_norm)(grads_flat), entry [b]. *)
  Definition dp_norm (gs : list tensor) (b : nat) : fdt * F :=
    global_norm (Node KList (map (fun g => Leaf (dp_row g b)) gs)).
  Definition dp_divisor (l2_norm_clip : F) (gs : list tensor) (b : nat) : F :=
    let '(D, n) := dp_norm gs b in fmax (fdiv D n (fcast D l2_norm_clip)) (fcast D fone).
  (** [(jnp.moveaxis(g, 0, -1) / divisors).sum(-1)] *)
  Definition dp_clipped (l2_norm_clip : F) (gs : list tensor) (bsize : nat) (g : tensor) : tensor :=
    let D := fst (dp_norm gs 0) in
    let d := promote (dt g) D in
    let n := prodn (tl (shp g)) in
    mkT d (tl (shp g))
        (map (fun o => fsum d (map (fun b => fdiv d (conv (dt g) d (nth (b * n + o) (dat g) fzero))
                                                  (conv D d (dp_divisor l2_norm_clip gs b))) (seq 0 bsize)))
             (seq 0 n)).
  (** [(g + noise_std * jax.random.normal(r, g.shape, g.dtype)) / bsize] *)
  Definition dp_noised (noise_std : F) (bsize : nat) (c : tensor) (k : key) : result tensor :=
    let* s := bin fadd c (sl fmul noise_std (random_normal k (dt c) (shp c))) in
    Ok (sr fdiv s (fofZ (Z.of_nat bsize))).
  Definition bad_batch (bsize : nat) (g : tensor) : bool :=
    match shp g with [] => true | n :: _ => negb (n =? bsize) end.

  (** privacy.py:30-79 (differentially_private_aggregate).  [grads_flat[0].shape[0]] raises IndexError
      without leaves or when the first leaf has rank 0. *)
  Definition differentially_private_aggregate (l2_norm_clip noise_multiplier : F) (seed : Z) : GT :=
    let noise_std := fmul F64 l2_norm_clip noise_multiplier in
    mkGT (fun _ => Ok (SNode NDP [SKey (prng_key seed)]))
         (fun u s _ =>
            match s with
            | SNode NDP [SKey k] =>
              let gs := leaves u in
              match gs with
              | [] => Err EIndex
              | g0 :: _ =>
                match shp g0 with
                | [] => Err EIndex
                | bsize :: _ =>
                  if existsb (bad_batch bsize) gs then Err EValue else
                  match ksplit k (length gs + 1) with
                  | [] => Err EValue
                  | new_key :: rngs =>
                    let clipped := map (dp_clipped l2_norm_clip gs bsize) gs in
                    let* noised := seqM (map2 (dp_noised noise_std bsize) clipped rngs) in
                    let* u' := tunflatten u noised in
                    Ok (u', SNode NDP [SKey new_key])
                  end
                end
              end
            | _ => Err EAttr
            end).
End Model.
