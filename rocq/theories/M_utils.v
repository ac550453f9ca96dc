(** optax/_src/utils.py: array utilities and the diagonal Gaussian. *)
From Verif Require Export M_numerics.
Open Scope nat_scope.

(** jnp.repeat(jnp.arange(n), d) *)
Definition np_repeat (n d : nat) : list nat := flat_map (fun i => repeat i d) (seq 0 n).
(** jnp.tile(jnp.arange(d), n) *)
Definition np_tile (d n : nat) : list nat := concat (repeat (seq 0 d) n).
(** l[k] = x (nothing is written out of bounds, as in a jax scatter). *)
Fixpoint set_nth {A} (k : nat) (x : A) (l : list A) : list A :=
  match l, k with
  | [], _ => []
  | _ :: r, 0 => x :: r
  | y :: r, S k => y :: set_nth k x r
  end.
(** a.at[i1, i2, i3].set(v) on the row-major data of an array of shape [s]: one write per position
    of the index vectors. *)
Fixpoint scatter {A} (s : list nat) (idx : list (list nat)) (v : list A) (l : list A) : list A :=
  match idx, v with
  | i :: idx', x :: v' => scatter s idx' v' (set_nth (ravel s i) x l)
  | _, _ => l
  end.

Section Model.
  Context `{O : Ops}.

  (** jnp.expand_dims(a, axis=-1) *)
  Definition expand_last (a : tensor) : tensor := mkT (dt a) (shp a ++ [1]) (dat a).
  (** jnp.expand_dims(a, axis=-2); rank 0 is rejected with ValueError. *)
  Definition expand_2nd_last (a : tensor) : result tensor :=
    match shp a with
    | [] => Err EValue
    | s => Ok (mkT (dt a) (removelast s ++ [1; last s 0]) (dat a))
    end.
  (** utils.py:25-28 (tile_second_to_last_dim). *)
  Definition tile_second_to_last_dim (a : tensor) : result tensor :=
    let ones := ones_like a in
    let a' := expand_last a in
    let* o := expand_2nd_last ones in
    bin fmul o a'.

  (** utils.py:46-66 (set_diags).  Unpacking the shape raises ValueError unless the rank is 3.  The
      values are cast to the dtype of [a]; `.set` broadcasts a single value to all positions and
      raises ValueError for any other number of values. *)
  Definition set_diags (a new_diags : tensor) : result tensor :=
    match shp a with
    | [n; d; d1] =>
      if d =? d1 then
        let indices1 := np_repeat n d in
        let indices2 := np_tile d n in
        let indices3 := indices2 in
        let idx := map2 (fun i jk => [i; fst jk; snd jk]) indices1 (combine indices2 indices3) in
        let v := dat (astype (dt a) new_diags) in
        let* v := if length v =? length idx then Ok v
                  else match v with [x] => Ok (repeat x (length idx)) | _ => Err EValue end in
        Ok (mkT (dt a) (shp a) (scatter (shp a) idx v (dat a)))
      else Err EAssert
    | _ => Err EValue
    end.
End Model.
