(** Generated by tools/genprops.py from P_utils.v: property theorems only. *)
From Verif Require Import P_utils.
From Coq Require Import List.
Import ListNotations.
Open Scope nat_scope.

(** in any arithmetic, for every N, D, every N x D x D array a and every array of N*D values, set_diags returns an array of the dtype and shape of a whose entry [k,i,i] is the (k*D+i)-th value (cast to a's dtype) and whose other entries are those of a. *)
Theorem C56_set_diags : forall `{O : Ops} (a v : tensor) (n d : nat), twf a -> twf v -> shp a = [n; d; d] -> length (dat v) = n * d ->
  exists r, set_diags a v = Ok r /\ dt r = dt a /\ shp r = shp a /\ twf r /\
  forall k i j, k < n -> i < d -> j < d ->
    tget r [k; i; j] = if i =? j then conv (dt v) (dt a) (nth (k * d + i) (dat v) fzero) else tget a [k; i; j].
Proof. exact @set_diags_correct. Qed.
Print Assumptions C56_set_diags.

(** with an N x D matrix of new diagonals of the same dtype, set_diags(a, m)[k,i,j] is m[k,i] when i = j and a[k,i,j] otherwise. *)
Theorem C56_set_diags_matrix : forall `{O : Ops} (a m : tensor) (n d : nat), twf a -> twf m -> shp a = [n; d; d] -> shp m = [n; d] -> dt m = dt a ->
  exists r, set_diags a m = Ok r /\ dt r = dt a /\ shp r = [n; d; d] /\ twf r /\
  forall k i j, k < n -> i < d -> j < d -> tget r [k; i; j] = if i =? j then tget m [k; i] else tget a [k; i; j].
Proof. exact @set_diags_matrix. Qed.
Print Assumptions C56_set_diags_matrix.

(** an array that is not of rank 3 raises ValueError, one whose matrices are not square fails an assertion, and a number of new values different from N*D and from 1 raises ValueError; a single value is broadcast to every diagonal entry. *)
Theorem C56_set_diags_errors : forall `{O : Ops} (a v : tensor),
  (length (shp a) <> 3 -> set_diags a v = Err EValue) /\
  (forall n d d1, shp a = [n; d; d1] -> d <> d1 -> set_diags a v = Err EAssert) /\
  (forall n d, shp a = [n; d; d] -> length (dat v) <> n * d -> length (dat v) <> 1 -> set_diags a v = Err EValue) /\
  (forall n d x, shp a = [n; d; d] -> dat v = [x] -> twf a -> exists r, set_diags a v = Ok r /\
    forall k i j, k < n -> i < d -> j < d -> tget r [k; i; j] = if i =? j then conv (dt v) (dt a) x else tget a [k; i; j]).
Proof. exact @set_diags_errors. Qed.
Print Assumptions C56_set_diags_errors.

(** tile_second_to_last_dim duplicates the last axis: for every array a of shape B ++ [n] (any rank >= 1, any entries, finite or not) the result has shape B ++ [n; n] and entry [..., i, j] equal to a[..., i]. *)
Theorem C56_tile : forall `{P : Platform} (a : tensor) (B : list nat) (n : nat), twf a -> shp a = B ++ [n] ->
  exists r, tile_second_to_last_dim a = Ok r /\ dt r = dt a /\ shp r = B ++ [n; n] /\ twf r /\
  forall b i j, valid B b -> i < n -> j < n -> tget r (b ++ [i; j]) = tget a (b ++ [i]).
Proof. exact @tile_correct. Qed.
Print Assumptions C56_tile.

(** an array of rank 0 raises ValueError. *)
Theorem C56_tile_scalar : forall `{O : Ops} (a : tensor), shp a = [] -> tile_second_to_last_dim a = Err EValue.
Proof. exact @tile_scalar. Qed.
Print Assumptions C56_tile_scalar.

Example C56_example : forall `{P : Platform},
  let a : tensor := full F32 [2; 2; 2] (Fin 0) in let m : tensor := mkT F32 [2; 2] [Fin 1; Fin 2; Fin 3; NaN] in
  twf a /\ twf m /\ set_diags a m = Ok (mkT F32 [2; 2; 2] [Fin 1; Fin 0; Fin 0; Fin 2; Fin 3; Fin 0; Fin 0; NaN]) /\
  exists r, tile_second_to_last_dim m = Ok r /\ shp r = [2; 2; 2] /\ tget r [1; 0; 1] = Fin 3 /\ tget r [1; 1; 0] = NaN.
Proof. exact @utils_example. Qed.
