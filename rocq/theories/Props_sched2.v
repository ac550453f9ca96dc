(** Generated by tools/genprops.py from P_sched2.v: property theorems only. *)
From Verif Require Import P_sched2.
From Coq Require Import Permutation.
Open Scope R_scope.

(** for 'linear' and 'cosine', any init and any dictionary of distinct positive boundaries and non-negative factors in any order: between two consecutive knots a <= count < b (a is 0 or a boundary, b the next boundary) the value is the linear / half-cosine interpolation, at fraction (count-a)/(b-a), between the knot values init * product of the factors with boundary <= a (resp. <= b); from the last boundary on it is the last knot value; before 0 it is 0. *)
Theorem C43_interpolate : forall `{P : Platform} (ty : itype) (init : R) (l : list (Z * R)), ty <> IOther -> dict_ok l ->
  exists s, piecewise_interpolate_schedule ty (Fin init) (Some (map fitem l)) = Ok s /\
    (forall c a b, a = 0%Z \/ In a (keys l) -> In b (keys l) -> (a <= c < b)%Z -> (forall k, In k (keys l) -> (k <= a)%Z \/ (b <= k)%Z) ->
       s c = Fin (rinterp ty (knot init l a) (knot init l b) (IZR (c - a) / IZR (b - a)))) /\
    (forall c, (0 <= c)%Z -> (forall k, In k (keys l) -> (k <= c)%Z) -> s c = Fin (knot init l c)) /\
    (forall c, (c < 0)%Z -> s c = Fin 0).
Proof. exact @interpolate_spec. Qed.
Print Assumptions C43_interpolate.

(** in the same setting, at a boundary (and at 0) the value is exactly the knot value, and at every count between two consecutive knots it lies between the two knot values. *)
Theorem C43_between : forall `{P : Platform} (ty : itype) (init : R) (l : list (Z * R)), ty <> IOther -> dict_ok l ->
  exists s (f : Z -> R), piecewise_interpolate_schedule ty (Fin init) (Some (map fitem l)) = Ok s /\ (forall c, s c = Fin (f c)) /\
    (forall b, b = 0%Z \/ In b (keys l) -> f b = knot init l b) /\
    (forall c a b, a = 0%Z \/ In a (keys l) -> In b (keys l) -> (a <= c < b)%Z -> (forall k, In k (keys l) -> (k <= a)%Z \/ (b <= k)%Z) ->
       Rmin (knot init l a) (knot init l b) <= f c <= Rmax (knot init l a) (knot init l b)).
Proof. exact @interpolate_between. Qed.
Print Assumptions C43_between.

(** an unknown interpolation type, or a negative factor, raises ValueError. *)
Theorem C43_raises : forall `{O : Ops} (ty : itype) (init : F) (l : list (Z * F)),
  ty = IOther \/ Exists (fun x => fle fzero (snd x) = false) l -> piecewise_interpolate_schedule ty init (Some l) = Err EValue.
Proof. exact @interpolate_raises. Qed.
Print Assumptions C43_raises.

(** a dictionary with a boundary at 0 (the others positive) makes the schedule NaN at every count. *)
Theorem C43_zero_boundary_nan : forall `{P : Platform} (ty : itype) (init : R) (l : list (Z * R)), ty <> IOther -> NoDup (keys l) ->
  Forall (fun x => (0 <= fst x)%Z /\ 0 <= snd x) l -> In 0%Z (keys l) ->
  exists s, piecewise_interpolate_schedule ty (Fin init) (Some (map fitem l)) = Ok s /\ forall c, s c = NaN.
Proof. exact @interpolate_zero. Qed.
Print Assumptions C43_zero_boundary_nan.

Example C43_example : forall `{P : Platform}, dict_ok [(8%Z, / 2); (3%Z, 2)] /\ exists s,
  piecewise_interpolate_schedule ILinear (Fin 4) (Some (map fitem [(8%Z, / 2); (3%Z, 2)])) = Ok s /\ s 4%Z = Fin (8 - 4 / 5).
Proof. exact @interpolate_example. Qed.
