(** Forward-mode automatic differentiation (jax.jvp): the instance of [Ops] whose scalars are pairs
    (value, tangent), each operation carrying jax's JVP rule for it.  Running a model of this
    library at [DualOps] is running the library's function under jax.jvp: constants have tangent 0,
    jnp.where selects pairs, comparisons look at the values only and lax.stop_gradient drops the
    tangent.  jax skips the products with symbolic zero tangents, here they are computed: on finite
    values this changes nothing, on infinite ones it can only add a NaN (0 * inf). *)
From Verif Require Export XR.
From Coq Require Import Qreals.
Open Scope R_scope.

Definition dual : Type := XR * XR.
Definition dconst (x : XR) : dual := (x, Fin 0).
(** A unary operation with value f and tangent g * f'(x). *)
Definition dun (f f' : XR -> XR) (x : dual) : dual := (f (fst x), xmul (snd x) (f' (fst x))).
(** jax's _balanced_eq(x, z, y): 1 if only x attains z, 1/2 if both do, 0 if x does not. *)
Definition balanced (x z y : XR) : XR := xdiv (if xeqb x z then Fin 1 else Fin 0) (if xeqb y z then Fin 2 else Fin 1).
Definition dmaxmin (f : XR -> XR -> XR) (x y : dual) : dual :=
  let z := f (fst x) (fst y) in
  (z, xadd (xmul (snd x) (balanced (fst x) z (fst y))) (xmul (snd y) (balanced (fst y) z (fst x)))).
Definition xsin x := match x with Fin a => Fin (sin a) | _ => NaN end.
(** The derivative with respect to an exponent that is a constant is not computed. *)
Definition dpow (x y : dual) : dual :=
  let z := xpow (fst x) (fst y) in
  let jac := if xeqb (fst y) (Fin 0) then Fin 0 else xmul (fst y) (xpow (fst x) (xsub (fst y) (Fin 1))) in
  let l := xmul (snd x) jac in
  (z, if xeqb (snd y) (Fin 0) then l else xadd l (xmul (snd y) (xmul (xlog (if xeqb (fst x) (Fin 0) then Fin 1 else fst x)) z))).

#[export] Instance DualOps (P : Platform) : Ops := {|
  F := dual;
  flit q := dconst (Fin (Q2R q));
  fpi := dconst (Fin PI);
  fcast _ x := x;
  fadd _ x y := (xadd (fst x) (fst y), xadd (snd x) (snd y));
  fsub _ x y := (xsub (fst x) (fst y), xsub (snd x) (snd y));
  fmul _ x y := (xmul (fst x) (fst y), xadd (xmul (snd x) (fst y)) (xmul (fst x) (snd y)));
  fdiv _ x y := (xdiv (fst x) (fst y), xsub (xdiv (snd x) (fst y)) (xdiv (xmul (snd y) (fst x)) (xmul (fst y) (fst y))));
  fpow _ := dpow;
  fneg x := (xneg (fst x), xneg (snd x));
  fabs := dun xabs xsign;
  fsign x := dconst (xsign (fst x));
  fmax := dmaxmin xmax;
  fmin := dmaxmin xmin;
  fsqrt _ := dun xsqrt (fun x => xdiv (Fin (/ 2)) (xsqrt x));
  frsqrt _ := dun xrsqrt (fun x => xmul (Fin (- / 2)) (xdiv (xrsqrt x) x));
  fexp _ := dun xexp xexp;
  flog _ := dun xlog (fun x => xdiv (Fin 1) x);
  flog1p _ := dun xlog1p (fun x => xdiv (Fin 1) (xadd x (Fin 1)));
  fcos _ := dun xcos (fun x => xneg (xsin x));
  ffloor x := dconst (xfloor (fst x));
  fstop x := dconst (fst x);
  fround x := dconst (xround (fst x));
  ftoZ x := xtoZ (fst x);
  flt x y := xlt (fst x) (fst y); fle x y := xle (fst x) (fst y); feqb x y := xeqb (fst x) (fst y);
  fisnan x := xisnan (fst x); fisfinite x := xisfinite (fst x);
  fsum _ l := (xsum (map fst l), xsum (map snd l));
  x64 := p_x64 P;
  key := p_key P; prng_key := p_prng_key P; ksplit := p_ksplit P;
  knormal k d s i := dconst (p_knormal P k d s i); kdraw w k s i := dconst (p_kdraw P w k s i);
|}.

(** The dual number with value a and tangent t. *)
Definition fd (a t : R) : dual := (Fin a, Fin t).
