(** Scalars: the floating-point operations jax.numpy offers, as a class of operations over an
    arbitrary carrier.  A theorem about every [Ops] holds of IEEE arithmetic with any rounding;
    the numeric theorems use the exact instance of [XR.v].

    Simplifications: array elements are floats (no integer gradient leaves); sub-normal flushing
    and the exact XLA accumulation order are whatever the instance says ([fsum] is an oracle). *)
From Verif Require Export Prelude.

(** Float dtypes of jax arrays. *)
Inductive fdt := F16 | BF16 | F32 | F64.

Definition fdt_eqb (a b : fdt) : bool :=
  match a, b with F16, F16 | BF16, BF16 | F32, F32 | F64, F64 => true | _, _ => false end.

Lemma fdt_eqb_eq a b : fdt_eqb a b = true <-> a = b.
Proof. destruct a, b; cbn; split; congruence. Qed.

(** jax's type promotion between array dtypes (jax.numpy.promote_types on floats). *)
Definition promote (a b : fdt) : fdt :=
  match a, b with
  | F64, _ | _, F64 => F64
  | F32, _ | _, F32 => F32
  | F16, F16 => F16
  | BF16, BF16 => BF16
  | _, _ => F32
  end.

Lemma promote_same a : promote a a = a.
Proof. now destruct a. Qed.

Inductive law := LUniform | LWeibull | LMaxwell.

Class Ops := {
  F : Type;
  (** Python float constants; Python floats are F64 values. *)
  flit : Q -> F;
  (** jnp.pi, a Python float constant. *)
  fpi : F;
  (** Conversion of a value to a dtype ([astype], or a weakly typed Python scalar meeting an
      array of that dtype). *)
  fcast : fdt -> F -> F;
  fadd : fdt -> F -> F -> F;
  fsub : fdt -> F -> F -> F;
  fmul : fdt -> F -> F -> F;
  fdiv : fdt -> F -> F -> F;
  fpow : fdt -> F -> F -> F;
  fneg : F -> F;
  fabs : F -> F;
  fsign : F -> F;
  (** NaN-propagating maximum / minimum (jnp.maximum, jnp.minimum). *)
  fmax : F -> F -> F;
  fmin : F -> F -> F;
  fsqrt : fdt -> F -> F;
  frsqrt : fdt -> F -> F;
  fexp : fdt -> F -> F;
  flog : fdt -> F -> F;
  flog1p : fdt -> F -> F;
  fcos : fdt -> F -> F;
  ffloor : F -> F;
  (** lax.stop_gradient: the identity on values. *)
  fstop : F -> F;
  fround : F -> F;
  (** Conversion to an integer, truncating toward zero (int(x), astype(int32)). *)
  ftoZ : F -> Z;
  (** IEEE comparisons: false when an operand is NaN. *)
  flt : F -> F -> bool;
  fle : F -> F -> bool;
  feqb : F -> F -> bool;
  fisnan : F -> bool;
  fisfinite : F -> bool;
  (** jnp.sum over a list of elements; the order of accumulation is not specified by XLA. *)
  fsum : fdt -> list F -> F;
  (** jax_enable_x64. *)
  x64 : bool;
  (** PRNG (jax.random): keys, splitting, normal samples. *)
  key : Type;
  prng_key : Z -> key;
  ksplit : key -> nat -> list key;
  (** jax.random.normal(key, shape, dtype)[i], [i] the row-major position. *)
  knormal : key -> fdt -> list nat -> nat -> F;
  (** The other samplers used: jax.random.uniform, weibull_min(scale=sqrt 2, concentration=2),
      double_sided_maxwell(loc=0, scale=1), of the default dtype. *)
  kdraw : law -> key -> list nat -> nat -> F;
}.

Section Derived.
  Context `{Ops}.
  Definition fzero : F := flit 0.
  Definition fone : F := flit 1.
  Definition fofZ (z : Z) : F := flit (inject_Z z).
  (** Default float dtype: what a Python float or [int ** float] becomes as an array. *)
  Definition defdt : fdt := if x64 then F64 else F32.
End Derived.
