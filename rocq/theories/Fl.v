(** The IEEE-754 instance of [Ops]: binary16, bfloat16, binary32 and binary64 with signed zeros,
    infinities, NaN, sub-normals, overflow and round-to-nearest-even.  An element of any of the four
    formats is one of: a signed zero, a non-zero real, a signed infinity, NaN (one NaN: payloads are
    not observable through jax.numpy).  The basic operations are the correctly rounded ones; they
    are proved equal to Flocq's operations on the finite bit-level type [binary_float prec emax] below.

    What XLA does not specify is a parameter ([Libm]): transcendental functions, pow, rsqrt, the order
    of summation, and the PRNG.  Sub-normals are not flushed to zero. *)
From Verif Require Export Scalar.
From Coq Require Export Reals Psatz.
From Coq Require Import Qreals Bool.
From Flocq Require Import Core.Core IEEE754.BinarySingleNaN.
From Flocq Require Plus_error.
Open Scope R_scope.

Inductive fl := Zr (s : bool) | Nz (r : R) | If (s : bool) | Na.

(** Precision (bits of the significand, with the hidden one) and exponent of infinity. *)
Definition fprec (d : fdt) : Z := match d with F16 => 11 | BF16 => 8 | F32 => 24 | F64 => 53 end.
Definition femax (d : fdt) : Z := match d with F16 => 16 | BF16 => 128 | F32 => 128 | F64 => 1024 end.
(** Sign bit, real value of a finite number. *)
Definition fneg_ (x : fl) : bool := match x with Zr s | If s => s | Nz r => Rlt_bool r 0 | Na => false end.
Definition fval (x : fl) : R := match x with Nz r => r | _ => 0 end.
Definition ffin (x : fl) : bool := match x with Zr _ | Nz _ => true | _ => false end.
Definition fmk (s : bool) (r : R) : fl := if Req_bool r 0 then Zr s else Nz r.

Section Format.
  Variables prec emax : Z.
  Definition rnd_ (r : R) : R := round radix2 (SpecFloat.fexp prec emax) ZnearestE r.
  (** Round a real to the format; [s] is the sign. *)
  Definition fround_ (s : bool) (r : R) : fl :=
    if Rlt_bool (Rabs (rnd_ r)) (bpow radix2 emax) then fmk s (rnd_ r) else If s.
  Definition add_ (x y : fl) : fl :=
    match x, y with
    | Na, _ | _, Na => Na
    | If s, If t => if Bool.eqb s t then If s else Na
    | If s, _ => If s
    | _, If t => If t
    | _, _ => let r := fval x + fval y in
              fround_ (if Req_bool r 0 then andb (fneg_ x) (fneg_ y) else Rlt_bool r 0) r
    end.
  Definition opp_ (x : fl) : fl :=
    match x with Zr s => Zr (negb s) | Nz r => Nz (- r) | If s => If (negb s) | Na => Na end.
  Definition sub_ (x y : fl) : fl := add_ x (opp_ y).
  Definition mul_ (x y : fl) : fl :=
    match x, y with
    | Na, _ | _, Na => Na
    | If _, Zr _ | Zr _, If _ => Na
    | If _, _ | _, If _ => If (xorb (fneg_ x) (fneg_ y))
    | _, _ => fround_ (xorb (fneg_ x) (fneg_ y)) (fval x * fval y)
    end.
  Definition div_ (x y : fl) : fl :=
    match x, y with
    | Na, _ | _, Na => Na
    | If _, If _ | Zr _, Zr _ => Na
    | If _, _ | _, Zr _ => If (xorb (fneg_ x) (fneg_ y))
    | _, If _ => Zr (xorb (fneg_ x) (fneg_ y))
    | _, _ => fround_ (xorb (fneg_ x) (fneg_ y)) (fval x / fval y)
    end.
  Definition sqrt_ (x : fl) : fl :=
    match x with
    | Zr s => Zr s
    | Nz r => if Rlt_bool r 0 then Na else fround_ false (sqrt r)
    | If false => If false
    | _ => Na
    end.
End Format.

Definition abs_ (x : fl) : fl := match x with Zr _ => Zr false | Nz r => Nz (Rabs r) | If _ => If false | Na => Na end.
Definition cmp_ (x y : fl) : option comparison :=
  match x, y with
  | Na, _ | _, Na => None
  | If s, If t => Some (if Bool.eqb s t then Eq else if s then Lt else Gt)
  | If s, _ => Some (if s then Lt else Gt)
  | _, If t => Some (if t then Gt else Lt)
  | _, _ => Some (Rcompare (fval x) (fval y))
  end.
Definition lt_ x y : bool := match cmp_ x y with Some Lt => true | _ => false end.
Definition le_ x y : bool := match cmp_ x y with Some Lt | Some Eq => true | _ => false end.
Definition eq_ x y : bool := match cmp_ x y with Some Eq => true | _ => false end.
Definition isnan_ (x : fl) : bool := match x with Na => true | _ => false end.
(** jnp.maximum / minimum; on two zeros the first operand (XLA does not specify the sign). *)
Definition max_ x y := if isnan_ x then x else if isnan_ y then y else if lt_ x y then y else x.
Definition min_ x y := if isnan_ x then x else if isnan_ y then y else if lt_ y x then y else x.
Definition sign_ (x : fl) : fl :=
  match x with Zr s => Zr s | Nz r => Nz (if Rlt_bool r 0 then -1 else 1) | If s => Nz (if s then -1 else 1) | Na => Na end.
Definition floor_ (x : fl) : fl := match x with Nz r => fmk (Rlt_bool r 0) (IZR (Zfloor r)) | _ => x end.
Definition rint_ (x : fl) : fl := match x with Nz r => fmk (Rlt_bool r 0) (IZR (ZnearestE r)) | _ => x end.
Definition trunc_ (x : fl) : Z := match x with Nz r => Ztrunc r | _ => 0%Z end.
(** Conversion to a format. *)
Definition cast_ (d : fdt) (x : fl) : fl := match x with Nz r => fround_ (fprec d) (femax d) (Rlt_bool r 0) r | _ => x end.

(** What XLA leaves open. *)
Record Libm := {
  l_pow : fdt -> fl -> fl -> fl;
  l_rsqrt : fdt -> fl -> fl;
  l_exp : fdt -> fl -> fl;
  l_log : fdt -> fl -> fl;
  l_log1p : fdt -> fl -> fl;
  l_cos : fdt -> fl -> fl;
  l_sum : fdt -> list fl -> fl;
  l_x64 : bool;
  l_key : Type;
  l_prng_key : Z -> l_key;
  l_ksplit : l_key -> nat -> list l_key;
  l_knormal : l_key -> fdt -> list nat -> nat -> fl;
  l_kdraw : law -> l_key -> list nat -> nat -> fl;
}.
Existing Class Libm.

Definition FlOps (L : Libm) : Ops := {|
  F := fl;
  flit q := fround_ 53 1024 (Rlt_bool (Q2R q) 0) (Q2R q);
  fpi := fround_ 53 1024 false PI;
  fcast := cast_;
  fadd d := add_ (fprec d) (femax d); fsub d := sub_ (fprec d) (femax d);
  fmul d := mul_ (fprec d) (femax d); fdiv d := div_ (fprec d) (femax d);
  fpow := l_pow L;
  fneg := opp_; fabs := abs_; fsign := sign_; fmax := max_; fmin := min_;
  fsqrt d := sqrt_ (fprec d) (femax d); frsqrt := l_rsqrt L; fexp := l_exp L; flog := l_log L; flog1p := l_log1p L;
  fcos := l_cos L; ffloor := floor_; fstop x := x; fround := rint_; ftoZ := trunc_;
  flt := lt_; fle := le_; feqb := eq_; fisnan := isnan_; fisfinite := ffin;
  fsum := l_sum L;
  x64 := l_x64 L;
  key := l_key L; prng_key := l_prng_key L; ksplit := l_ksplit L; knormal := l_knormal L; kdraw := l_kdraw L;
|}.

(** Members of the format of dtype [d]. *)
Definition in_format (d : fdt) (x : fl) : Prop :=
  match x with
  | Nz r => r <> 0 /\ generic_format radix2 (SpecFloat.fexp (fprec d) (femax d)) r /\ Rabs r < bpow radix2 (femax d)
  | _ => True
  end.

(** ** Agreement with Flocq's bit-level IEEE-754 *)
Section Flocq.
  Variables prec emax : Z.
  Context (Hp : Prec_gt_0 prec) (He : Prec_lt_emax prec emax).
  Notation bf := (binary_float prec emax).
  Definition of_B (x : bf) : fl :=
    match x with
    | B754_zero s => Zr s
    | B754_infinity s => If s
    | B754_nan => Na
    | B754_finite _ _ _ _ => Nz (B2R x)
    end.
  Lemma B2R_neq s m e H : B2R (B754_finite s m e H : bf) <> 0.
  Proof. cbn. apply F2R_neq_0. now destruct s. Qed.
  Lemma of_B_fval x : fval (of_B x) = B2R x. Proof. now destruct x. Qed.
  Lemma of_B_fin x : ffin (of_B x) = is_finite x. Proof. now destruct x. Qed.
  Lemma Bsign_finite s m e H : Rlt_bool (B2R (B754_finite s m e H : bf)) 0 = s.
  Proof. cbn. destruct s; [apply Rlt_bool_true; now apply F2R_lt_0|apply Rlt_bool_false; now apply F2R_ge_0]. Qed.
  Lemma of_B_sign x : fneg_ (of_B x) = Bsign x.
  Proof. destruct x as [s|s| |s m e H]; try reflexivity. cbn [of_B fneg_]. now rewrite Bsign_finite. Qed.
  Lemma of_B_mk x s r : is_finite x = true -> B2R x = r -> Bsign x = s -> of_B x = fmk s r.
  Proof.
    intros Hf <- <-. destruct x as [s|s| |s m e H]; try discriminate; cbn [of_B fmk].
    - unfold fmk. cbn. now rewrite Req_bool_true.
    - unfold fmk. now rewrite Req_bool_false by apply B2R_neq.
  Qed.
  Lemma of_B_ovf x s : B2SF x = binary_overflow prec emax mode_NE s -> of_B x = If s.
  Proof. intros E. destruct x; cbn in E; try discriminate. now injection E as ->. Qed.
  Lemma add_B x y : of_B (Bplus mode_NE x y) = add_ prec emax (of_B x) (of_B y).
  Proof.
    assert (G : is_finite x = true -> is_finite y = true ->
      of_B (Bplus mode_NE x y) = fround_ prec emax (if Req_bool (B2R x + B2R y) 0 then andb (Bsign x) (Bsign y) else Rlt_bool (B2R x + B2R y) 0) (B2R x + B2R y)).
    { intros Fx Fy. pose proof (Bplus_correct prec emax _ _ mode_NE x y Fx Fy) as C. unfold fround_, rnd_. change (round_mode mode_NE) with ZnearestE in C.
      destruct (Rlt_bool _ _).
      - destruct C as (C1 & C2 & C3). apply of_B_mk; [exact C2|exact C1|]. rewrite C3.
        case Rcompare_spec; intros Hc; [rewrite Req_bool_false, Rlt_bool_true|rewrite Req_bool_true|rewrite Req_bool_false, Rlt_bool_false]; auto; lra.
      - destruct C as (C1 & C2). rewrite (of_B_ovf _ _ C1). f_equal.
        destruct x as [s|s| |s m e H], y as [t|t| |t n f H']; try discriminate; cbn [Bsign] in *; subst.
        + cbn. rewrite Req_bool_true by lra. now destruct t.
        + destruct t.
          * assert (B2R (B754_finite true m e H) < 0) by (cbn; now apply F2R_lt_0). assert (B2R (B754_finite true n f H') < 0) by (cbn; now apply F2R_lt_0).
            rewrite Req_bool_false, Rlt_bool_true; auto; lra.
          * assert (0 < B2R (B754_finite false m e H)) by (cbn; now apply F2R_gt_0). assert (0 < B2R (B754_finite false n f H')) by (cbn; now apply F2R_gt_0).
            rewrite Req_bool_false, Rlt_bool_false; auto; lra. }
    destruct x as [s|s| |s m e H], y as [t|t| |t n f H']; try reflexivity;
      try (rewrite G by reflexivity; unfold add_; rewrite <- !of_B_sign; cbn [of_B fval fneg_ B2R]; reflexivity).
    cbn. now destruct (Bool.eqb s t).
  Qed.
  Lemma opp_B x : of_B (Bopp x) = opp_ (of_B x).
  Proof. destruct x as [s|s| |s m e H]; try reflexivity. cbn [Bopp of_B opp_]. f_equal. cbn. now destruct s; rewrite <- F2R_Zopp. Qed.
  Lemma sub_B x y : of_B (Bminus mode_NE x y) = sub_ prec emax (of_B x) (of_B y).
  Proof.
    unfold sub_. rewrite <- opp_B, <- add_B. f_equal. destruct x as [s|s| |s m e H], y as [t|t| |t n f H']; try reflexivity.
  Qed.
  Lemma mul_B x y : of_B (Bmult mode_NE x y) = mul_ prec emax (of_B x) (of_B y).
  Proof.
    assert (G : is_finite x = true -> is_finite y = true -> of_B (Bmult mode_NE x y) = fround_ prec emax (xorb (Bsign x) (Bsign y)) (B2R x * B2R y)).
    { intros Fx Fy. pose proof (Bmult_correct prec emax _ _ mode_NE x y) as C. unfold fround_, rnd_. change (round_mode mode_NE) with ZnearestE in C.
      destruct (Rlt_bool _ _).
      - destruct C as (C1 & C2 & C3). rewrite Fx, Fy in C2. apply of_B_mk; [exact C2|exact C1|]. apply C3. destruct (Bmult mode_NE x y); try reflexivity; discriminate.
      - now rewrite (of_B_ovf _ _ C). }
    destruct x as [s|s| |s m e H], y as [t|t| |t n f H']; try reflexivity;
      try (rewrite G by reflexivity; unfold mul_; rewrite <- !of_B_sign; cbn [of_B fval fneg_ B2R]; reflexivity);
      cbn [Bmult of_B mul_ fneg_]; rewrite ?Bsign_finite; reflexivity.
  Qed.
  Lemma div_B x y : of_B (Bdiv mode_NE x y) = div_ prec emax (of_B x) (of_B y).
  Proof.
    assert (G : is_finite x = true -> B2R y <> 0 -> of_B (Bdiv mode_NE x y) = fround_ prec emax (xorb (Bsign x) (Bsign y)) (B2R x / B2R y)).
    { intros Fx Fy. pose proof (Bdiv_correct prec emax _ _ mode_NE x y Fy) as C. unfold fround_, rnd_. change (round_mode mode_NE) with ZnearestE in C.
      destruct (Rlt_bool _ _).
      - destruct C as (C1 & C2 & C3). rewrite Fx in C2. apply of_B_mk; [exact C2|exact C1|]. apply C3. destruct (Bdiv mode_NE x y); try reflexivity; discriminate.
      - now rewrite (of_B_ovf _ _ C). }
    destruct x as [s|s| |s m e H], y as [t|t| |t n f H']; try reflexivity;
      try (rewrite G by (reflexivity || apply B2R_neq); unfold div_; rewrite <- !of_B_sign; cbn [of_B fval fneg_ B2R]; reflexivity);
      cbn [Bdiv of_B div_ fneg_]; rewrite ?Bsign_finite; reflexivity.
  Qed.
  Lemma sqrt_B x : of_B (Bsqrt mode_NE x) = sqrt_ prec emax (of_B x).
  Proof.
    destruct x as [s|[|]| |[|] m e H]; try reflexivity; cbn [of_B sqrt_]; rewrite Bsign_finite; [reflexivity|].
    pose proof (Bsqrt_correct prec emax _ _ mode_NE (B754_finite false m e H)) as (C1 & C2 & C3).
    change (round_mode mode_NE) with ZnearestE in C1. unfold fround_, rnd_. rewrite Rlt_bool_true.
    - apply of_B_mk; [exact C2|exact C1|]. apply C3. destruct (Bsqrt mode_NE _); try reflexivity; discriminate.
    - rewrite <- C1. apply abs_B2R_lt_emax.
  Qed.
  Lemma abs_B x : of_B (Babs x) = abs_ (of_B x).
  Proof. destruct x as [s|s| |s m e H]; try reflexivity. cbn [Babs of_B abs_]. f_equal. cbn. rewrite F2R_cond_Zopp, abs_cond_Ropp. rewrite Rabs_pos_eq; [reflexivity|]. now apply F2R_ge_0. Qed.
  Lemma cmp_B x y : Bcompare x y = cmp_ (of_B x) (of_B y).
  Proof.
    destruct x as [s|s| |s m e H], y as [t|t| |t n f H']; try (now rewrite Bcompare_correct by reflexivity); try reflexivity;
      cbn; repeat match goal with b : bool |- _ => destruct b end; reflexivity.
  Qed.
  Lemma of_B_format x : match of_B x with Nz r => r <> 0 /\ generic_format radix2 (SpecFloat.fexp prec emax) r /\ Rabs r < bpow radix2 emax | _ => True end.
  Proof.
    destruct x as [s|s| |s m e H]; try exact I. cbn [of_B]. split; [apply B2R_neq|]. split; [apply generic_format_B2R|apply abs_B2R_lt_emax].
  Qed.
End Flocq.

#[export] Instance fprec_gt d : Prec_gt_0 (fprec d). Proof. destruct d; reflexivity. Qed.
#[export] Instance fprec_lt d : Prec_lt_emax (fprec d) (femax d). Proof. destruct d; reflexivity. Qed.
(** The bit-level type of each dtype. *)
Definition bits_of (d : fdt) : Type := binary_float (fprec d) (femax d).
Definition of_bits (d : fdt) (x : bits_of d) : fl := of_B _ _ x.
Lemma of_bits_format d x : in_format d (of_bits d x).
Proof. apply of_B_format. Qed.
(** Every member of the format is the value of some bit pattern. *)
Lemma in_format_bits d x : in_format d x -> exists b, of_bits d b = x.
Proof.
  destruct x as [s|r|s|]; intros H; [now exists (B754_zero s)| |now exists (B754_infinity s)|now exists B754_nan].
  destruct H as (H0 & Hf & Hr).
  pose proof (binary_normalize_correct (fprec d) (femax d) _ _ mode_NE) as C.
  unfold generic_format in Hf. set (m := Ztrunc (scaled_mantissa radix2 (SpecFloat.fexp (fprec d) (femax d)) r)) in *.
  set (e := cexp radix2 (SpecFloat.fexp (fprec d) (femax d)) r) in *. specialize (C m e false). cbn zeta in C.
  rewrite <- Hf in C. change (round_mode mode_NE) with ZnearestE in C.
  assert (Hg : generic_format radix2 (SpecFloat.fexp (fprec d) (femax d)) r) by exact Hf.
  rewrite (round_generic radix2 (SpecFloat.fexp (fprec d) (femax d)) ZnearestE r Hg) in C. rewrite Rlt_bool_true in C by exact Hr. destruct C as (C1 & C2 & C3).
  eexists. unfold of_bits. erewrite of_B_mk; [|exact C2|exact C1|reflexivity]. unfold fmk. now rewrite Req_bool_false.
Qed.
