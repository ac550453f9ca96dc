(** The exact instance of [Ops]: extended reals with NaN and IEEE-754's rules for special values
    (x/0, inf-inf, 0*inf, sqrt of a negative number ... give inf or NaN, never a made-up real).
    jnp.pi is the real number pi.  No rounding and no overflow; zero is unsigned (so 1/0 = +inf, 1/(-0) is not distinguished).
    The platform (x64 flag and PRNG) is arbitrary. *)
From Verif Require Export Scalar.
From Coq Require Export Reals Psatz.
From Coq Require Import Qreals.
Open Scope R_scope.

Inductive XR := Fin (r : R) | PInf | NInf | NaN.

Definition xneg x := match x with Fin a => Fin (- a) | PInf => NInf | NInf => PInf | NaN => NaN end.
Definition xadd x y :=
  match x, y with
  | NaN, _ | _, NaN => NaN
  | PInf, NInf | NInf, PInf => NaN
  | PInf, _ | _, PInf => PInf
  | NInf, _ | _, NInf => NInf
  | Fin a, Fin b => Fin (a + b)
  end.
Definition xsub x y := xadd x (xneg y).
(** Sign as an integer (0 for 0). *)
Definition rsgn (r : R) : Z := if Rlt_dec 0 r then 1%Z else if Rlt_dec r 0 then (-1)%Z else 0%Z.
Definition xsgn x : option Z :=
  match x with Fin a => Some (rsgn a) | PInf => Some 1%Z | NInf => Some (-1)%Z | NaN => None end.
Definition xinf (s : Z) : XR := if (0 <? s)%Z then PInf else if (s <? 0)%Z then NInf else NaN.
Definition xmul x y :=
  match x, y with
  | Fin a, Fin b => Fin (a * b)
  | _, _ => match xsgn x, xsgn y with Some s, Some t => xinf (s * t) | _, _ => NaN end
  end.
Definition xdiv x y :=
  match x, y with
  | NaN, _ | _, NaN => NaN
  | Fin a, Fin b => if Req_EM_T b 0 then xinf (rsgn a) else Fin (a / b)
  | Fin _, _ => Fin 0
  | PInf, Fin b => if Rlt_dec b 0 then NInf else PInf
  | NInf, Fin b => if Rlt_dec b 0 then PInf else NInf
  | _, _ => NaN
  end.
Definition xabs x := match x with Fin a => Fin (Rabs a) | NaN => NaN | _ => PInf end.
Definition xsign x :=
  match x with Fin a => Fin (IZR (rsgn a)) | PInf => Fin 1 | NInf => Fin (-1) | NaN => NaN end.
Definition xlt x y : bool :=
  match x, y with
  | NaN, _ | _, NaN => false
  | Fin a, Fin b => if Rlt_dec a b then true else false
  | NInf, NInf => false
  | NInf, _ => true
  | _, PInf => match x with PInf => false | _ => true end
  | _, _ => false
  end.
Definition xeqb x y : bool :=
  match x, y with
  | Fin a, Fin b => if Req_EM_T a b then true else false
  | PInf, PInf | NInf, NInf => true
  | _, _ => false
  end.
Definition xle x y : bool := xlt x y || xeqb x y.
Definition xmax x y :=
  match x, y with
  | NaN, _ | _, NaN => NaN
  | Fin a, Fin b => Fin (Rmax a b)
  | _, _ => if xlt x y then y else x
  end.
Definition xmin x y :=
  match x, y with
  | NaN, _ | _, NaN => NaN
  | Fin a, Fin b => Fin (Rmin a b)
  | _, _ => if xlt x y then x else y
  end.
Definition xsqrt x :=
  match x with
  | Fin a => if Rlt_dec a 0 then NaN else Fin (sqrt a)
  | PInf => PInf | _ => NaN end.
Definition xrsqrt x := xdiv (Fin 1) (xsqrt x).
Definition xexp x := match x with Fin a => Fin (exp a) | PInf => PInf | NInf => Fin 0 | NaN => NaN end.
Definition xlog x :=
  match x with
  | Fin a => if Rlt_dec 0 a then Fin (ln a) else if Req_EM_T a 0 then NInf else NaN
  | PInf => PInf | _ => NaN end.
Definition xlog1p x := xlog (xadd (Fin 1) x).
Definition xcos x := match x with Fin a => Fin (cos a) | _ => NaN end.
(** [is_int r = Some n] iff r = IZR n. *)
Definition is_int (r : R) : option Z :=
  if Req_EM_T r (IZR (Int_part r)) then Some (Int_part r) else None.
(** pow of C99/IEEE on extended reals. *)
Definition xpow x y :=
  match y with
  | Fin b =>
    if Req_EM_T b 0 then Fin 1
    else match x with
    | Fin a =>
      match is_int b with
      | Some n => if Req_EM_T a 0 then (if (n <? 0)%Z then PInf else Fin 0) else Fin (powerRZ a n)
      | None => if Rlt_dec 0 a then Fin (Rpower a b)
                else if Req_EM_T a 0 then (if Rlt_dec b 0 then PInf else Fin 0) else NaN
      end
    | PInf => if Rlt_dec b 0 then Fin 0 else PInf
    | NInf => if Rlt_dec b 0 then Fin 0 else
              match is_int b with Some n => if Z.even n then PInf else NInf | None => PInf end
    | NaN => NaN
    end
  | PInf => match x with
    | Fin a => if Req_EM_T (Rabs a) 1 then Fin 1 else if Rlt_dec (Rabs a) 1 then Fin 0 else PInf
    | NaN => NaN | _ => PInf end
  | NInf => match x with
    | Fin a => if Req_EM_T (Rabs a) 1 then Fin 1 else if Rlt_dec (Rabs a) 1 then PInf else Fin 0
    | NaN => NaN | _ => Fin 0 end
  | NaN => match x with Fin a => if Req_EM_T a 1 then Fin 1 else NaN | _ => NaN end
  end.
Definition xfloor x := match x with Fin a => Fin (IZR (Int_part a)) | _ => x end.
(** Round half to even. *)
Definition rround (a : R) : Z :=
  let n := Int_part (a + / 2) in
  if Req_EM_T (IZR n) (a + / 2) then (if Z.even n then n else n - 1)%Z else n.
Definition xround x := match x with Fin a => Fin (IZR (rround a)) | _ => x end.
Definition xtoZ x : Z :=
  match x with Fin a => if Rlt_dec a 0 then (- Int_part (- a))%Z else Int_part a | _ => 0%Z end.
Definition xisnan x := match x with NaN => true | _ => false end.
Definition xisfinite x := match x with Fin _ => true | _ => false end.
Definition xsum (l : list XR) : XR := fold_right xadd (Fin 0) l.

Record Platform := {
  p_x64 : bool;
  p_key : Type;
  p_prng_key : Z -> p_key;
  p_ksplit : p_key -> nat -> list p_key;
  p_knormal : p_key -> fdt -> list nat -> nat -> XR;
  p_kdraw : law -> p_key -> list nat -> nat -> XR;
}.

Existing Class Platform.

#[export] Instance XROps (P : Platform) : Ops := {|
  F := XR;
  flit q := Fin (Q2R q);
  fpi := Fin PI;
  fcast _ x := x;
  fadd _ := xadd; fsub _ := xsub; fmul _ := xmul; fdiv _ := xdiv; fpow _ := xpow;
  fneg := xneg; fabs := xabs; fsign := xsign; fmax := xmax; fmin := xmin;
  fsqrt _ := xsqrt; frsqrt _ := xrsqrt; fexp _ := xexp; flog _ := xlog; flog1p _ := xlog1p;
  fcos _ := xcos; ffloor := xfloor; fstop x := x; fround := xround; ftoZ := xtoZ;
  flt := xlt; fle := xle; feqb := xeqb; fisnan := xisnan; fisfinite := xisfinite;
  fsum _ := xsum;
  x64 := p_x64 P;
  key := p_key P; prng_key := p_prng_key P; ksplit := p_ksplit P; knormal := p_knormal P; kdraw := p_kdraw P;
|}.

(** ** Rewriting lemmas on finite values *)
Lemma xadd_fin a b : xadd (Fin a) (Fin b) = Fin (a + b). Proof. reflexivity. Qed.
Lemma xsub_fin a b : xsub (Fin a) (Fin b) = Fin (a - b). Proof. reflexivity. Qed.
Lemma xmul_fin a b : xmul (Fin a) (Fin b) = Fin (a * b). Proof. reflexivity. Qed.
Lemma xdiv_fin a b : b <> 0 -> xdiv (Fin a) (Fin b) = Fin (a / b).
Proof. intros H; cbn. now destruct (Req_EM_T b 0). Qed.
Lemma xdiv_zero a : xdiv (Fin a) (Fin 0) = xinf (rsgn a).
Proof. cbn. now destruct (Req_EM_T 0 0). Qed.
(** The root of a negative number, and of minus infinity, is NaN. *)
Lemma xsqrt_neg a : a < 0 -> xsqrt (Fin a) = NaN /\ xsqrt NInf = NaN.
Proof. intros H. unfold xsqrt. destruct (Rlt_dec a 0); [easy|lra]. Qed.
Lemma xsqrt_fin a : 0 <= a -> xsqrt (Fin a) = Fin (sqrt a).
Proof. intros H; cbn. destruct (Rlt_dec a 0); [lra|reflexivity]. Qed.
Lemma xrsqrt_fin a : 0 < a -> xrsqrt (Fin a) = Fin (/ sqrt a).
Proof.
  intros H. unfold xrsqrt. rewrite xsqrt_fin by lra.
  rewrite xdiv_fin; [f_equal; unfold Rdiv; ring|]. apply Rgt_not_eq, sqrt_lt_R0; lra.
Qed.
Lemma xlog_fin a : 0 < a -> xlog (Fin a) = Fin (ln a).
Proof. intros H; cbn. now destruct (Rlt_dec 0 a). Qed.
Lemma xlog1p_fin a : -1 < a -> xlog1p (Fin a) = Fin (ln (1 + a)).
Proof. intros H; unfold xlog1p. rewrite xadd_fin. apply xlog_fin. lra. Qed.
Lemma xlt_fin a b : xlt (Fin a) (Fin b) = true <-> a < b.
Proof. cbn. destruct (Rlt_dec a b); split; auto; try lra; discriminate. Qed.
Lemma xlt_fin_f a b : xlt (Fin a) (Fin b) = false <-> b <= a.
Proof. cbn. destruct (Rlt_dec a b); split; auto; try lra; discriminate. Qed.
Lemma xeqb_fin a b : xeqb (Fin a) (Fin b) = true <-> a = b.
Proof. cbn. destruct (Req_EM_T a b); split; auto; try lra; discriminate. Qed.
Lemma xeqb_fin_f a b : xeqb (Fin a) (Fin b) = false <-> a <> b.
Proof. cbn. destruct (Req_EM_T a b); split; auto; try lra; try discriminate. Qed.
Lemma xle_fin a b : xle (Fin a) (Fin b) = true <-> a <= b.
Proof. unfold xle. rewrite orb_true_iff, xlt_fin, xeqb_fin. lra. Qed.
Lemma xle_fin_f a b : xle (Fin a) (Fin b) = false <-> b < a.
Proof. unfold xle. rewrite orb_false_iff, xlt_fin_f, xeqb_fin_f. lra. Qed.

Lemma Int_part_IZR n : Int_part (IZR n) = n.
Proof.
  unfold Int_part. rewrite <- (tech_up (IZR n) (n + 1)); [lia| |].
  - rewrite plus_IZR; lra.
  - rewrite plus_IZR; lra.
Qed.
Lemma is_int_IZR n : is_int (IZR n) = Some n.
Proof. unfold is_int. rewrite Int_part_IZR. now destruct (Req_EM_T (IZR n) (IZR n)). Qed.
Lemma is_int_Some r n : is_int r = Some n -> r = IZR n.
Proof. unfold is_int. destruct (Req_EM_T r _) as [E|E]; [|discriminate]. intros [= <-]. exact E. Qed.

Lemma xpow_int a n : (a <> 0 \/ (0 < n)%Z) -> xpow (Fin a) (Fin (IZR n)) = Fin (powerRZ a n).
Proof.
  intros H. cbn. destruct (Req_EM_T (IZR n) 0) as [E|E].
  - apply eq_IZR in E; subst. reflexivity.
  - rewrite is_int_IZR. destruct (Req_EM_T a 0) as [->|Ha]; [|reflexivity].
    destruct H as [H|H]; [easy|]. destruct (Z.ltb_spec n 0); [lia|].
    destruct n as [|p|p]; try lia. cbn. now rewrite pow_i by lia.
Qed.

Lemma xpow_nat a n : xpow (Fin a) (Fin (INR n)) = Fin (a ^ n).
Proof.
  rewrite INR_IZR_INZ. destruct n as [|n].
  - cbn. destruct (Req_EM_T 0 0); [reflexivity|easy].
  - rewrite xpow_int by (right; lia). rewrite <- pow_powerRZ. reflexivity.
Qed.

Lemma xpow_pos a b : 0 < a -> xpow (Fin a) (Fin b) = Fin (Rpower a b).
Proof.
  intros Ha. cbn. destruct (Req_EM_T b 0) as [->|Hb].
  - now rewrite Rpower_O.
  - destruct (is_int b) as [n|] eqn:E.
    + apply is_int_Some in E; subst. destruct (Req_EM_T a 0); [lra|].
      now rewrite powerRZ_Rpower.
    + destruct (Rlt_dec 0 a); [reflexivity|easy].
Qed.

Lemma Q2R_0 : Q2R 0 = 0. Proof. unfold Q2R; cbn; lra. Qed.
Lemma Q2R_1 : Q2R 1 = 1. Proof. unfold Q2R; cbn; lra. Qed.
Lemma Q2R_Z n : Q2R (inject_Z n) = IZR n. Proof. unfold Q2R; cbn. lra. Qed.

Lemma xsum_fin l : xsum (map Fin l) = Fin (fold_right Rplus 0 l).
Proof. induction l as [|a l IH]; cbn; [reflexivity|]. unfold xsum in IH. now rewrite IH. Qed.

Definition isfin (x : XR) : Prop := exists r, x = Fin r.
Definition xval (x : XR) : R := match x with Fin r => r | _ => 0 end.
Lemma isfin_val x : isfin x <-> x = Fin (xval x).
Proof. split; [now intros (r & ->)|intros ->; now eexists]. Qed.

Lemma rsgn_pos r : 0 < r -> rsgn r = 1%Z.
Proof. unfold rsgn; destruct (Rlt_dec 0 r); easy. Qed.
Lemma rsgn_neg r : r < 0 -> rsgn r = (-1)%Z.
Proof. unfold rsgn; destruct (Rlt_dec 0 r); [lra|]. destruct (Rlt_dec r 0); easy. Qed.
Lemma rsgn_0 : rsgn 0 = 0%Z.
Proof. unfold rsgn. destruct (Rlt_dec 0 0); [lra|reflexivity]. Qed.
Lemma rsgn_abs r : IZR (rsgn r) * Rabs r = r.
Proof.
  unfold rsgn. destruct (Rlt_dec 0 r) as [H|H]; [rewrite Rabs_right by lra; lra|].
  destruct (Rlt_dec r 0); [rewrite Rabs_left by lra; lra|].
  assert (r = 0) as -> by lra. rewrite Rabs_R0; lra.
Qed.
