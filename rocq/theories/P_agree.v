(** The two arithmetics of the model agree: every operation of IEEE-754 is the exact operation on
    extended reals, rounded once; infinities and NaN come out the same. *)
From Verif Require Export P_ieee9 P_real.
From Coq Require Import Psatz Qreals Bool.
From Flocq Require Import Core.Core IEEE754.BinarySingleNaN.
Open Scope R_scope.
(*@header
From Flocq Require Import Core.Core IEEE754.BinarySingleNaN.
Open Scope R_scope.
*)
Local Notation fe d := (SpecFloat.fexp (fprec d) (femax d)).

(** ** Specification *)
(** The extended real a float stands for (both zeros are 0). *)
Definition exact (x : fl) : XR :=
  match x with Zr _ => Fin 0 | Nz r => Fin r | If false => PInf | If true => NInf | Na => NaN end.
(** [x] is the extended real [e] rounded to the nearest number of dtype [d], ties to even: NaN and
    the infinities are kept, and a real overflows to the infinity of its sign when its rounding
    reaches 2^emax. *)
Definition rounds (d : fdt) (e : XR) (x : fl) : Prop :=
  match e with
  | NaN => x = Na
  | PInf => x = If false
  | NInf => x = If true
  | Fin r =>
    let q := round radix2 (fe d) ZnearestE r in
    match x with
    | Na => False
    | If s => bpow radix2 (femax d) <= Rabs q /\ (if s then r < 0 else 0 < r)
    | Zr _ => q = 0
    | Nz z => z = q /\ Rabs q < bpow radix2 (femax d)
    end
  end.
(** The extended real is one of the numbers of the dtype. *)
Definition representable (d : fdt) (e : XR) : Prop :=
  match e with Fin r => generic_format radix2 (fe d) r /\ Rabs r < bpow radix2 (femax d) | _ => True end.

(** ** Proofs *)
Lemma exact_fin x : ffin x = true -> exact x = Fin (fval x). Proof. destruct x as [| |[|]|]; easy. Qed.
Lemma rounds_rto d s r : sgn_ok s r -> rounds d (Fin r) (rto d s r).
Proof.
  intros (S1 & S2). destruct (rto_cases d s r) as [(Hb & ->)|(Hb & ->)]; cbn -[fprec femax].
  - unfold fmk. case Req_bool_spec; intros E; [exact E|]. split; [reflexivity|exact Hb].
  - split; [exact Hb|]. assert (N : r <> 0). { intros ->. rewrite rnd_0, Rabs_R0 in Hb. pose proof (top_pos d). lra. }
    destruct s, (Rtotal_order r 0) as [H|[H|H]]; try exact H; try (now exfalso); try (exfalso; specialize (S2 H); discriminate); exfalso; specialize (S1 H); discriminate.
Qed.
Lemma rounds_zr d s : rounds d (Fin 0) (Zr s).
Proof. cbn -[fprec femax]. apply rnd_0. Qed.
Ltac rsg := unfold rsgn; repeat match goal with |- context [Rlt_dec ?a ?b] => destruct (Rlt_dec a b) end; try lra.
Lemma rsgn_pos r : 0 < r -> rsgn r = 1%Z. Proof. intros H. rsg. reflexivity. Qed.
Lemma rsgn_neg r : r < 0 -> rsgn r = (-1)%Z. Proof. intros H. rsg. reflexivity. Qed.
Lemma rsgn_zero : rsgn 0 = 0%Z. Proof. rsg. reflexivity. Qed.

Lemma add_rounds d x y : rounds d (xadd (exact x) (exact y)) (add_ (fprec d) (femax d) x y).
Proof.
  destruct (ffin x) eqn:Fx; [destruct (ffin y) eqn:Fy|].
  - rewrite !exact_fin by assumption. rewrite add_fin by assumption. apply rounds_rto, add_sgn.
  - destruct x as [|r|[|]|], y as [|q|[|]|]; try discriminate; reflexivity.
  - destruct x as [|r|[|]|], y as [|q|[|]|]; try discriminate; reflexivity.
Qed.
Lemma exact_opp x : exact (opp_ x) = xneg (exact x).
Proof. destruct x as [s|r|[|]|]; try reflexivity. cbn. f_equal. lra. Qed.
Lemma sub_rounds d x y : rounds d (xsub (exact x) (exact y)) (sub_ (fprec d) (femax d) x y).
Proof. unfold sub_, xsub. rewrite <- exact_opp. apply add_rounds. Qed.
Lemma fmt_nz d r : in_format d (Nz r) -> r <> 0. Proof. now intros (H & _). Qed.
Lemma inf_sgn r s : r <> 0 -> xmul (exact (Nz r)) (exact (If s)) = exact (If (xorb (Rlt_bool r 0) s)) /\ xmul (exact (If s)) (exact (Nz r)) = exact (If (xorb s (Rlt_bool r 0))).
Proof.
  intros N. case Rlt_bool_spec; intros H; [destruct s; cbn; now rewrite rsgn_neg|]. assert (H' : 0 < r) by lra. destruct s; cbn; now rewrite rsgn_pos.
Qed.
Lemma mul_rounds d x y : in_format d x -> in_format d y -> rounds d (xmul (exact x) (exact y)) (mul_ (fprec d) (femax d) x y).
Proof.
  intros Wx Wy. destruct (ffin x) eqn:Fx; [destruct (ffin y) eqn:Fy|].
  - rewrite !exact_fin by assumption. rewrite mul_fin by assumption. now apply rounds_rto, sgn_ok_xor.
  - destruct x as [s|r|s|], y as [t|q|t|]; try discriminate.
    + destruct t; cbn; rewrite rsgn_zero; reflexivity.
    + cbn. now destruct (rsgn 0).
    + rewrite (proj1 (inf_sgn r t (fmt_nz _ _ Wx))). cbn [mul_ fneg_]. destruct (xorb _ _); reflexivity.
    + reflexivity.
  - destruct x as [s|r|s|], y as [t|q|t|]; try discriminate; try (destruct s; reflexivity); try reflexivity.
    + destruct s; cbn; rewrite rsgn_zero; reflexivity.
    + rewrite (proj2 (inf_sgn q s (fmt_nz _ _ Wy))). cbn [mul_ fneg_]. destruct (xorb _ _); reflexivity.
    + destruct s, t; reflexivity.
Qed.
Lemma div_rounds d x y : in_format d x -> in_format d y -> y <> Zr true -> rounds d (xdiv (exact x) (exact y)) (div_ (fprec d) (femax d) x y).
Proof.
  intros Wx Wy Ny. destruct y as [t|q|t|].
  - destruct t; [easy|]. destruct x as [s|r|s|]; cbn [exact].
    + rewrite xdiv_zero, rsgn_zero. reflexivity.
    + rewrite xdiv_zero. cbn [div_ fneg_]. apply fmt_nz in Wx. case Rlt_bool_spec; intros H; [rewrite rsgn_neg by lra|rewrite rsgn_pos by lra]; reflexivity.
    + destruct s; cbn; destruct (Rlt_dec 0 0); try lra; reflexivity.
    + reflexivity.
  - apply fmt_nz in Wy. destruct (ffin x) eqn:Fx.
    + rewrite (exact_fin x) by assumption. cbn [exact]. rewrite xdiv_fin by assumption. rewrite div_fin by assumption. apply rounds_rto.
      apply (sgn_ok_xor_div x (Nz q)); [exact Fx|]. now exists q.
    + destruct x as [s|r|s|]; try discriminate; [|reflexivity]. cbn [div_ fneg_]. case Rlt_bool_spec; intros H; destruct s; cbn; destruct (Rlt_dec q 0); try lra; reflexivity.
  - destruct x as [s|r|s|].
    + destruct t; cbn; apply rnd_0.
    + destruct t; cbn -[fprec femax]; apply rnd_0.
    + destruct s, t; reflexivity.
    + reflexivity.
  - destruct x as [s|r|[|]|]; reflexivity.
Qed.
Lemma sqrt_rounds d x : in_format d x -> rounds d (xsqrt (exact x)) (sqrt_ (fprec d) (femax d) x).
Proof.
  intros Wx. destruct x as [s|r|[|]|]; try reflexivity; cbn [exact sqrt_].
  - rewrite xsqrt_fin by lra. rewrite sqrt_0. apply rounds_zr.
  - case Rlt_bool_spec; intros H.
    + rewrite (proj1 (xsqrt_neg r H)). reflexivity.
    + rewrite xsqrt_fin by lra. apply rounds_rto, sgn_ok_false, sqrt_pos.
Qed.
Lemma cast_rounds d x : rounds d (exact x) (cast_ d x).
Proof.
  destruct x as [s|r|[|]|]; try reflexivity; cbn [exact cast_]; [apply rounds_zr|]. apply rounds_rto, sgn_ok_lt.
Qed.
Lemma exact_abs x : exact (abs_ x) = xabs (exact x).
Proof. destruct x as [s|r|[|]|]; try reflexivity. cbn. now rewrite Rabs_R0. Qed.
Lemma exact_sign d x : in_format d x -> exact (sign_ x) = xsign (exact x).
Proof.
  intros Wx. destruct x as [s|r|[|]|]; try reflexivity; cbn [exact sign_ xsign]; [now rewrite rsgn_zero|].
  apply fmt_nz in Wx. case Rlt_bool_spec; intros H; [rewrite rsgn_neg by lra|rewrite rsgn_pos by lra]; reflexivity.
Qed.
Lemma lt_exact x y : lt_ x y = xlt (exact x) (exact y).
Proof.
  destruct (ffin x) eqn:Fx; [destruct (ffin y) eqn:Fy|].
  - rewrite !exact_fin by assumption. pose proof (lt_fin x y Fx Fy) as E. pose proof (xlt_fin (fval x) (fval y)) as E'. destruct (lt_ x y), (xlt _ _); try reflexivity; [symmetry|]; tauto.
  - destruct x as [|r|[|]|], y as [|q|[|]|]; try discriminate; reflexivity.
  - destruct x as [|r|[|]|], y as [|q|[|]|]; try discriminate; reflexivity.
Qed.
Lemma eq_exact x y : eq_ x y = xeqb (exact x) (exact y).
Proof.
  destruct (ffin x) eqn:Fx; [destruct (ffin y) eqn:Fy|].
  - rewrite !exact_fin by assumption. unfold eq_. rewrite cmp_fin by assumption. cbn. case Rcompare_spec; intros H; destruct (Req_EM_T _ _); try lra; reflexivity.
  - destruct x as [|r|[|]|], y as [|q|[|]|]; try discriminate; reflexivity.
  - destruct x as [|r|[|]|], y as [|q|[|]|]; try discriminate; reflexivity.
Qed.
Lemma le_exact x y : le_ x y = xle (exact x) (exact y).
Proof. unfold xle. rewrite <- lt_exact, <- eq_exact. unfold le_, lt_, eq_. destruct (cmp_ x y) as [[| |]|]; reflexivity. Qed.
Lemma isnan_exact x : isnan_ x = xisnan (exact x). Proof. destruct x as [| |[|]|]; reflexivity. Qed.
Lemma fin_exact x : ffin x = xisfinite (exact x). Proof. destruct x as [| |[|]|]; reflexivity. Qed.
Lemma exact_max x y : exact (max_ x y) = xmax (exact x) (exact y).
Proof.
  unfold max_. rewrite lt_exact. destruct x as [|r|[|]|], y as [|q|[|]|]; try reflexivity; cbn;
    match goal with |- context [Rlt_dec ?a ?b] => destruct (Rlt_dec a b) end; cbn; unfold Rmax; destruct (Rle_dec _ _); try reflexivity; f_equal; lra.
Qed.
Lemma exact_min x y : exact (min_ x y) = xmin (exact x) (exact y).
Proof.
  unfold min_. rewrite lt_exact. destruct x as [|r|[|]|], y as [|q|[|]|]; try reflexivity; cbn;
    match goal with |- context [Rlt_dec ?a ?b] => destruct (Rlt_dec a b) end; cbn; unfold Rmin; destruct (Rle_dec _ _); try reflexivity; f_equal; lra.
Qed.
Lemma Int_part_floor r : Int_part r = Zfloor r.
Proof.
  symmetry. apply Zfloor_imp. rewrite plus_IZR. destruct (base_Int_part r). lra.
Qed.
Lemma exact_mk s r : exact (fmk s r) = Fin r.
Proof. unfold fmk. case Req_bool_spec; intros E; cbn; now rewrite ?E. Qed.
Lemma exact_floor x : exact (floor_ x) = xfloor (exact x).
Proof.
  destruct x as [s|r|[|]|]; try reflexivity; cbn [exact floor_ xfloor].
  - now rewrite (Int_part_IZR 0).
  - rewrite exact_mk. reflexivity.
Qed.
Lemma rround_near r : rround r = ZnearestE r.
Proof.
  unfold rround. set (n := Int_part (r + / 2)). destruct (base_Int_part (r + / 2)) as (B1 & B2). fold n in B1, B2.
  unfold Znearest. destruct (Req_EM_T (IZR n) (r + / 2)) as [E|E].
  - assert (Fl : Zfloor r = (n - 1)%Z) by (apply Zfloor_imp; rewrite plus_IZR, minus_IZR; lra).
    assert (Ce : Zceil r = n) by (apply Zceil_imp; rewrite minus_IZR; lra).
    rewrite Fl, Ce, minus_IZR. rewrite Rcompare_Eq by lra. replace (Z.even (n - 1)) with (negb (Z.even n)) by (rewrite Z.even_sub; now destruct (Z.even n)).
    now destruct (Z.even n).
  - destruct (Rle_or_lt (IZR n) r) as [H|H].
    + assert (Fl : Zfloor r = n) by (apply Zfloor_imp; rewrite plus_IZR; lra). rewrite Fl. rewrite Rcompare_Lt by lra. reflexivity.
    + assert (Fl : Zfloor r = (n - 1)%Z) by (apply Zfloor_imp; rewrite plus_IZR, minus_IZR; lra).
      assert (Ce : Zceil r = n) by (apply Zceil_imp; rewrite minus_IZR; lra). rewrite Fl, Ce, minus_IZR. rewrite Rcompare_Gt by lra. reflexivity.
Qed.
Lemma exact_rint x : exact (rint_ x) = xround (exact x).
Proof.
  destruct x as [s|r|[|]|]; try reflexivity; cbn [exact rint_ xround].
  - rewrite rround_near. now rewrite (Zrnd_IZR ZnearestE 0).
  - now rewrite exact_mk, rround_near.
Qed.
Lemma trunc_exact x : trunc_ x = xtoZ (exact x).
Proof.
  destruct x as [s|r|[|]|]; try reflexivity; cbn [exact trunc_ xtoZ].
  - destruct (Rlt_dec 0 0); [lra|]. now rewrite (Int_part_IZR 0).
  - unfold Ztrunc. case Rlt_bool_spec; intros H; destruct (Rlt_dec r 0); try lra; [|reflexivity]. reflexivity.
Qed.

(*@ C95_rounded_once : Every arithmetic operation on floats of any dtype is the exact operation on the numbers they stand for, rounded once to the dtype; infinities and NaN, as operands or as results, are those of the exact arithmetic.  (The division by minus zero is the one operation the exact arithmetic, whose zero has no sign, does not describe.) *)
Lemma rounded_once : forall (L : Libm) (P : Platform) (d : fdt) (x y : fl), in_format d x -> in_format d y ->
  rounds d (@fadd (XROps P) d (exact x) (exact y)) (@fadd (FlOps L) d x y) /\
  rounds d (@fsub (XROps P) d (exact x) (exact y)) (@fsub (FlOps L) d x y) /\
  rounds d (@fmul (XROps P) d (exact x) (exact y)) (@fmul (FlOps L) d x y) /\
  (y <> Zr true -> rounds d (@fdiv (XROps P) d (exact x) (exact y)) (@fdiv (FlOps L) d x y)) /\
  rounds d (@fsqrt (XROps P) d (exact x)) (@fsqrt (FlOps L) d x) /\
  (forall d', rounds d' (@fcast (XROps P) d' (exact x)) (@fcast (FlOps L) d' x)) /\
  (forall q, rounds F64 (@flit (XROps P) q) (@flit (FlOps L) q)) /\
  rounds F64 (@fpi (XROps P)) (@fpi (FlOps L)).
Proof.
  intros L P d x y Wx Wy. cbn [fadd fsub fmul fdiv fsqrt fcast flit fpi XROps FlOps].
  split; [apply add_rounds|]. split; [apply sub_rounds|]. split; [now apply mul_rounds|]. split; [now apply div_rounds|]. split; [now apply sqrt_rounds|].
  split; [intros d'; apply cast_rounds|]. split.
  - intros q. apply (rounds_rto F64), sgn_ok_lt.
  - apply (rounds_rto F64), sgn_ok_false. pose proof PI_RGT_0. lra.
Qed.

(*@ C95_exact_operations : Sign changes, absolute values, signs, maxima, minima, rounding to an integer, conversion to an integer and every comparison of floats are exact: they commute with the numbers the floats stand for. *)
Lemma exact_operations : forall (L : Libm) (P : Platform) (d : fdt) (x y : fl), in_format d x -> in_format d y ->
  exact (@fneg (FlOps L) x) = @fneg (XROps P) (exact x) /\
  exact (@fabs (FlOps L) x) = @fabs (XROps P) (exact x) /\
  exact (@fsign (FlOps L) x) = @fsign (XROps P) (exact x) /\
  exact (@fmax (FlOps L) x y) = @fmax (XROps P) (exact x) (exact y) /\
  exact (@fmin (FlOps L) x y) = @fmin (XROps P) (exact x) (exact y) /\
  exact (@ffloor (FlOps L) x) = @ffloor (XROps P) (exact x) /\
  exact (@fround (FlOps L) x) = @fround (XROps P) (exact x) /\
  exact (@fstop (FlOps L) x) = @fstop (XROps P) (exact x) /\
  @ftoZ (FlOps L) x = @ftoZ (XROps P) (exact x) /\
  @flt (FlOps L) x y = @flt (XROps P) (exact x) (exact y) /\
  @fle (FlOps L) x y = @fle (XROps P) (exact x) (exact y) /\
  @feqb (FlOps L) x y = @feqb (XROps P) (exact x) (exact y) /\
  @fisnan (FlOps L) x = @fisnan (XROps P) (exact x) /\
  @fisfinite (FlOps L) x = @fisfinite (XROps P) (exact x).
Proof.
  intros L P d x y Wx Wy. cbn [fneg fabs fsign fmax fmin ffloor fround fstop ftoZ flt fle feqb fisnan fisfinite XROps FlOps].
  repeat match goal with |- _ /\ _ => split end.
  - apply exact_opp. - apply exact_abs. - eapply exact_sign; eassumption. - apply exact_max. - apply exact_min. - apply exact_floor. - apply exact_rint. - reflexivity.
  - apply trunc_exact. - apply lt_exact. - apply le_exact. - apply eq_exact. - apply isnan_exact. - apply fin_exact.
Qed.

(*@ C95_no_rounding : When the exact result is a number of the dtype (or an infinity or NaN) the float result is exactly that number, and no other float result is possible. *)
Lemma no_rounding : forall (d : fdt) (e : XR) (x : fl), rounds d e x -> representable d e -> exact x = e.
Proof.
  intros d e x H R. destruct e as [r| | |]; cbn [rounds representable] in *; try (subst; reflexivity).
  destruct R as (R1 & R2). rewrite (round_generic radix2 (fe d) ZnearestE r R1) in H. destruct x as [s|z|s|]; cbn [exact].
  - now rewrite H. - destruct H as (-> & _). reflexivity. - lra. - easy.
Qed.

(*@ C95_special_values : The special values of the remaining elementary functions of the exact arithmetic are those of IEEE-754: powers (anything to the power 0, 1 to any power, 0 and the infinities to positive and negative powers, a negative number to a fractional power), exponential, logarithm and cosine. *)
Lemma special_values : forall (P : Platform) (d : fdt) (a b : R),
  let pow := @fpow (XROps P) d in
  (forall x, pow x (Fin 0) = Fin 1) /\ (forall y, pow (Fin 1) y = Fin 1) /\
  (forall y, y <> Fin 0 -> pow NaN y = NaN) /\ (a <> 1 -> pow (Fin a) NaN = NaN) /\ pow PInf NaN = NaN /\ pow NInf NaN = NaN /\
  (0 < b -> pow (Fin 0) (Fin b) = Fin 0 /\ pow PInf (Fin b) = PInf /\ pow PInf (Fin (- b)) = Fin 0 /\ pow (Fin 0) (Fin (- b)) = PInf /\ pow NInf (Fin (- b)) = Fin 0) /\
  (forall n, (0 < n)%Z -> pow NInf (Fin (IZR n)) = if Z.even n then PInf else NInf) /\
  (0 < b -> (forall n, b <> IZR n) -> pow NInf (Fin b) = PInf) /\
  (a < 0 -> (forall n, b <> IZR n) -> pow (Fin a) (Fin b) = NaN) /\
  (Rabs a < 1 -> pow (Fin a) PInf = Fin 0 /\ pow (Fin a) NInf = PInf) /\
  (1 < Rabs a -> pow (Fin a) PInf = PInf /\ pow (Fin a) NInf = Fin 0) /\
  pow (Fin (-1)) PInf = Fin 1 /\ pow (Fin (-1)) NInf = Fin 1 /\
  pow PInf PInf = PInf /\ pow NInf PInf = PInf /\ pow PInf NInf = Fin 0 /\ pow NInf NInf = Fin 0 /\
  @fexp (XROps P) d PInf = PInf /\ @fexp (XROps P) d NInf = Fin 0 /\ @fexp (XROps P) d NaN = NaN /\
  @flog (XROps P) d (Fin 0) = NInf /\ (a < 0 -> @flog (XROps P) d (Fin a) = NaN) /\ @flog (XROps P) d PInf = PInf /\ @flog (XROps P) d NInf = NaN /\ @flog (XROps P) d NaN = NaN /\
  @flog1p (XROps P) d (Fin (-1)) = NInf /\ (a < -1 -> @flog1p (XROps P) d (Fin a) = NaN) /\ @flog1p (XROps P) d PInf = PInf /\ @flog1p (XROps P) d NInf = NaN /\ @flog1p (XROps P) d NaN = NaN /\
  @fcos (XROps P) d PInf = NaN /\ @fcos (XROps P) d NInf = NaN /\ @fcos (XROps P) d NaN = NaN /\
  @frsqrt (XROps P) d (Fin 0) = PInf /\ (a < 0 -> @frsqrt (XROps P) d (Fin a) = NaN) /\ @frsqrt (XROps P) d PInf = Fin 0 /\ @frsqrt (XROps P) d NInf = NaN /\ @frsqrt (XROps P) d NaN = NaN.
Proof.
  intros P d a b pow. subst pow. cbn [fpow fexp flog flog1p fcos frsqrt XROps].
  assert (NI : forall b0, (forall n, b0 <> IZR n) -> is_int b0 = None).
  { intros b0 H. unfold is_int. destruct (Req_EM_T _ _) as [E|E]; [now apply H in E|reflexivity]. }
  assert (R1 : Rabs 1 = 1) by apply Rabs_R1. assert (R2 : Rabs (-1) = 1) by (unfold Rabs; destruct (Rcase_abs (-1)); lra).
  repeat match goal with |- _ /\ _ => split end; try reflexivity.
  - intros x. unfold xpow. destruct (Req_EM_T 0 0); [reflexivity|lra].
  - intros [y| | |]; unfold xpow; rewrite ?R1.
    + destruct (Req_EM_T y 0); [reflexivity|]. destruct (is_int y) as [m|]; [destruct (Req_EM_T 1 0); [lra|]; now rewrite powerRZ_R1|].
      destruct (Rlt_dec 0 1); [|lra]. unfold Rpower. rewrite ln_1, Rmult_0_r, exp_0. reflexivity.
    + destruct (Req_EM_T 1 1); [reflexivity|lra]. + destruct (Req_EM_T 1 1); [reflexivity|lra]. + destruct (Req_EM_T 1 1); [reflexivity|lra].
  - intros [y| | |] H; unfold xpow; try reflexivity. destruct (Req_EM_T y 0) as [->|]; [now destruct H|reflexivity].
  - intros H. unfold xpow. destruct (Req_EM_T a 1); [lra|reflexivity].
  - intros Hb. unfold xpow. destruct (Req_EM_T b 0); [lra|]. destruct (Req_EM_T (- b) 0); [lra|]. destruct (Rlt_dec b 0); [lra|]. destruct (Rlt_dec (- b) 0); [|lra].
    destruct (Req_EM_T 0 0); [|lra]. destruct (Rlt_dec 0 0); [lra|].
    repeat match goal with |- _ /\ _ => split end; try reflexivity.
    + destruct (is_int b) as [m|] eqn:E; [|reflexivity]. apply is_int_Some in E. subst b. destruct (m <? 0)%Z eqn:En; [|reflexivity]. apply Z.ltb_lt, IZR_lt in En. lra.
    + destruct (is_int (- b)) as [m|] eqn:E; [|reflexivity]. apply is_int_Some in E. destruct (m <? 0)%Z eqn:En; [reflexivity|]. apply Z.ltb_ge, IZR_le in En. lra.
  - intros n Hn. apply IZR_lt in Hn. unfold xpow. destruct (Req_EM_T (IZR n) 0); [lra|]. destruct (Rlt_dec (IZR n) 0); [lra|]. now rewrite is_int_IZR.
  - intros Hb Hi. unfold xpow. destruct (Req_EM_T b 0); [lra|]. destruct (Rlt_dec b 0); [lra|]. now rewrite NI.
  - intros Ha Hi. unfold xpow. destruct (Req_EM_T b 0); [now apply (Hi 0%Z) in e|]. rewrite NI by exact Hi. destruct (Rlt_dec 0 a); [lra|]. destruct (Req_EM_T a 0); [lra|reflexivity].
  - intros Ha. unfold xpow. destruct (Req_EM_T (Rabs a) 1); [lra|]. destruct (Rlt_dec (Rabs a) 1); [|lra]. split; reflexivity.
  - intros Ha. unfold xpow. destruct (Req_EM_T (Rabs a) 1); [lra|]. destruct (Rlt_dec (Rabs a) 1); [lra|]. split; reflexivity.
  - unfold xpow. rewrite R2. destruct (Req_EM_T 1 1); [reflexivity|lra].
  - unfold xpow. rewrite R2. destruct (Req_EM_T 1 1); [reflexivity|lra].
  - unfold xlog. destruct (Rlt_dec 0 0); [lra|]. destruct (Req_EM_T 0 0); [reflexivity|lra].
  - intros Ha. unfold xlog. destruct (Rlt_dec 0 a); [lra|]. destruct (Req_EM_T a 0); [lra|reflexivity].
  - unfold xlog1p, xadd, xlog. destruct (Rlt_dec 0 (1 + -1)); [lra|]. destruct (Req_EM_T (1 + -1) 0); [reflexivity|lra].
  - intros Ha. unfold xlog1p, xadd, xlog. destruct (Rlt_dec 0 (1 + a)); [lra|]. destruct (Req_EM_T (1 + a) 0); [lra|reflexivity].
  - unfold xrsqrt. rewrite xsqrt_fin, sqrt_0, xdiv_zero, rsgn_pos by lra. reflexivity.
  - intros Ha. unfold xrsqrt. rewrite (proj1 (xsqrt_neg a Ha)). reflexivity.
Qed.

(** Instances: an exact sum, an indeterminate one, and a division by zero. *)
(*@ex C95_example *)
Lemma agree_example : forall (P : Platform) (L : Libm),
  exact (@fadd (FlOps L) F16 (Nz 1) (Nz 2)) = Fin 3 /\
  @fadd (FlOps L) BF16 (If false) (If true) = Na /\ @fadd (XROps P) BF16 PInf NInf = NaN /\
  @fdiv (FlOps L) F32 (Nz 1) (Zr false) = If false /\ @fdiv (XROps P) F32 (Fin 1) (Fin 0) = PInf.
Proof.
  intros P L. split.
  - assert (W1 : in_format F16 (Nz 1)) by (apply (int_format F16 1); [reflexivity|easy]). assert (W2 : in_format F16 (Nz 2)) by (apply (int_format F16 2); [reflexivity|easy]).
    apply (no_rounding F16). + replace (Fin 3) with (@fadd (XROps P) F16 (exact (Nz 1)) (exact (Nz 2))) by (cbn; f_equal; lra). now apply rounded_once.
    + split; [apply (fmt_int F16 3); reflexivity|apply (int_lt_top F16 3); reflexivity].
  - split; [reflexivity|]. split; [reflexivity|]. split.
    + cbn [fdiv FlOps div_ fneg_]. rewrite Rlt_bool_false by lra. reflexivity.
    + cbn [fdiv XROps]. rewrite xdiv_zero, rsgn_pos by lra. reflexivity.
Qed.
