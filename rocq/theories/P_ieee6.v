(** IEEE-754: learning-rate schedules. *)
From Verif Require Export P_ieee5 M_schedule.
From Verif Require P_sched.
From Coq Require Import Permutation.
From Coq Require Import Psatz Qreals Bool.
From Flocq Require Import Core.Core IEEE754.BinarySingleNaN.
Open Scope R_scope.
#[local] Existing Instance FlOps.
(*@header
From Flocq Require Import Core.Core IEEE754.BinarySingleNaN.
Open Scope R_scope.
#[local] Existing Instance FlOps.
*)

Section Counts.
  Context `{L : Libm}.
  Local Notation D := (@defdt (FlOps L)).
  Lemma rnd_range d z : d = F32 \/ d = F64 -> 0 <= z <= bpow radix2 31 -> 0 <= rnd d z <= bpow radix2 31 /\ Rabs (rnd d z) < top d.
  Proof.
    intros Hd Hz. assert (H : 0 <= rnd d z <= bpow radix2 31).
    { split; [apply rnd_ge0; lra|]. rewrite <- (rnd_id d (bpow radix2 31)) by (apply fmt_bpow; destruct Hd; subst; cbn; lia). apply rnd_le. lra. }
    split; [exact H|]. rewrite Rabs_pos_eq by lra. apply Rle_lt_trans with (bpow radix2 31); [lra|]. apply bpow_lt. destruct Hd; subst; reflexivity.
  Qed.
  Lemma zf_fl z : (0 <= z <= int32_max)%Z -> ffin (@zf (FlOps L) z) = true /\ fval (@zf (FlOps L) z) = rnd D (rnd F64 (IZR z)).
  Proof.
    intros Hz. assert (int32_max = 2147483647)%Z by reflexivity. unfold zf, fofZ. pose proof (defdt_cases (L := L)) as HD. set (d := D) in *. clearbody d.
    cbn [flit fcast FlOps]. assert (E : Q2R (inject_Z z) = IZR z) by (unfold Q2R; cbn; lra). rewrite E.
    assert (Hr : 0 <= IZR z <= bpow radix2 31) by (split; [apply IZR_le; lia|cbn; apply IZR_le; lia]).
    destruct (rnd_range F64 _ ltac:(auto) Hr) as (A1 & A2). destruct (rnd_range d _ HD A1) as (B1 & B2).
    change (fround_ 53 1024) with (fround_ (fprec F64) (femax F64)).
    destruct (rto_cases F64 (Rlt_bool (IZR z) 0) (IZR z)) as [(_ & ->)|(C & _)]; [|lra].
    unfold fmk. case Req_bool_spec; intros E0.
    - split; [reflexivity|]. cbn [cast_ fval]. rewrite E0. now rewrite rnd_0.
    - cbn [cast_]. destruct (rto_cases d (Rlt_bool (rnd F64 (IZR z)) 0) (rnd F64 (IZR z))) as [(_ & ->)|(C & _)]; [now rewrite fmk_fin, fmk_val|lra].
  Qed.
  Lemma zf_pos z : (1 <= z <= int32_max)%Z -> ffin (@zf (FlOps L) z) = true /\ 1 <= fval (@zf (FlOps L) z).
  Proof. intros H. apply (cast_count (L := L)); [apply defdt_cases|exact H]. Qed.
  Lemma zf_mono z z' : (0 <= z <= z')%Z -> (z' <= int32_max)%Z -> fval (@zf (FlOps L) z) <= fval (@zf (FlOps L) z').
  Proof. intros H H'. rewrite (proj2 (zf_fl z ltac:(lia))), (proj2 (zf_fl z' ltac:(lia))). apply rnd_le, rnd_le, IZR_le. lia. Qed.

  (** 1 - count / steps *)
  Definition fracf (c s : Z) : fl := @fsub (FlOps L) D (@fcast (FlOps L) D (@fone (FlOps L))) (@fdiv (FlOps L) D (@zf (FlOps L) c) (@zf (FlOps L) s)).
  Lemma fracf_val c s : (0 <= c <= s)%Z -> (0 < s <= int32_max)%Z ->
    let q := rnd D (fval (@zf (FlOps L) c) / fval (@zf (FlOps L) s)) in
    ffin (fracf c s) = true /\ fval (fracf c s) = rnd D (1 - q) /\ 0 <= q <= 1 /\ 0 <= fval (fracf c s) <= 1 /\ fracf c s = rto D (Rlt_bool (1 - q) 0) (1 - q).
  Proof.
    intros Hc Hs. cbn zeta. unfold fracf. rewrite cast1. destruct (zf_pos s ltac:(lia)) as (S1 & S2). destruct (zf_fl c ltac:(lia)) as (C1 & C2).
    pose proof (zf_mono c s ltac:(lia) ltac:(lia)) as M.
    assert (C3 : 0 <= fval (@zf (FlOps L) c)) by (rewrite C2; apply rnd_ge0, rnd_ge0, IZR_le; lia).
    set (d := D) in *. clearbody d. cbn [fsub fdiv FlOps]. set (x := @zf (FlOps L) c) in *. set (y := @zf (FlOps L) s) in *. clearbody x y.
    destruct y as [|y| |]; try discriminate; cbn [fval] in *; [lra|]. rewrite div_fin by exact C1.
    assert (Hq : 0 <= fval x / y <= 1). { split; [apply Rmult_le_pos; [lra|]; left; apply Rinv_0_lt_compat; lra|]. apply Rmult_le_reg_r with y; [lra|]. unfold Rdiv. rewrite Rmult_assoc, Rinv_l by lra. lra. }
    assert (Hr : 0 <= rnd d (fval x / y) <= 1) by (split; [apply rnd_ge0; lra|]; rewrite <- (rnd_id d 1 (fmt_1 d)); apply rnd_le; lra).
    assert (T1 : 1 < top d) by (change 1 with (bpow radix2 0); apply bpow_lt; destruct d; reflexivity).
    destruct (rto_cases d (xorb (fneg_ x) (Rlt_bool y 0)) (fval x / y)) as [(_ & ->)|(C & _)]; [|rewrite Rabs_pos_eq in C by lra; lra].
    unfold sub_. set (w := fmk _ _). assert (Fw : ffin w = true) by apply fmk_fin. assert (Vw : fval w = rnd d (fval x / y)) by apply fmk_val. clearbody w.
    rewrite add_fin; [|reflexivity|destruct w; try discriminate; reflexivity].
    assert (E : fval (Nz 1) + fval (opp_ w) = 1 - rnd d (fval x / y)) by (rewrite <- Vw; destruct w; try discriminate; cbn; lra). rewrite E.
    set (q := rnd d (fval x / y)) in *.
    assert (Hv : 0 <= rnd d (1 - q) <= 1) by (split; [apply rnd_ge0; lra|]; rewrite <- (rnd_id d 1 (fmt_1 d)) at 2; apply rnd_le; lra).
    assert (Es : (if Req_bool (1 - q) 0 then fneg_ (Nz 1) && fneg_ (opp_ w) else Rlt_bool (1 - q) 0) = Rlt_bool (1 - q) 0).
    { case Req_bool_spec; intros E0; [|reflexivity]. cbn [fneg_]. rewrite (Rlt_bool_false 1 0) by lra. cbn. rewrite Rlt_bool_false; [reflexivity|lra]. }
    rewrite Es. destruct (rto_cases d (Rlt_bool (1 - q) 0) (1 - q)) as [(_ & E1)|(C & _)]; [|rewrite Rabs_pos_eq in C by lra; lra].
    rewrite E1, fmk_fin, fmk_val. tauto.
  Qed.
  Lemma fracf_end s : (0 < s <= int32_max)%Z -> fracf s s = Zr false.
  Proof.
    intros Hs. destruct (fracf_val s s ltac:(lia) Hs) as (_ & _ & _ & _ & E). destruct (zf_pos s ltac:(lia)) as (S1 & S2).
    assert (Eq : fval (@zf (FlOps L) s) / fval (@zf (FlOps L) s) = 1) by (field; lra). rewrite Eq, (rnd_id D 1 (fmt_1 _)) in E.
    replace (1 - 1) with 0 in E by lra. rewrite E, Rlt_bool_false, rto_id by (try apply fmt_0; rewrite ?Rabs_R0; try apply top_pos; lra). unfold fmk. now rewrite Req_bool_true.
  Qed.
  Lemma fracf_0 s : (0 < s <= int32_max)%Z -> fracf 0 s = Nz 1.
  Proof.
    intros Hs. destruct (fracf_val 0 s ltac:(lia) Hs) as (_ & _ & _ & _ & E). destruct (zf_fl 0 ltac:(lia)) as (S1 & S2). rewrite rnd_0, rnd_0 in S2. rewrite S2 in E. unfold Rdiv in E.
    rewrite Rmult_0_l, rnd_0 in E. replace (1 - 0) with 1 in E by lra. rewrite E, rto_id; [unfold fmk; now rewrite Req_bool_false by lra|apply fmt_1|].
    rewrite Rabs_R1. change 1 with (bpow radix2 0); apply bpow_lt; destruct D; reflexivity.
  Qed.
  Lemma fracf_mono c c' s : (0 <= c <= c')%Z -> (c' <= s)%Z -> (0 < s <= int32_max)%Z -> fval (fracf c' s) <= fval (fracf c s).
  Proof.
    intros H1 H2 Hs. destruct (fracf_val c s ltac:(lia) Hs) as (_ & E & _). destruct (fracf_val c' s ltac:(lia) Hs) as (_ & E' & _). rewrite E, E'.
    apply rnd_le. assert (rnd D (fval (@zf (FlOps L) c) / fval (@zf (FlOps L) s)) <= rnd D (fval (@zf (FlOps L) c') / fval (@zf (FlOps L) s))); [|lra].
    apply rnd_le. apply Rmult_le_compat_r; [left; apply Rinv_0_lt_compat; pose proof (zf_pos s ltac:(lia)); lra|]. apply zf_mono; lia.
  Qed.

  Definition poly_tail (i e f : fl) : fl :=
    @fadd (FlOps L) D (@fmul (FlOps L) D (@fcast (FlOps L) D (@pysub (FlOps L) i e)) f) (@fcast (FlOps L) D e).
  Lemma poly_eq (i e power : fl) steps begin c : (0 < steps)%Z ->
    polynomial_schedule (O := FlOps L) i e power steps begin c =
    poly_tail i e (@fpow (FlOps L) D (fracf (clip_count (c - Z.max begin 0) 0 steps) steps) (@fcast (FlOps L) D power)).
  Proof.
    intros Hs. unfold polynomial_schedule. destruct (Z.leb_spec steps 0); [lia|]. cbn zeta.
    replace (if (begin <? 0)%Z then 0%Z else begin) with (Z.max begin 0) by (destruct (Z.ltb_spec begin 0); lia). reflexivity.
  Qed.
  (** The value is monotone in the fraction. *)
  Lemma tail_mono (A E f f' : fl) : ffin A = true -> ffin E = true -> in_format D A -> ffin f = true -> ffin f' = true -> 0 <= fval f <= 1 -> 0 <= fval f' <= 1 -> fval f <= fval f' ->
    (0 <= fval A -> fleq (add_ (fprec D) (femax D) (mul_ (fprec D) (femax D) A f) E) (add_ (fprec D) (femax D) (mul_ (fprec D) (femax D) A f') E)) /\
    (fval A <= 0 -> fleq (add_ (fprec D) (femax D) (mul_ (fprec D) (femax D) A f') E) (add_ (fprec D) (femax D) (mul_ (fprec D) (femax D) A f) E)).
  Proof.
    intros FA FE IA Ff Ff' Hf Hf' Hle. set (d := D) in *. clearbody d. destruct (fin_fmt d A IA) as (A1 & A2).
    assert (M : forall g, ffin g = true -> 0 <= fval g <= 1 -> ffin (mul_ (fprec d) (femax d) A g) = true /\ fval (mul_ (fprec d) (femax d) A g) = rnd d (fval A * fval g)).
    { intros g Fg Hg. rewrite mul_fin by assumption.
      assert (B : Rabs (rnd d (fval A * fval g)) <= Rabs (fval A)).
      { rewrite rnd_abs. rewrite <- (rnd_id d (Rabs (fval A))); [apply rnd_le; rewrite Rabs_mult, (Rabs_pos_eq (fval g)) by lra; pose proof (Rabs_pos (fval A)); nra|].
        unfold fmt. now apply generic_format_abs. }
      destruct (rto_cases d (xorb (fneg_ A) (fneg_ g)) (fval A * fval g)) as [(_ & ->)|(C & _)]; [now rewrite fmk_fin, fmk_val|lra]. }
    destruct (M f Ff Hf) as (M1 & M2). destruct (M f' Ff' Hf') as (N1 & N2).
    split; intros HA; rewrite !add_fin by assumption; apply rto_le; try apply add_sgn; rewrite M2, N2; apply Rplus_le_compat_r, rnd_le; nra.
  Qed.
End Counts.

Lemma add_zr_eq d s E : in_format d E -> isnan_ E = false -> eq_ (add_ (fprec d) (femax d) (Zr s) E) E = true.
Proof.
  intros HE HN. destruct (ffin E) eqn:FE.
  - rewrite add_fin by auto. destruct (fin_fmt d E HE) as (A1 & A2). cbn [fval]. replace (0 + fval E) with (fval E) by lra.
    rewrite rto_id by assumption. unfold eq_. rewrite cmp_fin by (auto; apply fmk_fin). rewrite fmk_val. now rewrite Rcompare_Eq.
  - destruct E as [| |[|]|]; try discriminate; reflexivity.
Qed.

(*@ C72_polynomial_end_ieee : IEEE arithmetic, polynomial_schedule (and linear_schedule): from step transition_begin + transition_steps on the value is exactly end_value rounded to the default float dtype, whatever init_value and power, as long as init_value - end_value does not overflow and the platform's pow(0, power) is 0. No accumulated rounding error remains, although intermediate steps are rounded. *)
Lemma poly_end_ieee : forall `{L : Libm} (i e power : fl) (steps begin c : Z),
  (0 < steps <= int32_max)%Z -> (Z.max begin 0 + steps <= c)%Z ->
  fpow defdt (Zr false) (fcast defdt power) = Zr false ->
  fisfinite (fcast defdt (pysub i e)) = true -> fisnan (fcast defdt e) = false ->
  feqb (polynomial_schedule i e power steps begin c) (fcast defdt e) = true.
Proof.
  intros L i e power steps begin c Hs Hc Hp HA HE. rewrite poly_eq by lia. unfold clip_count. replace (Z.min (Z.max (c - Z.max begin 0) 0) steps) with steps by lia.
  rewrite fracf_end by exact Hs. etransitivity; [exact (f_equal (fun z => @feqb (FlOps L) (poly_tail i e z) _) Hp)|]. unfold poly_tail. cbn [fadd fmul fcast feqb fisfinite fisnan FlOps] in *.
  destruct (mul_zr (@defdt (FlOps L)) (cast_ (@defdt (FlOps L)) (@pysub (FlOps L) i e)) false HA) as (t & ->). apply add_zr_eq; [apply cast_format|exact HE].
Qed.

(** [x ** 1] is [x]: for an integer exponent jax multiplies, and pow(x, 1.0) is exact. *)
Definition pow_one (L : Libm) : Prop := forall d x, in_format d x -> x = Zr false \/ pos_fin x -> l_pow L d x (Nz 1) = x.

Lemma fracf_format `{L : Libm} c s : in_format (@defdt (FlOps L)) (fracf c s).
Proof. unfold fracf. cbn [fsub FlOps]. unfold sub_. apply add_format. Qed.
Lemma linear_eq `{L : Libm} (i e : fl) steps begin c : pow_one L -> (0 < steps)%Z -> (steps <= int32_max)%Z ->
  linear_schedule (O := FlOps L) i e steps begin c = poly_tail i e (fracf (clip_count (c - Z.max begin 0) 0 steps) steps).
Proof.
  intros HP Hs Hm. unfold linear_schedule. rewrite poly_eq by exact Hs. rewrite cast1. cbn [fpow FlOps]. rewrite HP; [reflexivity|apply fracf_format|].
  destruct (fracf_val (L := L) (clip_count (c - Z.max begin 0) 0 steps) steps ltac:(unfold clip_count; lia) ltac:(lia)) as (F1 & _ & Q & F2 & E).
  set (x := fracf _ _) in *. clearbody x. destruct x as [s|r| |]; try discriminate.
  - left. rewrite Rlt_bool_false in E by lra. destruct s; [|reflexivity]. exfalso. set (q := 1 - _) in E. clearbody q. destruct (rto_cases (@defdt (FlOps L)) false q) as [(_ & W)|(_ & W)]; rewrite W in E; [|discriminate].
    unfold fmk in E. destruct (Req_bool _ _); discriminate.
  - destruct (Req_dec r 0) as [->|]; [|right; split; [reflexivity|cbn in *; lra]]. exfalso. rewrite Rlt_bool_false in E by lra. pose proof (rto_format (@defdt (FlOps L)) false (1 - rnd (@defdt (FlOps L)) (fval (@zf (FlOps L) (clip_count (c - Z.max begin 0) 0 steps)) / fval (@zf (FlOps L) steps)))) as W. rewrite <- E in W. now destruct W.
Qed.
Lemma diff_sign (i e : fl) d : le_ e i = true -> ffin (cast_ d (sub_ 53 1024 i e)) = true -> 0 <= fval (cast_ d (sub_ 53 1024 i e)).
Proof.
  intros Hle HF. unfold sub_ in *. destruct (ffin i) eqn:Ei, (ffin e) eqn:Ee.
  - apply le_fin in Hle; auto. assert (Fo : ffin (opp_ e) = true) by now destruct e. change 53%Z with (fprec F64) in *. change 1024%Z with (femax F64) in *. rewrite add_fin in * by assumption.
    assert (E : fval i + fval (opp_ e) = fval i - fval e) by (destruct e; try discriminate; cbn; lra). rewrite E in *.
    assert (N : fnonneg (cast_ d (rto F64 (if Req_bool (fval i - fval e) 0 then fneg_ i && fneg_ (opp_ e) else Rlt_bool (fval i - fval e) 0) (fval i - fval e)))).
    { apply cast_nonneg. case Req_bool_spec; intros E0; [rewrite E0, rto_id by (try apply fmt_0; rewrite Rabs_R0; apply top_pos); unfold fmk; now rewrite Req_bool_true|].
      rewrite Rlt_bool_false by lra. apply rto_nonneg. lra. }
    set (z := cast_ _ _) in *. clearbody z. destruct z; cbn in *; try lra; discriminate.
  - destruct i as [|r| |], e as [|r'|[|]|]; try discriminate.
  - destruct i as [|r|[|]|], e as [|r'|[|]|]; try discriminate.
  - destruct i as [|r|[|]|], e as [|r'|[|]|]; try discriminate.
Qed.
Lemma diff_sign' (i e : fl) d : le_ i e = true -> ffin (cast_ d (sub_ 53 1024 i e)) = true -> fval (cast_ d (sub_ 53 1024 i e)) <= 0.
Proof.
  intros Hle HF. unfold sub_ in *. destruct (ffin i) eqn:Ei, (ffin e) eqn:Ee.
  - apply le_fin in Hle; auto. assert (Fo : ffin (opp_ e) = true) by now destruct e. change 53%Z with (fprec F64) in *. change 1024%Z with (femax F64) in *. rewrite add_fin in * by assumption.
    assert (E : fval i + fval (opp_ e) = fval i - fval e) by (destruct e; try discriminate; cbn; lra). rewrite E in *.
    set (s := if Req_bool _ _ then _ else _) in *.
    assert (N : fval (rto F64 s (fval i - fval e)) <= 0).
    { destruct (rto_cases F64 s (fval i - fval e)) as [(_ & ->)|(_ & ->)]; [rewrite fmk_val; apply rnd_le0; lra|cbn; lra]. }
    set (z := rto F64 s _) in *. clearbody z. destruct z as [|r| |]; cbn [cast_ fval] in *; try lra. destruct (rto_cases d (Rlt_bool r 0) r) as [(_ & ->)|(_ & ->)]; [rewrite fmk_val; now apply rnd_le0|cbn; lra].
  - destruct i as [|r| |], e as [|r'|[|]|]; try discriminate.
  - destruct i as [|r|[|]|], e as [|r'|[|]|]; try discriminate.
  - destruct i as [|r|[|]|], e as [|r'|[|]|]; try discriminate.
Qed.

(*@ C72_linear_monotone_ieee : IEEE arithmetic: linear_schedule is monotone in the step count in spite of rounding at every operation (and of the inexact conversion of counts above 2^24 to float32): it never increases and never falls below end_value when init_value >= end_value, and symmetrically for init_value <= end_value. *)
Lemma linear_mono_ieee : forall `{L : Libm} (i e : fl) (steps begin c c' : Z), pow_one L ->
  (0 < steps <= int32_max)%Z -> (c <= c')%Z ->
  fisfinite (fcast defdt (pysub i e)) = true -> fisfinite (fcast defdt e) = true ->
  let v := linear_schedule i e steps begin in
  (fle e i = true -> fle (v c') (v c) = true /\ fle (fcast defdt e) (v c) = true) /\
  (fle i e = true -> fle (v c) (v c') = true /\ fle (v c) (fcast defdt e) = true).
Proof.
  intros L i e steps begin c c' HP Hs Hc HA HE. cbn zeta. rewrite !linear_eq by (auto; lia). unfold poly_tail.
  set (t := clip_count (c - Z.max begin 0) 0 steps). set (t' := clip_count (c' - Z.max begin 0) 0 steps).
  assert (Ht : (0 <= t <= t')%Z /\ (t' <= steps)%Z) by (unfold t, t', clip_count; lia). clearbody t t'.
  pose proof (fracf_val (L := L) t steps ltac:(lia) Hs) as (A1 & _ & _ & A4 & _). pose proof (fracf_val (L := L) t' steps ltac:(lia) Hs) as (B1 & _ & _ & B4 & _).
  pose proof (fracf_mono (L := L) t t' steps ltac:(lia) ltac:(lia) Hs) as M.
  cbn [fadd fmul fcast fle fisfinite FlOps] in *. unfold pysub in *. cbn [fsub FlOps] in *. change (sub_ (fprec F64) (femax F64)) with (sub_ 53 1024) in *.
  pose proof (cast_format (@defdt (FlOps L)) (sub_ 53 1024 i e)) as FA. pose proof (diff_sign i e (@defdt (FlOps L))) as S1. pose proof (diff_sign' i e (@defdt (FlOps L))) as S2.
  set (A := cast_ _ (sub_ _ _ _ _)) in *. pose proof (cast_format (@defdt (FlOps L)) e) as FE. set (E := cast_ _ e) in *. clearbody A E.
  pose proof (tail_mono (L := L) A E _ _ HA HE FA B1 A1 B4 A4 M) as (M1 & M2).
  assert (Z0 : fleq (add_ (fprec (@defdt (FlOps L))) (femax (@defdt (FlOps L))) (mul_ (fprec (@defdt (FlOps L))) (femax (@defdt (FlOps L))) A (Zr false)) E) E /\
               fleq E (add_ (fprec (@defdt (FlOps L))) (femax (@defdt (FlOps L))) (mul_ (fprec (@defdt (FlOps L))) (femax (@defdt (FlOps L))) A (Zr false)) E)).
  { destruct (mul_zr (@defdt (FlOps L)) A false HA) as (s & ->). pose proof (add_zr_eq (@defdt (FlOps L)) s E FE ltac:(now destruct E)) as Q. rewrite eq_le in Q. apply andb_prop in Q. exact Q. }
  pose proof (tail_mono (L := L) A E (Zr false) (fracf t steps) HA HE FA eq_refl A1 ltac:(cbn; lra) A4 (proj1 A4)) as (M3 & M4).
  split; intros Hle.
  - specialize (S1 Hle HA). split; [now apply M1|]. eapply fleq_trans; [apply Z0|now apply M3].
  - specialize (S2 Hle HA). split; [now apply M2|]. eapply fleq_trans; [now apply M4|apply Z0].
Qed.

(*@ C72_linear_start_lost : (finding) a linear schedule does not start at init_value: with the default 32-bit floats linear_schedule(1e-8, 1.0, n) returns exactly 0 at step 0 (init_value - end_value is rounded before end_value is added back), for every number of steps. *)
Lemma linear_start : forall `{L : Libm} (steps : Z), pow_one L -> x64 = false -> (0 < steps <= int32_max)%Z ->
  feqb (linear_schedule (flit (1 # 100000000)) fone steps 0%Z 0%Z) fzero = true.
Proof.
  intros L steps HP Hx Hs. rewrite linear_eq by (auto; lia). unfold clip_count. replace (Z.min (Z.max (0 - Z.max 0 0) 0) steps) with 0%Z by lia. rewrite fracf_0 by exact Hs.
  unfold poly_tail. rewrite cast1. assert (HD : @defdt (FlOps L) = F32) by (unfold defdt; now rewrite Hx). rewrite HD. rewrite fl0.
  assert (E : @fcast (FlOps L) F32 (@pysub (FlOps L) (flit (1 # 100000000)) fone) = Nz (-1)).
  { unfold pysub. rewrite one_bits, (Blit_val (L := L)) by (cbn; lia). cbn [fsub fcast FlOps]. unfold of_bits. rewrite <- (sub_B (fprec F64) (femax F64) (fprec_gt F64) (fprec_lt F64)).
    etransitivity; [apply (Bcast_val F32 F64)|]. beval. unfold of_SF. f_equal. cbn. lra. }
  etransitivity; [exact (f_equal (fun z => @feqb (FlOps L) (@fadd (FlOps L) F32 (@fmul (FlOps L) F32 z (Nz 1)) (Nz 1)) (Zr false)) E)|].
  cbn [fadd fmul feqb FlOps]. rewrite mul_fin by reflexivity. cbn [fval fneg_]. replace (-1 * 1) with (-1) by lra.
  rewrite rto_id; [|replace (-1) with (IZR (-1)) by reflexivity; apply fmt_int; reflexivity|apply (int_lt_top F32 (-1)); reflexivity].
  unfold fmk at 1. rewrite Req_bool_false by lra. rewrite add_fin by reflexivity. cbn [fval]. replace (-1 + 1) with 0 by lra. rewrite rto_id by (try apply fmt_0; rewrite Rabs_R0; apply top_pos).
  unfold fmk. rewrite Req_bool_true by reflexivity. unfold eq_. now rewrite cmp_fin, Rcompare_Eq.
Qed.

Lemma cr_pow_one : pow_one cr_libm.
Proof.
  intros d x Fx [->|(F1 & F2)]; [cbn; now rewrite Rlt_bool_true by lra|]. destruct x as [|a| |]; try discriminate; cbn [fval] in *; [lra|]. cbn [l_pow cr_libm].
  rewrite Rlt_bool_true, Rpower_1 by lra. destruct Fx as (F3 & F4 & F5). rewrite rto_id by assumption. unfold fmk. now rewrite Req_bool_false.
Qed.

(** ** piecewise_constant_schedule *)
Definition same_fl (x y : fl) : Prop := ffin x = true /\ ffin y = true /\ fval x = fval y.
Lemma same_eq x y : same_fl x y -> eq_ x y = true.
Proof. intros (H1 & H2 & H3). unfold eq_. rewrite cmp_fin by assumption. now rewrite Rcompare_Eq. Qed.
Lemma same_fmk d s x : in_format d x -> ffin x = true -> same_fl (rto d s (fval x)) x.
Proof. intros H1 H2. destruct (fin_fmt d x H1). rewrite rto_id by assumption. repeat split; [apply fmk_fin|exact H2|apply fmk_val]. Qed.
Lemma mul_one_same d x : in_format d x -> ffin x = true -> same_fl (mul_ (fprec d) (femax d) x (Nz 1)) x.
Proof. intros H1 H2. rewrite mul_fin by auto. cbn [fval]. rewrite Rmult_1_r. now apply same_fmk. Qed.
Lemma one_mul_same d x : in_format d x -> ffin x = true -> same_fl (mul_ (fprec d) (femax d) (Nz 1) x) x.
Proof. intros H1 H2. rewrite mul_fin by auto. cbn [fval]. rewrite Rmult_1_l. now apply same_fmk. Qed.
Lemma zr_mul d x s : ffin x = true -> exists t, mul_ (fprec d) (femax d) (Zr s) x = Zr t.
Proof.
  intros H. rewrite mul_fin by auto. cbn [fval]. rewrite Rmult_0_l, rto_id by (try apply fmt_0; rewrite Rabs_R0; apply top_pos). unfold fmk. rewrite Req_bool_true by reflexivity. eauto.
Qed.
Lemma add_zr_same d x s : in_format d x -> ffin x = true -> same_fl (add_ (fprec d) (femax d) x (Zr s)) x /\ same_fl (add_ (fprec d) (femax d) (Zr s) x) x.
Proof. intros H1 H2. rewrite !add_fin by auto. cbn [fval]. rewrite Rplus_0_r, Rplus_0_l. split; now apply same_fmk. Qed.
Lemma same_trans x y z : same_fl x y -> same_fl y z -> same_fl x z.
Proof. intros (A & B & C) (A' & B' & C'). repeat split; auto. congruence. Qed.
Lemma same_refl x : ffin x = true -> same_fl x x. Proof. now repeat split. Qed.
(** Products depend on values only (up to the sign of a zero). *)
Lemma rto_val_sgn d s s' r : ffin (rto d s r) = true -> same_fl (rto d s r) (rto d s' r).
Proof. intros H. destruct (rto_cases d s r) as [(H1 & E)|(H1 & E)]; rewrite E in H |- *; [|discriminate]. destruct (rto_cases d s' r) as [(H2 & E')|(H2 & E')]; [|lra]. rewrite E'. repeat split; try apply fmk_fin. now rewrite !fmk_val. Qed.
Lemma mul_same d x y x' y' : same_fl x x' -> same_fl y y' -> ffin (mul_ (fprec d) (femax d) x y) = true -> same_fl (mul_ (fprec d) (femax d) x y) (mul_ (fprec d) (femax d) y' x').
Proof. intros (A & B & C) (A' & B' & C') H. rewrite mul_fin in * by assumption. rewrite mul_fin by assumption. rewrite (Rmult_comm (fval y')), <- C, <- C'. now apply rto_val_sgn. Qed.

Section PC.
  Context `{L : Libm}.
  Local Notation D := (@defdt (FlOps L)).
  Lemma pos_sign_fl z : @pos_sign (FlOps L) z = if (0 <? z)%Z then Nz 1 else Zr false.
  Proof.
    unfold pos_sign. rewrite fl0. assert (E1 : @fcast (FlOps L) D (@fofZ (FlOps L) 1) = Nz 1) by apply cast1.
    assert (E0 : @fcast (FlOps L) D (@fofZ (FlOps L) 0) = Zr false) by (rewrite (fl0 : @fofZ (FlOps L) 0 = Zr false); reflexivity).
    destruct (Z.ltb_spec 0 z) as [H|H].
    - rewrite Z.sgn_pos by exact H. etransitivity; [exact (f_equal (@fmax (FlOps L) _) E1)|]. cbn [fmax fcast FlOps cast_]. unfold max_. cbn [isnan_].
      assert (lt_ (Zr false) (Nz 1) = true) as -> by (apply lt_fin; auto; cbn; lra). reflexivity.
    - destruct (Z.eq_dec z 0) as [->|]; [etransitivity; [exact (f_equal (@fmax (FlOps L) _) E0)|]; cbn [fmax fcast FlOps cast_]; unfold max_; cbn [isnan_]; destruct (lt_ _ _); reflexivity|].
      rewrite Z.sgn_neg by lia. assert (Em : @fcast (FlOps L) D (@fofZ (FlOps L) (-1)) = Nz (-1)).
      { unfold fofZ. cbn [flit fcast FlOps]. replace (Q2R (inject_Z (-1))) with (-1) by (unfold Q2R; cbn; lra). change (fround_ 53 1024) with (fround_ (fprec F64) (femax F64)).
        assert (A : forall d, in_format d (Nz (-1))) by (intros d; apply (int_format d (-1)); [destruct d; reflexivity|discriminate]).
        assert (B : forall d, rto d (Rlt_bool (-1) 0) (-1) = Nz (-1)) by (intros d; apply (cast_id d (Nz (-1)) (A d))). rewrite B. now apply cast_id. }
      etransitivity; [exact (f_equal (@fmax (FlOps L) _) Em)|]. cbn [fmax fcast FlOps cast_]. unfold max_. cbn [isnan_]. destruct (lt_ (Zr false) (Nz (-1))) eqn:El; [|reflexivity]. apply lt_fin in El; auto. cbn in El. lra.
  Qed.
  Lemma pc_step_fl c v b f : ffin (cast_ D v) = true -> ffin (cast_ D f) = true ->
    let r := if (b <=? c)%Z then mul_ (fprec D) (femax D) (cast_ D v) (cast_ D f) else cast_ D v in
    ffin r = true -> same_fl (@pc_step (FlOps L) c v (b, f)) r /\ in_format D (@pc_step (FlOps L) c v (b, f)).
  Proof.
    intros Hv Hf. cbn zeta. intros Hr. split; [|apply (add_format D)].
    unfold pc_step. cbn [fst snd]. rewrite pos_sign_fl, cast1. cbn [fadd fmul fsub fcast FlOps]. pose proof (cast_format D v) as Iv. pose proof (cast_format D f) as If'.
    set (w := cast_ D v) in *. set (g := cast_ D f) in *. clearbody w g. set (d := D) in *. clearbody d.
    destruct (Z.leb_spec b c).
    - destruct (Z.ltb_spec 0 (b - c)); [lia|]. destruct (mul_zr d w false Hv) as (t & ->).
      assert (E1 : sub_ (fprec d) (femax d) (Nz 1) (Zr false) = Nz 1).
      { unfold sub_. rewrite add_fin by reflexivity. cbn [fval opp_]. rewrite Rplus_0_r. rewrite Req_bool_false by lra.
        apply (cast_id d (Nz 1)). apply (int_format d 1); [destruct d; reflexivity|discriminate]. }
      rewrite E1. pose proof (one_mul_same d g If' Hf) as S1. destruct (mul_same d w g w _ (same_refl w Hv) (same_trans _ _ _ (same_refl g Hf) (conj (proj1 (proj2 S1)) (conj (proj1 S1) (eq_sym (proj2 (proj2 S1)))))) Hr) as (S2 & S3 & S4).
      destruct (add_zr_same d (mul_ (fprec d) (femax d) (mul_ (fprec d) (femax d) (Nz 1) g) w) t (mul_format d _ _) S3) as (_ & S5). eapply same_trans; [exact S5|]. repeat split; auto.
    - destruct (Z.ltb_spec 0 (b - c)); [|lia].
      assert (E1 : sub_ (fprec d) (femax d) (Nz 1) (Nz 1) = Zr false).
      { unfold sub_. rewrite add_fin by reflexivity. cbn [fval opp_]. replace (1 + - (1)) with 0 by lra. rewrite Req_bool_true by reflexivity. cbn [fneg_ opp_]. rewrite (Rlt_bool_false 1) by lra. cbn [andb].
        rewrite rto_id by (try apply fmt_0; rewrite Rabs_R0; apply top_pos). unfold fmk. now rewrite Req_bool_true. }
      rewrite E1. destruct (zr_mul d g false Hf) as (t & ->). destruct (zr_mul d w t Hv) as (t' & ->). pose proof (mul_one_same d w Iv Hv) as (S1 & S2 & S3).
      destruct (add_zr_same d (mul_ (fprec d) (femax d) w (Nz 1)) t' (mul_format d _ _) S1) as (S4 & _). eapply same_trans; [exact S4|]. repeat split; auto.
  Qed.
End PC.
(** The reference: the initial value, multiplied (one rounding each) by the factors whose boundary has been reached. *)
Definition pc_ref `{O : Ops} (c : Z) (l : list (Z * F)) (v : F) : F :=
  fold_left (fun v x => if (fst x <=? c)%Z then fmul defdt v (fcast defdt (snd x)) else v) l v.

(*@ C72_piecewise_constant_ieee : IEEE arithmetic: piecewise_constant_schedule introduces no error beyond one rounding per factor reached: the branch-free expression v*ind + (1-ind)*scale*v equals the plain running product of init_value with the factors whose boundary is <= step (up to the sign of a zero), as long as the running product stays finite. *)
Lemma pc_ieee : forall `{L : Libm} (init : fl) (l : list (Z * fl)) s c, piecewise_constant_schedule init (Some l) = Ok s ->
  (forall x, In x l -> fisfinite (fcast defdt (snd x)) = true) ->
  (forall k, fisfinite (pc_ref c (firstn k (sorted_items l)) (fcast defdt init)) = true) ->
  feqb (fcast defdt (s c)) (pc_ref c (sorted_items l) (fcast defdt init)) = true.
Proof.
  intros L init l s c H Hl Hp. unfold piecewise_constant_schedule in H. match type of H with (if ?b then _ else _) = _ => destruct b; [|discriminate] end. injection H as <-.
  assert (Hl' : forall x, In x (sorted_items l) -> ffin (cast_ (@defdt (FlOps L)) (snd x)) = true).
  { intros x Hx. apply Hl. eapply Permutation_in; [apply Permutation_sym, P_sched.sorted_perm|exact Hx]. }
  clear Hl. cbn [feqb FlOps]. apply same_eq. set (it := sorted_items l) in *. clearbody it. clear l. revert init Hl' Hp.
  assert (G : forall (it : list (Z * fl)) (v w : fl), (forall x, In x it -> ffin (cast_ (@defdt (FlOps L)) (snd x)) = true) -> same_fl (cast_ (@defdt (FlOps L)) v) w ->
    (forall k, ffin (pc_ref (O := FlOps L) c (firstn k it) w) = true) -> same_fl (@fcast (FlOps L) (@defdt (FlOps L)) (fold_left (@pc_step (FlOps L) c) it v)) (pc_ref (O := FlOps L) c it w)).
  { clear. intros it. induction it as [|(b, f) it IH]; intros v w Hl Hs Hp; [exact Hs|].
    cbn [fold_left]. unfold pc_ref at 1. cbn [fold_left fst snd]. apply IH; [intros x Hx; apply Hl; now right| |intros k; apply (Hp (S k))].
    specialize (Hp 1%nat). unfold pc_ref in Hp. cbn [firstn fold_left fst snd] in Hp. cbn [fmul fcast FlOps] in *. pose proof (Hl (b, f) (or_introl eq_refl)) as Hf. cbn [snd] in Hf.
    destruct Hs as (S1 & S2 & S3).
    assert (Hr : same_fl (if (b <=? c)%Z then mul_ (fprec (@defdt (FlOps L))) (femax (@defdt (FlOps L))) (cast_ (@defdt (FlOps L)) v) (cast_ (@defdt (FlOps L)) f) else cast_ (@defdt (FlOps L)) v)
                         (if (b <=? c)%Z then mul_ (fprec (@defdt (FlOps L))) (femax (@defdt (FlOps L))) w (cast_ (@defdt (FlOps L)) f) else w)).
    { destruct (b <=? c)%Z; [|now repeat split]. rewrite !mul_fin in * by assumption. rewrite S3. apply (rto_val_sgn _ _ (xorb (fneg_ (cast_ (@defdt (FlOps L)) v)) (fneg_ (cast_ (@defdt (FlOps L)) f)))) in Hp.
      destruct Hp as (P1 & P2 & P3). repeat split; auto. }
    destruct (pc_step_fl (L := L) c v b f S1 Hf (proj1 Hr)) as (T1 & T2). rewrite (cast_id _ _ T2). eapply same_trans; [exact T1|exact Hr]. }
  intros init Hl Hp. apply G; auto. apply same_refl. apply (Hp O).
Qed.

(*@ex C72_example *)
Lemma sched_ieee_example : forall c c', (0 <= c <= c')%Z ->
  let v := linear_schedule (O := FlOps cr_libm) (Nz 1) (Nz (/ 4)) 10%Z 0%Z in
  @fle (FlOps cr_libm) (v c') (v c) = true /\ ((10 <= c)%Z -> @feqb (FlOps cr_libm) (v c) (Nz (/ 4)) = true) /\
  @feqb (FlOps cr_libm) (linear_schedule (O := FlOps cr_libm) (@flit (FlOps cr_libm) (1 # 100000000)) (@fone (FlOps cr_libm)) 10%Z 0%Z 0%Z) (Zr false) = true.
Proof.
  intros c c' Hc. cbn zeta.
  assert (Hf : forall d m e, m <> 0%Z -> (Z.abs m < 2 ^ fprec d)%Z -> (SpecFloat.emin (fprec d) (femax d) <= e)%Z -> (e <= 0)%Z -> in_format d (Nz (IZR m * bpow radix2 e))).
  { intros d m e H0 Hm He He0. split; [apply Rmult_integral_contrapositive_currified; [now apply not_0_IZR|apply Rgt_not_eq, bpow_gt_0]|]. split; [now apply fmt_dy|].
    rewrite Rabs_mult, (Rabs_pos_eq (bpow _ _)) by apply bpow_ge_0. pose proof (int_lt_top d m Hm). assert (bpow radix2 e <= 1) by (change 1 with (bpow radix2 0); now apply bpow_le). pose proof (bpow_gt_0 radix2 e). pose proof (Rabs_pos (IZR m)). nra. }
  assert (E4 : / 4 = IZR 1 * bpow radix2 (-2)) by (cbn; lra). assert (E34 : 3 / 4 = IZR 3 * bpow radix2 (-2)) by (cbn; lra).
  assert (F4 : forall d, in_format d (Nz (/ 4))) by (intros d; rewrite E4; apply Hf; destruct d; cbn; lia).
  assert (F34 : forall d, in_format d (Nz (3 / 4))) by (intros d; rewrite E34; apply Hf; destruct d; cbn; lia).
  assert (EA : @fcast (FlOps cr_libm) F32 (@pysub (FlOps cr_libm) (Nz 1) (Nz (/ 4))) = Nz (3 / 4)).
  { unfold pysub. cbn [fsub fcast FlOps]. unfold sub_. rewrite add_fin by reflexivity. cbn [fval opp_]. replace (1 + - / 4) with (3 / 4) by lra. rewrite Req_bool_false by lra.
    assert (G : rto F64 (Rlt_bool (3 / 4) 0) (3 / 4) = Nz (3 / 4)) by apply (cast_id F64 (Nz (3 / 4)) (F34 F64)). rewrite G. apply cast_id, F34. }
  assert (EE : @fcast (FlOps cr_libm) F32 (Nz (/ 4)) = Nz (/ 4)) by apply cast_id, F4.
  assert (I : int32_max = 2147483647%Z) by reflexivity.
  split; [|split].
  - apply (linear_mono_ieee (L := cr_libm) (Nz 1) (Nz (/ 4)) 10 0 c c'); auto; try lia; try exact cr_pow_one.
    + change (@defdt (FlOps cr_libm)) with F32. etransitivity; [exact (f_equal _ EA)|reflexivity].
    + change (@defdt (FlOps cr_libm)) with F32. etransitivity; [exact (f_equal _ EE)|reflexivity].
    + apply le_fin; auto. cbn. lra.
  - intros H. pose proof (poly_end_ieee (L := cr_libm) (Nz 1) (Nz (/ 4)) (@fone (FlOps cr_libm)) 10 0 c ltac:(lia) ltac:(lia)) as Q. change (@defdt (FlOps cr_libm)) with F32 in Q.
    etransitivity; [|apply Q]; [exact (f_equal _ (eq_sym EE))| | |].
    + rewrite cast1. cbn. now rewrite Rlt_bool_true by lra.
    + etransitivity; [exact (f_equal _ EA)|reflexivity].
    + etransitivity; [exact (f_equal _ EE)|reflexivity].
  - rewrite <- (fl0 (L := cr_libm)). apply (linear_start (L := cr_libm)); [exact cr_pow_one|reflexivity|lia].
Qed.
