(** IEEE-754: cosine_decay_schedule. *)
From Verif Require Export P_ieee11.
From Coq Require Import Psatz Qreals Bool.
From Flocq Require Import Core.Core IEEE754.BinarySingleNaN.
Open Scope R_scope.
#[local] Existing Instance FlOps.
(*@header
From Flocq Require Import Core.Core IEEE754.BinarySingleNaN.
Open Scope R_scope.
#[local] Existing Instance FlOps.
*)
(** The platform's cosine in 32 and 64 bits, on [0, pi] and a few units in the last place beyond: a number in [-1,1] that never grows with the argument. *)
Definition cos_decreasing (L : Libm) : Prop := forall d x y, d = F32 \/ d = F64 -> in_format d x -> in_format d y -> ffin x = true -> ffin y = true ->
  0 <= fval x <= fval y -> fval y <= PI * (1 + bpow radix2 (3 - fprec d)) ->
  ffin (l_cos L d x) = true /\ -1 <= fval (l_cos L d x) <= 1 /\ fval (l_cos L d y) <= fval (l_cos L d x).
Lemma rel1 d x : 1 <= x -> rnd d x <= x * (1 + bpow radix2 (- fprec d)).
Proof.
  intros Hx. assert (E : Rabs (rnd d x - x) <= / 2 * ulp radix2 (SpecFloat.fexp (fprec d) (femax d)) x) by (apply error_le_half_ulp; auto with typeclass_instances).
  assert (U : ulp radix2 (SpecFloat.fexp (fprec d) (femax d)) x <= Rabs x * bpow radix2 (1 - fprec d)).
  { apply (ulp_FLT_le radix2 (SpecFloat.emin (fprec d) (femax d)) (fprec d)). rewrite Rabs_pos_eq by lra. apply Rle_trans with 1; [|exact Hx].
    change 1 with (bpow radix2 0). apply bpow_le. unfold SpecFloat.emin. destruct d; cbn; lia. }
  rewrite Rabs_pos_eq in U by lra. apply Rabs_le_inv in E. replace (1 - fprec d)%Z with (1 + - fprec d)%Z in U by lia. rewrite bpow_plus in U. change (bpow radix2 1) with 2 in U. lra.
Qed.
Lemma pi_range : 3 < PI <= 4.
Proof. split; [pose proof PI2_3_2; lra|apply PI_4]. Qed.
Section C.
  Context `{L : Libm}.
  Local Notation D := (@defdt (FlOps L)).
  (** pi * count / steps *)
  Definition angle (c s : Z) : fl := @fdiv (FlOps L) D (@fmul (FlOps L) D (@fcast (FlOps L) D (@fpi (FlOps L))) (@zf (FlOps L) c)) (@zf (FlOps L) s).
  Lemma pi_fl d : d = F32 \/ d = F64 -> exists p, cast_ d (@fpi (FlOps L)) = Nz p /\ 2 <= p <= 4 /\ p <= PI * (1 + bpow radix2 (- fprec d)) * (1 + bpow radix2 (- fprec d)).
  Proof.
    intros Hd. pose proof pi_range as HP. cbn [fpi FlOps]. change (fround_ 53 1024) with (fround_ (fprec F64) (femax F64)).
    assert (B24 : forall e x, 2 <= x <= 4 -> 2 <= rnd e x <= 4).
    { intros e x Hx. split; [rewrite <- (rnd_id e 2) by (change 2 with (bpow radix2 1); apply fmt_bpow; destruct e; cbn; lia)|rewrite <- (rnd_id e 4) by (change 4 with (bpow radix2 2); apply fmt_bpow; destruct e; cbn; lia)]; apply rnd_le; lra. }
    assert (T4 : forall e, 4 < top e) by (intros e; change 4 with (bpow radix2 2); apply bpow_lt; destruct e; reflexivity).
    pose proof (B24 F64 PI ltac:(lra)) as B1. pose proof (T4 F64) as T1.
    destruct (rto_cases F64 false PI) as [(_ & ->)|(C & _)]; [|rewrite Rabs_pos_eq in C by lra; lra]. unfold fmk. rewrite Req_bool_false by lra. cbn [cast_].
    pose proof (B24 d (rnd F64 PI) B1) as B2. pose proof (T4 d) as T2. set (q := rnd F64 PI) in *.
    destruct (rto_cases d (Rlt_bool q 0) q) as [(_ & ->)|(C & _)]; [|rewrite Rabs_pos_eq in C by lra; lra]. unfold fmk. rewrite Req_bool_false by lra.
    exists (rnd d q). split; [reflexivity|]. split; [exact B2|].
    assert (U : 0 < bpow radix2 (-53) <= bpow radix2 (- fprec d)) by (split; [apply bpow_gt_0|]; apply bpow_le; destruct Hd; subst; cbn; lia).
    pose proof (rel1 d q ltac:(lra)) as R1. pose proof (rel1 F64 PI ltac:(lra)) as R2. change (- fprec F64)%Z with (-53)%Z in R2. fold q in R2. nra.
  Qed.
  Lemma angle_val c c' s : (0 <= c <= c')%Z -> (c' <= s)%Z -> (0 < s <= int32_max)%Z ->
    ffin (angle c s) = true /\ ffin (angle c' s) = true /\ 0 <= fval (angle c s) <= fval (angle c' s) /\ fval (angle c' s) <= PI * (1 + bpow radix2 (3 - fprec D)).
  Proof.
    intros Hc Hc' Hs. destruct (zf_pos (L := L) s ltac:(lia)) as (S1 & S2). destruct (zf_fl (L := L) c ltac:(lia)) as (C1 & C2). destruct (zf_fl (L := L) c' ltac:(lia)) as (C1' & C2').
    pose proof (zf_mono (L := L) c c' ltac:(lia) ltac:(lia)) as M1. pose proof (zf_mono (L := L) c' s ltac:(lia) ltac:(lia)) as M2.
    assert (C3 : 0 <= fval (@zf (FlOps L) c)) by (rewrite C2; apply rnd_ge0, rnd_ge0, IZR_le; lia).
    assert (C4 : fval (@zf (FlOps L) s) <= bpow radix2 31).
    { rewrite (proj2 (zf_fl (L := L) s ltac:(lia))). assert (Hr : 0 <= IZR s <= bpow radix2 31) by (split; [apply IZR_le; lia|cbn; apply IZR_le; assert (int32_max = 2147483647)%Z by reflexivity; lia]).
      destruct (rnd_range F64 _ ltac:(auto) Hr) as (A1 & _). destruct (rnd_range D _ (defdt_cases (L := L)) A1) as (B1 & _). lra. }
    unfold angle. pose proof (defdt_cases (L := L)) as HD. set (d := D) in *. clearbody d. cbn [fdiv fmul fcast FlOps].
    destruct (pi_fl d HD) as (p & -> & Hp & Hpi).
    set (x := @zf (FlOps L) c) in *. set (x' := @zf (FlOps L) c') in *. set (y := @zf (FlOps L) s) in *. clearbody x x' y.
    destruct y as [|y| |]; try discriminate; cbn [fval] in *; [lra|].
    assert (Tt : bpow radix2 34 < top d) by (apply bpow_lt; destruct HD; subst; reflexivity).
    assert (F34 : fmt d (bpow radix2 34)) by (apply fmt_bpow; destruct HD; subst; cbn; lia).
    assert (B34 : bpow radix2 34 = 8 * bpow radix2 31) by (replace 34%Z with (3 + 31)%Z by reflexivity; rewrite bpow_plus; reflexivity).
    assert (V : forall z, ffin z = true -> 0 <= fval z <= y -> ffin (mul_ (fprec d) (femax d) (Nz p) z) = true /\ fval (mul_ (fprec d) (femax d) (Nz p) z) = rnd d (p * fval z) /\ 0 <= rnd d (p * fval z) <= bpow radix2 34).
    { intros z Fz Hz. assert (B : 0 <= rnd d (p * fval z) <= bpow radix2 34). { split; [apply rnd_ge0; nra|]. rewrite <- (rnd_id d _ F34). apply rnd_le. nra. }
      rewrite mul_fin by auto. cbn [fval]. match goal with |- ffin (rto d ?s _) = _ /\ _ => destruct (rto_cases d s (p * fval z)) as [(_ & ->)|(C & _)]; [now rewrite fmk_fin, fmk_val|rewrite Rabs_pos_eq in C by lra; lra] end. }
    assert (W : forall z, ffin z = true -> 0 <= fval z <= bpow radix2 34 -> ffin (div_ (fprec d) (femax d) z (Nz y)) = true /\ fval (div_ (fprec d) (femax d) z (Nz y)) = rnd d (fval z / y)).
    { intros z Fz Hz. assert (Q : 0 <= fval z / y <= bpow radix2 34). { split; [apply Rmult_le_pos; [lra|]; left; apply Rinv_0_lt_compat; lra|]. apply Rmult_le_reg_r with y; [lra|]. unfold Rdiv. rewrite Rmult_assoc, Rinv_l by lra. nra. }
      assert (B : 0 <= rnd d (fval z / y) <= bpow radix2 34). { split; [apply rnd_ge0; lra|]. rewrite <- (rnd_id d _ F34). apply rnd_le. lra. }
      rewrite div_fin by auto. match goal with |- ffin (rto d ?s _) = _ /\ _ => destruct (rto_cases d s (fval z / y)) as [(_ & ->)|(C & _)]; [now rewrite fmk_fin, fmk_val|rewrite Rabs_pos_eq in C by lra; lra] end. }
    destruct (V x C1 ltac:(lra)) as (V1 & V2 & V3). destruct (V x' C1' ltac:(lra)) as (V1' & V2' & V3').
    destruct (W _ V1 ltac:(rewrite V2; lra)) as (W1 & W2). destruct (W _ V1' ltac:(rewrite V2'; lra)) as (W1' & W2'). rewrite V2 in W2. rewrite V2' in W2'.
    split; [exact W1|]. split; [exact W1'|]. rewrite W2, W2'.
    assert (Iy : 0 < / y) by (apply Rinv_0_lt_compat; lra).
    split.
    { split; [apply rnd_ge0; apply Rmult_le_pos; lra|]. apply rnd_le. apply Rmult_le_compat_r; [lra|]. apply rnd_le. nra. }
    set (u := bpow radix2 (- fprec d)) in *. assert (U : 0 < u <= / 8). { split; [apply bpow_gt_0|]. replace (/ 8) with (bpow radix2 (-3)) by (cbn; lra). apply bpow_le. destruct HD; subst; cbn; lia. }
    assert (E8 : bpow radix2 (3 - fprec d) = 8 * u) by (unfold u; replace (3 - fprec d)%Z with (3 + - fprec d)%Z by lia; rewrite bpow_plus; reflexivity). rewrite E8.
    assert (Q1 : rnd d (p * fval x') / y <= p * (1 + u)).
    { apply Rmult_le_reg_r with y; [lra|]. unfold Rdiv. rewrite Rmult_assoc, Rinv_l, Rmult_1_r by lra. eapply Rle_trans; [apply rnd_le with (y := p * y); nra|]. pose proof (rel1 d (p * y) ltac:(nra)) as R1. fold u in R1. lra. }
    eapply Rle_trans; [apply rnd_le, Q1|]. pose proof (rel1 d (p * (1 + u)) ltac:(nra)) as R1. fold u in R1. eapply Rle_trans; [exact R1|].
    pose proof pi_range. assert (G : (1 + u) * (1 + u) * ((1 + u) * (1 + u)) <= 1 + 8 * u) by nra.
    assert (G2 : p * ((1 + u) * (1 + u)) <= PI * (1 + u) * (1 + u) * ((1 + u) * (1 + u))) by (apply Rmult_le_compat_r; [nra|exact Hpi]).
    eapply Rle_trans; [|apply Rmult_le_compat_l; [lra|exact G]]. lra.
  Qed.
  (** 0.5 * (1 + cos) for a cosine in [-1,1] *)
  Definition half_plus d (k : fl) : fl := @fmul (FlOps L) d (@fcast (FlOps L) d (@flit (FlOps L) (1 # 2))) (@fadd (FlOps L) d (@fcast (FlOps L) d (@fone (FlOps L))) k).
  Lemma half_cast d : cast_ d (@flit (FlOps L) (1 # 2)) = Nz (/ 2).
  Proof.
    cbn [flit FlOps]. change (fround_ 53 1024) with (fround_ (fprec F64) (femax F64)). assert (E : Q2R (1 # 2) = / 2) by (unfold Q2R; cbn; lra). rewrite E.
    assert (T : forall e, Rabs (/ 2) < top e) by (intros e; rewrite Rabs_pos_eq by lra; replace (/ 2) with (bpow radix2 (-1)) by (cbn; lra); apply bpow_lt; destruct e; reflexivity).
    rewrite rto_id by (try apply fmt_half; apply T). unfold fmk. rewrite Req_bool_false by lra. cbn [cast_]. rewrite rto_id by (try apply fmt_half; apply T). unfold fmk. now rewrite Req_bool_false by lra.
  Qed.
  Lemma half_plus_val d k : ffin k = true -> -1 <= fval k <= 1 -> ffin (half_plus d k) = true /\ fval (half_plus d k) = rnd d (/ 2 * rnd d (1 + fval k)) /\ 0 <= fval (half_plus d k) <= 1.
  Proof.
    intros Fk Hk. unfold half_plus. cbn [fmul fadd FlOps]. change (@fcast (FlOps L) d (@flit (FlOps L) (1 # 2))) with (cast_ d (@flit (FlOps L) (1 # 2))). rewrite half_cast, cast1.
    assert (T2 : 2 < top d) by (change 2 with (bpow radix2 1); apply bpow_lt; destruct d; reflexivity).
    assert (B : 0 <= rnd d (1 + fval k) <= 2). { split; [apply rnd_ge0; lra|]. rewrite <- (rnd_id d 2) by (change 2 with (bpow radix2 1); apply fmt_bpow; destruct d; cbn; lia). apply rnd_le; lra. }
    assert (A : ffin (add_ (fprec d) (femax d) (Nz 1) k) = true /\ fval (add_ (fprec d) (femax d) (Nz 1) k) = rnd d (1 + fval k)).
    { rewrite add_fin by auto. cbn [fval]. match goal with |- ffin (rto d ?s _) = _ /\ _ => destruct (rto_cases d s (1 + fval k)) as [(_ & ->)|(C & _)]; [now rewrite fmk_fin, fmk_val|rewrite Rabs_pos_eq in C by lra; lra] end. }
    destruct A as (A1 & A2). rewrite mul_fin by auto. rewrite A2. cbn [fval].
    assert (B2 : 0 <= rnd d (/ 2 * rnd d (1 + fval k)) <= 1). { split; [apply rnd_ge0; lra|]. eapply Rle_trans; [apply rnd_le with (y := 1); lra|]. right. apply rnd_id, fmt_1. }
    match goal with |- ffin (rto d ?s _) = _ /\ _ => destruct (rto_cases d s (/ 2 * rnd d (1 + fval k))) as [(_ & ->)|(C & _)]; [rewrite fmk_fin, fmk_val; auto|rewrite Rabs_pos_eq in C by lra; lra] end.
  Qed.
End C.
(*@ C72_cosine_ieee : IEEE arithmetic, cosine_decay_schedule with decay_steps >= 1, alpha a float64 in [0,1] and init_value >= 0 finite in the default float dtype, on any platform whose cosine never grows on [0, pi] (and the few units in the last place beyond to which pi * count / decay_steps may be rounded) and stays in [-1,1]: the value is finite, never increases with the count in spite of the rounding of every operation, never exceeds init_value, never falls below the rounded product of init_value and alpha, and is constant from decay_steps on. *)
Lemma cosine_ieee : forall `{L : Libm} (i alpha : fl) (steps c c' : Z) (v : Z -> fl), cos_decreasing L ->
  cosine_decay_schedule i steps alpha = Ok v -> (steps <= int32_max)%Z -> (0 <= c <= c')%Z ->
  fisfinite (fcast defdt i) = true -> fle fzero (fcast defdt i) = true -> in_format F64 alpha -> fisfinite alpha = true -> fle fzero alpha = true -> fle alpha fone = true ->
  fisfinite (v c) = true /\ fle (v c') (v c) = true /\ fle (v c) (fcast defdt i) = true /\
  fle (fmul defdt (fcast defdt i) (fcast defdt alpha)) (v c) = true /\ ((steps <= c)%Z -> v c = v steps).
Proof.
  intros L i alpha steps c c' v HC Hv Hs Hc Fi Pi Ia Fa Pa Qa. unfold cosine_decay_schedule in Hv. destruct (Z.ltb_spec 0 steps) as [H0|H0]; cbn [negb] in Hv; [|discriminate].
  pose proof (defdt_cases (L := L)) as HD.
  set (dec := fun t => add_ (fprec (@defdt (FlOps L))) (femax (@defdt (FlOps L))) (mul_ (fprec (@defdt (FlOps L))) (femax (@defdt (FlOps L))) (cast_ (@defdt (FlOps L)) (sub_ (fprec F64) (femax F64) (Nz 1) alpha)) (half_plus (L := L) (@defdt (FlOps L)) (l_cos L (@defdt (FlOps L)) (angle (L := L) t steps)))) (cast_ (@defdt (FlOps L)) alpha)).
  assert (Ev : forall t, v t = mul_ (fprec (@defdt (FlOps L))) (femax (@defdt (FlOps L))) (cast_ (@defdt (FlOps L)) i) (dec (Z.min t steps))).
  { intros t. refine (eq_trans (eq_sym (f_equal (fun r => match r with Ok f => f t | Err _ => v t end) Hv)) _). cbv beta iota zeta. unfold dec, half_plus, angle, py1m. rewrite <- (fl1 (L := L)). reflexivity. }
  assert (Ec : (steps <= c)%Z -> v c = v steps) by (intros H; rewrite (Ev c), (Ev steps); replace (Z.min c steps) with (Z.min steps steps) by lia; reflexivity).
  set (t := Z.min c steps). set (t' := Z.min c' steps). rewrite (Ev c), (Ev c'). rewrite (Ev c) in Ec. fold t in Ec. fold t t'. clear Hv Ev.
  destruct (angle_val (L := L) t t' steps ltac:(unfold t, t'; lia) ltac:(unfold t'; lia) ltac:(lia)) as (G1 & G2 & G3 & G4).
  assert (Fx : in_format (@defdt (FlOps L)) (angle (L := L) t steps)) by (unfold angle; cbn [fdiv FlOps]; apply div_format).
  assert (Fx' : in_format (@defdt (FlOps L)) (angle (L := L) t' steps)) by (unfold angle; cbn [fdiv FlOps]; apply div_format).
  destruct (HC _ _ _ HD Fx Fx' G1 G2 G3 G4) as (K1 & K2 & K3). destruct (HC _ _ _ HD Fx' Fx' G2 G2 ltac:(lra) G4) as (K1' & K2' & _).
  clearbody t t'. unfold dec in Ec |- *. rewrite fl0 in Pi, Pa. rewrite fl1 in Qa. cbn [fcast fle fisfinite fmul FlOps] in *.
  set (d := @defdt (FlOps L)) in *. clearbody d. set (k := l_cos L d (angle t steps)) in *. set (k' := l_cos L d (angle t' steps)) in *. clearbody k k'. clear dec G1 G2 G3 G4 Fx Fx'.
  destruct (half_plus_val (L := L) d k K1 K2) as (J1 & J2 & J3). destruct (half_plus_val (L := L) d k' K1' K2') as (J1' & J2' & J3').
  assert (J4 : fval (half_plus (L := L) d k') <= fval (half_plus (L := L) d k)). { rewrite J2, J2'. apply rnd_le. apply Rmult_le_compat_l; [lra|]. apply rnd_le. lra. }
  set (h := half_plus (L := L) d k) in *. set (h' := half_plus (L := L) d k') in *. clearbody h h'. clear J2 J2' K1 K2 K3 K1' K2'.
  apply le_fin in Pa; [|reflexivity|exact Fa]. apply le_fin in Qa; [|exact Fa|reflexivity]. apply le_fin in Pi; [|reflexivity|exact Fi]. cbn [fval] in Pa, Qa, Pi.
  assert (T1 : forall d, 1 < top d) by (intros e; change 1 with (bpow radix2 0); apply bpow_lt; destruct e; reflexivity).
  assert (R01 : forall d x, 0 <= x <= 1 -> 0 <= rnd d x <= 1) by (intros d' x Hx; split; [apply rnd_ge0; lra|]; rewrite <- (rnd_id d' 1 (fmt_1 d')); apply rnd_le; lra).
  assert (X1 : ffin (sub_ (fprec F64) (femax F64) (Nz 1) alpha) = true /\ fval (sub_ (fprec F64) (femax F64) (Nz 1) alpha) = rnd F64 (1 - fval alpha)).
  { unfold sub_. assert (Fo : ffin (opp_ alpha) = true) by (destruct alpha; try discriminate; reflexivity). rewrite add_fin by auto.
    assert (Ea : fval (Nz 1) + fval (opp_ alpha) = 1 - fval alpha) by (destruct alpha; try discriminate; cbn; lra). rewrite Ea. pose proof (R01 F64 (1 - fval alpha) ltac:(lra)) as B. pose proof (T1 F64).
    match goal with |- ffin (rto F64 ?s _) = _ /\ _ => destruct (rto_cases F64 s (1 - fval alpha)) as [(_ & ->)|(Cx & _)]; [now rewrite fmk_fin, fmk_val|rewrite Rabs_pos_eq in Cx by lra; lra] end. }
  destruct X1 as (X1 & V1). destruct (cast01 d _ X1 ltac:(rewrite V1; apply R01; lra)) as (A1 & A2). destruct (cast01 d alpha Fa ltac:(lra)) as (C1 & C2). rewrite V1 in A2.
  assert (HS : 0 <= rnd d (rnd F64 (1 - fval alpha)) <= 1 /\ 0 <= rnd d (fval alpha) <= 1 /\ rnd d (rnd d (rnd F64 (1 - fval alpha)) + rnd d (fval alpha)) <= 1) by (destruct (fin_fmt F64 alpha Ia) as (Ga & _); pose proof (smooth_consts d (fval alpha) (fval alpha) ltac:(lra) ltac:(lra)) as Q; cbn zeta in Q; rewrite (rnd_id F64 (fval alpha) Ga) in Q; exact Q).
  rewrite <- A2, <- C2 in HS. destruct HS as (HA & HCc & HSum).
  pose proof (cast_format d (sub_ (fprec F64) (femax F64) (Nz 1) alpha)) as FmA. pose proof (cast_format d alpha) as FmC. pose proof (cast_format d i) as FmI.
  set (A := cast_ d (sub_ _ _ _ _)) in *. set (C := cast_ d alpha) in *. set (I := cast_ d i) in *. clearbody A C I. clear X1 V1 A2 C2.
  destruct (fin_fmt d A FmA) as (GA & TA). destruct (fin_fmt d C FmC) as (GC & TC). destruct (fin_fmt d I FmI) as (GI & TI).
  assert (Y : forall g, ffin g = true -> 0 <= fval g <= 1 -> let y := add_ (fprec d) (femax d) (mul_ (fprec d) (femax d) A g) C in ffin y = true /\ fval y = rnd d (rnd d (fval A * fval g) + fval C) /\ fval C <= fval y <= 1).
  { intros g Fg Hg. cbn zeta. assert (B : 0 <= rnd d (fval A * fval g) <= fval A). { split; [apply rnd_ge0; nra|]. rewrite <- (rnd_id d (fval A) GA) at 2. apply rnd_le. nra. }
    pose proof (T1 d) as Td.
    assert (M : ffin (mul_ (fprec d) (femax d) A g) = true /\ fval (mul_ (fprec d) (femax d) A g) = rnd d (fval A * fval g)).
    { rewrite mul_fin by auto. match goal with |- ffin (rto d ?s _) = _ /\ _ => destruct (rto_cases d s (fval A * fval g)) as [(_ & ->)|(Cx & _)]; [now rewrite fmk_fin, fmk_val|rewrite Rabs_pos_eq in Cx by lra; lra] end. }
    destruct M as (M1 & M2). rewrite add_fin by auto. rewrite M2.
    assert (B2 : fval C <= rnd d (rnd d (fval A * fval g) + fval C) <= 1). { split; [rewrite <- (rnd_id d (fval C) GC) at 1; apply rnd_le; lra|]. eapply Rle_trans; [apply rnd_le|exact HSum]. lra. }
    match goal with |- ffin (rto d ?s _) = _ /\ _ => destruct (rto_cases d s (rnd d (fval A * fval g) + fval C)) as [(_ & ->)|(Cx & _)]; [rewrite fmk_fin, fmk_val; auto|rewrite Rabs_pos_eq in Cx by lra; lra] end. }
  destruct (Y h J1 J3) as (Y1 & Y2 & Y3). destruct (Y h' J1' J3') as (Y1' & Y2' & Y3').
  assert (Y4 : fval (add_ (fprec d) (femax d) (mul_ (fprec d) (femax d) A h') C) <= fval (add_ (fprec d) (femax d) (mul_ (fprec d) (femax d) A h) C)). { rewrite Y2, Y2'. apply rnd_le. apply Rplus_le_compat_r. apply rnd_le. nra. }
  set (y := add_ _ _ (mul_ _ _ A h) C) in *. set (y' := add_ _ _ (mul_ _ _ A h') C) in *. clearbody y y'.
  assert (Z1 : forall g, ffin g = true -> 0 <= fval g <= 1 -> ffin (mul_ (fprec d) (femax d) I g) = true /\ fval (mul_ (fprec d) (femax d) I g) = rnd d (fval I * fval g) /\ rnd d (fval I * fval g) <= fval I).
  { intros g Fg Hg. assert (B : 0 <= rnd d (fval I * fval g) <= fval I). { split; [apply rnd_ge0; nra|]. rewrite <- (rnd_id d (fval I) GI) at 2. apply rnd_le. nra. }
    rewrite mul_fin by auto. rewrite Rabs_pos_eq in TI by lra. match goal with |- ffin (rto d ?s _) = _ /\ _ => destruct (rto_cases d s (fval I * fval g)) as [(_ & ->)|(Cx & _)]; [rewrite fmk_fin, fmk_val; split; [reflexivity|]; split; [reflexivity|lra]|rewrite Rabs_pos_eq in Cx by lra; lra] end. }
  destruct (Z1 y Y1 ltac:(lra)) as (W1 & W2 & W3). destruct (Z1 y' Y1' ltac:(lra)) as (W1' & W2' & W3'). destruct (Z1 C C1 ltac:(lra)) as (U1 & U2 & _).
  split; [exact W1|]. split; [apply le_fin; auto; rewrite W2, W2'; apply rnd_le; nra|]. split; [apply le_fin; auto; rewrite W2; exact W3|].
  split; [apply le_fin; auto; rewrite U2, W2; apply rnd_le; nra|exact Ec].
Qed.
Lemma rnd_above1 d x : 1 - bpow radix2 (- fprec d - 1) < x -> 1 <= rnd d x.
Proof.
  intros H. unfold rnd_. apply round_N_ge_midp; auto with typeclass_instances; [apply fmt_1|].
  assert (E : pred radix2 (SpecFloat.fexp (fprec d) (femax d)) 1 = 1 - bpow radix2 (- fprec d)).
  { change 1 with (bpow radix2 0) at 1. rewrite pred_bpow. f_equal. f_equal. unfold SpecFloat.fexp, SpecFloat.emin. destruct d; reflexivity. }
  rewrite E. replace (- fprec d)%Z with (1 + (- fprec d - 1))%Z by lia. rewrite bpow_plus. change (bpow radix2 1) with 2. lra.
Qed.
Lemma cos_small t : 0 <= t -> 1 - t * t / 2 <= cos t.
Proof.
  intros Ht. replace (cos t) with (1 - 2 * sin (t / 2) * sin (t / 2)) by (rewrite <- cos_2a_sin; f_equal; lra).
  destruct (Req_dec t 0) as [->|]; [replace (0 / 2) with 0 by lra; rewrite sin_0; lra|].
  assert (H1 : sin (t / 2) < t / 2) by (apply sin_lt_x; lra).
  assert (H2 : - (t / 2) <= sin (t / 2)).
  { destruct (Rle_or_lt (t / 2) 1) as [Hh|Hh]; [|pose proof (SIN_bound (t / 2)); lra]. assert (0 <= sin (t / 2)) by (apply sin_ge_0; pose proof pi_range; lra). lra. }
  assert (Hsq : sin (t / 2) * sin (t / 2) <= (t / 2) * (t / 2)) by nra. lra.
Qed.
Lemma cr_cos_decreasing : cos_decreasing cr_libm.
Proof.
  intros d x y Hd Ix Iy Fx Fy Hxy Hy. pose proof pi_range as HP.
  assert (T1 : 1 < top d) by (change 1 with (bpow radix2 0); apply bpow_lt; destruct d; reflexivity).
  assert (B1 : forall r, -1 <= r <= 1 -> -1 <= rnd d r <= 1).
  { intros r Hr. split; [apply Rle_trans with (rnd d (-1)); [right; symmetry; replace (-1) with (- (1)) by lra; apply rnd_id, fmt_opp, fmt_1|apply rnd_le; lra]|eapply Rle_trans; [apply rnd_le with (y := 1); lra|right; apply rnd_id, fmt_1]]. }
  assert (V : forall z, ffin z = true -> ffin (l_cos cr_libm d z) = true /\ fval (l_cos cr_libm d z) = rnd d (cos (fval z))).
  { intros z Fz. destruct z as [s|r| |]; try discriminate; cbn [l_cos cr_libm fval]; [rewrite cos_0; split; [reflexivity|]; symmetry; apply rnd_id, fmt_1|].
    pose proof (B1 (cos r) (COS_bound r)) as B. assert (Bs : Rabs (rnd d (cos r)) <= 1) by (apply Rabs_le; lra).
    destruct (rto_cases d (Rlt_bool (cos r) 0) (cos r)) as [(_ & ->)|(Cx & _)]; [now rewrite fmk_fin, fmk_val|lra]. }
  destruct (V x Fx) as (V1 & V2). destruct (V y Fy) as (V3 & V4). rewrite V1, V2, V4. split; [reflexivity|]. split; [apply B1, COS_bound|].
  destruct (Rle_or_lt (fval y) PI) as [Hp|Hp].
  - apply rnd_le. apply cos_decr_1; lra.
  - apply Rle_trans with (-1); [|apply B1, COS_bound].
    set (t := fval y - PI). assert (Et : cos (fval y) = - cos t) by (replace (fval y) with (t + PI) by (unfold t; lra); apply neg_cos). rewrite Et, rnd_opp. apply Ropp_le_contravar. apply rnd_above1.
    eapply Rlt_le_trans; [|apply cos_small; unfold t; lra].
    assert (Ht : 0 <= t <= 32 * bpow radix2 (- fprec d)). { unfold t. split; [lra|]. replace (3 - fprec d)%Z with (3 + - fprec d)%Z in Hy by lia. rewrite bpow_plus in Hy. change (bpow radix2 3) with 8 in Hy. pose proof (bpow_gt_0 radix2 (- fprec d)). nra. }
    set (u := bpow radix2 (- fprec d)) in *. assert (U : 0 < u < / 4096). { split; [apply bpow_gt_0|]. replace (/ 4096) with (bpow radix2 (-12)) by (cbn; lra). apply bpow_lt. destruct Hd; subst; reflexivity. }
    assert (Eu : bpow radix2 (- fprec d - 1) = u / 2) by (replace (- fprec d - 1)%Z with (- fprec d + -1)%Z by lia; rewrite bpow_plus; fold u; change (bpow radix2 (-1)) with (/ 2); lra). rewrite Eu.
    assert (t * t <= 1024 * (u * u)) by nra. nra.
Qed.
(*@ex C72_cosine_example *)
Lemma cosine_example : cos_decreasing cr_libm /\ let O := FlOps cr_libm in
  (exists v, cosine_decay_schedule (O := O) (Nz 1) 1000%Z (Zr false) = Ok v) /\
  fisfinite (Ops := O) (@fcast O (@defdt O) (Nz 1)) = true /\ fle (Ops := O) (@fzero O) (@fcast O (@defdt O) (Nz 1)) = true /\
  in_format F64 (Zr false) /\ fle (Ops := O) (@fzero O) (Zr false) = true /\ fle (Ops := O) (Zr false) (@fone O) = true.
Proof.
  split; [exact cr_cos_decreasing|]. cbn zeta.
  assert (I1 : in_format F32 (Nz 1)) by (split; [lra|]; split; [apply fmt_1|rewrite Rabs_R1; change 1 with (bpow radix2 0); apply bpow_lt; reflexivity]).
  assert (E1 : cast_ F32 (Nz 1) = Nz 1) by now apply cast_id.
  split; [eexists; reflexivity|]. rewrite fl0, fl1. change (@defdt (FlOps cr_libm)) with F32. cbn [fcast fisfinite fle FlOps]. rewrite E1.
  split; [reflexivity|]. split; [apply le_fin; cbn; auto; lra|]. split; [exact Logic.I|]. split; apply le_fin; cbn; auto; lra.
Qed.
