(** IEEE-754: Adam's default hyperparameters; a concrete platform for examples. *)
From Verif Require Export P_ieee3.
From Coq Require Import Psatz Qreals Bool.
From Flocq Require Import Core.Core IEEE754.BinarySingleNaN.
Open Scope R_scope.
#[local] Existing Instance FlOps.
(*@header
From Flocq Require Import Core.Core IEEE754.BinarySingleNaN.
Open Scope R_scope.
#[local] Existing Instance FlOps.
*)

(** What is asked of the platform's pow: on 0 < x < 1 and y >= 1, a finite result between 0 and x + 2^-12. *)
Definition pow_sane (L : Libm) : Prop := forall d x y, in_format d x -> in_format d y -> ffin x = true -> ffin y = true ->
  0 < fval x < 1 -> 1 <= fval y -> ffin (l_pow L d x y) = true /\ 0 <= fval (l_pow L d x y) <= fval x + bpow radix2 (-12).

Lemma rto_rel d s r : d <> F16 -> / 1000000000 <= r <= 1 -> ffin (rto d s r) = true /\ Rabs (fval (rto d s r) - r) <= bpow radix2 (- fprec d) * r.
Proof.
  intros Hd Hr. assert (B1 : bpow radix2 (SpecFloat.emin (fprec d) (femax d) + fprec d - 1) <= r).
  { eapply Rle_trans; [|apply Hr]. eapply Rle_trans; [apply (bpow_le radix2 _ (-30)); destruct d; cbn; try easy; lia|]. cbn. lra. }
  pose proof (rnd_err d r) as E. rewrite (Rabs_pos_eq r) in E by lra. specialize (E B1).
  destruct (rto_cases d s r) as [(_ & ->)|(H & ->)]; [now rewrite fmk_fin, fmk_val|].
  exfalso. assert (rnd d r <= rnd d 1) by (apply rnd_le; lra). rewrite (rnd_id d 1 (fmt_1 d)) in H0. rewrite Rabs_pos_eq in H by (apply rnd_ge0; lra).
  assert (1 < top d) by (change 1 with (bpow radix2 0); apply bpow_lt; destruct d; cbn; lia). lra.
Qed.
Lemma cast_rel d x : d <> F16 -> ffin x = true -> / 1000000000 <= fval x <= 1 -> ffin (cast_ d x) = true /\ Rabs (fval (cast_ d x) - fval x) <= bpow radix2 (- fprec d) * fval x.
Proof. intros Hd Hf Hx. destruct x as [|r| |]; try discriminate; cbn [fval] in *; [lra|]. now apply rto_rel. Qed.
Lemma prec8 d : d <> F16 -> bpow radix2 (- fprec d) <= / 256.
Proof. intros H. eapply Rle_trans; [apply (bpow_le radix2 _ (-8)); destruct d; cbn; try easy; lia|cbn; lra]. Qed.
Lemma prec24 d : d = F32 \/ d = F64 -> bpow radix2 (- fprec d) <= / 10000000.
Proof. intros H. eapply Rle_trans; [apply (bpow_le radix2 _ (-24)); destruct H; subst; cbn; lia|cbn; lra]. Qed.

Section Lits.
  Context `{L : Libm}.
  Lemma defdt_cases : @defdt (FlOps L) = F32 \/ @defdt (FlOps L) = F64.
  Proof. unfold defdt. destruct x64; auto. Qed.
  (** A literal between 0 and 1, and one minus it. *)
  Lemma lit_near (q : Q) : / 1000000000 <= Q2R q <= 1 -> ffin (@flit (FlOps L) q) = true /\ Rabs (fval (@flit (FlOps L) q) - Q2R q) <= / 10000000 * Q2R q.
  Proof.
    intros H. cbn [flit FlOps]. destruct (rto_rel F64 (Rlt_bool (Q2R q) 0) (Q2R q) ltac:(discriminate) H) as (H1 & H2). split; [exact H1|].
    eapply Rle_trans; [exact H2|]. apply Rmult_le_compat_r; [lra|]. apply prec24. auto.
  Qed.
  Lemma sub1_near d (x : fl) : d = F32 \/ d = F64 -> ffin x = true -> / 1000000000 <= 1 - fval x <= 1 ->
    ffin (@fsub (FlOps L) d (Nz 1) x) = true /\ Rabs (fval (@fsub (FlOps L) d (Nz 1) x) - (1 - fval x)) <= / 10000000 * (1 - fval x).
  Proof.
    intros Hd Hx H. cbn [fsub FlOps]. unfold sub_. rewrite add_fin; [|reflexivity|destruct x; try discriminate; reflexivity].
    assert (E : fval (Nz 1) + fval (opp_ x) = 1 - fval x) by (destruct x; try discriminate; cbn; lra). rewrite E.
    destruct (rto_rel d (if Req_bool (1 - fval x) 0 then fneg_ (Nz 1) && fneg_ (opp_ x) else Rlt_bool (1 - fval x) 0) (1 - fval x)) as (H1 & H2); auto.
    { destruct Hd; subst; discriminate. }
    split; [exact H1|]. eapply Rle_trans; [exact H2|]. apply Rmult_le_compat_r; [lra|]. now apply prec24.
  Qed.
  Lemma cast1 d : @fcast (FlOps L) d fone = Nz 1.
  Proof.
    rewrite fl1. cbn [fcast FlOps cast_]. rewrite rto_id; [unfold fmk; now rewrite Req_bool_false by lra|apply fmt_1|]. rewrite Rabs_R1. change 1 with (bpow radix2 0). apply bpow_lt. destruct d; reflexivity.
  Qed.
  Lemma cast_count d t : d = F32 \/ d = F64 -> (1 <= t <= int32_max)%Z -> let y := @fcast (FlOps L) d (fofZ t) in ffin y = true /\ 1 <= fval y.
  Proof.
    intros Hd Ht. cbn zeta. unfold fofZ. cbn [fcast flit FlOps]. assert (E : Q2R (inject_Z t) = IZR t) by (unfold Q2R; cbn; lra). rewrite E.
    assert (B : forall d, d = F32 \/ d = F64 -> fmt d 1 /\ fmt d (bpow radix2 31) /\ Rabs 1 < top d /\ Rabs (bpow radix2 31) < top d).
    { clear. intros d Hd. split; [apply fmt_1|]. split; [apply fmt_bpow; destruct Hd; subst; cbn; lia|]. rewrite Rabs_R1, Rabs_pos_eq by apply bpow_ge_0.
      split; [change 1 with (bpow radix2 0)|]; apply bpow_lt; destruct Hd; subst; reflexivity. }
    assert (H1 : 1 <= IZR t <= bpow radix2 31).
    { split; [apply IZR_le; lia|]. cbn. apply IZR_le. assert (int32_max = 2147483647)%Z by reflexivity. lia. }
    destruct (B F64 ltac:(auto)) as (B1 & B2 & B3 & B4). destruct (rto_between F64 (Rlt_bool (IZR t) 0) _ _ _ B1 B2 H1 B4 B3) as (F1 & H2).
    change (fround_ 53 1024) with (fround_ (fprec F64) (femax F64)). set (z := rto F64 _ _) in *. clearbody z. destruct z as [|r| |]; try discriminate; cbn [fval] in H2; [lra|].
    destruct (B d Hd) as (C1 & C2 & C3 & C4). destruct (rto_between d (Rlt_bool r 0) _ _ _ C1 C2 H2 C4 C3) as (F2 & H3). cbn. split; [exact F2|apply H3].
  Qed.
  Lemma cnt_range n : (1 <= cnt (S n) <= int32_max)%Z.
  Proof. Transparent cnt. unfold cnt. assert (int32_max = 2147483647)%Z by reflexivity. lia. Opaque cnt. Qed.

  (** The bias correction of a decay rate: at least 2^-k when the decay is at most 1 - 2^(1-k) or so. *)
  Lemma divisor_near (HL : pow_sane L) d (b : fl) n k : in_format F64 b -> ffin b = true -> / 2 <= fval b -> (0 <= k <= 11)%Z ->
    fval b * (1 + / 10000000) + bpow radix2 (-12) <= 1 - bpow radix2 (- k) ->
    let B := bias_divisor d b (cnt (S n)) in ffin B = true /\ bpow radix2 (- k) <= fval B.
  Proof.
    intros Fb Hb Hb2 Hk Hle. cbn zeta. unfold bias_divisor. rewrite cast1. pose proof defdt_cases as HD. set (D := @defdt (FlOps L)) in *. clearbody D.
    assert (HD16 : D <> F16) by (destruct HD; subst; discriminate). pose proof (bpow_gt_0 radix2 (- k)) as Pk.
    assert (P12 : bpow radix2 (-12) = / 4096) by (cbn; lra).
    destruct (cast_rel D b HD16 Hb) as (C1 & C2); [lra|]. apply Rabs_le_inv in C2. pose proof (prec24 D HD) as P24. pose proof (bpow_gt_0 radix2 (- fprec D)) as P24'.
    assert (C3 : fval (cast_ D b) <= fval b * (1 + / 10000000)) by nra. assert (C4 : 0 < fval (cast_ D b)) by nra.
    destruct (cast_count D (cnt (S n)) HD (cnt_range n)) as (T1 & T2).
    destruct (HL D (cast_ D b) (@fcast (FlOps L) D (@fofZ (FlOps L) (cnt (S n))))) as (Q1 & Q2 & Q3); auto; try apply cast_format; [lra|].
    cbn [fpow fsub fcast FlOps] in *. set (w := l_pow L D _ _) in *. clearbody w.
    assert (B : forall d, fmt d 1 /\ fmt d (bpow radix2 (- k)) /\ Rabs 1 < top d /\ Rabs (bpow radix2 (- k)) < top d).
    { clear - Hk. intros d. split; [apply fmt_1|]. split; [apply fmt_bpow; destruct d; cbn; lia|]. rewrite Rabs_R1, Rabs_pos_eq by apply bpow_ge_0.
      split; [change 1 with (bpow radix2 0)|]; apply bpow_lt; destruct d; cbn; lia. }
    assert (Hs : bpow radix2 (- k) <= 1 - fval w <= 1) by lra.
    assert (A : ffin (sub_ (fprec D) (femax D) (Nz 1) w) = true /\ bpow radix2 (- k) <= fval (sub_ (fprec D) (femax D) (Nz 1) w) <= 1).
    { unfold sub_. rewrite add_fin; [|reflexivity|destruct w; try discriminate; reflexivity].
      assert (E : fval (Nz 1) + fval (opp_ w) = 1 - fval w) by (destruct w; try discriminate; cbn; lra). rewrite E. destruct (B D) as (B1 & B2 & B3 & B4). now apply rto_between. }
    unfold conv. destruct (fdt_eqb D d); [split; [apply A|apply A]|]. destruct A as (A1 & A2). cbn [fcast FlOps].
    set (z := sub_ _ _ _ _) in *. clearbody z. destruct z as [|r| |]; try discriminate; cbn [fval] in A2; [lra|]. cbn [cast_]. destruct (B d) as (B1 & B2 & B3 & B4).
    destruct (rto_between d (Rlt_bool r 0) r _ _ B2 B1 A2 B3 B4) as (R1 & R2). split; [exact R1|apply R2].
  Qed.
End Lits.

Lemma bpow_m4 : bpow radix2 (- (4)) = / 16. Proof. cbn. lra. Qed.
Lemma bpow_m11 : bpow radix2 (- (11)) = / 2048. Proof. cbn. lra. Qed.
Lemma bpow_m12 : bpow radix2 (-12) = / 4096. Proof. cbn. lra. Qed.

Lemma default_hypers `{L : Libm} (HL : pow_sane L) d n : d <> F16 ->
  adam_ok d (flit (9 # 10)) (flit (999 # 1000)) 122 4 n /\ pos_fin (fcast d (flit (1 # 100000000))).
Proof.
  intros Hd.
  assert (E1 : Q2R (9 # 10) = 9 / 10) by (unfold Q2R; cbn; lra). assert (E2 : Q2R (999 # 1000) = 999 / 1000) by (unfold Q2R; cbn; lra).
  assert (E3 : Q2R (1 # 100000000) = / 100000000) by (unfold Q2R; cbn; lra).
  destruct (lit_near (9 # 10)) as (A1 & A2); [lra|]. rewrite E1 in A2. destruct (lit_near (999 # 1000)) as (B1 & B2); [lra|]. rewrite E2 in B2.
  destruct (lit_near (1 # 100000000)) as (C1 & C2); [lra|]. rewrite E3 in C2. apply Rabs_le_inv in A2, B2, C2.
  assert (Fb1 : in_format F64 (@flit (FlOps L) (9 # 10))) by apply (rto_format F64). assert (Fb2 : in_format F64 (@flit (FlOps L) (999 # 1000))) by apply (rto_format F64).
  set (b1 := @flit (FlOps L) (9 # 10)) in *. set (b2 := @flit (FlOps L) (999 # 1000)) in *. set (eps := @flit (FlOps L) (1 # 100000000)) in *. clearbody b1 b2 eps.
  pose proof (prec8 d Hd) as P8. pose proof (bpow_gt_0 radix2 (- fprec d)) as P8'.
  assert (Cf : forall x : fl, ffin x = true -> / 1000000000 <= fval x <= 1 -> pos_fin (cast_ d x) /\ fval (cast_ d x) <= fval x * (1 + / 256)).
  { intros x Hf Hx. destruct (cast_rel d x Hd Hf Hx) as (D1 & D2). apply Rabs_le_inv in D2. split; [split; [exact D1|]|]; nra. }
  unfold py1m. destruct (sub1_near (L := L) F64 b1 ltac:(auto) A1) as (M1 & M2); [lra|]. destruct (sub1_near (L := L) F64 b2 ltac:(auto) B1) as (N1 & N2); [lra|].
  rewrite <- fl1 in M1, M2, N1, N2. apply Rabs_le_inv in M2, N2. unfold adam_ok, py1m. cbn [fcast FlOps]. cbn [fsub FlOps] in *.
  set (c1 := sub_ _ _ _ b1) in *. set (c2 := sub_ _ _ _ b2) in *. clearbody c1 c2.
  destruct (Cf b1 A1 ltac:(lra)) as (U1 & U2). destruct (Cf b2 B1 ltac:(lra)) as (V1 & V2). destruct (Cf c1 M1 ltac:(lra)) as (W1 & W2). destruct (Cf c2 N1 ltac:(lra)) as (X1 & X2).
  split; [|apply (Cf eps C1); lra].
  split; [lia|]. split; [lia|]. split; [destruct d; cbn; try easy; lia|]. split; [exact U1|]. split; [exact W1|]. split; [lra|]. split; [exact V1|]. split; [exact X1|].
  split.
  - apply divisor_near; auto; [lra|lia|]. rewrite bpow_m12, bpow_m4. lra.
  - destruct (divisor_near HL d b2 n 11) as (Y1 & Y2); auto; [lra|lia|rewrite bpow_m12, bpow_m11; lra|]. split; [exact Y1|]. rewrite bpow_m11 in Y2. lra.
Qed.

(*@ C70_adam_defaults_never_nan : scale_by_adam with its default hyperparameters (b1=0.9, b2=0.999, eps=1e-8, eps_root=0) on float32, bfloat16 and float64 leaves: for gradients bounded by 2^122 the update is never NaN, at any step of any run. The only assumption on the platform's pow is pow(x, t) in [0, x + 2^-12] for 0<x<1, t>=1. *)
Lemma adam_defaults : forall `{L : Libm}, pow_sane L ->
  femits true (scale_by_adam (flit (9 # 10)) (flit (999 # 1000)) (flit (1 # 100000000)) fzero) (fun d g _ n y => d <> F16 ->
    (forall i, (i <= n)%nat -> fisfinite (g i) = true /\ Rabs (fval (g i)) <= bpow radix2 122) -> fisnan y = false).
Proof.
  intros L HL p H Wp HH. destruct (adam_not_nan (L := L) (@flit (FlOps L) (9 # 10)) (@flit (FlOps L) (999 # 1000)) (@flit (FlOps L) (1 # 100000000)) (@fzero (FlOps L)) 122 4) with (p := p) (H := H) as (outs & H1 & H2 & H3 & H4); auto.
  { rewrite fl0. apply le_fin; auto. lra. }
  exists outs. split; [exact H1|]. split; [exact H2|]. split; [exact H3|]. intros n pos g q Hn Hg Hq. destruct (H4 n pos g q Hn Hg Hq) as (y & Hy & Hr). exists y. split; [exact Hy|].
  intros Hd Hb. destruct (default_hypers HL (leafdt p pos) n Hd) as (K1 & K2). now apply Hr.
Qed.

(** ** A concrete platform: every function correctly rounded, sums from left to right. *)
Definition cr_libm : Libm := {|
  l_pow d x y := match x, y with
                 | Nz a, Nz b => if Rlt_bool 0 a then rto d false (Rpower a b) else Na
                 | Nz a, Zr _ => Nz 1
                 | Zr _, Nz b => if Rlt_bool 0 b then Zr false else If false
                 | Zr _, Zr _ => Nz 1
                 | _, _ => Na
                 end;
  l_rsqrt d x := match x with
                 | Nz a => if Rlt_bool a 0 then Na else rto d false (/ sqrt a)
                 | Zr s => If s
                 | If false => Zr false
                 | _ => Na
                 end;
  l_exp d x := match x with Nz a => rto d false (exp a) | Zr _ => Nz 1 | If true => Zr false | If false => If false | Na => Na end;
  l_log d x := match x with Nz a => if Rlt_bool a 0 then Na else rto d (Rlt_bool (ln a) 0) (ln a) | Zr _ => If true | If false => If false | _ => Na end;
  l_log1p d x := match x with Nz a => if Rlt_bool a (-1) then Na else rto d (Rlt_bool (ln (1 + a)) 0) (ln (1 + a)) | Zr s => Zr s | If false => If false | _ => Na end;
  l_cos d x := match x with Nz a => rto d (Rlt_bool (cos a) 0) (cos a) | Zr _ => Nz 1 | _ => Na end;
  l_sum d l := fold_left (add_ (fprec d) (femax d)) l (Zr false);
  l_x64 := false;
  l_key := Z; l_prng_key z := z; l_ksplit k n := map (fun i => (k * Z.of_nat n + Z.of_nat i)%Z) (seq 0 n);
  l_knormal _ _ _ _ := Zr false; l_kdraw _ _ _ _ := Zr false;
|}.

Lemma cr_pow : pow_sane cr_libm.
Proof.
  intros d x y Fx Fy Hx Hy H0 H1. destruct x as [|a| |]; try discriminate; cbn [fval] in *; [lra|]. destruct y as [|b| |]; try discriminate; cbn [fval] in *; [lra|].
  cbn [l_pow cr_libm]. rewrite Rlt_bool_true by lra. assert (P : 0 < Rpower a b) by apply exp_pos.
  assert (Hle : Rpower a b <= a).
  { unfold Rpower. rewrite <- (exp_ln a) at 2 by lra. assert (ln a < 0) by (rewrite <- ln_1; apply ln_increasing; lra).
    destruct (Req_dec (b * ln a) (ln a)) as [->|]; [lra|]. left. apply exp_increasing. nra. }
  destruct Fx as (_ & Fa & Ta). destruct (rto_between d false (Rpower a b) 0 a (fmt_0 d) Fa ltac:(lra) Ta) as (F1 & F2); [rewrite Rabs_R0; apply top_pos|].
  split; [exact F1|]. pose proof (bpow_gt_0 radix2 (-12)). lra.
Qed.
Lemma cr_rsqrt : rsqrt_sane cr_libm.
Proof.
  intros d x Fx Px. destruct x as [|a|[|]|]; try easy. cbn in Px. cbn [l_rsqrt cr_libm]. rewrite Rlt_bool_false by lra.
  destruct Fx as (_ & Fa & _). assert (Ha : bpow radix2 (SpecFloat.emin (fprec d) (femax d)) <= a).
  { apply (generic_format_ge_bpow radix2 (SpecFloat.fexp (fprec d) (femax d))); auto. intros e. unfold SpecFloat.fexp. lia. }
  set (m := match d with F16 => 12 | BF16 => 67 | F32 => 75 | F64 => 537 end%Z).
  assert (Hs : bpow radix2 (- m) <= sqrt a).
  { rewrite <- (sqrt_square (bpow radix2 (- m))) by apply bpow_ge_0. apply sqrt_le_1_alt. rewrite <- bpow_plus. eapply Rle_trans; [|exact Ha]. apply bpow_le. destruct d; cbn; lia. }
  pose proof (bpow_gt_0 radix2 (- m)) as Pm.
  assert (Hi : 0 <= / sqrt a <= bpow radix2 m).
  { split; [left; apply Rinv_0_lt_compat; lra|]. replace (bpow radix2 m) with (/ bpow radix2 (- m)) by (rewrite bpow_opp; field; apply Rgt_not_eq, bpow_gt_0). apply Rinv_le; lra. }
  destruct (rto_between d false (/ sqrt a) 0 (bpow radix2 m) (fmt_0 d)) as (F1 & F2); auto.
  - apply fmt_bpow. destruct d; cbn; lia.
  - rewrite Rabs_pos_eq by apply bpow_ge_0. apply bpow_lt. destruct d; reflexivity.
  - rewrite Rabs_R0. apply top_pos.
  - split; [exact F1|]. apply rto_nonneg. apply Hi.
Qed.

(** A history of one-element trees. *)
Definition fhist (d : fdt) (l : list fl) : list (tree (gt fl) * option (tree (gt fl))) := map (fun x => (fone1 d x, None)) l.
Lemma fone1_wf d x : trwf (fone1 d x). Proof. repeat constructor. Qed.
Lemma fhist_ok `{L : Libm} d x l : hist_ok true (fone1 d x) (fhist d l).
Proof. apply Forall_forall. intros h Hh. apply in_map_iff in Hh as (y & <- & _). split; [repeat constructor|]. discriminate. Qed.
Lemma fhist_elt `{L : Libm} d l i : helt (fhist d l) i (0%nat, 0%nat) = nth_error l i.
Proof. unfold helt, fhist. rewrite nth_error_map. destruct (nth_error l i); reflexivity. Qed.
Lemma femits_one `{L : Libm} T Rel d x l : femits true T Rel -> Forall (in_format d) l -> exists outs, trains T (fone1 d x) (fhist d l) outs /\
  forall n, (n < length l)%nat -> exists y, oelt outs n (0%nat, 0%nat) = Some y /\ Rel d (fun i => nth i l Na) (fun _ => Na) n y.
Proof.
  intros HT Hl. destruct (HT (fone1 d x) (fhist d l) (fone1_wf d x) (fhist_ok d x l)) as (outs & H1 & H2 & H3 & H4).
  exists outs. split; [exact H1|]. intros n Hn. apply (H4 n (0%nat, 0%nat)); [unfold fhist; now rewrite map_length| |discriminate].
  intros i Hi. cbn [leafdt fone1]. rewrite fhist_elt. split; [apply nth_error_nth'; lia|]. rewrite Forall_forall in Hl. apply Hl. apply nth_In. lia.
Qed.

(*@ex C69_example *)
Lemma clip_ieee_example : exists outs, trains (O := FlOps cr_libm) (clip (O := FlOps cr_libm) (Nz 1)) (fone1 F16 (Zr true)) (fhist F16 [Nz 3; If true; Na; Nz (-1)]) outs /\
  (exists y, oelt outs 0 (0%nat, 0%nat) = Some y /\ feqb (Ops := FlOps cr_libm) y (Nz 1) = true) /\
  (exists y, oelt outs 1 (0%nat, 0%nat) = Some y /\ feqb (Ops := FlOps cr_libm) y (Nz (-1)) = true) /\
  (exists y, oelt outs 2 (0%nat, 0%nat) = Some y /\ fisnan (Ops := FlOps cr_libm) y = true).
Proof.
  assert (F1 : forall d, in_format d (Nz 1)) by (intros; apply (int_format d 1); [destruct d; reflexivity|discriminate]).
  assert (P1 : fle (Ops := FlOps cr_libm) (@fzero (FlOps cr_libm)) (Nz 1) = true) by (rewrite (fl0 (L := cr_libm)); apply le_fin; auto; cbn; lra).
  destruct (femits_one (L := cr_libm) _ _ F16 (Zr true) [Nz 3; If true; Na; Nz (-1)] (clip_ieee (L := cr_libm) (Nz 1) (F1 F64) P1)) as (outs & H1 & H2).
  { repeat constructor; try exact Logic.I; try (intros E; lra); try (apply (int_format F16 3); [reflexivity|discriminate]); try (apply (int_format F16 (-1)); [reflexivity|discriminate]). }
  exists outs. split; [exact H1|].
  assert (D : @fcast (FlOps cr_libm) F16 (Nz 1) = Nz 1) by (apply cast_id, F1).
  destruct (H2 0%nat ltac:(cbn; lia)) as (y0 & Y0 & _ & _ & _ & K0 & _). destruct (H2 1%nat ltac:(cbn; lia)) as (y1 & Y1 & _ & _ & _ & _ & K1). destruct (H2 2%nat ltac:(cbn; lia)) as (y2 & Y2 & K2 & _).
  cbn [nth] in K0, K1, K2. rewrite D in K0, K1. split; [exists y0; split; [exact Y0|]|split; [exists y1; split; [exact Y1|]|exists y2; split; [exact Y2|exact K2]]].
  - apply K0. apply le_fin; auto. cbn. lra.
  - apply K1. reflexivity.
Qed.
(*@ex C70_example *)
Lemma adam_defaults_example : exists outs, trains (O := FlOps cr_libm)
    (scale_by_adam (O := FlOps cr_libm) (@flit (FlOps cr_libm) (9 # 10)) (@flit (FlOps cr_libm) (999 # 1000)) (@flit (FlOps cr_libm) (1 # 100000000)) (@fzero (FlOps cr_libm)))
    (fone1 BF16 (Zr true)) (fhist BF16 [Zr false; Nz (-3); Nz 7]) outs /\
  forall n, (n < 3)%nat -> exists y, oelt outs n (0%nat, 0%nat) = Some y /\ fisnan (Ops := FlOps cr_libm) y = false.
Proof.
  destruct (femits_one (L := cr_libm) _ _ BF16 (Zr true) [Zr false; Nz (-3); Nz 7] (adam_defaults (L := cr_libm) cr_pow)) as (outs & H1 & H2).
  { repeat constructor; try exact Logic.I; try (intros E; lra); try (apply (int_format BF16 7); [reflexivity|discriminate]); try (apply (int_format BF16 (-3)); [reflexivity|discriminate]). }
  exists outs. split; [exact H1|]. intros n Hn. destruct (H2 n Hn) as (y & Hy & K). exists y. split; [exact Hy|]. apply K; [discriminate|].
  assert (B : 8 <= bpow radix2 122) by (change 8 with (bpow radix2 3); apply bpow_le; lia).
  intros i Hi. destruct i as [|[|[|i]]]; [| | |lia]; (split; [reflexivity|]); cbn [nth fval].
  - rewrite Rabs_R0. lra.
  - rewrite Rabs_left by lra. lra.
  - rewrite Rabs_pos_eq by lra. lra.
Qed.

(*@ex C73_example *)
Lemma stagnates_example : forall n, exists r, apply_all (O := FlOps cr_libm) (fone1 BF16 (Nz 256)) (repeat (fone1 BF16 (Nz (/ 4))) n) = Ok r /\
  exists z, elt r (0%nat, 0%nat) = Some z /\ feqb (Ops := FlOps cr_libm) z (Nz 256) = true.
Proof.
  intros n. destruct (apply_stagnates (L := cr_libm) (repeat (fone1 BF16 (Nz (/ 4))) n) (fone1 BF16 (Nz 256))) as (r & Er & _ & He).
  - apply fone1_wf.
  - apply Forall_forall. intros u Hu. apply repeat_spec in Hu. subst u. split; [reflexivity|apply fone1_wf].
  - intros pos x Hx. destruct pos as [[|[|?]] [|[|?]]]; try discriminate Hx. injection Hx as <-. split; [|reflexivity]. cbn [leafdt fone1].
    replace 256 with (bpow radix2 8) by (cbn; lra). split; [apply Rgt_not_eq, bpow_gt_0|]. split; [apply fmt_bpow; cbn; lia|]. rewrite Rabs_pos_eq by apply bpow_ge_0. now apply bpow_lt.
  - apply Forall_forall. intros u Hu. apply repeat_spec in Hu. subst u. intros pos x y Hx Hy. destruct pos as [[|[|?]] [|[|?]]]; try discriminate Hx. injection Hx as <-. injection Hy as <-.
    split; [reflexivity|]. cbn [leafdt fone1 fval]. change (- fprec BF16 - 2)%Z with (-10)%Z. rewrite !Rabs_pos_eq by lra. cbn. lra.
  - exists r. split; [exact Er|]. now apply He.
Qed.
