(** IEEE-754: exponential_decay and smooth_labels. *)
From Verif Require Export P_ieee10.
From Coq Require Import Psatz Qreals Bool.
From Flocq Require Import Core.Core IEEE754.BinarySingleNaN.
Open Scope R_scope.
#[local] Existing Instance FlOps.
(*@header
From Flocq Require Import Core.Core IEEE754.BinarySingleNaN.
Open Scope R_scope.
#[local] Existing Instance FlOps.
*)
(** The platform's pow at bases in (0,1] and finite exponents >= 0: a number in [0,1], never larger for a larger exponent. *)
Definition pow_decreasing (L : Libm) : Prop := forall d b p p', in_format d b -> 0 < fval b <= 1 -> ffin p = true -> ffin p' = true -> 0 <= fval p <= fval p' ->
  ffin (l_pow L d b p) = true /\ 0 <= fval (l_pow L d b p) <= 1 /\ fval (l_pow L d b p') <= fval (l_pow L d b p).
Section E.
  Context `{L : Libm}.
  Local Notation D := (@defdt (FlOps L)).
  Lemma floor_fl x : ffin x = true -> ffin (floor_ x) = true /\ fval (floor_ x) = IZR (Zfloor (fval x)).
  Proof. destruct x as [|r| |]; try discriminate; intros _; cbn [floor_ fval]; [rewrite Zfloor_IZR; auto|]. now rewrite fmk_fin, fmk_val. Qed.
  Definition expo (stair : bool) (c s : Z) : fl := let p := @fdiv (FlOps L) D (@zf (FlOps L) c) (@zf (FlOps L) s) in if stair then floor_ p else p.
  Lemma expo_val stair c c' s : (0 <= c <= c')%Z -> (c' <= int32_max)%Z -> (0 < s <= int32_max)%Z ->
    ffin (expo stair c s) = true /\ ffin (expo stair c' s) = true /\ 0 <= fval (expo stair c s) <= fval (expo stair c' s).
  Proof.
    intros Hc Hc' Hs. destruct (zf_pos (L := L) s ltac:(lia)) as (S1 & S2). destruct (zf_fl (L := L) c ltac:(lia)) as (C1 & C2). destruct (zf_fl (L := L) c' ltac:(lia)) as (C1' & C2').
    pose proof (zf_mono (L := L) c c' ltac:(lia) ltac:(lia)) as M.
    assert (C3 : 0 <= fval (@zf (FlOps L) c)) by (rewrite C2; apply rnd_ge0, rnd_ge0, IZR_le; lia).
    assert (C4 : fval (@zf (FlOps L) c') <= bpow radix2 31).
    { rewrite C2'. assert (Hr : 0 <= IZR c' <= bpow radix2 31) by (split; [apply IZR_le; lia|cbn; apply IZR_le; assert (int32_max = 2147483647)%Z by reflexivity; lia]).
      destruct (rnd_range F64 _ ltac:(auto) Hr) as (A1 & _). destruct (rnd_range D _ (defdt_cases (L := L)) A1) as (B1 & _). lra. }
    unfold expo. cbn zeta. pose proof (defdt_cases (L := L)) as HD. set (d := D) in *. clearbody d. cbn [fdiv FlOps].
    set (x := @zf (FlOps L) c) in *. set (x' := @zf (FlOps L) c') in *. set (y := @zf (FlOps L) s) in *. clearbody x x' y.
    destruct y as [|y| |]; try discriminate; cbn [fval] in *; [lra|]. rewrite !div_fin by assumption.
    assert (Q : forall v, 0 <= v <= bpow radix2 31 -> 0 <= v / y <= bpow radix2 31).
    { intros v Hv. split; [apply Rmult_le_pos; [lra|]; left; apply Rinv_0_lt_compat; lra|]. apply Rmult_le_reg_r with y; [lra|]. unfold Rdiv. rewrite Rmult_assoc, Rinv_l by lra. nra. }
    assert (R1 : forall sg v, 0 <= v <= bpow radix2 31 -> ffin (rto d sg (v / y)) = true /\ fval (rto d sg (v / y)) = rnd d (v / y)).
    { intros sg v Hv. destruct (rnd_range d (v / y) HD (Q v Hv)) as (B1 & B2). destruct (rto_cases d sg (v / y)) as [(_ & ->)|(Cx & _)]; [now rewrite fmk_fin, fmk_val|lra]. }
    destruct (R1 (xorb (fneg_ x) (Rlt_bool y 0)) (fval x) ltac:(lra)) as (F1 & V1). destruct (R1 (xorb (fneg_ x') (Rlt_bool y 0)) (fval x') ltac:(lra)) as (F2 & V2).
    assert (Hle : 0 <= rnd d (fval x / y) <= rnd d (fval x' / y)).
    { split; [apply rnd_ge0, Q; lra|]. apply rnd_le. apply Rmult_le_compat_r; [left; apply Rinv_0_lt_compat; lra|lra]. }
    destruct stair; [|rewrite F1, F2, V1, V2; auto].
    destruct (floor_fl _ F1) as (G1 & G2). destruct (floor_fl _ F2) as (G3 & G4). rewrite G1, G3, G2, G4, V1, V2. split; [reflexivity|]. split; [reflexivity|].
    split; [|apply IZR_le, Zfloor_le; lra]. apply IZR_le. apply Zfloor_lub. lra.
  Qed.
  (** The decayed value before the end value is enforced. *)
  Definition decayed (A b : fl) (stair : bool) (dc s : Z) : fl :=
    if (dc <=? 0)%Z then A else mul_ (fprec D) (femax D) A (l_pow L D b (expo stair dc s)).
  Lemma decayed_val A b stair s c c' : pow_decreasing L -> in_format D A -> ffin A = true -> 0 <= fval A -> in_format D b -> 0 < fval b <= 1 ->
    (c <= c')%Z -> (c' <= int32_max)%Z -> (0 < s <= int32_max)%Z ->
    ffin (decayed A b stair c s) = true /\ 0 <= fval (decayed A b stair c s) <= fval A /\ ffin (decayed A b stair c' s) = true /\ fval (decayed A b stair c' s) <= fval (decayed A b stair c s).
  Proof.
    intros HP IA FA PA Ib Pb Hc Hc' Hs. destruct (fin_fmt D A IA) as (A1 & A2).
    assert (M : forall t, (0 < t <= int32_max)%Z -> let w := l_pow L D b (expo stair t s) in ffin w = true /\ 0 <= fval w <= 1 /\
       ffin (mul_ (fprec D) (femax D) A w) = true /\ fval (mul_ (fprec D) (femax D) A w) = rnd D (fval A * fval w) /\ 0 <= rnd D (fval A * fval w) <= fval A).
    { intros t Ht w. destruct (expo_val stair t t s ltac:(lia) ltac:(lia) Hs) as (E1 & _ & E2).
      destruct (HP D b _ _ Ib Pb E1 E1 ltac:(lra)) as (P1 & P2 & _). fold w in P1, P2. split; [exact P1|]. split; [exact P2|].
      assert (B : 0 <= rnd D (fval A * fval w) <= fval A). { split; [apply rnd_ge0; nra|]. rewrite <- (rnd_id D (fval A) A1) at 2. apply rnd_le. nra. }
      rewrite mul_fin by assumption. rewrite Rabs_pos_eq in A2 by exact PA.
      destruct (rto_cases D (xorb (fneg_ A) (fneg_ w)) (fval A * fval w)) as [(_ & ->)|(Cx & _)]; [now rewrite fmk_fin, fmk_val|rewrite Rabs_pos_eq in Cx by lra; lra]. }
    unfold decayed. destruct (Z.leb_spec c 0) as [H|H], (Z.leb_spec c' 0) as [H'|H']; [repeat split; auto; lra| |lia|].
    - destruct (M c' ltac:(lia)) as (_ & _ & M1 & M2 & M3). rewrite M2. repeat split; auto; lra.
    - destruct (M c ltac:(lia)) as (_ & W & M1 & M2 & M3). destruct (M c' ltac:(lia)) as (_ & W' & M1' & M2' & M3'). rewrite M2, M2'. split; [exact M1|]. split; [lra|]. split; [exact M1'|].
      apply rnd_le. destruct (expo_val stair c c' s ltac:(lia) ltac:(lia) Hs) as (E1 & E2 & E3). destruct (HP D b _ _ Ib Pb E1 E2 E3) as (_ & _ & P3). nra.
  Qed.
End E.
Lemma max_mono_l x y z : fleq x y -> isnan_ z = false -> fleq (max_ x z) (max_ y z) /\ fleq z (max_ x z).
Proof.
  intros H Nz_. destruct (fleq_nn _ _ H) as (Nx & Ny).
  destruct (max_spec x z Nx Nz_) as [(-> & H1)|(-> & H1)], (max_spec y z Ny Nz_) as [(-> & H2)|(-> & H2)]; split; auto.
  - now apply (fleq_trans _ y).
  - now apply fleq_refl.
  - now apply fleq_refl.
  - now apply fleq_refl.
Qed.
(*@ C72_exponential_ieee : IEEE arithmetic, exponential_decay (smooth or staircase) with a decay rate in (0,1) that does not vanish in the default float dtype, init_value finite there and >= 0, on any platform whose pow is a number in [0,1] that never grows with the exponent: up to transition_begin the value is init_value; at no later step does the schedule increase, in spite of the rounding of every operation; without an end value it stays finite and in [0, init_value]; with one (not NaN, infinities allowed) it is at no step below it, and where it is not exactly end_value it is the schedule without end value. *)
Lemma exp_decay_ieee : forall `{L : Libm} (i r : fl) (steps begin c c' : Z) (stair : bool) (e : fl), pow_decreasing L ->
  (0 < steps <= int32_max)%Z -> (c <= c' <= int32_max)%Z ->
  fisfinite (fcast defdt i) = true -> fle fzero (fcast defdt i) = true -> flt fzero (fcast defdt r) = true -> flt r fone = true -> fisnan (fcast defdt e) = false ->
  let v := exponential_decay i steps r begin stair None in
  let w := exponential_decay i steps r begin stair (Some e) in
  ((c <= Z.max begin 0)%Z -> v c = fcast defdt i) /\
  fle (v c') (v c) = true /\ fisfinite (v c) = true /\ fle fzero (v c) = true /\ fle (v c) (fcast defdt i) = true /\
  fle (w c') (w c) = true /\ fle (fcast defdt e) (w c) = true /\ (w c = fcast defdt e \/ w c = v c).
Proof.
  intros L i r steps begin c c' stair e HP Hs Hc Fi Pi Pr Hr Ne. cbn zeta.
  assert (R0 : ffin r = true /\ fval r < 1 /\ r <> Zr false /\ eq_ r (Zr false) = false /\ 0 < fval (cast_ (@defdt (FlOps L)) r) <= 1 /\ lt_ r (Nz 1) = true).
  { rewrite fl0 in Pr. rewrite fl1 in Hr. cbn [fcast flt FlOps] in Pr, Hr. pose proof (cast_format (@defdt (FlOps L)) r) as Fm. pose proof (cast_format (@defdt (FlOps L)) r) as Fm'.
    set (d := @defdt (FlOps L)) in *. clearbody d.
    assert (Frr : ffin r = true). { destruct r as [| |[|]|]; try reflexivity; cbn in Pr, Hr; discriminate. }
    destruct r as [s|x| |]; try discriminate.
    { exfalso. cbn [cast_] in Pr. apply lt_fin in Pr; try reflexivity. cbn in Pr. lra. }
    apply lt_fin in Hr; try reflexivity. cbn [fval] in Hr. cbn [cast_] in Pr |- *.
    assert (X0 : 0 < x).
    { destruct (Rlt_or_le 0 x) as [|X]; [assumption|]. exfalso. destruct (rto_cases d (Rlt_bool x 0) x) as [(_ & E)|(_ & E)]; rewrite E in Pr.
      - apply lt_fin in Pr; try reflexivity; [|apply fmk_fin]. rewrite fmk_val in Pr. cbn in Pr. pose proof (rnd_le0 d x X). lra.
      - destruct (Rlt_bool_spec x 0); [cbn in Pr; discriminate|]. assert (x = 0) by lra. subst x. rewrite rto_id in E; [|apply fmt_0|rewrite Rabs_R0; apply top_pos]. unfold fmk in E. rewrite Req_bool_true in E by reflexivity. discriminate. }
    assert (T1 : Rabs 1 < top d) by (rewrite Rabs_R1; change 1 with (bpow radix2 0); apply bpow_lt; destruct d; reflexivity).
    destruct (rto_between d (Rlt_bool x 0) x 0 1 (fmt_0 d) (fmt_1 d) ltac:(lra) T1 ltac:(rewrite Rabs_R0; apply top_pos)) as (G1 & G2).
    apply lt_fin in Pr; [|reflexivity|exact G1]. cbn [fval] in Pr.
    split; [reflexivity|]. split; [exact Hr|]. split; [discriminate|]. split; [unfold eq_; rewrite cmp_fin by reflexivity; cbn [fval]; rewrite Rcompare_Gt by lra; reflexivity|]. split; [lra|apply lt_fin; cbn; auto; lra]. }
  destruct R0 as (Fr & R1 & R2 & R3 & R4 & R5).
  set (tb := Z.max begin 0).
  assert (Ev : forall t, exponential_decay (O := FlOps L) i steps r begin stair None t = decayed (L := L) (cast_ (@defdt (FlOps L)) i) (cast_ (@defdt (FlOps L)) r) stair (t - tb) steps).
  { intros t. unfold exponential_decay. destruct (Z.leb_spec steps 0); [lia|]. rewrite fl0. cbn [feqb FlOps]. rewrite R3. cbn zeta.
    replace (if (begin <? 0)%Z then 0%Z else begin) with tb by (unfold tb; destruct (Z.ltb_spec begin 0); lia). reflexivity. }
  assert (Ew : forall t, exponential_decay (O := FlOps L) i steps r begin stair (Some e) t = max_ (decayed (L := L) (cast_ (@defdt (FlOps L)) i) (cast_ (@defdt (FlOps L)) r) stair (t - tb) steps) (cast_ (@defdt (FlOps L)) e)).
  { intros t. unfold exponential_decay. destruct (Z.leb_spec steps 0); [lia|]. rewrite fl0, fl1. cbn [feqb flt FlOps]. rewrite R3, R5. cbn zeta.
    replace (if (begin <? 0)%Z then 0%Z else begin) with tb by (unfold tb; destruct (Z.ltb_spec begin 0); lia). reflexivity. }
  rewrite !Ev, !Ew. cbn [fcast fle fisfinite fisnan FlOps] in *. rewrite fl0 in Pi |- *.
  pose proof (cast_format (@defdt (FlOps L)) i) as IA. pose proof (cast_format (@defdt (FlOps L)) r) as Ib.
  set (A := cast_ _ i) in *. set (b := cast_ _ r) in *. set (E := cast_ _ e) in *. clearbody A b E.
  apply le_fin in Pi; auto. cbn [fval] in Pi.
  destruct (decayed_val (L := L) A b stair steps (c - tb) (c' - tb) HP IA Fi Pi Ib R4 ltac:(lia) ltac:(unfold tb; lia) Hs) as (V1 & V2 & V3 & V4).
  set (x := decayed A b stair (c - tb) steps) in *. set (x' := decayed A b stair (c' - tb) steps) in *.
  assert (Hx : fleq x' x) by (apply le_fin; auto).
  split. { intros Hb. unfold x, decayed. destruct (Z.leb_spec (c - tb) 0); [reflexivity|lia]. }
  split; [exact Hx|]. split; [exact V1|]. split; [apply le_fin; auto; cbn; lra|]. split; [apply le_fin; auto; lra|].
  destruct (max_mono_l x' x E Hx Ne) as (M1 & M2). split; [exact M1|].
  assert (Nx : isnan_ x = false) by (destruct x; auto; discriminate).
  destruct (max_spec x E Nx Ne) as [(-> & H1)|(-> & H1)]; split; auto. now apply fleq_refl.
Qed.
Lemma cr_pow_decreasing : pow_decreasing cr_libm.
Proof.
  intros d b p p' Ib Pb Fp Fp' Hp. destruct b as [|a| |]; try discriminate; cbn [fval] in *; try lra. destruct Ib as (_ & Fa & Ta).
  assert (T1 : Rabs 1 < top d) by (rewrite Rabs_R1; change 1 with (bpow radix2 0); apply bpow_lt; destruct d; reflexivity).
  assert (T0 : Rabs 0 < top d) by (rewrite Rabs_R0; apply top_pos).
  assert (Hl : ln a <= 0). { destruct (Req_dec a 1) as [->|]; [rewrite ln_1; lra|]. left. rewrite <- ln_1. apply ln_increasing; lra. }
  assert (Hm : forall x y, 0 <= x <= y -> 0 <= Rpower a y <= Rpower a x /\ Rpower a x <= 1).
  { intros x y H. assert (E : forall u v, u <= v -> exp u <= exp v) by (intros u v [E|E]; [left; now apply exp_increasing|right; now f_equal]).
    unfold Rpower. split; [split; [left; apply exp_pos|apply E; nra]|]. rewrite <- exp_0. apply E. nra. }
  assert (V : forall x, 0 <= x -> ffin (rto d false (Rpower a x)) = true /\ fval (rto d false (Rpower a x)) = rnd d (Rpower a x) /\ 0 <= rnd d (Rpower a x) <= 1).
  { intros x Hx. destruct (Hm x x ltac:(lra)) as (M1 & M2).
    assert (B : 0 <= rnd d (Rpower a x) <= 1) by (split; [apply rnd_ge0; lra|]; rewrite <- (rnd_id d 1 (fmt_1 d)); apply rnd_le; lra).
    destruct (rto_cases d false (Rpower a x)) as [(_ & ->)|(Cx & _)]; [now rewrite fmk_fin, fmk_val|rewrite Rabs_pos_eq in Cx by lra; rewrite Rabs_R1 in T1; lra]. }
  cbn [l_pow cr_libm]. rewrite Rlt_bool_true by lra.
  destruct p as [s|x| |]; try discriminate; destruct p' as [s'|y| |]; try discriminate; cbn [fval ffin] in *.
  - repeat split; lra.
  - destruct (V y ltac:(lra)) as (_ & -> & B). repeat split; lra.
  - destruct (V x ltac:(lra)) as (-> & -> & B). assert (x = 0) by lra. subst x. unfold Rpower. rewrite Rmult_0_l, exp_0, (rnd_id d 1 (fmt_1 d)). repeat split; lra.
  - destruct (V x ltac:(lra)) as (-> & -> & B). destruct (V y ltac:(lra)) as (_ & -> & B'). split; [reflexivity|]. split; [exact B|]. apply rnd_le. apply Hm. lra.
Qed.
(*@ex C72_exponential_example *)
Lemma exp_decay_example : pow_decreasing cr_libm /\ let O := FlOps cr_libm in
  fisfinite (Ops := O) (@fcast O (@defdt O) (Nz 1)) = true /\ fle (Ops := O) (@fzero O) (@fcast O (@defdt O) (Nz 1)) = true /\
  flt (Ops := O) (@fzero O) (@fcast O (@defdt O) (Nz (/ 2))) = true /\ flt (Ops := O) (Nz (/ 2)) (@fone O) = true /\
  exponential_decay (O := O) (Nz 1) 10%Z (Nz (/ 2)) 0%Z false None 10%Z = Nz (/ 2).
Proof.
  split; [exact cr_pow_decreasing|]. cbn zeta.
  assert (I1 : in_format F32 (Nz 1)) by (split; [lra|]; split; [apply fmt_1|rewrite Rabs_R1; change 1 with (bpow radix2 0); apply bpow_lt; reflexivity]).
  assert (I2 : in_format F32 (Nz (/ 2))) by (split; [lra|]; split; [replace (/ 2) with (bpow radix2 (-1)) by (cbn; lra); apply fmt_bpow; cbn; lia|rewrite Rabs_pos_eq by lra; replace (/ 2) with (bpow radix2 (-1)) by (cbn; lra); apply bpow_lt; reflexivity]).
  assert (E1 : cast_ F32 (Nz 1) = Nz 1) by now apply cast_id.
  assert (E2 : cast_ F32 (Nz (/ 2)) = Nz (/ 2)) by now apply cast_id.
  rewrite fl0, fl1. change (@defdt (FlOps cr_libm)) with F32. cbn [fcast fisfinite fle flt FlOps]. rewrite E1, E2.
  split; [reflexivity|]. split; [apply le_fin; cbn; auto; lra|]. split; [apply lt_fin; cbn; auto; lra|]. split; [apply lt_fin; cbn; auto; lra|].
  unfold exponential_decay. cbn [Z.leb Z.compare]. rewrite fl0. cbn [feqb FlOps].
  assert (E3 : eq_ (Nz (/ 2)) (Zr false) = false) by (unfold eq_; rewrite cmp_fin by reflexivity; cbn [fval]; rewrite Rcompare_Gt by lra; reflexivity). rewrite E3. cbn zeta. cbn [Z.ltb Z.compare Z.sub Z.opp Z.add Z.leb].
  change (@defdt (FlOps cr_libm)) with F32. cbn [fmul fcast fpow fdiv FlOps]. rewrite E1, E2.
  assert (E4 : div_ (fprec F32) (femax F32) (@zf (FlOps cr_libm) 10%Z) (@zf (FlOps cr_libm) 10%Z) = Nz 1).
  { destruct (zf_pos (L := cr_libm) 10%Z ltac:(assert (int32_max = 2147483647)%Z by reflexivity; lia)) as (S1 & S2). set (y := @zf (FlOps cr_libm) 10%Z) in *. clearbody y. destruct y as [|y| |]; try discriminate; cbn [fval] in *; [lra|].
    rewrite div_fin by reflexivity. cbn [fval fneg_]. replace (y / y) with 1 by (field; lra). rewrite rto_id by apply I1. unfold fmk. now rewrite Req_bool_false by lra. }
  rewrite E4. cbn [l_pow cr_libm]. rewrite Rlt_bool_true by lra. rewrite Rpower_1 by lra. rewrite rto_id by apply I2. unfold fmk at 1. rewrite Req_bool_false by lra.
  rewrite mul_fin by reflexivity. cbn [fval]. rewrite Rmult_1_l. rewrite rto_id by apply I2. unfold fmk. now rewrite Req_bool_false by lra.
Qed.
(** ** smooth_labels *)
(*@ C48_smooth_any_arithmetic : In any arithmetic and any dtype d: for labels whose last axis has n > 0 categories smooth_labels keeps shape and dtype and maps every label x to (1-alpha)*x + alpha/n: the two constants are computed in float64 and rounded to d, the product and the sum are made in d; a rank-0 array raises IndexError and an empty last axis ZeroDivisionError. *)
Lemma smooth_ops : forall `{O : Ops} (labels : tensor) (alpha : F),
  match shp labels with
  | [] => smooth_labels labels alpha = Err EIndex
  | s => let n := last s 0%nat in let d := dt labels in
    (n = 0%nat -> smooth_labels labels alpha = Err EZeroDiv) /\
    ((0 < n)%nat -> exists r, smooth_labels labels alpha = Ok r /\ dt r = d /\ shp r = shp labels /\
      dat r = map (fun x => fadd d (fmul d (fcast d (fsub F64 fone alpha)) x) (fcast d (fdiv F64 alpha (fofZ (Z.of_nat n))))) (dat labels))
  end.
Proof.
  intros O labels alpha. unfold smooth_labels, last_dim, pydivZ. destruct (shp labels) as [|a s] eqn:E; [reflexivity|]. cbn zeta. cbn [rbind]. set (n := last (a :: s) 0%nat). clearbody n. split.
  - intros ->. reflexivity.
  - intros Hn. destruct (Z.eqb_spec (Z.of_nat n) 0); [lia|]. cbn [rbind]. eexists. split; [reflexivity|]. cbn [sr sl emap dt shp dat]. rewrite E, map_map. auto.
Qed.
(** The rounding error of a number below 2^e, for e = 0, -1. *)
Lemma err_below d x e : (-1 <= e <= 0)%Z -> 0 <= x < bpow radix2 e -> Rabs (rnd d x - x) <= bpow radix2 (e - fprec d - 1).
Proof.
  intros He Hx. destruct (Req_dec x 0) as [->|Nx]; [rewrite rnd_0, Rminus_0_r, Rabs_R0; apply bpow_ge_0|].
  eapply Rle_trans; [apply error_le_half_ulp; auto with typeclass_instances|]. rewrite ulp_neq_0 by exact Nx.
  assert (C : (cexp radix2 (SpecFloat.fexp (fprec d) (femax d)) x <= e - fprec d)%Z).
  { unfold cexp. assert (M : (mag radix2 x <= e)%Z) by (apply mag_le_bpow; [exact Nx|rewrite Rabs_pos_eq; lra]).
    unfold SpecFloat.fexp, SpecFloat.emin. apply Z.max_lub; [lia|]. destruct d; cbn; lia. }
  replace (e - fprec d - 1)%Z with (-1 + (e - fprec d))%Z by lia. rewrite bpow_plus. apply Rmult_le_compat; [lra|apply bpow_ge_0|cbn; lra|now apply bpow_le].
Qed.
Lemma err_near d x y : fmt d y -> Rabs (rnd d x - x) <= Rabs (y - x).
Proof. intros Fy. destruct (round_N_pt radix2 (SpecFloat.fexp (fprec d) (femax d)) (fun x => negb (Z.even x)) x) as (_ & H). apply H, Fy. Qed.
Lemma fmt_half d : fmt d (/ 2).
Proof. replace (/ 2) with (bpow radix2 (-1)) by (cbn; lra). apply fmt_bpow. destruct d; cbn; lia. Qed.
Lemma rnd_below1 d x : x < 1 + bpow radix2 (- fprec d) -> rnd d x <= 1.
Proof.
  intros H. unfold rnd_. apply round_N_le_midp; auto with typeclass_instances; [apply fmt_1|]. rewrite succ_eq_pos by lra.
  assert (U : ulp radix2 (SpecFloat.fexp (fprec d) (femax d)) 1 = bpow radix2 (1 - fprec d)).
  { change 1 with (bpow radix2 0). rewrite ulp_bpow. f_equal. unfold SpecFloat.fexp, SpecFloat.emin. destruct d; reflexivity. }
  rewrite U. replace (1 - fprec d)%Z with (1 + - fprec d)%Z by lia. rewrite bpow_plus. change (bpow radix2 1) with 2. lra.
Qed.
Lemma smooth_consts d a c : 0 <= a <= 1 -> 0 <= c <= a ->
  let A := rnd d (rnd F64 (1 - a)) in let C := rnd d (rnd F64 c) in 0 <= A <= 1 /\ 0 <= C <= 1 /\ rnd d (A + C) <= 1.
Proof.
  intros Ha Hc. cbn zeta. set (b := rnd F64 (1 - a)). set (g := rnd F64 c).
  assert (R01 : forall d x, 0 <= x <= 1 -> 0 <= rnd d x <= 1) by (intros d' x Hx; split; [apply rnd_ge0; lra|]; rewrite <- (rnd_id d' 1 (fmt_1 d')); apply rnd_le; lra).
  assert (B : 0 <= b <= 1) by (apply R01; lra). assert (G : 0 <= g <= 1) by (apply R01; lra).
  split; [now apply R01|]. split; [now apply R01|]. apply rnd_below1.
  assert (E1 : forall d x, 0 <= x <= 1 -> Rabs (rnd d x - x) <= bpow radix2 (0 - fprec d - 1)).
  { intros d' x Hx. destruct (Req_dec x 1) as [->|]; [rewrite (rnd_id d' 1 (fmt_1 d')), Rminus_diag_eq, Rabs_R0 by reflexivity; apply bpow_ge_0|]. apply err_below; [lia|]. cbn. lra. }
  assert (E2 : forall d x, 0 <= x <= / 2 -> Rabs (rnd d x - x) <= bpow radix2 (-1 - fprec d - 1)).
  { intros d' x Hx. destruct (Req_dec x (/ 2)) as [->|]; [rewrite (rnd_id d' _ (fmt_half d')), Rminus_diag_eq, Rabs_R0 by reflexivity; apply bpow_ge_0|]. apply err_below; [lia|]. cbn. lra. }
  (* b + g is below 1 + 2^-53 *)
  assert (S : b + g <= 1 + 3 * bpow radix2 (-55)).
  { pose proof (E1 F64 (1 - a) ltac:(lra)) as X1. pose proof (E1 F64 c ltac:(lra)) as X2. fold b in X1. fold g in X2. change (0 - fprec F64 - 1)%Z with (-54)%Z in X1, X2.
    assert (D54 : bpow radix2 (-54) = 2 * bpow radix2 (-55)) by (replace (-54)%Z with (1 + -55)%Z by reflexivity; rewrite bpow_plus; reflexivity). rewrite D54 in X1, X2.
    apply Rabs_le_inv in X1, X2. destruct (Rle_or_lt (1 - a) (/ 2)) as [Hh|Hh].
    - pose proof (E2 F64 (1 - a) ltac:(lra)) as X3. fold b in X3. change (-1 - fprec F64 - 1)%Z with (-55)%Z in X3. apply Rabs_le_inv in X3. lra.
    - pose proof (E2 F64 c ltac:(lra)) as X3. fold g in X3. change (-1 - fprec F64 - 1)%Z with (-55)%Z in X3. apply Rabs_le_inv in X3. lra. }
  assert (P55 : 0 < bpow radix2 (-55)) by apply bpow_gt_0.
  assert (Dd : {d = F64} + {d <> F64}) by decide equality. destruct Dd as [->|Nd].
  { assert (Fb : rnd F64 b = b) by apply rnd_id, rnd_fmt. assert (Fg : rnd F64 g = g) by apply rnd_id, rnd_fmt. rewrite Fb, Fg. change (- fprec F64)%Z with (2 + -55)%Z. rewrite bpow_plus. change (bpow radix2 2) with 4. lra. }
  assert (Q : 8 * bpow radix2 (-55) <= bpow radix2 (-1 - fprec d - 1)).
  { replace (8 * bpow radix2 (-55)) with (bpow radix2 (3 + -55)) by (rewrite bpow_plus; reflexivity). apply bpow_le. destruct d; cbn; try lia. congruence. }
  assert (Q1 : bpow radix2 (0 - fprec d - 1) = 2 * bpow radix2 (-1 - fprec d - 1)) by (replace (0 - fprec d - 1)%Z with (1 + (-1 - fprec d - 1))%Z by lia; now rewrite bpow_plus).
  assert (Q2 : bpow radix2 (- fprec d) = 4 * bpow radix2 (-1 - fprec d - 1)) by (replace (- fprec d)%Z with (2 + (-1 - fprec d - 1))%Z by lia; now rewrite bpow_plus).
  rewrite Q2. set (h := bpow radix2 (-1 - fprec d - 1)) in *.
  pose proof (E1 d b B) as X1. pose proof (E1 d g G) as X2. rewrite Q1 in X1, X2. apply Rabs_le_inv in X1, X2.
  destruct (Rle_or_lt b (/ 2)) as [Hb|Hb]; [pose proof (E2 d b ltac:(lra)) as X3; fold h in X3; apply Rabs_le_inv in X3; lra|].
  destruct (Rle_or_lt g (/ 2)) as [Hg|Hg]; [pose proof (E2 d g ltac:(lra)) as X3; fold h in X3; apply Rabs_le_inv in X3; lra|].
  pose proof (err_near d b (/ 2) (fmt_half d)) as X3. rewrite (Rabs_left1 (/ 2 - b)) in X3 by lra. apply Rabs_le_inv in X3. lra.
Qed.
Lemma fofZ_fl `{L : Libm} z : (1 <= z <= int32_max)%Z -> exists y, @fofZ (FlOps L) z = Nz y /\ 1 <= y.
Proof.
  intros Hz. assert (int32_max = 2147483647)%Z by reflexivity. unfold fofZ. cbn [flit FlOps]. assert (E : Q2R (inject_Z z) = IZR z) by (unfold Q2R; cbn; lra). rewrite E.
  assert (Hr : 0 <= IZR z <= bpow radix2 31) by (split; [apply IZR_le; lia|cbn; apply IZR_le; lia]).
  destruct (rnd_range F64 _ ltac:(auto) Hr) as (A1 & A2). change (fround_ 53 1024) with (fround_ (fprec F64) (femax F64)).
  assert (G : 1 <= rnd F64 (IZR z)) by (rewrite <- (rnd_id F64 1 (fmt_1 F64)); apply rnd_le, IZR_le; lia).
  destruct (rto_cases F64 (Rlt_bool (IZR z) 0) (IZR z)) as [(_ & ->)|(C & _)]; [|lra]. unfold fmk. rewrite Req_bool_false by lra. eauto.
Qed.
Lemma cast01 d x : ffin x = true -> 0 <= fval x <= 1 -> ffin (cast_ d x) = true /\ fval (cast_ d x) = rnd d (fval x).
Proof.
  intros Fx Hx. destruct x as [s|v| |]; try discriminate; cbn [cast_ fval] in *; [rewrite rnd_0; auto|].
  assert (B : 0 <= rnd d v <= 1) by (split; [apply rnd_ge0; lra|]; rewrite <- (rnd_id d 1 (fmt_1 d)); apply rnd_le; lra).
  assert (T1 : 1 < top d) by (change 1 with (bpow radix2 0); apply bpow_lt; destruct d; reflexivity).
  destruct (rto_cases d (Rlt_bool v 0) v) as [(_ & ->)|(C & _)]; [now rewrite fmk_fin, fmk_val|rewrite Rabs_pos_eq in C by lra; lra].
Qed.
(*@ C74_smooth_labels_ieee : IEEE arithmetic, any dtype, any number (up to 2^31-1) of categories, alpha in [0,1]: labels in [0,1] stay in [0,1] (never 1 + an ulp, so that they are again valid targets of sigmoid_binary_cross_entropy), and the order of any two finite labels is kept: the class with the largest label still has it. *)
Lemma smooth_ieee : forall `{L : Libm} (labels r : tensor) (alpha : fl), smooth_labels labels alpha = Ok r ->
  (Z.of_nat (last (shp labels) 0%nat) <= int32_max)%Z ->
  fisfinite alpha = true -> fle fzero alpha = true -> fle alpha fone = true -> Forall (in_format (dt labels)) (dat labels) ->
  (forall i x y, nth_error (dat labels) i = Some x -> nth_error (dat r) i = Some y ->
     fisfinite x = true -> fle fzero x = true -> fle x fone = true -> fisfinite y = true /\ fle fzero y = true /\ fle y fone = true) /\
  (forall i j x y x' y', nth_error (dat labels) i = Some x -> nth_error (dat r) i = Some y -> nth_error (dat labels) j = Some x' -> nth_error (dat r) j = Some y' ->
     fisfinite x = true -> fisfinite x' = true -> fle x x' = true -> fle y y' = true).
Proof.
  intros L labels r alpha Hr Hn Fa Pa Qa FL.
  pose proof (@smooth_ops (FlOps L) labels alpha) as HO. destruct (shp labels) as [|a0 s0] eqn:Es; [exfalso; exact (eq_ind (Ok r) (fun z => match z with Ok _ => True | Err _ => False end) Logic.I _ (eq_trans (eq_sym Hr) HO))|].
  cbn zeta in HO. set (n := last (a0 :: s0) 0%nat) in *. destruct HO as (H0 & H1). destruct n as [|m] eqn:En.
  { specialize (H0 eq_refl). exfalso. exact (eq_ind (Ok r) (fun z => match z with Ok _ => True | Err _ => False end) Logic.I _ (eq_trans (eq_sym Hr) H0)). }
  destruct (H1 ltac:(lia)) as (r' & Er & _ & _ & Ed). assert (r' = r). { pose proof (eq_trans (eq_sym Er) Hr) as Q. now injection Q. } subst r'. clear H0 H1 Er Hr.
  destruct (fofZ_fl (L := L) (Z.of_nat (S m)) ltac:(lia)) as (q & Eq & Hq). rewrite fl0 in Pa |- *. rewrite fl1 in Qa |- *.
  assert (Ed' : dat r = map (fun x => add_ (fprec (dt labels)) (femax (dt labels)) (mul_ (fprec (dt labels)) (femax (dt labels)) (cast_ (dt labels) (sub_ (fprec F64) (femax F64) (Nz 1) alpha)) x) (cast_ (dt labels) (div_ (fprec F64) (femax F64) alpha (Nz q)))) (dat labels)).
  { rewrite Ed. apply map_ext. intros x. rewrite fl1, Eq. reflexivity. }
  clear Ed. set (d := dt labels) in *. clearbody d. change (@fisfinite (FlOps L) alpha) with (ffin alpha) in Fa. cbn [fle FlOps] in Pa, Qa.
  apply le_fin in Pa; [|reflexivity|exact Fa]. apply le_fin in Qa; [|exact Fa|reflexivity]. cbn [fval] in Pa, Qa.
  assert (T1 : forall d, 1 < top d) by (intros e; change 1 with (bpow radix2 0); apply bpow_lt; destruct e; reflexivity).
  assert (R01 : forall d x, 0 <= x <= 1 -> 0 <= rnd d x <= 1) by (intros d' x Hx; split; [apply rnd_ge0; lra|]; rewrite <- (rnd_id d' 1 (fmt_1 d')); apply rnd_le; lra).
  assert (X1 : ffin (sub_ (fprec F64) (femax F64) (Nz 1) alpha) = true /\ fval (sub_ (fprec F64) (femax F64) (Nz 1) alpha) = rnd F64 (1 - fval alpha)).
  { unfold sub_. assert (Fo : ffin (opp_ alpha) = true) by (destruct alpha; try discriminate; reflexivity). rewrite add_fin by auto.
    assert (Ev : fval (Nz 1) + fval (opp_ alpha) = 1 - fval alpha) by (destruct alpha; try discriminate; cbn; lra). rewrite Ev. pose proof (R01 F64 (1 - fval alpha) ltac:(lra)) as B. pose proof (T1 F64).
    match goal with |- ffin (rto F64 ?s _) = _ /\ _ => destruct (rto_cases F64 s (1 - fval alpha)) as [(_ & ->)|(C & _)]; [now rewrite fmk_fin, fmk_val|rewrite Rabs_pos_eq in C by lra; lra] end. }
  assert (Hc : 0 <= fval alpha / q <= fval alpha). { split; [apply Rmult_le_pos; [lra|]; left; apply Rinv_0_lt_compat; lra|]. apply Rmult_le_reg_r with q; [lra|]. unfold Rdiv. rewrite Rmult_assoc, Rinv_l by lra. nra. }
  assert (X2 : ffin (div_ (fprec F64) (femax F64) alpha (Nz q)) = true /\ fval (div_ (fprec F64) (femax F64) alpha (Nz q)) = rnd F64 (fval alpha / q)).
  { rewrite div_fin by exact Fa. pose proof (R01 F64 (fval alpha / q) ltac:(lra)) as B. pose proof (T1 F64).
    match goal with |- ffin (rto F64 ?s _) = _ /\ _ => destruct (rto_cases F64 s (fval alpha / q)) as [(_ & ->)|(C & _)]; [now rewrite fmk_fin, fmk_val|rewrite Rabs_pos_eq in C by lra; lra] end. }
  destruct X1 as (X1 & V1). destruct X2 as (X2 & V2).
  destruct (cast01 d _ X1 ltac:(rewrite V1; apply R01; lra)) as (A1 & A2). destruct (cast01 d _ X2 ltac:(rewrite V2; apply R01; lra)) as (C1 & C2). rewrite V1 in A2. rewrite V2 in C2.
  destruct (smooth_consts d (fval alpha) (fval alpha / q) ltac:(lra) ltac:(lra)) as (HA & HC & HS). rewrite <- A2, <- C2 in HS. rewrite <- A2 in HA. rewrite <- C2 in HC.
  pose proof (cast_format d (sub_ (fprec F64) (femax F64) (Nz 1) alpha)) as FmA. pose proof (cast_format d (div_ (fprec F64) (femax F64) alpha (Nz q))) as FmC.
  set (A := cast_ d (sub_ _ _ _ _)) in *. set (C := cast_ d (div_ _ _ _ _)) in *. clearbody A C. clear X1 V1 X2 V2 A2 C2.
  destruct (fin_fmt d A FmA) as (GA & _).
  rewrite Forall_forall in FL.
  assert (M : forall x, In x (dat labels) -> ffin x = true -> ffin (mul_ (fprec d) (femax d) A x) = true /\ fval (mul_ (fprec d) (femax d) A x) = rnd d (fval A * fval x)).
  { intros x Ix Fx. rewrite mul_fin by assumption. destruct (fin_fmt d x (FL x Ix)) as (Gx & Tx).
    assert (B : Rabs (rnd d (fval A * fval x)) <= Rabs (fval x)).
    { rewrite rnd_abs. rewrite <- (rnd_id d (Rabs (fval x))); [apply rnd_le; rewrite Rabs_mult, (Rabs_pos_eq (fval A)) by lra; pose proof (Rabs_pos (fval x)); nra|]. unfold fmt. now apply generic_format_abs. }
    destruct (rto_cases d (xorb (fneg_ A) (fneg_ x)) (fval A * fval x)) as [(_ & ->)|(Cx & _)]; [now rewrite fmk_fin, fmk_val|lra]. }
  assert (Y : forall i x y, nth_error (dat labels) i = Some x -> nth_error (dat r) i = Some y -> y = add_ (fprec d) (femax d) (mul_ (fprec d) (femax d) A x) C /\ In x (dat labels)).
  { intros i x y Hx Hy. split; [|exact (nth_error_In _ _ Hx)]. rewrite Ed', nth_error_map in Hy. change (@F (FlOps L)) with fl in *. rewrite Hx in Hy. cbn [option_map] in Hy. now injection Hy. }
  split.
  - intros i x y Hx Hy Fx Px Qx. destruct (Y i x y Hx Hy) as (-> & Ix). change (@fisfinite (FlOps L) x) with (ffin x) in Fx. cbn [fle FlOps] in Px, Qx |- *.
    apply le_fin in Px; [|reflexivity|exact Fx]. apply le_fin in Qx; [|exact Fx|reflexivity]. cbn [fval] in Px, Qx. destruct (M x Ix Fx) as (M1 & M2).
    assert (Mx : 0 <= rnd d (fval A * fval x) <= fval A). { split; [apply rnd_ge0; nra|]. rewrite <- (rnd_id d (fval A) GA) at 2. apply rnd_le. nra. }
    rewrite add_fin by assumption. rewrite M2.
    assert (B : 0 <= rnd d (rnd d (fval A * fval x) + fval C) <= 1). { split; [apply rnd_ge0; lra|]. eapply Rle_trans; [apply rnd_le|exact HS]. lra. }
    pose proof (T1 d).
    match goal with |- @fisfinite _ (rto d ?s _) = _ /\ _ => destruct (rto_cases d s (rnd d (fval A * fval x) + fval C)) as [(_ & ->)|(Cx & _)]; [|rewrite Rabs_pos_eq in Cx by lra; lra] end.
    split; [apply fmk_fin|]. split; apply le_fin; try reflexivity; try apply fmk_fin; rewrite fmk_val; cbn [fval]; lra.
  - intros i j x y x' y' Hx Hy Hx' Hy' Fx Fx' Hle. destruct (Y i x y Hx Hy) as (-> & Ix). destruct (Y j x' y' Hx' Hy') as (-> & Ix').
    change (@fisfinite (FlOps L) x) with (ffin x) in Fx. change (@fisfinite (FlOps L) x') with (ffin x') in Fx'. cbn [fle FlOps] in Hle |- *. apply le_fin in Hle; auto.
    destruct (M x Ix Fx) as (M1 & M2). destruct (M x' Ix' Fx') as (M1' & M2'). rewrite !add_fin by assumption. apply rto_le; try apply add_sgn. rewrite M2, M2'. apply Rplus_le_compat_r, rnd_le. nra.
Qed.
(*@ex C74_smooth_example *)
Lemma smooth_example : let O := FlOps cr_libm in let labels := mkT F16 [2%nat] [Nz 1; Zr false] in
  (exists r, smooth_labels (O := O) labels (Nz (/ 2)) = Ok r) /\ Forall (in_format F16) (dat labels) /\
  fle (Ops := O) (@fzero O) (Nz (/ 2)) = true /\ fle (Ops := O) (Nz (/ 2)) (@fone O) = true.
Proof.
  cbn zeta. split; [eexists; reflexivity|]. split.
  { constructor; [split; [lra|]; split; [apply fmt_1|rewrite Rabs_R1; change 1 with (bpow radix2 0); apply bpow_lt; reflexivity]|]. constructor; [exact Logic.I|constructor]. }
  rewrite fl0, fl1. split; apply le_fin; cbn; auto; lra.
Qed.
