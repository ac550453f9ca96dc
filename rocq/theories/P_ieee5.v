(** IEEE-754: hyperparameters that do not survive rounding, cancellation. *)
From Verif Require Export P_ieee4.
From Coq Require Import Psatz Qreals Bool.
From Flocq Require Import Core.Core IEEE754.BinarySingleNaN.
Open Scope R_scope.
#[local] Existing Instance FlOps.
(*@header
From Flocq Require Import Core.Core IEEE754.BinarySingleNaN.
Open Scope R_scope.
#[local] Existing Instance FlOps.
*)

(** ** Evaluation on bit patterns *)
Definition of_SF (x : SpecFloat.spec_float) : fl :=
  match x with
  | SpecFloat.S754_zero s => Zr s
  | SpecFloat.S754_infinity s => If s
  | SpecFloat.S754_nan => Na
  | SpecFloat.S754_finite s m e => Nz (IZR (cond_Zopp s (Zpos m)) * bpow radix2 e)
  end.
Lemma of_bits_SF d (x : bits_of d) : of_bits d x = of_SF (B2SF x).
Proof. now destruct x. Qed.
(** Integers and quotients of integers. *)
Definition Bint (d : fdt) (m : Z) : bits_of d := binary_normalize (fprec d) (femax d) (fprec_gt d) (fprec_lt d) mode_NE m 0 false.
Lemma Bint_val d m : m <> 0%Z -> (Z.abs m < 2 ^ fprec d)%Z -> of_bits d (Bint d m) = Nz (IZR m).
Proof.
  intros H0 H. pose proof (binary_normalize_correct (fprec d) (femax d) (fprec_gt d) (fprec_lt d) mode_NE m 0 false) as C. cbn zeta in C.
  change (round_mode mode_NE) with ZnearestE in C. assert (E : F2R (Float radix2 m 0) = IZR m) by (unfold F2R; cbn; lra). rewrite E in C.
  rewrite (round_generic radix2 _ ZnearestE (IZR m) (fmt_int d m H)) in C. rewrite Rlt_bool_true in C by now apply int_lt_top. destruct C as (C1 & C2 & C3).
  unfold of_bits. erewrite of_B_mk; [|exact C2|exact C1|reflexivity]. unfold fmk. rewrite Req_bool_false; [reflexivity|]. now apply not_0_IZR.
Qed.
Definition Blit (q : Q) : bits_of F64 := Bdiv mode_NE (Bint F64 (Qnum q)) (Bint F64 (Zpos (Qden q))).
Lemma Blit_val `{L : Libm} q : (0 < Qnum q < 2 ^ 53)%Z -> (Zpos (Qden q) < 2 ^ 53)%Z -> flit q = of_bits F64 (Blit q).
Proof.
  intros H1 H2. unfold Blit. unfold of_bits. rewrite div_B. fold (of_bits F64 (Bint F64 (Qnum q))). fold (of_bits F64 (Bint F64 (Zpos (Qden q)))).
  rewrite !Bint_val by (cbn [fprec]; lia). assert (P1 : 0 < IZR (Qnum q)) by (apply IZR_lt; lia). assert (P2 : 0 < IZR (Zpos (Qden q))) by (apply IZR_lt; lia).
  cbn [flit FlOps div_ fneg_ fval]. assert (P3 : 0 < Q2R q) by (unfold Q2R; apply Rmult_lt_0_compat; auto; now apply Rinv_0_lt_compat).
  rewrite !Rlt_bool_false by lra. reflexivity.
Qed.
(** Conversion between dtypes. *)
Definition Bcast (d : fdt) {d' : fdt} (x : bits_of d') : bits_of d :=
  match x with
  | B754_zero s => B754_zero s
  | B754_infinity s => B754_infinity s
  | B754_nan => B754_nan
  | B754_finite s m e _ => binary_normalize (fprec d) (femax d) (fprec_gt d) (fprec_lt d) mode_NE (cond_Zopp s (Zpos m)) e s
  end.
Lemma Bcast_val d d' (x : bits_of d') : cast_ d (of_bits d' x) = of_bits d (Bcast d x).
Proof.
  destruct x as [s|s| |s m e H]; try reflexivity. cbn [of_bits of_B cast_ Bcast].
  pose proof (binary_normalize_correct (fprec d) (femax d) (fprec_gt d) (fprec_lt d) mode_NE (cond_Zopp s (Zpos m)) e s) as C. cbn zeta in C.
  change (round_mode mode_NE) with ZnearestE in C. change (F2R (Float radix2 (cond_Zopp s (Zpos m)) e)) with (B2R (B754_finite s m e H : bits_of d')) in C.
  set (r := B2R (B754_finite s m e H : bits_of d')) in *. assert (Es : Rlt_bool r 0 = s) by apply Bsign_finite.
  assert (Hr : r <> 0) by apply B2R_neq. unfold of_bits, fround_, rnd_. destruct (Rlt_bool (Rabs _) _).
  - destruct C as (C1 & C2 & C3). erewrite of_B_mk; [|exact C2|exact C1|exact C3]. f_equal. case Rcompare_spec; intros; [now rewrite Rlt_bool_true|contradiction|rewrite Rlt_bool_false by lra; reflexivity].
  - now rewrite (of_B_ovf _ _ _ _ C).
Qed.
(** The sign given to an exact zero sum by [Bcompare]-free reasoning is irrelevant here. *)
Ltac beval := match goal with |- of_bits _ ?x = _ => rewrite of_bits_SF; let v := eval vm_compute in (B2SF x) in replace (B2SF x) with v by (vm_compute; reflexivity) end.

(*@ C71_eps_vanishes_in_float16 : (finding) the default eps = 1e-8 rounds to exactly 0 in float16. *)
Lemma eps_f16 : forall `{L : Libm}, fcast F16 (flit (1 # 100000000)) = Zr false.
Proof. intros L. rewrite Blit_val by (cbn; lia). cbn [fcast FlOps]. rewrite Bcast_val. beval. reflexivity. Qed.
(*@ C71_b2_is_one_in_bfloat16 : (finding) the default b2 = 0.999 rounds to exactly 1 in bfloat16. *)
Lemma b2_bf16 : forall `{L : Libm}, fcast BF16 (flit (999 # 1000)) = Nz 1.
Proof. intros L. rewrite Blit_val by (cbn; lia). cbn [fcast FlOps]. rewrite Bcast_val. beval. cbn. f_equal. lra. Qed.

Lemma one_bits `{L : Libm} : fone = of_bits F64 (Bint F64 1).
Proof. rewrite fl1, Bint_val; [reflexivity|discriminate|reflexivity]. Qed.
Lemma py1m_bits `{L : Libm} q : (0 < Qnum q < 2 ^ 53)%Z -> (Zpos (Qden q) < 2 ^ 53)%Z -> py1m (flit q) = of_bits F64 (Bminus mode_NE (Bint F64 1) (Blit q)).
Proof. intros H1 H2. unfold py1m. rewrite one_bits, Blit_val by assumption. cbn [fsub FlOps]. unfold of_bits. now rewrite (sub_B (fprec F64) (femax F64)). Qed.
Lemma fin_bits d (x : bits_of d) : ffin (of_bits d x) = is_finite x. Proof. now destruct x. Qed.
Lemma mul_zr d x s : ffin x = true -> exists t, mul_ (fprec d) (femax d) x (Zr s) = Zr t.
Proof.
  intros Hx. rewrite mul_fin by auto. cbn [fval]. rewrite Rmult_0_r, rto_id by (try apply fmt_0; rewrite Rabs_R0; apply top_pos).
  unfold fmk. rewrite Req_bool_true by reflexivity. eauto.
Qed.
Lemma add_zr d s t : exists u, add_ (fprec d) (femax d) (Zr s) (Zr t) = Zr u.
Proof.
  rewrite add_fin by auto. cbn [fval]. rewrite Rplus_0_r, rto_id by (try apply fmt_0; rewrite Rabs_R0; apply top_pos).
  unfold fmk. rewrite Req_bool_true by reflexivity. eauto.
Qed.
Lemma moment_zr `{L : Libm} (b : fl) o d g t : (o = 1 \/ o = 2)%nat -> ffin (fcast d (py1m b)) = true -> ffin (fcast d b) = true ->
  (exists s, g = Zr s) -> (exists s, t = Zr s) -> exists s, e_moment b o d g t = Zr s.
Proof.
  intros Ho H1 Hb (s & ->) (u & ->). unfold e_moment. cbn [fadd fmul FlOps].
  destruct Ho as [-> | ->].
  - destruct (mul_zr d _ s H1) as (a & ->). destruct (mul_zr d _ u Hb) as (a' & ->). apply add_zr.
  - destruct (mul_zr d (Zr s) s eq_refl) as (w & ->). destruct (mul_zr d _ w H1) as (a & ->). destruct (mul_zr d _ u Hb) as (a' & ->). apply add_zr.
Qed.
Lemma div_zr d s B : pos_fin B -> exists t, div_ (fprec d) (femax d) (Zr s) B = Zr t.
Proof.
  intros (F & P). destruct B as [|r| |]; try discriminate; cbn in P; [lra|]. rewrite div_fin by reflexivity. cbn [fval]. unfold Rdiv. rewrite Rmult_0_l, rto_id by (try apply fmt_0; rewrite Rabs_R0; apply top_pos).
  unfold fmk. rewrite Req_bool_true by reflexivity. eauto.
Qed.

(*@ C71_adam_float16_zero_gradient_nan : (finding) scale_by_adam with its default hyperparameters on a float16 leaf emits NaN for an element whose gradients have all been 0 so far (e.g. an unused embedding row): eps vanishes and 0/0 remains. *)
Lemma adam_f16_nan : forall `{L : Libm}, pow_sane L ->
  femits true (scale_by_adam (flit (9 # 10)) (flit (999 # 1000)) (flit (1 # 100000000)) fzero) (fun d g _ n y =>
    d = F16 -> (forall i, (i <= n)%nat -> feqb (g i) fzero = true) -> fisnan y = true).
Proof.
  intros L HL. eapply refines_femits; [apply refines_adam|]. intros d x g q n Fg _ -> Hg.
  assert (Hz : forall i, (i <= n)%nat -> exists s, g i = Zr s).
  { intros i Hi. specialize (Hg i Hi). specialize (Fg i Hi). rewrite fl0 in Hg. cbn [feqb FlOps] in Hg. unfold eq_ in Hg. destruct (g i) as [s|r|[|]|] eqn:Eg; try discriminate; [eauto|]. cbn in Hg. revert Hg. case Rcompare_spec; intros; try discriminate. destruct Fg. contradiction. }
  assert (A1 : ffin (@fcast (FlOps L) F16 (@flit (FlOps L) (9 # 10))) = true) by (rewrite Blit_val by (cbn; lia); cbn [fcast FlOps]; rewrite Bcast_val, fin_bits; vm_compute; reflexivity).
  assert (A2 : ffin (@fcast (FlOps L) F16 (py1m (@flit (FlOps L) (9 # 10)))) = true) by (rewrite py1m_bits by (cbn; lia); cbn [fcast FlOps]; rewrite Bcast_val, fin_bits; vm_compute; reflexivity).
  assert (A3 : ffin (@fcast (FlOps L) F16 (@flit (FlOps L) (999 # 1000))) = true) by (rewrite Blit_val by (cbn; lia); cbn [fcast FlOps]; rewrite Bcast_val, fin_bits; vm_compute; reflexivity).
  assert (A4 : ffin (@fcast (FlOps L) F16 (py1m (@flit (FlOps L) (999 # 1000)))) = true) by (rewrite py1m_bits by (cbn; lia); cbn [fcast FlOps]; rewrite Bcast_val, fin_bits; vm_compute; reflexivity).
  pose proof eps_f16 as He.
  assert (D1 : pos_fin (bias_divisor F16 (@flit (FlOps L) (9 # 10)) (cnt (S n))) /\ pos_fin (bias_divisor F16 (@flit (FlOps L) (999 # 1000)) (cnt (S n)))).
  { assert (E1 : Q2R (9 # 10) = 9 / 10) by (unfold Q2R; cbn; lra). assert (E2 : Q2R (999 # 1000) = 999 / 1000) by (unfold Q2R; cbn; lra).
    destruct (lit_near (9 # 10)) as (U1 & U2); [lra|]. rewrite E1 in U2. destruct (lit_near (999 # 1000)) as (B1 & B2); [lra|]. rewrite E2 in B2. apply Rabs_le_inv in U2, B2.
    split; [destruct (divisor_near HL F16 (@flit (FlOps L) (9 # 10)) n 11) as (Y1 & Y2)|destruct (divisor_near HL F16 (@flit (FlOps L) (999 # 1000)) n 11) as (Y1 & Y2)];
      auto; try apply (rto_format F64); try lra; try lia; try (rewrite bpow_m12, bpow_m11; lra); (split; [exact Y1|rewrite bpow_m11 in Y2; lra]). }
  destruct D1 as (D1 & D2).
  set (b1 := @flit (FlOps L) (9 # 10)) in *. set (b2 := @flit (FlOps L) (999 # 1000)) in *. set (eps := @flit (FlOps L) (1 # 100000000)) in *. clearbody b1 b2 eps.
  set (M := @m_adam (FlOps L) b1 b2 eps (@fzero (FlOps L))) in *.
  assert (I : forall j, (j <= n)%nat -> (exists s, fst (mst M F16 x g q j) = Zr s) /\ (exists s, snd (mst M F16 x g q j) = Zr s)).
  { induction j as [|j IH]; intros Hj; [cbn -[fzero FlOps]; rewrite fl0; cbn; eauto|]. destruct (IH ltac:(lia)) as (I1 & I2). destruct (Hz j ltac:(lia)) as (s & Es).
    change (mst M F16 x g q (S j)) with (snd (m_step M j F16 (g j) (q j) (mst M F16 x g q j))). unfold M at 1 3. cbn [m_adam m_adamlike m_step fst snd].
    split; apply moment_zr; eauto. }
  destruct (I n ltac:(lia)) as (I1 & I2). unfold mout. set (st := mst M F16 x g q n) in *. unfold M. cbn [m_adam m_adamlike m_step fst snd].
  destruct (moment_zr (L := L) b1 1 F16 (g n) (fst st)) as (s1 & ->); eauto. destruct (moment_zr (L := L) b2 2 F16 (g n) (snd st)) as (s2 & ->); eauto.
  unfold e_bc, bias_corr, pow_count. fold (bias_divisor F16 b1 (cnt (S n))). fold (bias_divisor F16 b2 (cnt (S n))).
  cbn [fdiv FlOps]. destruct (div_zr F16 s1 _ D1) as (t1 & ->). destruct (div_zr F16 s2 _ D2) as (t2 & ->).
  unfold e_adam. rewrite fl0, He. cbn [fdiv fadd fsqrt fcast cast_ fisnan FlOps]. destruct (add_zr F16 t2 false) as (u & ->). cbn [sqrt_]. destruct (add_zr F16 u false) as (w & ->). reflexivity.
Qed.

(** One step of scale_by_adam on an arbitrary state, in any arithmetic. *)
Lemma adam_state_step `{O : Ops} (b1 b2 eps eps_root : F) n (u mu nu : tree tensor) par :
  avals mu = avals u -> avals nu = avals u -> trwf u -> trwf mu -> trwf nu ->
  exists u' mu' nu', update (scale_by_adam b1 b2 eps eps_root) u (SNode NAdam [SInt I32 (cnt n); STree mu; STree nu]) par =
      Ok (u', SNode NAdam [SInt I32 (cnt (S n)); STree mu'; STree nu']) /\ like u u' /\ like u mu' /\ like u nu' /\
    forall pos g m v, elt u pos = Some g -> elt mu pos = Some m -> elt nu pos = Some v ->
      elt mu' pos = Some (e_moment b1 1 (leafdt u pos) g m) /\ elt nu' pos = Some (e_moment b2 2 (leafdt u pos) g v).
Proof.
  intros E1 E2 Wu Wm Wn. destruct (tree_gzip u mu (eq_sym E1) Wu Wm) as (W1 & A1 & WW1 & U1 & M1).
  destruct (tree_gzip W1 nu) as (W & A2 & WW & U2 & N2); [congruence|assumption|assumption|].
  assert (Eu : emapt (fun _ z => fst (fst z)) W = u) by (rewrite <- U1, <- U2, emapt_emapt; reflexivity).
  assert (Em : emapt (fun _ z => snd (fst z)) W = mu) by (rewrite <- M1, <- U2, emapt_emapt; reflexivity).
  eexists _, _, _. split.
  - rewrite <- Eu, <- Em, <- N2. cbn [update scale_by_adam]. rewrite !update_moment_ew by auto. cbn [rbind]. rewrite cnt_S. cbn [rbind].
    rewrite !bias_correction_ew. erewrite tmm2_ew by (intros z; unfold adam_leaf; rewrite ?sr_emap, ?un_emap, ?emap_emap; rewrite bin_emap; reflexivity). cbn [rbind]. reflexivity.
  - assert (HA : avals W = avals u) by congruence. split; [split; [rewrite emapt_avals; congruence|now apply emapt_wf]|]. split; [split; [rewrite emapt_avals; congruence|now apply emapt_wf]|].
    split; [split; [rewrite emapt_avals; congruence|now apply emapt_wf]|].
    intros pos g m v Hg Hm Hv. rewrite <- Eu, elt_emapt in Hg. rewrite <- Em, elt_emapt in Hm. rewrite <- N2, elt_emapt in Hv.
    rewrite !elt_emapt. rewrite (leafdt_avals W u pos HA) in *. destruct (elt W pos) as [[[a b] c]|]; cbn in *; try discriminate. injection Hg as ->. injection Hm as ->. injection Hv as ->. split; reflexivity.
Qed.
Lemma add_ge d a v : fnonneg a -> fnonneg v -> in_format d v -> fleq v (add_ (fprec d) (femax d) a v).
Proof.
  intros Ha Hv Fv. destruct (ffin a && ffin v) eqn:E.
  - apply andb_prop in E as (Ea & Ev). rewrite add_fin by assumption. assert (Ha0 : 0 <= fval a) by (destruct a; cbn in *; try lra; discriminate).
    rewrite (fmk_eta v d Fv Ev) at 1. destruct (fin_fmt d v Fv) as (F1 & F2). rewrite <- (rto_id d (fneg_ v) (fval v) F1 F2). apply rto_le; [|apply add_sgn|lra].
    destruct v as [|r| |]; try discriminate; cbn [fval fneg_]; [split; lra|apply sgn_ok_lt].
  - destruct a as [|?|[|]|], v as [|?|[|]|]; try discriminate; cbn in Ha, Hv; try easy.
Qed.
Lemma mul_1 d v : in_format d v -> fnonneg v -> mul_ (fprec d) (femax d) (Nz 1) v = v.
Proof.
  intros F H. destruct v as [s|r|[|]|]; cbn in H; try easy.
  - cbn. rewrite Rmult_0_r, Rlt_bool_false, rto_id by (try lra; try apply fmt_0; rewrite Rabs_R0; apply top_pos). unfold fmk. rewrite Req_bool_true by reflexivity. now destruct s.
  - destruct F as (F0 & F1 & F2). cbn. rewrite Rmult_1_l, !Rlt_bool_false by lra. cbn. rewrite rto_id by assumption. unfold fmk. now rewrite Req_bool_false.
  - cbn. now rewrite Rlt_bool_false by lra.
Qed.

(*@ C71_bfloat16_second_moment_never_decays : (finding) with the default b2 = 0.999 the second moment of a bfloat16 leaf never decreases: whatever the (non-NaN) gradient, one step of scale_by_adam from any state with a non-negative second moment yields one at least as large. *)
Lemma bf16_nu : forall `{L : Libm} (b1 eps eps_root : fl) n (u mu nu : tree tensor) par,
  avals mu = avals u -> avals nu = avals u -> trwf u -> trwf mu -> trwf nu ->
  exists u' mu' nu', update (scale_by_adam b1 (flit (999 # 1000)) eps eps_root) u (SNode NAdam [SInt I32 (cnt n); STree mu; STree nu]) par =
      Ok (u', SNode NAdam [SInt I32 (cnt (S n)); STree mu'; STree nu']) /\ like u nu' /\
    forall pos g m v, leafdt u pos = BF16 -> elt u pos = Some g -> elt mu pos = Some m -> elt nu pos = Some v -> in_format BF16 v ->
      fisnan g = false -> fle fzero v = true -> exists v', elt nu' pos = Some v' /\ fle v v' = true.
Proof.
  intros L b1 eps eps_root n u mu nu par E1 E2 Wu Wm Wn.
  destruct (adam_state_step (O := FlOps L) b1 (flit (999 # 1000)) eps eps_root n u mu nu par E1 E2 Wu Wm Wn) as (u' & mu' & nu' & Eq & _ & _ & Hn & He).
  exists u', mu', nu'. split; [exact Eq|]. split; [exact Hn|]. intros pos g m v Hd Hg Hm Hv Fv Ng Pv.
  destruct (He pos g m v Hg Hm Hv) as (_ & H). rewrite Hd in H. eexists. split; [exact H|]. cbn [fle fisnan FlOps] in *. rewrite fl0 in Pv. apply nonneg_le in Pv.
  unfold e_moment. rewrite b2_bf16. cbn [fadd fmul FlOps]. rewrite (mul_1 BF16 v Fv Pv). apply add_ge; auto. apply mul_pf; [|now apply mul_sq].
  rewrite py1m_bits by (cbn; lia). cbn [fcast FlOps]. rewrite Bcast_val. split; [rewrite fin_bits; vm_compute; reflexivity|].
  rewrite of_bits_SF. match goal with |- context [B2SF ?x] => let v := eval vm_compute in (B2SF x) in replace (B2SF x) with v by (vm_compute; reflexivity) end.
  cbn [of_SF fval]. apply Rmult_lt_0_compat; [cbn; lra|apply bpow_gt_0].
Qed.

(** ** scale_by_stddev: cancellation *)
Section Sd.
  Notation D := F32.
  Definition bD (m : Z) : bits_of D := Bint D m.
  Definition c9 : bits_of D := Bcast D (Blit (9 # 10)).
  Definition c1 : bits_of D := Bcast D (Bminus mode_NE (Bint F64 1) (Blit (9 # 10))).
  Definition ce : bits_of D := Bcast D (Blit (1 # 100000000)).
  (** the state after [n] steps with constant gradient [g], and the argument of rsqrt at the next *)
  Fixpoint sd_st (g : bits_of D) (n : nat) : bits_of D * bits_of D :=
    match n with
    | O => (B754_zero false, B754_zero false)
    | S k => let '(m, v) := sd_st g k in
             (Bplus mode_NE (Bmult mode_NE c1 g) (Bmult mode_NE c9 m),
              Bplus mode_NE (Bmult mode_NE c1 (Bmult mode_NE g g)) (Bmult mode_NE c9 v))
    end.
  Definition sd_arg (g : bits_of D) (n : nat) : bits_of D :=
    let '(m, v) := sd_st g (S n) in Bplus mode_NE (Bminus mode_NE v (Bmult mode_NE m m)) ce.
  Lemma sd_neg : B2SF (sd_arg (bD 11) 135) = SpecFloat.S754_finite true 16755226 (-41).
  Proof. vm_compute. reflexivity. Qed.
  Lemma sd_S g k : sd_st g (S k) = (Bplus mode_NE (Bmult mode_NE c1 g) (Bmult mode_NE c9 (fst (sd_st g k))),
              Bplus mode_NE (Bmult mode_NE c1 (Bmult mode_NE g g)) (Bmult mode_NE c9 (snd (sd_st g k)))).
  Proof. cbn [sd_st]. now destruct (sd_st g k). Qed.
  Lemma sd_arg_eq g n : sd_arg g n = Bplus mode_NE (Bminus mode_NE (snd (sd_st g (S n))) (Bmult mode_NE (fst (sd_st g (S n))) (fst (sd_st g (S n))))) ce.
  Proof. unfold sd_arg. now destruct (sd_st g (S n)). Qed.
End Sd.
Lemma bD11 : of_bits F32 (bD 11) = Nz 11.
Proof. unfold bD. rewrite Bint_val; [reflexivity|discriminate|reflexivity]. Qed.
Opaque sd_st sd_arg bD Bint c9 c1 ce Bplus Bmult Bminus.

(*@ C76_stddev_cancellation_nan : (finding) scale_by_stddev with its default hyperparameters (decay=0.9, eps=1e-8, initial_scale=0; what rmsprop(centered=True) uses) in float32: an element whose gradient is constantly 11 gets the update NaN at the 136th step, because rounding makes nu - mu^2 + eps negative; on every platform whose rsqrt of a negative number is NaN. *)
Lemma stddev_nan : forall `{L : Libm}, (forall d r, r < 0 -> l_rsqrt L d (Nz r) = Na) ->
  femits true (scale_by_stddev (flit (9 # 10)) (flit (1 # 100000000)) fzero) (fun d g _ n y =>
    d = F32 -> n = 135%nat -> (forall i, (i <= n)%nat -> g i = Nz 11) -> fisnan y = true).
Proof.
  intros L HL. eapply refines_femits; [apply refines_stddev|]. intros d x g q n _ _ -> -> Hg.
  assert (E9 : @fcast (FlOps L) F32 (@flit (FlOps L) (9 # 10)) = of_bits F32 c9) by (rewrite Blit_val by (cbn; lia); cbn [fcast FlOps]; apply Bcast_val).
  assert (E1 : @fcast (FlOps L) F32 (py1m (@flit (FlOps L) (9 # 10))) = of_bits F32 c1) by (rewrite py1m_bits by (cbn; lia); cbn [fcast FlOps]; apply Bcast_val).
  assert (Ee : @fcast (FlOps L) F32 (@flit (FlOps L) (1 # 100000000)) = of_bits F32 ce) by (rewrite Blit_val by (cbn; lia); cbn [fcast FlOps]; apply Bcast_val).
  assert (Eg : forall i, (i <= 135)%nat -> g i = of_bits F32 (bD 11)) by (intros i Hi; rewrite Hg by assumption; symmetry; exact bD11).
  set (b := @flit (FlOps L) (9 # 10)) in *. set (ep := @flit (FlOps L) (1 # 100000000)) in *. clearbody b ep.
  set (M := @m_stddev (FlOps L) b ep (@fzero (FlOps L))).
  set (gb := bD 11) in *. pose proof sd_neg as SN. fold gb in SN. clearbody gb.
  assert (St : forall k, (k <= 135)%nat -> forall m v, mst M F32 x g q k = (of_bits F32 m, of_bits F32 v) ->
    snd (m_step M k F32 (g k) (q k) (mst M F32 x g q k)) =
      (of_bits F32 (Bplus mode_NE (Bmult mode_NE c1 gb) (Bmult mode_NE c9 m)), of_bits F32 (Bplus mode_NE (Bmult mode_NE c1 (Bmult mode_NE gb gb)) (Bmult mode_NE c9 v)))).
  { intros k Hk m v Em. rewrite Em, Eg by lia. unfold M. cbn [m_stddev m_step fst snd]. unfold e_moment. rewrite E1, E9. cbn [fadd fmul FlOps].
    unfold of_bits. now rewrite <- !(mul_B (fprec F32) (femax F32) (fprec_gt F32) (fprec_lt F32)), <- !(add_B (fprec F32) (femax F32) (fprec_gt F32) (fprec_lt F32)). }
  assert (I : forall k, (k <= 136)%nat -> mst M F32 x g q k = (of_bits F32 (fst (sd_st gb k)), of_bits F32 (snd (sd_st gb k)))).
  { induction k as [|k IH]; intros Hk. 
    - Transparent sd_st. cbn -[fzero FlOps]. Opaque sd_st. rewrite fl0. reflexivity.
    - rewrite sd_S. cbn [fst snd mst]. apply St; [lia|]. apply IH. lia. }
  unfold mout. pose proof (St 135%nat ltac:(lia) _ _ (I 135%nat ltac:(lia))) as J. generalize (sd_arg_eq gb 135). rewrite sd_S. cbn [fst snd]. intros Ea.
  set (st := mst M F32 x g q 135) in *. clearbody st. clear I St.
  set (m' := Bplus mode_NE (Bmult mode_NE c1 gb) (Bmult mode_NE c9 (fst (sd_st gb 135)))) in *. set (v' := Bplus mode_NE (Bmult mode_NE c1 (Bmult mode_NE gb gb)) (Bmult mode_NE c9 (snd (sd_st gb 135)))) in *. clearbody m' v'.
  unfold M in J |- *. cbn [m_stddev m_step fst snd] in J |- *.
  assert (J1 := f_equal fst J). assert (J2 := f_equal snd J). cbn [fst snd] in J1, J2. clear J. rewrite J1, J2. unfold e_rsqrt. rewrite Ee. cbn [frsqrt fmul fadd fsub FlOps].
  assert (Eb : add_ (fprec F32) (femax F32) (sub_ (fprec F32) (femax F32) (of_bits F32 v') (mul_ (fprec F32) (femax F32) (of_bits F32 m') (of_bits F32 m'))) (of_bits F32 ce) = of_bits F32 (sd_arg gb 135)).
  { rewrite Ea. unfold of_bits. now rewrite <- (mul_B (fprec F32) (femax F32) (fprec_gt F32) (fprec_lt F32)), <- (sub_B (fprec F32) (femax F32) (fprec_gt F32) (fprec_lt F32)), <- (add_B (fprec F32) (femax F32) (fprec_gt F32) (fprec_lt F32)). }
  rewrite Eb, of_bits_SF, SN. cbn [of_SF]. rewrite HL.
  - destruct (g 135%nat); reflexivity.
  - change (cond_Zopp true 16755226) with (-16755226)%Z. pose proof (bpow_gt_0 radix2 (-41)). lra.
Qed.
(*@ex C71_example *)
Lemma adam_f16_example : exists outs, trains (O := FlOps cr_libm)
    (scale_by_adam (O := FlOps cr_libm) (@flit (FlOps cr_libm) (9 # 10)) (@flit (FlOps cr_libm) (999 # 1000)) (@flit (FlOps cr_libm) (1 # 100000000)) (@fzero (FlOps cr_libm)))
    (fone1 F16 (Nz 1)) (fhist F16 [Zr false; Zr true]) outs /\
  forall n, (n < 2)%nat -> exists y, oelt outs n (0%nat, 0%nat) = Some y /\ fisnan (Ops := FlOps cr_libm) y = true.
Proof.
  destruct (femits_one (L := cr_libm) _ _ F16 (Nz 1) [Zr false; Zr true] (adam_f16_nan (L := cr_libm) cr_pow)) as (outs & H1 & H2).
  { repeat constructor; exact Logic.I. }
  exists outs. split; [exact H1|]. intros n Hn. destruct (H2 n Hn) as (y & Hy & K). exists y. split; [exact Hy|]. apply K; [reflexivity|].
  intros i Hi. rewrite (fl0 (L := cr_libm)). destruct i as [|[|i]]; [| |lia]; cbn [nth]; apply eq_of_le; apply le_fin; auto; cbn; lra.
Qed.
(*@ex C76_example *)
Lemma stddev_nan_example : exists outs, trains (O := FlOps cr_libm)
    (scale_by_stddev (O := FlOps cr_libm) (@flit (FlOps cr_libm) (9 # 10)) (@flit (FlOps cr_libm) (1 # 100000000)) (@fzero (FlOps cr_libm)))
    (fone1 F32 (Nz 1)) (fhist F32 (repeat (Nz 11) 200)) outs /\
  exists y, oelt outs 135 (0%nat, 0%nat) = Some y /\ fisnan (Ops := FlOps cr_libm) y = true.
Proof.
  destruct (femits_one (L := cr_libm) _ _ F32 (Nz 1) (repeat (Nz 11) 200) (stddev_nan (L := cr_libm) ltac:(intros d r H; cbn [l_rsqrt cr_libm]; now rewrite Rlt_bool_true))) as (outs & H1 & H2).
  { apply Forall_forall. intros x Hx. apply repeat_spec in Hx. subst x. apply (int_format F32 11); [reflexivity|discriminate]. }
  exists outs. split; [exact H1|]. destruct (H2 135%nat) as (y & Hy & K); [rewrite repeat_length; lia|]. exists y. split; [exact Hy|]. apply K; auto.
  intros i Hi. apply (repeat_spec 200). apply nth_In. rewrite repeat_length. lia.
Qed.
