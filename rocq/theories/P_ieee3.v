(** Properties in IEEE-754 arithmetic: the adaptive scalings. *)
From Verif Require Export P_ieee2.
From Coq Require Import Psatz Qreals Bool.
From Flocq Require Import Core.Core IEEE754.BinarySingleNaN.
From Flocq Require Mult_error.
Open Scope R_scope.
#[local] Existing Instance FlOps.
(*@header
From Flocq Require Import Core.Core IEEE754.BinarySingleNaN.
Open Scope R_scope.
#[local] Existing Instance FlOps.
*)
Local Notation fe d := (SpecFloat.fexp (fprec d) (femax d)).

(** A positive finite number. *)
Definition pos_fin (x : fl) : Prop := ffin x = true /\ 0 < fval x.
(** What is asked of the platform's rsqrt: finite and >= 0 on positive numbers (+inf included). *)
Definition rsqrt_sane (L : Libm) : Prop :=
  forall d x, in_format d x -> positive_ x -> ffin (l_rsqrt L d x) = true /\ fnonneg (l_rsqrt L d x).

Lemma pos_fin_pos x : pos_fin x -> positive_ x.
Proof. intros (H & H0). destruct x; cbn in *; try discriminate; lra. Qed.
Lemma mul_pf d x y : pos_fin x -> fnonneg y -> fnonneg (mul_ (fprec d) (femax d) x y).
Proof.
  intros Hx Hy. apply mul_nonneg; [apply positive_nonneg; now apply pos_fin_pos|exact Hy|].
  destruct (mul_pos_nn d x y (pos_fin_pos x Hx) Hy) as [H|(s & _ & ->)]; [exact H|]. destruct Hx; discriminate.
Qed.
Lemma moment2_nonneg `{L : Libm} (b : fl) d (g t : fl) : pos_fin (fcast d (py1m b)) -> pos_fin (fcast d b) -> isnan_ g = false -> fnonneg t ->
  fnonneg (e_moment b 2 d g t) /\ in_format d (e_moment b 2 d g t).
Proof.
  intros H1 Hb Hg Ht. unfold e_moment. cbn [fadd fmul FlOps]. split; [|apply add_format]. apply add_nonneg; apply mul_pf; auto. now apply mul_sq.
Qed.
Lemma finite_mul_nn d x y : ffin x = true -> ffin y = true -> isnan_ (mul_ (fprec d) (femax d) x y) = false.
Proof. intros Hx Hy. rewrite mul_fin by assumption. apply rto_nan. Qed.

(*@ C70_rms_never_nan : scale_by_rms in IEEE arithmetic of any dtype, any history: if decay, 1-decay and eps are positive and finite after rounding to the dtype, the initial scale is >= 0, no gradient so far was NaN and the current gradient is finite (earlier ones may be infinite, squares may overflow or underflow), the emitted update is not NaN. *)
Lemma rms_not_nan : forall `{L : Libm} (decay eps init0 : fl), rsqrt_sane L -> fle fzero init0 = true ->
  femits true (scale_by_rms decay eps init0) (fun d g _ n y =>
    pos_fin (fcast d decay) -> pos_fin (fcast d (py1m decay)) -> pos_fin (fcast d eps) ->
    (forall i, (i <= n)%nat -> fisnan (g i) = false) -> fisfinite (g n) = true -> fisnan y = false).
Proof.
  intros L decay eps init0 HL H0. eapply refines_femits; [apply refines_rms|]. intros d x g q n Fg _ H1 H2 He Hn Hf.
  cbn [fisnan fisfinite FlOps] in *. rewrite fl0 in H0.
  assert (I : forall k, (k <= n)%nat -> fnonneg (mst (m_rms decay eps init0) d x g q k)).
  { induction k as [|k IH]; intros Hk; [apply cast_nonneg; now apply nonneg_le|]. cbn [mst m_rms m_step snd mE].
    apply moment2_nonneg; auto. apply Hn; lia. apply IH; lia. }
  unfold mout. cbn [m_rms m_step fst mE]. match goal with |- context [e_moment decay 2 d (g n) ?t] => destruct (moment2_nonneg decay d (g n) t H2 H1 (Hn n ltac:(lia)) (I n ltac:(lia))) as (Hv & Fv) end.
  cbn [fmul FlOps]. unfold e_rsqrt. cbn [frsqrt fadd FlOps]. apply finite_mul_nn; [exact Hf|]. apply HL; [apply add_format|].
  apply add_pos; auto; [now apply pos_fin_pos|apply cast_format].
Qed.

(*@ C70_rss_never_nan : scale_by_rss likewise, for any eps >= 0 (also one that rounds to 0). *)
Lemma rss_not_nan : forall `{L : Libm} (initial eps : fl), rsqrt_sane L -> fle fzero initial = true -> fle fzero eps = true ->
  femits true (scale_by_rss initial eps) (fun d g _ n y =>
    (forall i, (i <= n)%nat -> fisnan (g i) = false) -> fisfinite (g n) = true -> fisnan y = false).
Proof.
  intros L initial eps HL H0 He. eapply refines_femits; [apply refines_rss|]. intros d x g q n Fg _ Hn Hf.
  cbn [fisnan fisfinite fle FlOps] in *. rewrite fl0 in H0, He.
  assert (S1 : forall a t, isnan_ a = false -> fnonneg t -> fnonneg (add_ (fprec d) (femax d) (mul_ (fprec d) (femax d) a a) t)).
  { intros a t Ha Ht. apply add_nonneg; [now apply mul_sq|exact Ht]. }
  assert (I : forall k, (k <= n)%nat -> fnonneg (mst (m_rss initial eps) d x g q k)).
  { induction k as [|k IH]; intros Hk; [apply cast_nonneg; now apply nonneg_le|]. cbn [mst m_rss m_step snd mE].
    apply S1. apply Hn; lia. apply IH; lia. }
  unfold mout. cbn [m_rss m_step fst mE]. set (t := fadd d _ _). assert (Ht : fnonneg t) by (apply S1; [apply Hn; lia|apply I; lia]).
  assert (Ft : in_format d t) by apply add_format. clearbody t.
  cbn [fmul FlOps]. unfold e_invsqrt. rewrite fl0. cbn [flt fcast cast_ frsqrt fadd FlOps].
  destruct (lt_ (Zr false) t) eqn:E; apply finite_mul_nn; auto. apply HL; [apply add_format|].
  assert (Pt : positive_ t).
  { destruct t as [s|r|[|]|]; cbn in Ht; try easy. unfold lt_ in E. cbn in E. rewrite Rcompare_Eq in E by reflexivity. discriminate.
    apply lt_fin in E; auto. }
  assert (G : forall a b, positive_ a -> fnonneg b -> in_format d a -> in_format d b -> positive_ (add_ (fprec d) (femax d) a b)).
  { intros a b Ha Hb Fa Fb. assert (Ec : add_ (fprec d) (femax d) a b = add_ (fprec d) (femax d) b a).
    { destruct a as [|?|[|]|], b as [|?|[|]|]; try reflexivity; cbn; rewrite ?(Rplus_comm r0 r), ?(Rplus_comm 0), ?(andb_comm (Rlt_bool r 0)), ?(andb_comm s); try reflexivity. }
    rewrite Ec. now apply add_pos. }
  apply G; auto; [|apply cast_format]. apply cast_nonneg. now apply nonneg_le.
Qed.

Lemma mul_pf_inf d x : pos_fin x -> mul_ (fprec d) (femax d) x (If false) = If false.
Proof. intros (Hf & Hp). destruct x as [|r| |]; try discriminate; cbn in Hp; [lra|]. cbn. now rewrite Rlt_bool_false by lra. Qed.
Lemma add_nn_inf d x : fnonneg x -> add_ (fprec d) (femax d) x (If false) = If false /\ add_ (fprec d) (femax d) (If false) x = If false.
Proof. destruct x as [|r|[|]|]; cbn; easy. Qed.
Lemma moment2_inf `{L : Libm} (b : fl) d (g t : fl) : pos_fin (fcast d (py1m b)) -> pos_fin (fcast d b) -> isnan_ g = false -> fnonneg t ->
  t = If false \/ ffin (mul_ (fprec d) (femax d) g g) = false -> e_moment b 2 d g t = If false.
Proof.
  intros H1 Hb Hg Ht [->|E]; unfold e_moment; cbn [fadd fmul FlOps].
  - rewrite mul_pf_inf by assumption. apply add_nn_inf. apply mul_pf; auto. now apply mul_sq.
  - pose proof (mul_sq d g Hg) as Hs. assert (Es : mul_ (fprec d) (femax d) g g = If false) by (destruct (mul_ _ _ g g) as [| |[|]|]; try discriminate; easy).
    rewrite Es, mul_pf_inf by assumption. apply add_nn_inf. now apply mul_pf.
Qed.
Lemma zero_mul d x y : ffin x = true -> y = Zr false -> eq_ (mul_ (fprec d) (femax d) x y) (Zr false) = true.
Proof.
  intros Hx ->. rewrite mul_fin by auto. cbn [fval]. rewrite Rmult_0_r, rto_id by (try apply fmt_0; rewrite Rabs_R0; apply top_pos).
  unfold fmk. rewrite Req_bool_true by reflexivity. cbn. unfold eq_. cbn. now rewrite Rcompare_Eq.
Qed.

(*@ C70_rms_frozen_by_overflow : (finding) if the square of one past or current gradient element overflows the dtype (for float16: |g| >= 256), the second moment is +inf for ever and scale_by_rms emits 0 for that element at every later step with a finite gradient. *)
Lemma rms_frozen : forall `{L : Libm} (decay eps init0 : fl), (forall d, l_rsqrt L d (If false) = Zr false) -> fle fzero init0 = true ->
  femits true (scale_by_rms decay eps init0) (fun d g _ n y =>
    pos_fin (fcast d decay) -> pos_fin (fcast d (py1m decay)) -> fle fzero eps = true ->
    (forall i, (i <= n)%nat -> fisnan (g i) = false) -> fisfinite (g n) = true ->
    (exists i, (i <= n)%nat /\ fisfinite (fmul d (g i) (g i)) = false) -> feqb y fzero = true).
Proof.
  intros L decay eps init0 HL H0. eapply refines_femits; [apply refines_rms|]. intros d x g q n Fg _ H1 H2 He Hn Hf (i & Hi & Ei).
  cbn [fisnan fisfinite fmul feqb fle FlOps] in *. rewrite fl0 in H0, He |- *.
  assert (I : forall k, (k <= n)%nat -> fnonneg (mst (m_rms decay eps init0) d x g q k) /\ ((i < k)%nat -> mst (m_rms decay eps init0) d x g q k = If false)).
  { induction k as [|k IH]; intros Hk; [split; [apply cast_nonneg; now apply nonneg_le|lia]|]. destruct (IH ltac:(lia)) as (IH1 & IH2). cbn [mst m_rms m_step snd mE]. split.
    - apply moment2_nonneg; auto. apply Hn; lia.
    - intros Hik. apply moment2_inf; auto; [apply Hn; lia|]. destruct (Nat.eq_dec i k) as [->|]; [now right|left; apply IH2; lia]. }
  destruct (I n ltac:(lia)) as (I1 & I2). unfold mout. cbn [m_rms m_step fst mE].
  match goal with |- context [e_moment decay 2 d (g n) ?t] => assert (Ev : e_moment decay 2 d (g n) t = If false) end.
  { apply moment2_inf; auto. destruct (Nat.eq_dec i n) as [->|]; [now right|left; apply I2; lia]. }
  rewrite Ev. cbn [fmul FlOps]. apply zero_mul; [exact Hf|]. unfold e_rsqrt. cbn [frsqrt fadd fcast FlOps].
  rewrite (proj2 (add_nn_inf d (cast_ d eps) (cast_nonneg d eps (proj2 (nonneg_le eps) He)))). apply HL.
Qed.

(** ** Adam *)
(** Scaling by a power of two >= 1 is exact. *)
Lemma mul_bpow d c e : fmt d c -> (0 <= e)%Z -> fmt d (c * bpow radix2 e).
Proof. intros Hc He. rewrite Rmult_comm. rewrite Rmult_comm. apply Mult_error.mult_bpow_pos_exact_FLT; [exact Hc|exact He]. Qed.
Lemma rto_abs_le d s r b : fmt d b -> Rabs r <= b -> b < top d -> ffin (rto d s r) = true /\ Rabs (fval (rto d s r)) <= b.
Proof.
  intros Fb Hr Hb. assert (Hm : Rabs (rnd d r) <= b) by (rewrite rnd_abs, <- (rnd_id d b Fb); now apply rnd_le).
  destruct (rto_cases d s r) as [(_ & ->)|(H & ->)]; [|lra]. now rewrite fmk_fin, fmk_val.
Qed.

(** The first moment of gradients bounded by 2^e stays below 2^(e+1), whatever the number of steps. *)
Lemma moment1_bound `{L : Libm} (b : fl) d e (g t : fl) : (0 <= e)%Z -> (e + 1 < femax d)%Z ->
  pos_fin (fcast d (py1m b)) -> pos_fin (fcast d b) -> in_format d (fcast d b) -> in_format d (fcast d (py1m b)) ->
  fval (fcast d (py1m b)) / 2 + fval (fcast d b) <= 1 -> 
  ffin g = true -> Rabs (fval g) <= bpow radix2 e -> ffin t = true -> Rabs (fval t) <= bpow radix2 (e + 1) ->
  ffin (e_moment b 1 d g t) = true /\ Rabs (fval (e_moment b 1 d g t)) <= bpow radix2 (e + 1).
Proof.
  intros He Hem (C1f & C1) (Cf & C) Fc Fc1 Hs Hg Hgb Ht Htb. unfold e_moment. cbn [fadd fmul FlOps].
  set (c1 := @fcast (FlOps L) d (@py1m (FlOps L) b)) in *. set (c := @fcast (FlOps L) d b) in *.
  assert (E1 : bpow radix2 (e + 1) = 2 * bpow radix2 e) by (rewrite bpow_plus; cbn; lra). pose proof (bpow_gt_0 radix2 e) as Pe.
  assert (Htop : bpow radix2 (e + 1) < top d) by now apply bpow_lt.
  assert (A : ffin (mul_ (fprec d) (femax d) c1 g) = true /\ Rabs (fval (mul_ (fprec d) (femax d) c1 g)) <= fval c1 * bpow radix2 e).
  { rewrite mul_fin by assumption. apply rto_abs_le.
    - apply mul_bpow; [now apply fin_fmt|exact He].
    - rewrite Rabs_mult, (Rabs_pos_eq (fval c1)) by lra. apply Rmult_le_compat_l; lra.
    - apply Rle_lt_trans with (bpow radix2 (e + 1)); [|exact Htop]. rewrite E1. apply Rmult_le_compat_r; lra. }
  assert (B : ffin (mul_ (fprec d) (femax d) c t) = true /\ Rabs (fval (mul_ (fprec d) (femax d) c t)) <= fval c * bpow radix2 (e + 1)).
  { rewrite mul_fin by assumption. apply rto_abs_le.
    - apply mul_bpow; [now apply fin_fmt|lia].
    - rewrite Rabs_mult, (Rabs_pos_eq (fval c)) by lra. apply Rmult_le_compat_l; lra.
    - apply Rle_lt_trans with (bpow radix2 (e + 1)); [|exact Htop]. rewrite <- (Rmult_1_l (bpow radix2 (e + 1))) at 2. apply Rmult_le_compat_r; [apply bpow_ge_0|lra]. }
  destruct A as (A1 & A2), B as (B1 & B2). rewrite add_fin by assumption. apply rto_abs_le.
  - apply fmt_bpow. destruct d; cbn; lia.
  - eapply Rle_trans; [apply Rabs_triang|]. eapply Rle_trans; [apply Rplus_le_compat; eassumption|].
    rewrite E1. nra.
  - exact Htop.
Qed.

(** The divisor applied to a moment at the t-th step: 1 - decay**t, evaluated in the default dtype and cast. *)
Definition bias_divisor `{L : Libm} (d : fdt) (decay : fl) (t : Z) : fl :=
  conv defdt d (fsub defdt (fcast defdt fone) (fpow defdt (fcast defdt decay) (fcast defdt (fofZ t)))).

(** What is asked of Adam's hyperparameters after rounding to dtype [d]; [e]: gradients are bounded by 2^e; [k]: 1 - b1^t >= 2^-k. *)
Definition adam_ok `{L : Libm} (d : fdt) (b1 b2 : fl) (e k : Z) (n : nat) : Prop :=
  (0 <= e)%Z /\ (0 <= k)%Z /\ (e + k + 2 <= femax d)%Z /\
  pos_fin (fcast d b1) /\ pos_fin (fcast d (py1m b1)) /\ fval (fcast d (py1m b1)) / 2 + fval (fcast d b1) <= 1 /\
  pos_fin (fcast d b2) /\ pos_fin (fcast d (py1m b2)) /\
  (ffin (bias_divisor d b1 (cnt (S n))) = true /\ bpow radix2 (- k) <= fval (bias_divisor d b1 (cnt (S n)))) /\
  pos_fin (bias_divisor d b2 (cnt (S n))).

Lemma adam_parts `{L : Libm} (b1 b2 eps eps_root : fl) d x (g q : nat -> fl) n e k :
  adam_ok d b1 b2 e k n -> (forall i, (i <= n)%nat -> ffin (g i) = true /\ Rabs (fval (g i)) <= bpow radix2 e) ->
  exists mh vh : fl, mout (m_adam b1 b2 eps eps_root) d x g q n = e_adam eps eps_root d mh vh /\ ffin mh = true /\ fnonneg vh /\
    ((exists i, (i <= n)%nat /\ ffin (mul_ (fprec d) (femax d) (g i) (g i)) = false) -> vh = If false) /\
    Rabs (fval mh) <= bpow radix2 (e + 1 + k).
Proof.
  intros (He & Hk & Hek & Hb1 & Hb1' & Hs & Hb2 & Hb2' & (Hd1f & Hd1) & Hd2) Hg.
  assert (Hem : (e + 1 < femax d)%Z) by lia.
  set (M := @m_adam (FlOps L) b1 b2 eps eps_root) in *.
  assert (N0 : forall i, (i <= n)%nat -> isnan_ (g i) = false) by (intros i Hi; destruct (Hg i Hi) as (H & _); destruct (g i); try discriminate; reflexivity).
  assert (I : forall j, (j <= n)%nat -> let st := mst M d x g q j in ffin (fst st) = true /\ Rabs (fval (fst st)) <= bpow radix2 (e + 1) /\ fnonneg (snd st) /\
    ((exists i, (i < j)%nat /\ ffin (mul_ (fprec d) (femax d) (g i) (g i)) = false) -> snd st = If false)).
  { induction j as [|j IH]; intros Hj.
    - cbn -[fzero FlOps]. rewrite fl0. cbn. rewrite Rabs_R0. split; [reflexivity|]. split; [apply bpow_ge_0|]. split; [exact Logic.I|]. intros (i & Hi & _). lia.
    - destruct (IH ltac:(lia)) as (I1 & I2 & I3 & I4). destruct (Hg j ltac:(lia)) as (G1 & G2). cbn zeta.
      change (mst M d x g q (S j)) with (snd (m_step M j d (g j) (q j) (mst M d x g q j))). unfold M at 1 3 5 7. cbn [m_adam m_adamlike m_step fst snd].
      destruct (moment1_bound b1 d e (g j) (fst (mst M d x g q j))) as (J1 & J2); auto; try apply cast_format.
      split; [exact J1|]. split; [exact J2|]. split; [apply moment2_nonneg; auto; apply N0; lia|].
      intros (i & Hi & Ei). apply moment2_inf; auto; [apply N0; lia|]. destruct (Nat.eq_dec i j) as [->|]; [now right|left; apply I4; exists i; split; [lia|exact Ei]]. }
  destruct (I n ltac:(lia)) as (I1 & I2 & I3 & I4). destruct (Hg n ltac:(lia)) as (G1 & G2). unfold mout. set (st := mst M d x g q n) in *.
  unfold M. cbn [m_adam m_adamlike m_step fst snd].
  destruct (moment1_bound b1 d e (g n) (fst st)) as (J1 & J2); auto; try apply cast_format.
  destruct (moment2_nonneg b2 d (g n) (snd st) Hb2' Hb2 (N0 n ltac:(lia)) I3) as (J3 & J4).
  assert (J5 : (exists i, (i <= n)%nat /\ ffin (mul_ (fprec d) (femax d) (g i) (g i)) = false) -> e_moment b2 2 d (g n) (snd st) = If false).
  { intros (i & Hi & Ei). apply moment2_inf; auto. destruct (Nat.eq_dec i n) as [->|]; [now right|left; apply I4; exists i; split; [lia|exact Ei]]. }
  set (m := @e_moment (FlOps L) b1 1 d (g n) (fst st)) in *. set (v := @e_moment (FlOps L) b2 2 d (g n) (snd st)) in *. clearbody m v st.
  unfold e_bc, bias_corr, pow_count. fold (bias_divisor d b1 (cnt (S n))). fold (bias_divisor d b2 (cnt (S n))).
  set (B1 := bias_divisor d b1 (cnt (S n))) in *. set (B2 := bias_divisor d b2 (cnt (S n))) in *. cbn [fdiv FlOps].
  assert (HM : ffin (div_ (fprec d) (femax d) m B1) = true /\ Rabs (fval (div_ (fprec d) (femax d) m B1)) <= bpow radix2 (e + 1 + k)).
  { pose proof (bpow_gt_0 radix2 (- k)). destruct B1 as [|r| |]; try discriminate; cbn in Hd1; [lra|]. rewrite div_fin by assumption.
    apply (rto_abs_le d _ _ (bpow radix2 (e + 1 + k))).
    + apply fmt_bpow. destruct d; cbn; lia.
    + unfold Rdiv. rewrite Rabs_mult, bpow_plus. apply Rmult_le_compat; try apply Rabs_pos; auto. rewrite Rabs_pos_eq.
      * replace (bpow radix2 k) with (/ bpow radix2 (- k)) by (rewrite bpow_opp; field; apply Rgt_not_eq, bpow_gt_0). apply Rinv_le; lra.
      * left. apply Rinv_0_lt_compat. lra.
    + apply bpow_lt. lia. }
  eexists _, _. split; [reflexivity|]. split; [apply HM|]. split; [|split; [|apply HM]].
  - pose proof (pos_fin_pos _ Hd2) as P2. apply div_nonneg; auto. destruct Hd2 as (F2 & _). destruct B2 as [|r| |]; try discriminate; [easy|]. destruct v as [| |[|]|]; try easy; cbn [div_]; apply rto_nan.
  - intros Ho. rewrite (J5 Ho). destruct Hd2 as (F2 & P2). destruct B2 as [|r| |]; try discriminate; cbn in P2; [lra|]. cbn. now rewrite Rlt_bool_false by lra.
Qed.

(*@ C70_adam_never_nan : scale_by_adam in IEEE arithmetic of any dtype, any number of steps: if b1, 1-b1, b2, 1-b2 and eps are positive and finite after rounding to the dtype (with rounded (1-b1)/2 + b1 <= 1), eps_root >= 0, the bias corrections 1-b^t evaluate to finite positive values (1-b1^t to at least 2^-k), and all gradients so far were bounded by 2^e with e+k+2 <= emax, then the emitted update is not NaN (squares of gradients may overflow or underflow). *)
Lemma adam_not_nan : forall `{L : Libm} (b1 b2 eps eps_root : fl) (e k : Z), fle fzero eps_root = true ->
  femits true (scale_by_adam b1 b2 eps eps_root) (fun d g _ n y =>
    adam_ok d b1 b2 e k n -> pos_fin (fcast d eps) ->
    (forall i, (i <= n)%nat -> fisfinite (g i) = true /\ Rabs (fval (g i)) <= bpow radix2 e) -> fisnan y = false).
Proof.
  intros L b1 b2 eps eps_root e k Her. eapply refines_femits; [apply refines_adam|]. intros d x g q n Fg _ Hok Heps Hg.
  cbn [fisnan fisfinite fle FlOps] in *. rewrite fl0 in Her. destruct (adam_parts b1 b2 eps eps_root d x g q n e k Hok Hg) as (mh & vh & -> & Hm & Hv & _).
  unfold e_adam. cbn [fdiv fadd fsqrt fcast FlOps].
  assert (Hdn : positive_ (add_ (fprec d) (femax d) (sqrt_ (fprec d) (femax d) (add_ (fprec d) (femax d) vh (cast_ d eps_root))) (cast_ d eps))).
  { apply add_pos; [|now apply pos_fin_pos|apply sqrt_format|apply cast_format]. apply sqrt_nonneg, add_nonneg; [exact Hv|]. apply cast_nonneg. now apply nonneg_le. }
  set (dn := add_ _ _ (sqrt_ _ _ _) _) in *. clearbody dn. destruct dn as [|r|[|]|]; try easy; destruct mh; try discriminate; cbn [div_]; try apply rto_nan; reflexivity.
Qed.

(*@ C70_adam_frozen_by_overflow : (finding) under the same hypotheses (eps >= 0 suffices), once the square of one gradient element overflowed the dtype, Adam emits 0 for that element at every later step. *)
Lemma adam_frozen : forall `{L : Libm} (b1 b2 eps eps_root : fl) (e k : Z), fle fzero eps_root = true -> fle fzero eps = true ->
  femits true (scale_by_adam b1 b2 eps eps_root) (fun d g _ n y =>
    adam_ok d b1 b2 e k n ->
    (forall i, (i <= n)%nat -> fisfinite (g i) = true /\ Rabs (fval (g i)) <= bpow radix2 e) ->
    (exists i, (i <= n)%nat /\ fisfinite (fmul d (g i) (g i)) = false) -> feqb y fzero = true).
Proof.
  intros L b1 b2 eps eps_root e k Her Heps. eapply refines_femits; [apply refines_adam|]. intros d x g q n Fg _ Hok Hg Ho.
  cbn [fisnan fisfinite fle fmul feqb FlOps] in *. rewrite fl0 in *. destruct (adam_parts b1 b2 eps eps_root d x g q n e k Hok Hg) as (mh & vh & -> & Hm & _ & Hv & _).
  rewrite (Hv Ho). unfold e_adam. cbn [fdiv fadd fsqrt fcast FlOps].
  rewrite (proj2 (add_nn_inf d _ (cast_nonneg d eps_root (proj2 (nonneg_le _) Her)))). cbn [sqrt_].
  rewrite (proj2 (add_nn_inf d _ (cast_nonneg d eps (proj2 (nonneg_le _) Heps)))).
  destruct mh; try discriminate; cbn; unfold eq_; cbn; now rewrite Rcompare_Eq.
Qed.

(** ** The default hyperparameters *)
Lemma rnd_err d x : bpow radix2 (SpecFloat.emin (fprec d) (femax d) + fprec d - 1) <= Rabs x -> Rabs (rnd d x - x) <= bpow radix2 (- fprec d) * Rabs x.
Proof.
  intros H. pose proof (Relative.relative_error_N_FLT radix2 (SpecFloat.emin (fprec d) (femax d)) (fprec d) (fprec_gt d) (fun z => negb (Z.even z)) x H) as E.
  replace (bpow radix2 (- fprec d)) with (/ 2 * bpow radix2 (- fprec d + 1)) by (rewrite bpow_plus; cbn; lra). exact E.
Qed.
(** Rounding keeps an interval whose bounds are in the format. *)
Lemma rto_between d s r a b : fmt d a -> fmt d b -> a <= r <= b -> Rabs b < top d -> Rabs a < top d ->
  ffin (rto d s r) = true /\ a <= fval (rto d s r) <= b.
Proof.
  intros Fa Fb (Ha & Hb) Tb Ta. assert (H1 : a <= rnd d r) by (rewrite <- (rnd_id d a Fa); now apply rnd_le). assert (H2 : rnd d r <= b) by (rewrite <- (rnd_id d b Fb); now apply rnd_le).
  destruct (rto_cases d s r) as [(_ & ->)|(H & ->)]; [now rewrite fmk_fin, fmk_val|]. exfalso. apply Rabs_lt_inv in Ta, Tb. revert H. unfold Rabs. destruct (Rcase_abs (rnd d r)); lra.
Qed.
(** Rounding to a dtype of at least 8 bits of precision a value between 2^-100 and 1: relative error 1/256. *)
Lemma rto_near d s r : d <> F16 -> / 1000000000 <= r <= 1 -> ffin (rto d s r) = true /\ Rabs (fval (rto d s r) - r) <= r / 256.
Proof.
  intros Hd Hr. assert (B1 : bpow radix2 (SpecFloat.emin (fprec d) (femax d) + fprec d - 1) <= r).
  { eapply Rle_trans; [|apply Hr]. eapply Rle_trans; [apply (bpow_le radix2 _ (-30)); destruct d; cbn; try easy; lia|]. cbn. lra. }
  pose proof (rnd_err d r) as E. rewrite (Rabs_pos_eq r) in E by lra. specialize (E B1).
  assert (P : bpow radix2 (- fprec d) <= / 256) by (eapply Rle_trans; [apply (bpow_le radix2 _ (-8)); destruct d; cbn; try easy; lia|cbn; lra]).
  destruct (rto_cases d s r) as [(_ & ->)|(H & ->)].
  - rewrite fmk_fin, fmk_val. split; [reflexivity|]. eapply Rle_trans; [exact E|]. nra.
  - exfalso. assert (rnd d r <= rnd d 1) by (apply rnd_le; lra). rewrite (rnd_id d 1 (fmt_1 d)) in H0. rewrite Rabs_pos_eq in H by (apply rnd_ge0; lra).
    assert (1 < top d) by (change 1 with (bpow radix2 0); apply bpow_lt; destruct d; cbn; lia). lra.
Qed.
Lemma rto_near64 s r : / 1000000000 <= r <= 1 -> ffin (fround_ 53 1024 s r) = true /\ Rabs (fval (fround_ 53 1024 s r) - r) <= r / 100000000.
Proof.
  intros Hr. change (fround_ 53 1024 s r) with (rto F64 s r). assert (B1 : bpow radix2 (SpecFloat.emin (fprec F64) (femax F64) + fprec F64 - 1) <= r).
  { eapply Rle_trans; [|apply Hr]. eapply Rle_trans; [apply (bpow_le radix2 _ (-30)); cbn; lia|]. cbn. lra. }
  pose proof (rnd_err F64 r) as E. rewrite (Rabs_pos_eq r) in E by lra. specialize (E B1).
  assert (P : bpow radix2 (- fprec F64) <= / 100000000) by (eapply Rle_trans; [apply (bpow_le radix2 _ (-30)); cbn; lia|cbn; lra]).
  destruct (rto_cases F64 s r) as [(_ & ->)|(H & ->)].
  - rewrite fmk_fin, fmk_val. split; [reflexivity|]. eapply Rle_trans; [exact E|]. nra.
  - exfalso. assert (rnd F64 r <= rnd F64 1) by (apply rnd_le; lra). rewrite (rnd_id F64 1 (fmt_1 F64)) in H0. rewrite Rabs_pos_eq in H by (apply rnd_ge0; lra).
    assert (1 < top F64) by (change 1 with (bpow radix2 0); apply bpow_lt; cbn; lia). lra.
Qed.
