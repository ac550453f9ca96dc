(** Closed forms of the scalar machines over exact arithmetic. *)
From Verif Require Export P_machines XR P_real.
From Coq Require Import Qreals.
Open Scope R_scope.
Arguments Q2R : simpl never.
Arguments Z.modulo : simpl never.
Arguments Z.min : simpl never.
Arguments int32_max : simpl never.
Arguments satcount : simpl never.
Arguments cnt : simpl never.

Lemma cnt_IZR n : IZR (cnt n) = INR (satcount n).
Proof.
  unfold cnt, satcount. rewrite INR_IZR_INZ. f_equal. rewrite Nat2Z.inj_min.
  rewrite Z2Nat.id by lia. reflexivity.
Qed.
Global Opaque satcount cnt.

(** From a refinement to statements about every element of every tree and every history. *)
Lemma elt_like {A B} (p : tree (gt A)) (q : tree (gt B)) pos :
  avals q = avals p -> trwf p -> trwf q -> elt q pos <> None -> elt p pos <> None.
Proof.
  intros E Wp Wq. destruct (tree_gzip p q (eq_sym E) Wp Wq) as (z & _ & _ & <- & <-).
  rewrite !elt_emapt. destruct (elt z pos); cbn; congruence.
Qed.

Lemma refines_trains `{O : Ops} np T M : refines np T M -> forall p H,
  trwf p -> hist_ok np p H ->
  exists outs, trains T p H outs /\ length outs = length H /\ Forall (like p) outs /\
    (forall n pos gs ps, (n < length H)%nat ->
        (forall i, (i <= n)%nat -> helt H i pos = Some (gs i)) ->
        (np = false -> forall i, (i <= n)%nat -> hpelt H i pos = Some (ps i)) ->
        exists x, elt p pos = Some x /\ oelt outs n pos = Some (mout M (leafdt p pos) x gs ps n)).
Proof.
  intros HR p H Wp HH. destruct (refines_run np T M HR p H Wp HH) as (s0 & outs & s1 & Hi & Hr & _ & Hl & He).
  exists outs. split; [exists s0, s1; auto|]. split; [eapply run_length; eauto|]. split; [assumption|].
  intros n pos gs ps Hn Hgs Hps.
  assert (Hx : elt p pos <> None).
  { specialize (Hgs 0%nat ltac:(lia)). unfold helt in Hgs.
    destruct (nth_error H 0) as [h|] eqn:E; [|discriminate].
    apply nth_error_In in E. unfold hist_ok in HH.
    rewrite Forall_forall in HH. destruct (HH h E) as [[Ha Wh] _].
    eapply elt_like; eauto. congruence. }
  destruct (elt p pos) as [x|] eqn:E; [|easy]. exists x. split; [reflexivity|]. eauto.
Qed.

Section XRmachines.
  Context (P : Platform).
  Notation xr := (XROps P).

  Lemma xconv d e (x : XR) : @conv xr d e x = x.
  Proof. unfold conv. now destruct (fdt_eqb d e). Qed.

  Lemma xpy1m b : @py1m xr (Fin b) = Fin (1 - b).
  Proof. unfold py1m, fone. cbn. rewrite Q2R_1. reflexivity. Qed.

  Lemma xe_moment1 b d g t : @e_moment xr (Fin b) 1 d (Fin g) (Fin t) = Fin ((1 - b) * g + b * t).
  Proof. unfold e_moment. rewrite xpy1m. reflexivity. Qed.
  Lemma xe_moment2 b d g t : @e_moment xr (Fin b) 2 d (Fin g) (Fin t) = Fin ((1 - b) * (g * g) + b * t).
  Proof. unfold e_moment. rewrite xpy1m. reflexivity. Qed.

  Lemma xpow_count b n : @pow_count xr (Fin b) (cnt n) = Fin (b ^ satcount n).
  Proof.
    unfold pow_count, fofZ. cbn -[xpow]. rewrite Q2R_Z, cnt_IZR. apply xpow_nat.
  Qed.
  Lemma xbias b n : @bias_corr xr (Fin b) (cnt n) = Fin (1 - b ^ satcount n).
  Proof. unfold bias_corr. rewrite xpow_count. unfold fone. cbn. now rewrite Q2R_1. Qed.
  Lemma xe_bc b n d x : 0 <= b < 1 ->
    @e_bc xr (Fin b) (cnt (S n)) d (Fin x) = Fin (x / (1 - b ^ satcount (S n))).
  Proof.
    intros Hb. unfold e_bc. rewrite xconv, xbias. apply xdiv_fin.
    pose proof (pow_lt_1 b (satcount (S n)) Hb (satcount_pos n)). lra.
  Qed.

  Notation fins g := (fun i : nat => Fin (g i)).

  (** trace *)
  Lemma trace_state b nest d x g ps n :
    @mst xr (m_trace (Fin b) nest) d x (fins g) ps (S n) = Fin (wsum b g n).
  Proof.
    induction n as [|n IH].
    - cbn. unfold fzero. cbn. rewrite Q2R_0, wsum_0. f_equal. ring.
    - cbn [mst]. cbn [mst] in IH. rewrite IH. cbn. now rewrite wsum_S.
  Qed.
  Lemma trace_out b nest d x g ps n :
    @mout xr (m_trace (Fin b) nest) d x (fins g) ps n =
    Fin (if nest then g n + b * wsum b g n else wsum b g n).
  Proof.
    unfold mout. pose proof (trace_state b nest d x g ps n) as E. cbn [mst] in E.
    cbn [m_step m_trace fst snd] in *. rewrite E. destruct nest; reflexivity.
  Qed.

  (** ema *)
  Lemma ema_state b db d x g ps n :
    @mst xr (m_ema (Fin b) db) d x (fins g) ps (S n) = Fin (ema_of b 0 g n).
  Proof.
    induction n as [|n IH].
    - cbn [mst m_ema m_step m_init snd]. unfold fzero. cbn [flit fcast xr]. rewrite Q2R_0, xe_moment1, ema_of_0. reflexivity.
    - cbn [mst] in *. rewrite IH. cbn [m_ema m_step snd]. rewrite xe_moment1, ema_of_S. reflexivity.
  Qed.
  Lemma ema_out b db d x g ps n : 0 <= b < 1 ->
    @mout xr (m_ema (Fin b) db) d x (fins g) ps n =
    Fin (if db then ema_of b 0 g n / (1 - b ^ satcount (S n)) else g n).
  Proof.
    intros Hb. unfold mout. pose proof (ema_state b db d x g ps n) as E. cbn [mst] in E.
    cbn [m_step m_ema fst snd] in *. rewrite E. destruct db; [|reflexivity]. now rewrite xe_bc.
  Qed.

  (** rss *)
  Definition acc_of (a0 : R) (g : nat -> R) (n : nat) : R := a0 + sum_f_R0 (fun i => g i * g i) n.
  Lemma rss_state a0 eps d x g ps n :
    @mst xr (m_rss (Fin a0) (Fin eps)) d x (fins g) ps (S n) = Fin (acc_of a0 g n).
  Proof.
    unfold acc_of. induction n as [|n IH].
    - cbn. f_equal. ring.
    - cbn [mst] in *. rewrite IH. cbn. f_equal. ring.
  Qed.
  Lemma rss_out a0 eps d x g ps n : 0 <= eps ->
    @mout xr (m_rss (Fin a0) (Fin eps)) d x (fins g) ps n =
    Fin (if Rlt_dec 0 (acc_of a0 g n) then / sqrt (acc_of a0 g n + eps) * g n else 0).
  Proof.
    intros He. unfold mout. pose proof (rss_state a0 eps d x g ps n) as E. cbn [mst] in E.
    cbn [m_step m_rss fst snd] in *. rewrite E. unfold e_invsqrt, fzero.
    cbn [fmul flt fadd frsqrt fcast flit xr]. rewrite Q2R_0. cbn [xlt].
    destruct (Rlt_dec 0 (acc_of a0 g n)) as [H|H].
    - rewrite xadd_fin, xrsqrt_fin by lra. reflexivity.
    - cbn. f_equal. ring.
  Qed.

  (** rms *)
  Lemma rms_state b eps v0 d x g ps n :
    @mst xr (m_rms (Fin b) (Fin eps) (Fin v0)) d x (fins g) ps (S n) = Fin (ema_of b v0 (fun i => g i * g i) n).
  Proof.
    induction n as [|n IH].
    - cbn [mst m_rms m_step m_init snd]. cbn [fcast xr]. rewrite xe_moment2, ema_of_0. reflexivity.
    - cbn [mst] in *. rewrite IH. cbn [m_rms m_step snd]. rewrite xe_moment2, ema_of_S. reflexivity.
  Qed.
  Lemma rms_out b eps v0 d x g ps n : 0 < ema_of b v0 (fun i => g i * g i) n + eps ->
    @mout xr (m_rms (Fin b) (Fin eps) (Fin v0)) d x (fins g) ps n =
    Fin (g n * / sqrt (ema_of b v0 (fun i => g i * g i) n + eps)).
  Proof.
    intros Hp. unfold mout. pose proof (rms_state b eps v0 d x g ps n) as E. cbn [mst] in E.
    cbn [m_step m_rms fst snd] in *. rewrite E. unfold e_rsqrt.
    cbn [fmul fadd frsqrt fcast xr]. rewrite xadd_fin, xrsqrt_fin by lra. reflexivity.
  Qed.

  (** stddev *)
  Lemma stddev_state b eps v0 d x g ps n :
    @mst xr (m_stddev (Fin b) (Fin eps) (Fin v0)) d x (fins g) ps (S n) =
    (Fin (ema_of b 0 g n), Fin (ema_of b v0 (fun i => g i * g i) n)).
  Proof.
    induction n as [|n IH].
    - cbn [mst m_stddev m_step m_init fst snd]. unfold fzero. cbn [fcast flit xr].
      rewrite Q2R_0, xe_moment1, xe_moment2, !ema_of_0. reflexivity.
    - cbn [mst] in *. rewrite IH. cbn [m_stddev m_step fst snd].
      rewrite xe_moment1, xe_moment2, !ema_of_S. reflexivity.
  Qed.
  Lemma stddev_out b eps v0 d x g ps n :
    let v := ema_of b v0 (fun i => g i * g i) n - ema_of b 0 g n * ema_of b 0 g n + eps in
    0 < v ->
    @mout xr (m_stddev (Fin b) (Fin eps) (Fin v0)) d x (fins g) ps n = Fin (g n * / sqrt v).
  Proof.
    intros v Hp. unfold mout. pose proof (stddev_state b eps v0 d x g ps n) as E. cbn [mst] in E.
    cbn [m_step m_stddev fst snd] in *. apply pair_equal_spec in E as [E1 E2]. rewrite E1, E2. unfold e_rsqrt.
    cbn [fmul fsub fadd frsqrt fcast xr]. rewrite xmul_fin, xsub_fin, xadd_fin, xrsqrt_fin by exact Hp. reflexivity.
  Qed.

  (** adam family *)
  Lemma xe_adam eps er d m v : 0 <= v + er -> 0 < sqrt (v + er) + eps ->
    @e_adam xr (Fin eps) (Fin er) d (Fin m) (Fin v) = Fin (m / (sqrt (v + er) + eps)).
  Proof.
    intros H1 H2. unfold e_adam. cbn [fdiv fadd fsqrt fcast xr].
    rewrite xadd_fin, xsqrt_fin by lra. rewrite xadd_fin, xdiv_fin by lra. reflexivity.
  Qed.

  (** the previous first moment: the value before update n *)
  Definition prev (v0 : R) (f : nat -> R) (n : nat) : R := match n with O => v0 | S k => f k end.

  Lemma adamlike_state v0 nus b1 b2 out d x g ps (nu : nat -> R) :
    (forall n, nus d (Fin (g n)) (Fin (prev v0 (ema_of b1 v0 g) n)) (Fin (prev v0 nu n)) = Fin (nu n)) ->
    forall n, @mst xr (m_adamlike (Fin v0) nus (Fin b1) (Fin b2) out) d x (fins g) ps n =
              (Fin (prev v0 (ema_of b1 v0 g) n), Fin (prev v0 nu n)).
  Proof.
    intros Hnu n. induction n as [|n IH]; [reflexivity|].
    cbn [mst]. rewrite IH. cbn [m_adamlike m_step fst snd].
    rewrite xe_moment1, Hnu. cbn [prev]. do 2 f_equal.
    destruct n; cbn [prev]; [now rewrite ema_of_0|now rewrite ema_of_S].
  Qed.
  Lemma adamlike_out v0 nus b1 b2 out d x g ps (nu : nat -> R) :
    0 <= b1 < 1 -> 0 <= b2 < 1 ->
    (forall n, nus d (Fin (g n)) (Fin (prev v0 (ema_of b1 v0 g) n)) (Fin (prev v0 nu n)) = Fin (nu n)) ->
    forall n, @mout xr (m_adamlike (Fin v0) nus (Fin b1) (Fin b2) out) d x (fins g) ps n =
              out (cnt (S n)) d (Fin (ema_of b1 v0 g n / (1 - b1 ^ satcount (S n))))
                                (Fin (nu n / (1 - b2 ^ satcount (S n)))).
  Proof.
    intros H1 H2 Hnu n. unfold mout. rewrite (adamlike_state v0 nus b1 b2 out d x g ps nu Hnu).
    cbn [m_adamlike m_step fst snd]. rewrite xe_moment1, Hnu, !xe_bc by assumption.
    do 3 f_equal. destruct n; cbn [prev]; [now rewrite ema_of_0|now rewrite ema_of_S].
  Qed.

  Lemma f0 : @fzero xr = Fin 0.
  Proof. unfold fzero. cbn. now rewrite Q2R_0. Qed.
  Lemma f1 : @fone xr = Fin 1.
  Proof. unfold fone. cbn. now rewrite Q2R_1. Qed.

  Lemma adam_nu b2 d (g : nat -> R) n (m : XR) :
    @e_moment xr (Fin b2) 2 d (Fin (g n)) (Fin (prev 0 (ema_of b2 0 (fun i => g i * g i)) n)) =
    Fin (ema_of b2 0 (fun i => g i * g i) n).
  Proof. rewrite xe_moment2. f_equal. destruct n; cbn [prev]; [now rewrite ema_of_0|now rewrite ema_of_S]. Qed.

  Lemma ema_nonneg b v0 f n : 0 <= b <= 1 -> 0 <= v0 -> (forall i, (i <= n)%nat -> 0 <= f i) -> 0 <= ema_of b v0 f n.
  Proof.
    intros Hb Hv Hf. unfold ema_of. pose proof (pow_range b (S n) Hb).
    assert (0 <= wsum b f n) by (apply wsum_nonneg; [lra|auto]). nra.
  Qed.

  Lemma bc_pos b n : 0 <= b < 1 -> 0 < 1 - b ^ satcount (S n) <= 1.
  Proof.
    intros Hb. pose proof (pow_lt_1 b _ Hb (satcount_pos n)).
    assert (0 <= b ^ satcount (S n)) by (apply pow_le; lra). lra.
  Qed.

  Lemma adam_out b1 b2 eps er d x g ps n : 0 <= b1 < 1 -> 0 <= b2 < 1 -> 0 <= er ->
    let mh := ema_of b1 0 g n / (1 - b1 ^ satcount (S n)) in
    let vh := ema_of b2 0 (fun i => g i * g i) n / (1 - b2 ^ satcount (S n)) in
    0 < sqrt (vh + er) + eps ->
    @mout xr (m_adam (Fin b1) (Fin b2) (Fin eps) (Fin er)) d x (fins g) ps n =
    Fin (mh / (sqrt (vh + er) + eps)).
  Proof.
    intros H1 H2 He mh vh Hp. unfold m_adam. rewrite f0.
    rewrite (adamlike_out 0 _ b1 b2 _ d x g ps (ema_of b2 0 (fun i => g i * g i)) H1 H2).
    2:{ intros k. apply adam_nu. exact NaN. }
    apply xe_adam; [|exact Hp].
    assert (0 <= ema_of b2 0 (fun i => g i * g i) n) by (apply ema_nonneg; try lra; intros; nra).
    pose proof (bc_pos b2 n H2). apply Rplus_le_le_0_compat; [|assumption].
    apply Rdiv_nonneg; lra.
  Qed.

  (** belief: nu averages the squared deviation from the previous first moment *)
  Definition dev2 (b1 : R) (g : nat -> R) (i : nat) : R :=
    (g i - prev 0 (ema_of b1 0 g) i) * (g i - prev 0 (ema_of b1 0 g) i).
  Lemma belief_out b1 b2 eps er d x g ps n : 0 <= b1 < 1 -> 0 <= b2 < 1 -> 0 <= er ->
    let mh := ema_of b1 0 g n / (1 - b1 ^ satcount (S n)) in
    let vh := ema_of b2 0 (dev2 b1 g) n / (1 - b2 ^ satcount (S n)) in
    0 < sqrt (vh + er) + eps ->
    @mout xr (m_belief (Fin b1) (Fin b2) (Fin eps) (Fin er)) d x (fins g) ps n =
    Fin (mh / (sqrt (vh + er) + eps)).
  Proof.
    intros H1 H2 He mh vh Hp. unfold m_belief. rewrite f0.
    rewrite (adamlike_out 0 _ b1 b2 _ d x g ps (ema_of b2 0 (dev2 b1 g)) H1 H2).
    2:{ intros k. cbn [fsub xr]. rewrite xsub_fin, xe_moment2. f_equal. fold (dev2 b1 g k).
        destruct k; cbn [prev]; [now rewrite ema_of_0|now rewrite ema_of_S]. }
    apply xe_adam; [|exact Hp].
    assert (0 <= ema_of b2 0 (dev2 b1 g) n) by (apply ema_nonneg; try lra; intros; apply Rle_0_sqr).
    pose proof (bc_pos b2 n H2). apply Rplus_le_le_0_compat; [|assumption].
    apply Rdiv_nonneg; lra.
  Qed.

  (** yogi as implemented *)
  Fixpoint yogi_nu (b2 v0 : R) (g : nat -> R) (n : nat) : R :=
    let v := match n with O => v0 | S k => yogi_nu b2 v0 g k end in
    let sq := IZR (rsgn (v - g n * g n)) * (g n * g n) in
    (1 - b2) * (sq * sq) + b2 * v.
  Lemma yogi_nu_nonneg b2 v0 g n : 0 <= b2 <= 1 -> 0 <= v0 -> 0 <= yogi_nu b2 v0 g n.
  Proof.
    intros Hb Hv. induction n as [|n IH]; cbn [yogi_nu].
    - match goal with |- 0 <= _ * (?s * ?s) + _ => assert (0 <= s * s) by apply Rle_0_sqr end. nra.
    - match goal with |- 0 <= _ * (?s * ?s) + _ => assert (0 <= s * s) by apply Rle_0_sqr end. nra.
  Qed.
  Lemma yogi_out b1 b2 eps er v0 d x g ps n : 0 <= b1 < 1 -> 0 <= b2 < 1 -> 0 <= er -> 0 <= v0 ->
    let mh := ema_of b1 v0 g n / (1 - b1 ^ satcount (S n)) in
    let vh := yogi_nu b2 v0 g n / (1 - b2 ^ satcount (S n)) in
    0 < sqrt (vh + er) + eps ->
    @mout xr (m_yogi (Fin b1) (Fin b2) (Fin eps) (Fin er) (Fin v0)) d x (fins g) ps n =
    Fin (mh / (sqrt (vh + er) + eps)).
  Proof.
    intros H1 H2 He Hv mh vh Hp. unfold m_yogi.
    rewrite (adamlike_out v0 _ b1 b2 _ d x g ps (yogi_nu b2 v0 g) H1 H2).
    2:{ intros k. unfold e_signed_sq. cbn [fmul fsub fsign xr].
        rewrite xmul_fin, xsub_fin. cbn [xsign]. rewrite xmul_fin, xe_moment2. destruct k; reflexivity. }
    apply xe_adam; [|exact Hp].
    pose proof (yogi_nu_nonneg b2 v0 g n ltac:(lra) Hv).
    pose proof (bc_pos b2 n H2). apply Rplus_le_le_0_compat; [|assumption].
    apply Rdiv_nonneg; lra.
  Qed.
End XRmachines.
