(** Properties of the element-wise transformations of transform.py, clipping.py, constrain.py. *)
From Verif Require Export Laws Ex.
From Coq Require Import Psatz Qreals.
Open Scope R_scope.
(*@header
Open Scope R_scope.
*)

(** ** C12 *)
(*@ C12_trace_closed_form : The n-th output (n from 0) is the sum of decay^(n-i) g_i over i<=n, or g_n plus decay times that with nesterov. *)
Lemma trace_closed_form : forall `{P : Platform} (decay : R) (nesterov : bool),
  emits true (trace (Fin decay) nesterov None) (fun g _ n y =>
    let t := sum_f_R0 (fun i => decay ^ (n - i) * g i) n in
    y = Fin (if nesterov then g n + decay * t else t)).
Proof. intros. eapply refines_emits; [apply refines_trace|]. intros. apply trace_out. Qed.

Lemma wsum_bound b G g n : 0 <= b < 1 -> (forall i, (i <= n)%nat -> Rabs (g i) <= G) ->
  Rabs (wsum b g n) <= G / (1 - b).
Proof.
  intros Hb Hg. eapply Rle_trans; [apply wsum_abs; lra|].
  eapply Rle_trans; [apply (wsum_le b _ (fun _ => G)); [lra|exact Hg]|].
  pose proof (wsum_const b G n) as E. apply Rmult_le_reg_l with (1 - b); [lra|]. rewrite E.
  assert (0 <= G) by (eapply Rle_trans; [apply Rabs_pos|apply (Hg 0%nat); lia]).
  assert (0 <= b ^ S n) by (apply pow_le; lra).
  replace ((1 - b) * (G / (1 - b))) with G by (field; lra). nra.
Qed.

(*@ C12_trace_bounded : With gradients bounded by G and 0<=decay<1 every output, nesterov or not, is bounded by G/(1-decay). *)
Lemma trace_bounded : forall `{P : Platform} (decay G : R) (nesterov : bool), 0 <= decay < 1 ->
  emits true (trace (Fin decay) nesterov None) (fun g _ n y =>
    (forall i, (i <= n)%nat -> Rabs (g i) <= G) -> exists r, y = Fin r /\ Rabs r <= G / (1 - decay)).
Proof.
  intros P decay G nesterov Hd. eapply emits_impl; [|apply trace_closed_form].
  cbn beta. intros g q n y -> Hg. eexists; split; [reflexivity|].
  pose proof (wsum_bound decay G g n Hd Hg) as Hb. unfold wsum in Hb. destruct nesterov; [|exact Hb].
  eapply Rle_trans; [apply Rabs_triang|]. rewrite Rabs_mult, (Rabs_right decay) by lra.
  pose proof (Hg n ltac:(lia)).
  set (s := Rabs (sum_f_R0 _ n)) in *. assert (G / (1 - decay) = G + decay * (G / (1 - decay))) by (field; lra). nra.
Qed.

(*@ex C12_example *)
Lemma trace_example : forall `{P : Platform}, exists outs,
  trains (trace (Fin (1/2)) false None) ex_p ex_H outs /\ oelt outs 2 (0%nat, 1%nat) = Some (Fin (17 / 4)).
Proof.
  intros P. destruct (trace_closed_form (1/2) false ex_p ex_H ex_p_wf (ex_H_ok true)) as (outs & Ht & _ & _ & He).
  exists outs. split; [exact Ht|].
  destruct (He 2%nat (0%nat, 1%nat) (fun i => INR (S i)) (fun _ => 0)) as (y & -> & ->);
    [cbn; lia|exact (fun i => ex_H_elt i)|discriminate|].
  do 2 f_equal. cbn. lra.
Qed.

(** ** C13 *)
(*@ C13_ema_debiased_weighted_mean : With debias the output is a weighted mean of the history: the weights (1-b) b^(n-i)/(1-b^(n+1)) are non-negative and sum to 1 (up to the saturation of the counter at 2^31-1). *)
Lemma ema_debiased : forall `{P : Platform} (b : R), 0 <= b < 1 ->
  emits true (ema (Fin b) true None) (fun g _ n y =>
    (Z.of_nat n < 2 ^ 31 - 1)%Z ->
    let w i := (1 - b) * b ^ (n - i) / (1 - b ^ (S n)) in
    y = Fin (sum_f_R0 (fun i => w i * g i) n) /\ sum_f_R0 w n = 1 /\ forall i, (i <= n)%nat -> 0 <= w i).
Proof.
  intros P b Hb. eapply refines_emits; [apply refines_ema|]. intros d x g q n Hn w.
  rewrite ema_out by assumption. rewrite satcount_small by lia.
  pose proof (pow_lt_1 b (S n) Hb ltac:(lia)) as Hp.
  assert (Hw : forall f, sum_f_R0 (fun i => w i * f i) n = ema_of b 0 f n / (1 - b ^ S n)).
  { intros f. unfold ema_of, wsum, w. rewrite Rmult_0_r, Rplus_0_l. unfold Rdiv at 2.
    rewrite Rmult_assoc, (Rmult_comm _ (/ (1 - b ^ S n))), <- Rmult_assoc, scal_sum.
    apply sum_eq. intros i Hi. unfold Rdiv. ring. }
  split; [now rewrite Hw|]. split.
  - rewrite (sum_eq w (fun i => w i * 1)) by (intros; ring). rewrite Hw.
    unfold ema_of. rewrite Rmult_0_r, Rplus_0_l. rewrite wsum_const. field. lra.
  - intros i Hi. unfold w. apply Rdiv_nonneg; [|lra]. apply Rmult_le_pos; [lra|]. apply pow_le; lra.
Qed.

Lemma wmean_range w g lo hi n : sum_f_R0 w n = 1 -> (forall i, (i <= n)%nat -> 0 <= w i) ->
  (forall i, (i <= n)%nat -> lo <= g i <= hi) -> lo <= sum_f_R0 (fun i => w i * g i) n <= hi.
Proof.
  intros Hs Hw Hg.
  assert (E : forall c, c = sum_f_R0 (fun i => w i * c) n).
  { intros c. rewrite <- scal_sum, Hs. ring. }
  split; [rewrite (E lo)|rewrite (E hi)]; apply sum_Rle; intros i Hi;
    (apply Rmult_le_compat_l; [apply Hw; lia|apply Hg; lia]).
Qed.

(*@ C13_ema_debiased_in_range : Hence the debiased output stays within any range containing the history, and constant gradients are reproduced exactly. *)
Lemma ema_debiased_range : forall `{P : Platform} (b lo hi : R), 0 <= b < 1 ->
  emits true (ema (Fin b) true None) (fun g _ n y =>
    (Z.of_nat n < 2 ^ 31 - 1)%Z -> (forall i, (i <= n)%nat -> lo <= g i <= hi) ->
    exists r, y = Fin r /\ lo <= r <= hi).
Proof.
  intros P b lo hi Hb. eapply emits_impl; [|apply (ema_debiased b Hb)]. cbn beta.
  intros g q n y HL Hn Hg. destruct (HL Hn) as (-> & Hs & Hw). eexists; split; [reflexivity|].
  exact (wmean_range _ g lo hi n Hs Hw Hg).
Qed.

(*@ C13_ema_no_debias_emits_raw_updates : With debias=False the emitted update is the raw gradient, for every history (also non-finite), dtype and arithmetic: the average is accumulated but never emitted. *)
Lemma ema_no_debias : forall `{O : Ops} (b : F) (acc : option fdt) u s par u' s',
  update (ema b false acc) u s par = Ok (u', s') -> u' = u.
Proof.
  intros O b acc u s par u' s'. cbn. destruct s as [| | | | | |[] l]; try discriminate.
  destruct l as [|[w c| | | | | |] [|[] [|? ?]]]; try discriminate.
  destruct (update_moment u t b 1); [|discriminate]. cbn.
  destruct (safe_int32_increment w c); [|discriminate]. cbn. congruence.
Qed.

(*@ C13_ema_without_debias_is_not_an_average_refuted : So the documented "exponential moving average of past updates" fails with debias=False: after the history 1, 2, 3 with decay 1/2 the output is 3, not 17/8. *)
Lemma ema_no_debias_refuted : forall `{P : Platform}, exists outs,
  trains (ema (Fin (1/2)) false None) ex_p ex_H outs /\
  oelt outs 2 (0%nat, 1%nat) = Some (Fin 3) /\ ema_of (1/2) 0 (fun i => INR (S i)) 2 = 17 / 8.
Proof.
  intros P. destruct (refines_trains true _ _ (@refines_ema (XROps P) (Fin (1/2)) false) ex_p ex_H ex_p_wf (ex_H_ok true)) as (outs & Ht & _ & _ & He).
  exists outs. split; [exact Ht|]. split.
  - destruct (He 2%nat (0%nat, 1%nat) (fun i => Fin (INR (S i))) (fun _ => Fin 0)) as (x & _ & E); [cbn; lia|exact (fun i => ex_H_elt i)|discriminate|].
    rewrite E, ema_out by lra. do 2 f_equal. cbn. lra.
  - unfold ema_of, wsum. cbn. lra.
Qed.

(*@ex C13_example *)
Lemma ema_example : forall `{P : Platform}, exists outs,
  trains (ema (Fin (1/2)) true None) ex_p ex_H outs /\ oelt outs 2 (0%nat, 1%nat) = Some (Fin (17 / 7)).
Proof.
  intros P. destruct (ema_debiased (1/2) ltac:(lra) ex_p ex_H ex_p_wf (ex_H_ok true)) as (outs & Ht & _ & _ & He).
  exists outs. split; [exact Ht|].
  destruct (He 2%nat (0%nat, 1%nat) (fun i => INR (S i)) (fun _ => 0)) as (y & -> & HL);
    [cbn; lia|exact (fun i => ex_H_elt i)|discriminate|].
  destruct (HL ltac:(lia)) as (-> & _). do 2 f_equal. cbn. lra.
Qed.

(** ** C14 *)
Lemma acc_of_nonneg a0 g n : 0 <= a0 -> 0 <= acc_of a0 g n /\ g n * g n <= acc_of a0 g n.
Proof.
  intros Ha. unfold acc_of. induction n as [|n IH]; cbn [sum_f_R0].
  - pose proof (Rle_0_sqr (g 0%nat)); unfold Rsqr in *; lra.
  - pose proof (Rle_0_sqr (g n)); pose proof (Rle_0_sqr (g (S n))); unfold Rsqr in *; lra.
Qed.

(*@ C14_rss_closed_form : The output is g_n / sqrt(acc_n + eps) with acc_n the initial value plus the sum of all squared gradients, and 0 when acc_n = 0; its magnitude never exceeds 1. *)
Lemma rss_closed_form : forall `{P : Platform} (a0 eps : R), 0 <= a0 -> 0 <= eps ->
  emits true (scale_by_rss (Fin a0) (Fin eps)) (fun g _ n y =>
    let acc := a0 + sum_f_R0 (fun i => g i * g i) n in
    (0 < acc -> y = Fin (g n / sqrt (acc + eps))) /\ (acc = 0 -> y = Fin 0) /\
    exists r, y = Fin r /\ Rabs r <= 1).
Proof.
  intros P a0 eps Ha He. eapply refines_emits; [apply refines_rss|]. intros d x g q n.
  rewrite rss_out by assumption. cbn zeta. fold (acc_of a0 g n).
  destruct (acc_of_nonneg a0 g n Ha) as [H0 H1]. destruct (Rlt_dec 0 (acc_of a0 g n)) as [H|H].
  - split; [intros _; f_equal; unfold Rdiv; ring|]. split; [lra|]. eexists; split; [reflexivity|].
    rewrite Rabs_mult, Rabs_right by (left; apply Rinv_0_lt_compat, sqrt_lt_R0; lra).
    assert (0 < sqrt (acc_of a0 g n + eps)) by (apply sqrt_lt_R0; lra).
    apply Rmult_le_reg_l with (sqrt (acc_of a0 g n + eps)); [assumption|].
    rewrite <- Rmult_assoc, Rinv_r, Rmult_1_l, Rmult_1_r by lra.
    rewrite <- sqrt_Rsqr_abs. apply sqrt_le_1_alt. unfold Rsqr. lra.
  - split; [lra|]. split; [auto|]. eexists; split; [reflexivity|]. rewrite Rabs_R0. lra.
Qed.

(*@ C14_rss_accumulator_monotone : In one update the sum-of-squares accumulator of every element goes from t to g^2 + t, hence never decreases. *)
Lemma rss_monotone : forall `{P : Platform} (a0 eps : XR) (u ss : tree tensor) par,
  avals u = avals ss -> trwf u -> trwf ss ->
  exists u' ss', update (scale_by_rss a0 eps) u (SNode NRss [STree ss]) par = Ok (u', SNode NRss [STree ss']) /\
    forall pos g t, elt u pos = Some (Fin g) -> elt ss pos = Some (Fin t) ->
      elt ss' pos = Some (Fin (g * g + t)) /\ t <= g * g + t.
Proof.
  intros P a0 eps u ss par E Wu Ws. destruct (tree_gzip u ss E Wu Ws) as (W & _ & WW & E1 & E2).
  rewrite <- E1, <- E2. cbn [update scale_by_rss].
  erewrite tmm2_ew. 2:{ intros. unfold tsquare. rewrite un_emap, bin_emap. reflexivity. }
  cbn [rbind]. erewrite (tmap_emapt (@inv_sqrt_pos (XROps P) eps)) by (intros; apply emap_emap).
  erewrite tmm2_ew by (intros; rewrite bin_emap; reflexivity). cbn [rbind].
  eexists _, _. split; [reflexivity|]. intros pos g t. rewrite !elt_emapt.
  destruct (elt W pos) as [[a b]|]; cbn; [|discriminate]. intros [= ->] [= ->]. cbn.
  split; [reflexivity|]. pose proof (Rle_0_sqr g); unfold Rsqr in *; lra.
Qed.

(*@ex C14_example *)
Lemma rss_example : forall `{P : Platform}, exists outs,
  trains (scale_by_rss (Fin 2) (Fin 0)) ex_p ex_H outs /\ oelt outs 2 (0%nat, 1%nat) = Some (Fin (3 / sqrt 16)).
Proof.
  intros P. destruct (rss_closed_form 2 0 ltac:(lra) ltac:(lra) ex_p ex_H ex_p_wf (ex_H_ok true)) as (outs & Ht & _ & _ & He).
  exists outs. split; [exact Ht|].
  destruct (He 2%nat (0%nat, 1%nat) (fun i => INR (S i)) (fun _ => 0)) as (y & -> & HL & _);
    [cbn; lia|exact (fun i => ex_H_elt i)|discriminate|].
  rewrite HL by (cbn; lra). repeat f_equal; cbn; lra.
Qed.

(** ** C15 *)
(*@ C15_rms_closed_form : The output is g_n / sqrt(nu_n + eps) with nu_n = decay^(n+1) initial_scale + (1-decay) sum decay^(n-i) g_i^2 (non-negative), and |output| <= 1/sqrt(1-decay) for decay<1. *)
Lemma rms_closed_form : forall `{P : Platform} (b eps v0 : R), 0 <= b < 1 -> 0 < eps -> 0 <= v0 ->
  emits true (scale_by_rms (Fin b) (Fin eps) (Fin v0)) (fun g _ n y =>
    let nu := b ^ (S n) * v0 + (1 - b) * sum_f_R0 (fun i => b ^ (n - i) * (g i * g i)) n in
    0 <= nu /\ y = Fin (g n / sqrt (nu + eps)) /\ Rabs (g n / sqrt (nu + eps)) <= 1 / sqrt (1 - b)).
Proof.
  intros P b eps v0 Hb He Hv. eapply refines_emits; [apply refines_rms|]. intros d x g q n nu.
  assert (Hnu : 0 <= nu).
  { apply (ema_nonneg b v0 (fun i => g i * g i) n); [lra|lra|]. intros; apply Rle_0_sqr. }
  split; [assumption|].
  rewrite rms_out by (fold nu; unfold ema_of, wsum; fold nu; lra).
  unfold ema_of, wsum. fold nu. split; [reflexivity|].
  assert (Hg : (1 - b) * (g n * g n) <= nu).
  { unfold nu. change (sum_f_R0 (fun i => b ^ (n - i) * (g i * g i)) n) with (wsum b (fun i => g i * g i) n).
    pose proof (pow_range b (S n) ltac:(lra)).
    assert (g n * g n <= wsum b (fun i => g i * g i) n).
    { destruct n; [rewrite wsum_0; lra|]. rewrite wsum_S.
      assert (0 <= wsum b (fun i => g i * g i) n) by (apply wsum_nonneg; [lra|intros; apply Rle_0_sqr]). nra. }
    nra. }
  assert (0 < sqrt (1 - b)) by (apply sqrt_lt_R0; lra).
  assert (0 < sqrt (nu + eps)) by (apply sqrt_lt_R0; lra).
  unfold Rdiv. rewrite Rabs_mult, Rabs_inv, (Rabs_right (sqrt (nu + eps))) by lra.
  apply Rmult_le_reg_r with (sqrt (nu + eps)); [assumption|]. rewrite Rmult_assoc, Rinv_l, Rmult_1_r by lra.
  apply Rmult_le_reg_l with (sqrt (1 - b)); [assumption|].
  replace (sqrt (1 - b) * (1 * / sqrt (1 - b) * sqrt (nu + eps))) with (sqrt (nu + eps)) by (field; lra).
  rewrite <- sqrt_Rsqr_abs, <- sqrt_mult_alt by lra. apply sqrt_le_1_alt. unfold Rsqr. lra.
Qed.

(*@ C15_rms_eps_zero_nan_refuted : Without eps the first all-zero gradient gives 0 * (1/sqrt 0) = NaN. *)
Lemma rms_nan : forall `{P : Platform}, exists outs,
  trains (scale_by_rms (Fin (9/10)) (Fin 0) (Fin 0)) (one (Fin 1)) (ones_hist [Fin 0]) outs /\
  oelt outs 0 (0%nat, 0%nat) = Some NaN.
Proof.
  intros P. destruct (ones_run _ _ (Fin 1) [Fin 0] (@refines_rms (XROps P) (Fin (9/10)) (Fin 0) (Fin 0))) as (outs & Ht & He).
  exists outs. split; [exact Ht|].
  rewrite (He 0%nat (fun _ => Fin 0) (fun _ => NaN)); [|cbn; lia|intros [|i] Hi; [reflexivity|lia]]. f_equal.
  unfold mout. cbn [mst m_rms m_init m_step fst]. cbn [fcast XROps]. rewrite xe_moment2.
  unfold e_rsqrt. cbn [fmul frsqrt fadd fcast XROps].
  replace (xadd (Fin ((1 - 9/10) * (0 * 0) + 9/10 * 0)) (Fin 0)) with (Fin 0) by (cbn; f_equal; lra).
  unfold xrsqrt. rewrite xsqrt_fin, sqrt_0, xdiv_zero, rsgn_pos by lra. cbn.
  rewrite rsgn_0. reflexivity.
Qed.

(*@ex C15_example *)
Lemma rms_example : forall `{P : Platform}, exists outs,
  trains (scale_by_rms (Fin (1/2)) (Fin (1/8)) (Fin 0)) ex_p ex_H outs /\
  oelt outs 2 (0%nat, 1%nat) = Some (Fin (3 / sqrt (23 / 4))).
Proof.
  intros P. destruct (rms_closed_form (1/2) (1/8) 0 ltac:(lra) ltac:(lra) ltac:(lra) ex_p ex_H ex_p_wf (ex_H_ok true)) as (outs & Ht & _ & _ & He).
  exists outs. split; [exact Ht|].
  destruct (He 2%nat (0%nat, 1%nat) (fun i => INR (S i)) (fun _ => 0)) as (y & -> & _ & -> & _);
    [cbn; lia|exact (fun i => ex_H_elt i)|discriminate|].
  do 2 f_equal. apply f_equal2; [cbn; lra|]. apply f_equal. cbn. lra.
Qed.

(** ** C16 *)
Lemma ema_jensen b v0 g n : 0 <= b <= 1 -> 0 <= v0 ->
  0 <= ema_of b v0 (fun i => g i * g i) n - ema_of b 0 g n * ema_of b 0 g n.
Proof.
  intros Hb Hv. induction n as [|n IH].
  - rewrite !ema_of_0. pose proof (Rle_0_sqr (g 0%nat)); unfold Rsqr in *.
    replace ((1 - b) * (g 0%nat * g 0%nat) + b * v0 - ((1 - b) * g 0%nat + b * 0) * ((1 - b) * g 0%nat + b * 0))
      with (b * (1 - b) * (g 0%nat * g 0%nat) + b * v0) by ring.
    assert (0 <= b * (1 - b)) by nra. nra.
  - rewrite !ema_of_S. set (m := ema_of b 0 g n) in *. set (v := ema_of b v0 _ n) in *.
    replace ((1 - b) * (g (S n) * g (S n)) + b * v - ((1 - b) * g (S n) + b * m) * ((1 - b) * g (S n) + b * m))
      with (b * (v - m * m) + b * (1 - b) * ((g (S n) - m) * (g (S n) - m))) by ring.
    pose proof (Rle_0_sqr (g (S n) - m)); unfold Rsqr in *.
    assert (0 <= b * (1 - b)) by nra. nra.
Qed.

(*@ C16_stddev_centred_moment_nonneg : The centred second moment nu_n - mu_n^2 is never negative and the output is the real number g_n / sqrt(nu_n - mu_n^2 + eps): never NaN for eps > 0. *)
Lemma stddev_closed_form : forall `{P : Platform} (b eps v0 : R), 0 <= b <= 1 -> 0 < eps -> 0 <= v0 ->
  emits true (scale_by_stddev (Fin b) (Fin eps) (Fin v0)) (fun g _ n y =>
    let mu := (1 - b) * sum_f_R0 (fun i => b ^ (n - i) * g i) n in
    let nu := b ^ (S n) * v0 + (1 - b) * sum_f_R0 (fun i => b ^ (n - i) * (g i * g i)) n in
    0 <= nu - mu * mu /\ y = Fin (g n / sqrt (nu - mu * mu + eps))).
Proof.
  intros P b eps v0 Hb He Hv. eapply refines_emits; [apply refines_stddev|]. intros d x g q n mu nu.
  pose proof (ema_jensen b v0 g n Hb Hv) as HJ.
  assert (Em : ema_of b 0 g n = mu) by (unfold ema_of, wsum, mu; ring).
  assert (En : ema_of b v0 (fun i => g i * g i) n = nu) by reflexivity.
  rewrite Em, En in HJ. split; [assumption|].
  rewrite stddev_out; rewrite Em, En; [reflexivity|lra].
Qed.

(*@ex C16_example *)
Lemma stddev_example : forall `{P : Platform}, exists outs,
  trains (scale_by_stddev (Fin (1/2)) (Fin (1/64)) (Fin 0)) ex_p ex_H outs /\
  oelt outs 2 (0%nat, 1%nat) = Some (Fin (3 / sqrt (9 / 8))).
Proof.
  intros P. destruct (stddev_closed_form (1/2) (1/64) 0 ltac:(lra) ltac:(lra) ltac:(lra) ex_p ex_H ex_p_wf (ex_H_ok true)) as (outs & Ht & _ & _ & He).
  exists outs. split; [exact Ht|].
  destruct (He 2%nat (0%nat, 1%nat) (fun i => INR (S i)) (fun _ => 0)) as (y & -> & _ & ->);
    [cbn; lia|exact (fun i => ex_H_elt i)|discriminate|].
  do 2 f_equal. apply f_equal2; [cbn; lra|]. apply f_equal. cbn. lra.
Qed.
