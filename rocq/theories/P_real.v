(** Real-number lemmas. *)
From Verif Require Export Spec.
From Coq Require Import Psatz.
Open Scope R_scope.

Lemma wsum_0 b f : wsum b f 0 = f 0%nat.
Proof. unfold wsum; cbn. ring. Qed.
Lemma wsum_S b f n : wsum b f (S n) = f (S n) + b * wsum b f n.
Proof.
  unfold wsum. cbn [sum_f_R0]. rewrite Nat.sub_diag. cbn [pow].
  rewrite scal_sum.
  rewrite (sum_eq _ (fun i => b ^ (n - i) * f i * b)); [ring|].
  intros i Hi. replace (S n - i)%nat with (S (n - i)) by lia. cbn. ring.
Qed.
Lemma wsum_ext b f g n : (forall i, (i <= n)%nat -> f i = g i) -> wsum b f n = wsum b g n.
Proof. intros H. apply sum_eq. intros i Hi. now rewrite H. Qed.

Lemma wsum_const b c n : (1 - b) * wsum b (fun _ => c) n = c * (1 - b ^ S n).
Proof.
  induction n as [|n IH]; [rewrite wsum_0; cbn; ring|].
  rewrite wsum_S, Rmult_plus_distr_l. replace ((1 - b) * (b * wsum b (fun _ => c) n)) with (b * ((1 - b) * wsum b (fun _ => c) n)) by ring.
  rewrite IH. cbn. ring.
Qed.

Lemma wsum_le b f g n : 0 <= b -> (forall i, (i <= n)%nat -> f i <= g i) -> wsum b f n <= wsum b g n.
Proof.
  intros Hb. induction n as [|n IH]; intros H; [rewrite !wsum_0; apply H; lia|].
  rewrite !wsum_S. assert (f (S n) <= g (S n)) by (apply H; lia).
  assert (wsum b f n <= wsum b g n) by (apply IH; intros; apply H; lia). nra.
Qed.
Lemma wsum_nonneg b f n : 0 <= b -> (forall i, (i <= n)%nat -> 0 <= f i) -> 0 <= wsum b f n.
Proof.
  intros Hb. induction n as [|n IH]; intros H; [rewrite wsum_0; apply H; lia|].
  rewrite wsum_S. assert (0 <= f (S n)) by (apply H; lia).
  assert (0 <= wsum b f n) by (apply IH; intros; apply H; lia). nra.
Qed.
Lemma wsum_scal b c f n : wsum b (fun i => c * f i) n = c * wsum b f n.
Proof. induction n as [|n IH]; [now rewrite !wsum_0|]. rewrite !wsum_S, IH. ring. Qed.
Lemma wsum_abs b f n : 0 <= b -> Rabs (wsum b f n) <= wsum b (fun i => Rabs (f i)) n.
Proof.
  intros Hb. induction n as [|n IH]; [rewrite !wsum_0; lra|].
  rewrite !wsum_S. eapply Rle_trans; [apply Rabs_triang|].
  rewrite Rabs_mult, (Rabs_right b) by lra. nra.
Qed.

Lemma ema_of_S b v0 f n : ema_of b v0 f (S n) = (1 - b) * f (S n) + b * ema_of b v0 f n.
Proof. unfold ema_of. rewrite wsum_S. cbn. ring. Qed.
Lemma ema_of_0 b v0 f : ema_of b v0 f 0 = (1 - b) * f 0%nat + b * v0.
Proof. unfold ema_of. rewrite wsum_0. cbn. ring. Qed.

Lemma pow_lt_1 b n : 0 <= b < 1 -> (0 < n)%nat -> b ^ n < 1.
Proof.
  intros Hb Hn. destruct n as [|n]; [lia|]. cbn.
  assert (b ^ n <= 1) by (rewrite <- (pow1 n); apply pow_incr; lra).
  assert (0 <= b ^ n) by (apply pow_le; lra). nra.
Qed.
Lemma pow_range b n : 0 <= b <= 1 -> 0 <= b ^ n <= 1.
Proof. intros Hb. split; [apply pow_le; lra|]. rewrite <- (pow1 n). apply pow_incr; lra. Qed.

Lemma satcount_pos n : (0 < satcount (S n))%nat.
Proof. unfold satcount. apply Nat.min_glb_lt; [lia|]. change 0%nat with (Z.to_nat 0). apply Z2Nat.inj_lt; lia. Qed.
Lemma satcount_small n : (Z.of_nat n <= 2 ^ 31 - 1)%Z -> satcount n = n.
Proof. intros H. unfold satcount. apply Nat.min_l. lia. Qed.
Lemma Rdiv_nonneg a b : 0 <= a -> 0 < b -> 0 <= a / b.
Proof. intros Ha Hb. unfold Rdiv. apply Rmult_le_pos; [lra|]. left. now apply Rinv_0_lt_compat. Qed.
