(** Properties of the Adam family, schedules, weight decay and apply_every. *)
From Verif Require Export P_transform.
From Coq Require Import Psatz Qreals.
Open Scope R_scope.
(*@header
Open Scope R_scope.
*)

(** ** C17 *)
(*@ C17_adam_closed_form : The n-th output (n from 0) is mhat/(sqrt(vhat+eps_root)+eps), mhat and vhat being the bias-corrected exponential averages of the gradients and of their squares (satcount is the step number, capped at 2^31-1); a real number for every finite history when eps > 0; params are ignored. *)
Lemma adam_closed_form : forall `{P : Platform} (b1 b2 eps eps_root : R),
  0 <= b1 < 1 -> 0 <= b2 < 1 -> 0 < eps -> 0 <= eps_root ->
  emits true (scale_by_adam (Fin b1) (Fin b2) (Fin eps) (Fin eps_root)) (fun g _ n y =>
    let t := satcount (S n) in
    let mhat := (1 - b1) * sum_f_R0 (fun i => b1 ^ (n - i) * g i) n / (1 - b1 ^ t) in
    let vhat := (1 - b2) * sum_f_R0 (fun i => b2 ^ (n - i) * (g i * g i)) n / (1 - b2 ^ t) in
    0 <= vhat /\ y = Fin (mhat / (sqrt (vhat + eps_root) + eps))).
Proof.
  intros P b1 b2 eps er H1 H2 He Hr. eapply refines_emits; [apply refines_adam|].
  intros d x g q n t mhat vhat.
  assert (E1 : ema_of b1 0 g n = (1 - b1) * sum_f_R0 (fun i => b1 ^ (n - i) * g i) n) by (unfold ema_of, wsum; ring).
  assert (E2 : ema_of b2 0 (fun i => g i * g i) n = (1 - b2) * sum_f_R0 (fun i => b2 ^ (n - i) * (g i * g i)) n)
    by (unfold ema_of, wsum; ring).
  split.
  - unfold vhat, t. rewrite <- E2. pose proof (bc_pos b2 n H2). apply Rdiv_nonneg; [|lra].
    apply ema_nonneg; try lra. intros; apply Rle_0_sqr.
  - rewrite adam_out; rewrite ?E1, ?E2; fold t mhat vhat; auto; try lra.
    pose proof (sqrt_pos (vhat + er)). lra.
Qed.

(*@ex C17_example *)
Lemma adam_example : forall `{P : Platform}, exists outs,
  trains (scale_by_adam (Fin (1/2)) (Fin (1/2)) (Fin 1) (Fin 0)) ex_p ex_H outs /\
  oelt outs 2 (0%nat, 1%nat) = Some (Fin ((17/7) / (sqrt (45/7) + 1))).
Proof.
  intros P. destruct (adam_closed_form (1/2) (1/2) 1 0 ltac:(lra) ltac:(lra) ltac:(lra) ltac:(lra) ex_p ex_H ex_p_wf (ex_H_ok true)) as (outs & Ht & _ & _ & He).
  exists outs. split; [exact Ht|].
  destruct (He 2%nat (0%nat, 1%nat) (fun i => INR (S i)) (fun _ => 0)) as (y & -> & _ & ->);
    [cbn; lia|exact (fun i => ex_H_elt i)|discriminate|].
  rewrite satcount_small by lia. do 2 f_equal. apply f_equal2; [cbn; lra|]. apply f_equal2; [|lra]. apply f_equal. cbn. lra.
Qed.

(** ** C18 *)
(*@ C18_adam_constant_gradients : While all gradients so far are the same number c (in particular at the first step) the output is c/(|c|+eps), for eps_root = 0. *)
Lemma adam_constant : forall `{P : Platform} (b1 b2 eps : R),
  0 <= b1 < 1 -> 0 <= b2 < 1 -> 0 < eps ->
  emits true (scale_by_adam (Fin b1) (Fin b2) (Fin eps) (Fin 0)) (fun g _ n y =>
    forall c, (Z.of_nat n < 2 ^ 31 - 1)%Z -> (forall i, (i <= n)%nat -> g i = c) -> y = Fin (c / (Rabs c + eps))).
Proof.
  intros P b1 b2 eps H1 H2 He. eapply emits_impl; [|apply (adam_closed_form b1 b2 eps 0 H1 H2 He); lra].
  cbn beta. intros g q n y [_ ->] c Hn Hg. rewrite satcount_small by lia.
  assert (E : forall b f k, 0 <= b < 1 -> (forall i, (i <= n)%nat -> f i = k) ->
    (1 - b) * sum_f_R0 (fun i => b ^ (n - i) * f i) n / (1 - b ^ S n) = k).
  { intros b f k Hb Hf. change (sum_f_R0 (fun i => b ^ (n - i) * f i) n) with (wsum b f n).
    rewrite (wsum_ext b f (fun _ => k)) by assumption. rewrite wsum_const.
    pose proof (pow_lt_1 b (S n) Hb ltac:(lia)). field. lra. }
  rewrite (E b1 g c) by auto. rewrite (E b2 (fun i => g i * g i) (c * c)); [|auto|intros; now rewrite Hg].
  rewrite Rplus_0_r. fold (Rsqr c). rewrite sqrt_Rsqr_abs. reflexivity.
Qed.

Definition geo (r : R) (n : nat) : R := sum_f_R0 (fun k => r ^ k) n.
Lemma geo_S r n : geo r (S n) = 1 + r * geo r n.
Proof.
  unfold geo. induction n as [|n IH]; [cbn; lra|].
  cbn [sum_f_R0] in *. rewrite IH at 1. cbn [pow]. ring.
Qed.
Lemma geo_pos r n : 0 <= r -> 1 <= geo r n.
Proof.
  intros Hr. induction n as [|n IH]; [cbn; lra|]. rewrite geo_S. nra.
Qed.
Lemma cs_wsum b1 b2 g n : 0 <= b1 -> 0 < b2 ->
  wsum b1 g n * wsum b1 g n <= geo (b1 * b1 / b2) n * wsum b2 (fun i => g i * g i) n.
Proof.
  intros H1 H2. set (r := b1 * b1 / b2).
  assert (Hr : 0 <= r) by (unfold r; apply Rdiv_nonneg; nra).
  assert (Er : r * b2 = b1 * b1) by (unfold r; field; lra).
  induction n as [|n IH].
  - rewrite !wsum_0. unfold geo; cbn. lra.
  - rewrite !wsum_S, geo_S.
    set (S := wsum b1 g n) in *. set (Q := wsum b2 _ n) in *. set (K := geo r n) in *. set (x := g (Datatypes.S n)).
    assert (HQ : 0 <= Q) by (apply wsum_nonneg; [lra|intros; apply Rle_0_sqr]).
    assert (HK : 1 <= K) by (apply geo_pos; assumption).
    assert (Hx : 0 <= x * x) by apply Rle_0_sqr.
    assert (Hm : 2 * (x * (b1 * S)) <= r * K * (x * x) + b2 * Q).
    { set (u := r * K * (x * x)). set (v := b2 * Q).
      assert (Hu : 0 <= u) by (unfold u; apply Rmult_le_pos; [apply Rmult_le_pos; lra|assumption]).
      assert (Hv : 0 <= v) by (unfold v; apply Rmult_le_pos; lra).
      assert (Huv : (x * (b1 * S)) * (x * (b1 * S)) <= u * v).
      { unfold u, v. replace (r * K * (x * x) * (b2 * Q)) with ((x * x) * (r * b2) * (K * Q)) by ring. rewrite Er.
        replace (x * (b1 * S) * (x * (b1 * S))) with ((x * x) * (b1 * b1) * (S * S)) by ring.
        apply Rmult_le_compat_l; [apply Rmult_le_pos; [assumption|apply Rle_0_sqr]|assumption]. }
      apply Rsqr_incr_0_var; [|lra]. unfold Rsqr.
      pose proof (Rle_0_sqr (u - v)). unfold Rsqr in *. nra. }
    assert (Hs : b1 * S * (b1 * S) <= r * K * (b2 * Q)).
    { replace (r * K * (b2 * Q)) with ((r * b2) * (K * Q)) by ring. rewrite Er.
      replace (b1 * S * (b1 * S)) with ((b1 * b1) * (S * S)) by ring.
      apply Rmult_le_compat_l; [apply Rle_0_sqr|assumption]. }
    nra.
Qed.

(*@ C18_adam_step_bound : With b1^2 < b2 no history can make the output of step t = n+1 larger in magnitude than (1-b1)/(1-b1^t) * sqrt((1-b2^t)/(1-b2)) * sqrt(sum_{k<t} (b1^2/b2)^k). *)
Lemma adam_bound : forall `{P : Platform} (b1 b2 eps eps_root : R),
  0 <= b1 < 1 -> 0 < b2 < 1 -> b1 * b1 < b2 -> 0 < eps -> 0 <= eps_root ->
  emits true (scale_by_adam (Fin b1) (Fin b2) (Fin eps) (Fin eps_root)) (fun g _ n y =>
    let t := satcount (S n) in
    exists r, y = Fin r /\
      Rabs r <= (1 - b1) / (1 - b1 ^ t) * sqrt ((1 - b2 ^ t) / (1 - b2)) * sqrt (sum_f_R0 (fun k => (b1 * b1 / b2) ^ k) n)).
Proof.
  intros P b1 b2 eps er H1 H2 H12 He Hr. eapply emits_impl; [|apply (adam_closed_form b1 b2 eps er H1 ltac:(lra) He Hr)].
  cbn beta. intros g q n y H t. cbn zeta in H. fold t in H. destruct H as [Hv ->].
  set (mhat := (1 - b1) * sum_f_R0 _ n / (1 - b1 ^ t)). set (vhat := (1 - b2) * sum_f_R0 _ n / (1 - b2 ^ t)) in *. eexists; split; [reflexivity|].
  pose proof (bc_pos b1 n H1) as B1. pose proof (bc_pos b2 n ltac:(lra)) as B2. fold t in B1, B2.
  fold (geo (b1 * b1 / b2) n). set (K := geo _ n).
  set (c := (1 - b1) / (1 - b1 ^ t)). assert (Hc : 0 < c) by (unfold c; apply Rdiv_lt_0_compat; lra).
  set (w := (1 - b2 ^ t) / (1 - b2)). assert (Hw : 0 < w) by (unfold w; apply Rdiv_lt_0_compat; lra).
  pose proof (cs_wsum b1 b2 g n ltac:(lra) ltac:(lra)) as CS. fold K in CS.
  assert (Em : mhat = c * wsum b1 g n) by (unfold mhat, c, wsum; field; lra).
  assert (Ev : wsum b2 (fun i => g i * g i) n = w * vhat) by (unfold vhat, w, wsum; field; lra).
  assert (HK : 1 <= K) by (apply geo_pos, Rdiv_nonneg; nra).
  assert (Hs : Rabs (wsum b1 g n) <= sqrt w * sqrt K * sqrt vhat).
  { rewrite <- sqrt_mult_alt by lra. rewrite <- sqrt_mult_alt by nra.
    rewrite <- sqrt_Rsqr_abs. apply sqrt_le_1_alt. unfold Rsqr. rewrite Ev in CS. nra. }
  assert (Hd : sqrt vhat <= sqrt (vhat + er)) by (apply sqrt_le_1_alt; lra).
  assert (0 <= sqrt w * sqrt K) by (apply Rmult_le_pos; apply sqrt_pos).
  pose proof (sqrt_pos vhat).
  unfold Rdiv at 1. rewrite Rabs_mult, Rabs_inv, (Rabs_right (sqrt _ + eps)) by lra.
  apply Rmult_le_reg_r with (sqrt (vhat + er) + eps); [lra|]. rewrite Rmult_assoc, Rinv_l, Rmult_1_r by lra.
  rewrite Em, Rabs_mult, (Rabs_right c) by lra.
  apply Rle_trans with (c * (sqrt w * sqrt K * sqrt vhat)); [apply Rmult_le_compat_l; lra|].
  rewrite Rmult_assoc with (r1 := c). rewrite (Rmult_assoc c). apply Rmult_le_compat_l; [lra|].
  apply Rmult_le_compat_l; lra.
Qed.

(*@ C18_adam_scale_invariance : With eps = eps_root = 0, multiplying an element's whole gradient history by c > 0 does not change what is emitted there (when some gradient so far was non-zero). *)
Lemma adam_scale_inv : forall `{P : Platform} (b1 b2 c : R) (p : tree tensor) H H',
  0 <= b1 < 1 -> 0 < b2 < 1 -> 0 < c ->
  trwf p -> hist_ok true p H -> hist_ok true p H' ->
  exists outs outs',
    trains (scale_by_adam (Fin b1) (Fin b2) (Fin 0) (Fin 0)) p H outs /\
    trains (scale_by_adam (Fin b1) (Fin b2) (Fin 0) (Fin 0)) p H' outs' /\
    forall n pos (g : nat -> R), (n < length H)%nat -> (n < length H')%nat ->
      (forall i, (i <= n)%nat -> helt H i pos = Some (Fin (g i))) ->
      (forall i, (i <= n)%nat -> helt H' i pos = Some (Fin (c * g i))) ->
      (exists i, (i <= n)%nat /\ g i <> 0) ->
      exists r, oelt outs n pos = Some (Fin r) /\ oelt outs' n pos = Some (Fin r).
Proof.
  intros P b1 b2 c p H H' H1 H2 Hc Wp HH HH'.
  destruct (refines_trains true _ _ (@refines_adam (XROps P) (Fin b1) (Fin b2) (Fin 0) (Fin 0)) p H Wp HH) as (outs & Ht & _ & _ & He).
  destruct (refines_trains true _ _ (@refines_adam (XROps P) (Fin b1) (Fin b2) (Fin 0) (Fin 0)) p H' Wp HH') as (outs' & Ht' & _ & _ & He').
  exists outs, outs'. split; [assumption|]. split; [assumption|].
  intros n pos g Hn Hn' Hg Hg' Hnz.
  destruct (He n pos (fun i => Fin (g i)) (fun _ => NaN) Hn Hg) as (x & _ & E); [discriminate|].
  destruct (He' n pos (fun i => Fin (c * g i)) (fun _ => NaN) Hn' Hg') as (x' & _ & E'); [discriminate|].
  assert (Hp : forall g', (exists i, (i <= n)%nat /\ g' i <> 0) -> 0 < wsum b2 (fun i => g' i * g' i) n).
  { clear - H2. intros g' (i & Hi & Hz). induction n as [|n IH].
    - replace i with 0%nat in Hz by lia. rewrite wsum_0. nra.
    - rewrite wsum_S. destruct (Nat.eq_dec i (S n)) as [->|].
      + assert (0 <= wsum b2 (fun i => g' i * g' i) n) by (apply wsum_nonneg; [lra|intros; apply Rle_0_sqr]).
        assert (0 < g' (S n) * g' (S n)) by nra. nra.
      + specialize (IH ltac:(lia)). pose proof (Rle_0_sqr (g' (S n))). unfold Rsqr in *. nra. }
  assert (Hvp : forall g', (exists i, (i <= n)%nat /\ g' i <> 0) ->
    0 < sqrt (ema_of b2 0 (fun i => g' i * g' i) n / (1 - b2 ^ satcount (S n)) + 0) + 0).
  { intros g' Hz. apply Hp in Hz. pose proof (bc_pos b2 n ltac:(lra)).
    rewrite !Rplus_0_r. apply sqrt_lt_R0, Rdiv_lt_0_compat; [|lra]. unfold ema_of. nra. }
  eexists. split.
  - rewrite E. f_equal. apply adam_out; try lra. apply Hvp; assumption.
  - rewrite E', adam_out; try lra.
    + f_equal. f_equal. rewrite !Rplus_0_r. unfold ema_of. rewrite !Rmult_0_r, !Rplus_0_l.
      rewrite (wsum_scal b1 c g).
      rewrite (wsum_ext b2 (fun i => c * g i * (c * g i)) (fun i => (c * c) * (g i * g i))) by (intros; ring).
      rewrite wsum_scal.
      pose proof (bc_pos b2 n ltac:(lra)). pose proof (bc_pos b1 n H1).
      replace ((1 - b2) * (c * c * wsum b2 (fun i => g i * g i) n) / (1 - b2 ^ satcount (S n)))
        with ((c * c) * ((1 - b2) * wsum b2 (fun i => g i * g i) n / (1 - b2 ^ satcount (S n)))) by (field; lra).
      rewrite sqrt_mult_alt by nra. rewrite sqrt_square by lra.
      set (s := sqrt _). assert (0 < s).
      { apply sqrt_lt_R0, Rdiv_lt_0_compat; [|lra]. apply Hp in Hnz. nra. }
      field. lra.
    + apply Hvp. destruct Hnz as (i & Hi & Hz). exists i. split; [assumption|]. nra.
Qed.

(*@ex C18_example *)
Lemma adam_bound_example : forall `{P : Platform},
  (exists outs, trains (scale_by_adam (Fin (9/10)) (Fin (999/1000)) (Fin (1/10)) (Fin 0)) (one (Fin 1)) (ones_hist [Fin 3; Fin 3; Fin (-5)]) outs /\
    oelt outs 1 (0%nat, 0%nat) = Some (Fin (30 / 31))) /\
  (exists outs r, trains (scale_by_adam (Fin (9/10)) (Fin (999/1000)) (Fin (1/10)) (Fin 0)) (one (Fin 1)) (ones_hist [Fin 3; Fin 3; Fin (-5)]) outs /\
    oelt outs 2 (0%nat, 0%nat) = Some (Fin r) /\
    Rabs r <= (1 - 9/10) / (1 - (9/10) ^ 3) * sqrt ((1 - (999/1000) ^ 3) / (1 - 999/1000)) * sqrt (sum_f_R0 (fun k => (9/10 * (9/10) / (999/1000)) ^ k) 2)).
Proof.
  intros P. set (l := [3; 3; -5]). assert (Hg : forall n i, (n < 3)%nat -> (i <= n)%nat -> helt (ones_hist [Fin 3; Fin 3; Fin (-5)]) i (0%nat, 0%nat) = Some (Fin (nth i l 0))).
  { intros n i Hn Hi. rewrite ones_elt. destruct i as [|[|[|i]]]; [reflexivity..|lia]. }
  split.
  - destruct (adam_constant (9/10) (999/1000) (1/10) ltac:(lra) ltac:(lra) ltac:(lra) (one (Fin 1)) (ones_hist [Fin 3; Fin 3; Fin (-5)]) (one_wf _) (ones_ok true _ _)) as (outs & Ht & _ & _ & He).
    exists outs. split; [exact Ht|]. destruct (He 1%nat (0%nat, 0%nat) (fun i => nth i l 0) (fun _ => 0)) as (y & -> & Hy); [cbn; lia|intros i Hi; now apply (Hg 1%nat); [lia|]|discriminate|].
    rewrite (Hy 3); [|lia|intros [|[|i]] Hi; [reflexivity..|lia]]. rewrite Rabs_right by lra. do 2 f_equal. field.
  - destruct (adam_bound (9/10) (999/1000) (1/10) 0 ltac:(lra) ltac:(lra) ltac:(lra) ltac:(lra) ltac:(lra) (one (Fin 1)) (ones_hist [Fin 3; Fin 3; Fin (-5)]) (one_wf _) (ones_ok true _ _)) as (outs & Ht & _ & _ & He).
    destruct (He 2%nat (0%nat, 0%nat) (fun i => nth i l 0) (fun _ => 0)) as (y & E & r & -> & Hr); [cbn; lia|intros i Hi; now apply (Hg 2%nat); [lia|]|discriminate|].
    exists outs, r. rewrite satcount_small in Hr by lia. auto.
Qed.

(** ** C19 *)
(*@ C19_belief_closed_form : The second moment averages the squared deviation of each gradient from the first moment BEFORE that gradient was absorbed (mu n is the average of the gradients 0..n-1, 0 initially). *)
Lemma belief_closed_form : forall `{P : Platform} (b1 b2 eps eps_root : R),
  0 <= b1 < 1 -> 0 <= b2 < 1 -> 0 < eps -> 0 <= eps_root ->
  emits true (scale_by_belief (Fin b1) (Fin b2) (Fin eps) (Fin eps_root)) (fun g _ n y =>
    let t := satcount (S n) in
    exists mu nu : nat -> R,
      mu 0%nat = 0 /\ (forall i, mu (S i) = b1 * mu i + (1 - b1) * g i) /\
      nu 0%nat = 0 /\ (forall i, nu (S i) = b2 * nu i + (1 - b2) * (g i - mu i) ^ 2) /\ 0 <= nu (S n) /\
      y = Fin ((mu (S n) / (1 - b1 ^ t)) / (sqrt (nu (S n) / (1 - b2 ^ t) + eps_root) + eps))).
Proof.
  intros P b1 b2 eps er H1 H2 He Hr. eapply refines_emits; [apply refines_belief|].
  intros d x g q n t.
  exists (prev 0 (ema_of b1 0 g)), (prev 0 (ema_of b2 0 (dev2 b1 g))).
  split; [reflexivity|]. split. { intros [|i]; cbn [prev]; [rewrite ema_of_0|rewrite ema_of_S]; ring. }
  split; [reflexivity|]. split.
  { intros [|i]; cbn [prev]; [rewrite ema_of_0|rewrite ema_of_S]; unfold dev2; cbn [prev]; ring. }
  assert (Hn : 0 <= ema_of b2 0 (dev2 b1 g) n) by (apply ema_nonneg; try lra; intros; apply Rle_0_sqr).
  split; [exact Hn|]. cbn [prev].
  rewrite belief_out; fold t; auto; try lra.
  pose proof (sqrt_pos (ema_of b2 0 (dev2 b1 g) n / (1 - b2 ^ t) + er)). lra.
Qed.

(*@ex C19_example *)
Lemma belief_example : forall `{P : Platform}, exists outs,
  trains (scale_by_belief (Fin (1/2)) (Fin (1/2)) (Fin 1) (Fin 0)) ex_p ex_H outs /\
  oelt outs 1 (0%nat, 1%nat) = Some (Fin ((5/3) / (sqrt (11/6) + 1))).
Proof.
  intros P. destruct (belief_closed_form (1/2) (1/2) 1 0 ltac:(lra) ltac:(lra) ltac:(lra) ltac:(lra) ex_p ex_H ex_p_wf (ex_H_ok true)) as (outs & Ht & _ & _ & He).
  exists outs. split; [exact Ht|].
  destruct (He 1%nat (0%nat, 1%nat) (fun i => INR (S i)) (fun _ => 0)) as (y & -> & mu & nu & M0 & MS & N0 & NS & _ & ->);
    [cbn; lia|intros i Hi; apply ex_H_elt; lia|discriminate|].
  rewrite satcount_small by lia. rewrite !NS, !MS, M0, N0. do 2 f_equal.
  apply f_equal2; [cbn; lra|]. apply f_equal2; [|lra]. apply f_equal. cbn. lra.
Qed.

(** ** C20 *)
(*@ C20_yogi_as_implemented : The second moment follows v' = b2 v + (1-b2) (sign(v - g^2) g^2)^2 and stays non-negative; both moments start at initial_accumulator_value. *)
Lemma yogi_closed_form : forall `{P : Platform} (b1 b2 eps eps_root v0 : R),
  0 <= b1 < 1 -> 0 <= b2 < 1 -> 0 < eps -> 0 <= eps_root -> 0 <= v0 ->
  emits true (scale_by_yogi (Fin b1) (Fin b2) (Fin eps) (Fin eps_root) (Fin v0)) (fun g _ n y =>
    let t := satcount (S n) in
    exists mu v : nat -> R,
      mu 0%nat = v0 /\ (forall i, mu (S i) = b1 * mu i + (1 - b1) * g i) /\
      v 0%nat = v0 /\
      (forall i, exists s, ((0 < v i - g i ^ 2 -> s = 1) /\ (v i - g i ^ 2 < 0 -> s = -1) /\ (v i - g i ^ 2 = 0 -> s = 0)) /\
                 v (S i) = b2 * v i + (1 - b2) * (s * g i ^ 2) ^ 2) /\
      (forall i, 0 <= v i) /\
      y = Fin ((mu (S n) / (1 - b1 ^ t)) / (sqrt (v (S n) / (1 - b2 ^ t) + eps_root) + eps))).
Proof.
  intros P b1 b2 eps er v0 H1 H2 He Hr Hv. eapply refines_emits; [apply refines_yogi|].
  intros d x g q n t.
  exists (prev v0 (ema_of b1 v0 g)), (prev v0 (yogi_nu b2 v0 g)).
  split; [reflexivity|]. split. { intros [|i]; cbn [prev]; [rewrite ema_of_0|rewrite ema_of_S]; ring. }
  split; [reflexivity|]. split.
  { intros i. exists (IZR (rsgn (prev v0 (yogi_nu b2 v0 g) i - g i * g i))).
    replace (g i ^ 2) with (g i * g i) by ring. split.
    - split; [intros; now rewrite rsgn_pos|]. split; [intros; now rewrite rsgn_neg|]. intros ->. now rewrite rsgn_0.
    - destruct i; cbn [prev yogi_nu]; ring. }
  split. { intros [|i]; cbn [prev]; [assumption|]. apply yogi_nu_nonneg; lra. }
  cbn [prev]. rewrite yogi_out; fold t; auto.
  pose proof (sqrt_pos (yogi_nu b2 v0 g n / (1 - b2 ^ t) + er)). lra.
Qed.

(*@ C20_yogi_is_not_the_papers_rule_refuted : With b1 = b2 = 0, eps = 1, v0 = 0 and first gradient 2 the paper's v - (1-b2) sign(v-g^2) g^2 = 4 would give 2/(2+1); the code emits 2/(4+1). *)
Lemma yogi_refuted : forall `{P : Platform}, exists outs,
  trains (scale_by_yogi (Fin 0) (Fin 0) (Fin 1) (Fin 0) (Fin 0)) (one (Fin 1)) (ones_hist [Fin 2]) outs /\
  oelt outs 0 (0%nat, 0%nat) = Some (Fin (2 / 5)) /\ 2 / 5 <> 2 / (sqrt 4 + 1).
Proof.
  intros P. destruct (ones_run _ _ (Fin 1) [Fin 2] (@refines_yogi (XROps P) (Fin 0) (Fin 0) (Fin 1) (Fin 0) (Fin 0))) as (outs & Ht & He).
  exists outs. split; [exact Ht|]. split.
  - rewrite (He 0%nat (fun _ => Fin 2) (fun _ => NaN)); [|cbn; lia|intros [|i] Hi; [reflexivity|lia]]. f_equal.
    rewrite (yogi_out P 0 0 1 0 0 F32 (Fin 1) (fun _ => 2) (fun _ => NaN) 0); try lra.
    + rewrite satcount_small by lia. rewrite ema_of_0. cbn [yogi_nu]. rewrite rsgn_neg by lra.
      f_equal. replace (((1 - 0) * (-1 * (2 * 2) * (-1 * (2 * 2))) + 0 * 0) / (1 - 0 ^ 1) + 0) with (4 * 4) by (cbn; field).
      rewrite sqrt_square by lra. cbn. field.
    + match goal with |- 0 < sqrt ?a + 1 => pose proof (sqrt_pos a) end. lra.
  - replace 4 with (2 * 2) by lra. rewrite sqrt_square by lra. lra.
Qed.

(*@ex C20_example *)
Lemma yogi_example : forall `{P : Platform}, exists outs,
  trains (scale_by_yogi (Fin 0) (Fin (1/2)) (Fin 1) (Fin 0) (Fin 0)) (one (Fin 1)) (ones_hist [Fin 2; Fin 1]) outs /\
  oelt outs 1 (0%nat, 0%nat) = Some (Fin (1 / (sqrt 6 + 1))).
Proof.
  intros P. destruct (yogi_closed_form 0 (1/2) 1 0 0 ltac:(lra) ltac:(lra) ltac:(lra) ltac:(lra) ltac:(lra) (one (Fin 1)) (ones_hist [Fin 2; Fin 1]) (one_wf _) (ones_ok true _ _)) as (outs & Ht & _ & _ & He).
  exists outs. split; [exact Ht|].
  destruct (He 1%nat (0%nat, 0%nat) (fun i => match i with 0%nat => 2 | _ => 1 end) (fun _ => 0)) as (y & -> & mu & v & M0 & MS & V0 & VS & _ & ->);
    [cbn; lia|intros i Hi; rewrite ones_elt; destruct i as [|[|i]]; [reflexivity..|lia]|discriminate|].
  rewrite satcount_small by lia. rewrite !MS, M0.
  destruct (VS 0%nat) as (s0 & (_ & B0 & _) & E0). destruct (VS 1%nat) as (s1 & (A1 & _) & E1).
  rewrite V0 in B0, E0. rewrite B0 in E0 by lra. rewrite E0 in A1, E1. rewrite A1 in E1 by lra. rewrite E1.
  do 2 f_equal. apply f_equal2; [cbn; lra|]. apply f_equal2; [|lra]. apply f_equal. cbn. lra.
Qed.

(** ** C21 *)
Definition radam_rho_inf (b2 : R) : R := 2 / (1 - b2) - 1.
Definition radam_rho (b2 : R) (t : nat) : R := radam_rho_inf b2 - 2 * INR t * b2 ^ t / (1 - b2 ^ t).
Definition radam_rect (b2 rho : R) : R :=
  let ri := radam_rho_inf b2 in sqrt (((rho - 4) * (rho - 2) * ri) / ((ri - 4) * (ri - 2) * rho)).

Lemma radam_rect_range b2 rho : 4 < rho -> rho <= radam_rho_inf b2 -> 0 <= radam_rect b2 rho <= 1 /\
  0 <= (rho - 4) * (rho - 2) * radam_rho_inf b2 /\ 0 < (radam_rho_inf b2 - 4) * (radam_rho_inf b2 - 2) * rho.
Proof.
  unfold radam_rect. set (b := radam_rho_inf b2). intros H1 H2.
  assert (Hn : 0 <= (rho - 4) * (rho - 2) * b) by (apply Rmult_le_pos; [apply Rmult_le_pos; lra|lra]).
  assert (Hd : 0 < (b - 4) * (b - 2) * rho) by (apply Rmult_lt_0_compat; [apply Rmult_lt_0_compat; lra|lra]).
  repeat split; auto; [apply sqrt_pos|].
  rewrite <- sqrt_1. apply sqrt_le_1_alt. apply Rmult_le_reg_r with ((b - 4) * (b - 2) * rho); [assumption|].
  unfold Rdiv. rewrite Rmult_assoc, Rinv_l, Rmult_1_r, Rmult_1_l by lra.
  assert (0 <= (b - rho) * (rho * b - 8)) by (apply Rmult_le_pos; nra). nra.
Qed.

Lemma radam_rho_le b2 t : 0 <= b2 < 1 -> (0 < t)%nat -> radam_rho b2 t <= radam_rho_inf b2.
Proof.
  intros Hb Ht. unfold radam_rho. pose proof (pow_lt_1 b2 t Hb Ht).
  assert (0 <= b2 ^ t) by (apply pow_le; lra). pose proof (pos_INR t).
  assert (0 <= 2 * INR t * b2 ^ t / (1 - b2 ^ t)) by (apply Rdiv_nonneg; [apply Rmult_le_pos; lra|lra]). lra.
Qed.

Lemma cnt_val n : (Z.of_nat n <= 2 ^ 31 - 1)%Z -> cnt n = Z.of_nat n.
Proof. Transparent cnt. intros H. unfold cnt. change int32_max with (2 ^ 31 - 1)%Z. lia. Opaque cnt. Qed.

Lemma xradam_ro `{P : Platform} b2 n : 0 <= b2 < 1 -> (Z.of_nat (S n) < 2 ^ 30)%Z ->
  radam_ro (Fin b2) (cnt (S n)) = Fin (radam_rho b2 (S n)).
Proof.
  intros Hb Hn. unfold radam_ro, radam_ro_inf. rewrite xpow_count, satcount_small by lia.
  rewrite (cnt_val (S n)) by lia. rewrite iwrap_small by (cbn -[Z.pow]; lia).
  unfold fofZ, fone. cbn [flit fcast fsub fdiv fmul XROps]. rewrite xpy1m.
  rewrite Q2R_Z, Q2R_1. replace (Q2R 2) with 2 by (unfold Q2R; cbn; lra).
  pose proof (pow_lt_1 b2 (S n) Hb ltac:(lia)).
  rewrite xdiv_fin by lra. rewrite !xsub_fin, xmul_fin, xdiv_fin by lra. rewrite xsub_fin.
  unfold radam_rho, radam_rho_inf. do 2 f_equal. rewrite mult_IZR, <- INR_IZR_INZ. reflexivity.
Qed.

Lemma xradam_r `{P : Platform} b2 rho : 0 <= b2 < 1 -> 4 < rho -> rho <= radam_rho_inf b2 ->
  radam_r (Fin b2) (Fin rho) = Fin (radam_rect b2 rho).
Proof.
  intros Hb H1 H2. unfold radam_r, radam_ro_inf, fone. cbn [flit fcast fsub fdiv fmul fsqrt XROps]. rewrite xpy1m.
  rewrite Q2R_1. replace (Q2R 2) with 2 by (unfold Q2R; cbn; lra). replace (Q2R 4) with 4 by (unfold Q2R; cbn; lra).
  rewrite xdiv_fin by lra. rewrite !xsub_fin. rewrite !xmul_fin. fold (radam_rho_inf b2).
  destruct (radam_rect_range b2 rho H1 H2) as (_ & Hn & Hd).
  rewrite xdiv_fin by lra. rewrite xsqrt_fin by (apply Rdiv_nonneg; lra). reflexivity.
Qed.

(*@ C21_radam_rectified : With rho_inf = 2/(1-b2)-1 and rho_t = rho_inf - 2 t b2^t/(1-b2^t) at step t = n+1 < 2^30: the output is the bias-corrected momentum while rho_t < threshold and otherwise r mhat/(sqrt(vhat+eps_root)+eps), r = sqrt(((rho-4)(rho-2)rho_inf)/((rho_inf-4)(rho_inf-2)rho)) being a real number in [0,1] whenever threshold > 4. *)
Lemma radam_closed_form : forall `{P : Platform} (b1 b2 eps eps_root threshold : R),
  0 <= b1 < 1 -> 0 <= b2 < 1 -> 0 < eps -> 0 <= eps_root -> 4 < threshold ->
  emits true (scale_by_radam (Fin b1) (Fin b2) (Fin eps) (Fin eps_root) (Fin threshold)) (fun g _ n y =>
    (Z.of_nat (S n) < 2 ^ 30)%Z ->
    let t := S n in
    let mhat := (1 - b1) * sum_f_R0 (fun i => b1 ^ (n - i) * g i) n / (1 - b1 ^ t) in
    let vhat := (1 - b2) * sum_f_R0 (fun i => b2 ^ (n - i) * (g i * g i)) n / (1 - b2 ^ t) in
    let rho_inf := 2 / (1 - b2) - 1 in
    let rho := rho_inf - 2 * INR t * b2 ^ t / (1 - b2 ^ t) in
    let r := sqrt (((rho - 4) * (rho - 2) * rho_inf) / ((rho_inf - 4) * (rho_inf - 2) * rho)) in
    (rho < threshold -> y = Fin mhat) /\
    (threshold <= rho -> 0 <= r <= 1 /\ y = Fin (r * mhat / (sqrt (vhat + eps_root) + eps)))).
Proof.
  intros P b1 b2 eps er th H1 H2 He Hr Hth. eapply refines_emits; [apply refines_radam|].
  intros d x g q n Hn t mhat vhat ri rho r.
  change rho with (radam_rho b2 (S n)) in *. change r with (radam_rect b2 (radam_rho b2 (S n))). clear rho r.
  assert (E1 : ema_of b1 0 g n / (1 - b1 ^ t) = mhat) by (unfold mhat, ema_of, wsum; f_equal; ring).
  assert (E2 : ema_of b2 0 (fun i => g i * g i) n / (1 - b2 ^ t) = vhat) by (unfold vhat, ema_of, wsum; f_equal; ring).
  assert (Hv : 0 <= vhat).
  { rewrite <- E2. pose proof (pow_lt_1 b2 t H2 ltac:(unfold t; lia)). apply Rdiv_nonneg; [|lra].
    apply ema_nonneg; try lra. intros; apply Rle_0_sqr. }
  unfold m_radam. rewrite f0.
  rewrite (adamlike_out P 0 _ b1 b2 _ d x g _ (ema_of b2 0 (fun i => g i * g i)) H1 H2) by (intros k; apply adam_nu; exact NaN).
  rewrite satcount_small by lia. unfold t in *. rewrite E1, E2.
  unfold e_radam. rewrite xradam_ro by assumption. cbn [fle fcast XROps]. split; intros Hrho.
  - apply xle_fin_f in Hrho. rewrite Hrho. reflexivity.
  - pose proof (radam_rho_le b2 (S n) H2 ltac:(lia)) as Hle.
    destruct (radam_rect_range b2 (radam_rho b2 (S n)) ltac:(lra) Hle) as (Hrr & _ & _). split; [exact Hrr|].
    pose proof (proj2 (xle_fin th (radam_rho b2 (S n))) Hrho) as ->.
    rewrite xradam_r by lra. cbn [fdiv fmul fadd fsqrt fcast XROps].
    rewrite xmul_fin, xadd_fin, xsqrt_fin by lra. rewrite xadd_fin, xdiv_fin; [reflexivity|].
    pose proof (sqrt_pos (vhat + er)). lra.
Qed.

(*@ C21_radam_beyond_2_30 : (finding) 2*count is computed in 32-bit integers: from step 2^30 on it wraps to a negative number, so rho_t = rho_inf + (2^32 - 2t) b2^t/(1-b2^t) lies above rho_inf and the rectification factor is at least 1 instead of at most 1 (t = n+1, at most 2^31-1). *)
Lemma radam_wrapped : forall `{P : Platform} (b1 b2 eps eps_root threshold : R),
  0 <= b1 < 1 -> 3 / 5 < b2 < 1 -> 0 < eps -> 0 <= eps_root ->
  emits true (scale_by_radam (Fin b1) (Fin b2) (Fin eps) (Fin eps_root) (Fin threshold)) (fun g _ n y =>
    (2 ^ 30 <= Z.of_nat (S n) <= 2 ^ 31 - 1)%Z ->
    let t := S n in
    let mhat := (1 - b1) * sum_f_R0 (fun i => b1 ^ (n - i) * g i) n / (1 - b1 ^ t) in
    let vhat := (1 - b2) * sum_f_R0 (fun i => b2 ^ (n - i) * (g i * g i)) n / (1 - b2 ^ t) in
    let rho_inf := 2 / (1 - b2) - 1 in
    let rho := rho_inf + (2 ^ 32 - 2 * INR t) * b2 ^ t / (1 - b2 ^ t) in
    let r := sqrt (((rho - 4) * (rho - 2) * rho_inf) / ((rho_inf - 4) * (rho_inf - 2) * rho)) in
    rho_inf <= rho /\ 1 <= r /\ (rho < threshold -> y = Fin mhat) /\
    (threshold <= rho -> y = Fin (r * mhat / (sqrt (vhat + eps_root) + eps)))).
Proof.
  intros P b1 b2 eps er th H1 H2 He Hr. eapply refines_emits; [apply refines_radam|].
  intros d x g q n Hn t mhat vhat ri rho r.
  pose proof (pow_lt_1 b2 t ltac:(lra) ltac:(unfold t; lia)) as Hb. assert (Hb0 : 0 <= b2 ^ t) by (apply pow_le; lra).
  assert (HT : INR t <= 2 ^ 31 - 1). { unfold t. rewrite INR_IZR_INZ. destruct Hn as (_ & Hn). apply IZR_le in Hn. rewrite minus_IZR in Hn. replace (2 ^ 31) with (IZR (2 ^ 31)) by (change (2 ^ 31)%Z with (2 ^ Z.of_nat 31)%Z; now rewrite <- pow_IZR). exact Hn. }
  assert (Hri : 4 < ri). { unfold ri. assert (5 < 2 / (1 - b2)); [|lra]. apply (Rmult_lt_reg_r (1 - b2)); [lra|]. unfold Rdiv. rewrite Rmult_assoc, Rinv_l by lra. lra. }
  assert (Hrho : ri <= rho).
  { unfold rho. assert (0 <= (2 ^ 32 - 2 * INR t) * b2 ^ t / (1 - b2 ^ t)); [|lra]. apply Rdiv_nonneg; [|lra]. apply Rmult_le_pos; [|exact Hb0].
    replace (2 ^ 32) with (2 * 2 ^ 31) by ring. lra. }
  assert (Hnum : 0 <= (rho - 4) * (rho - 2) * ri) by (apply Rmult_le_pos; [apply Rmult_le_pos; lra|lra]).
  assert (Hd : 0 < (ri - 4) * (ri - 2) * rho) by (apply Rmult_lt_0_compat; [apply Rmult_lt_0_compat; lra|lra]).
  assert (Hr1 : 1 <= r).
  { unfold r. rewrite <- sqrt_1 at 1. apply sqrt_le_1_alt. apply Rmult_le_reg_r with ((ri - 4) * (ri - 2) * rho); [assumption|].
    replace ((rho - 4) * (rho - 2) * ri / ((ri - 4) * (ri - 2) * rho) * ((ri - 4) * (ri - 2) * rho)) with ((rho - 4) * (rho - 2) * ri) by (field; lra).
    assert (0 <= (rho - ri) * (rho * ri - 8)) by (apply Rmult_le_pos; nra). nra. }
  split; [exact Hrho|]. split; [exact Hr1|].
  assert (E1 : ema_of b1 0 g n / (1 - b1 ^ t) = mhat) by (unfold mhat, ema_of, wsum; f_equal; ring).
  assert (E2 : ema_of b2 0 (fun i => g i * g i) n / (1 - b2 ^ t) = vhat) by (unfold vhat, ema_of, wsum; f_equal; ring).
  assert (Hv : 0 <= vhat).
  { rewrite <- E2. apply Rdiv_nonneg; [|lra]. apply ema_nonneg; try lra. intros; apply Rle_0_sqr. }
  unfold m_radam. rewrite f0.
  rewrite (adamlike_out P 0 _ b1 b2 _ d x g _ (ema_of b2 0 (fun i => g i * g i)) H1 ltac:(lra)) by (intros k; apply adam_nu; exact NaN).
  rewrite satcount_small by lia. unfold t in *. rewrite E1, E2.
  assert (Ero : radam_ro (Fin b2) (cnt (S n)) = Fin rho).
  { unfold radam_ro, radam_ro_inf. rewrite xpow_count, satcount_small by lia. rewrite (cnt_val (S n)) by lia.
    assert (Ew : iwrap I32 (2 * Z.of_nat (S n)) = (2 * Z.of_nat (S n) - 2 ^ 32)%Z).
    { unfold iwrap. change (ibits I32) with 32%Z. cbv zeta.
      rewrite (Z.mod_eq _ (2 ^ 32)) by lia. replace ((2 * Z.of_nat (S n) + 2 ^ (32 - 1)) / 2 ^ 32)%Z with 1%Z; [lia|].
      apply (Z.div_unique _ _ _ (2 * Z.of_nat (S n) + 2 ^ (32 - 1) - 2 ^ 32)); lia. }
    rewrite Ew. unfold fofZ, fone. cbn [flit fcast fsub fdiv fmul XROps]. rewrite xpy1m.
    rewrite Q2R_Z, Q2R_1. replace (Q2R 2) with 2 by (unfold Q2R; cbn; lra).
    rewrite xdiv_fin by lra. rewrite !xsub_fin, xmul_fin, xdiv_fin by lra. rewrite xsub_fin.
    unfold rho, ri. f_equal. rewrite minus_IZR, mult_IZR, <- INR_IZR_INZ. replace (IZR (2 ^ 32)) with (2 ^ 32) by (change (2 ^ 32)%Z with (2 ^ Z.of_nat 32)%Z; now rewrite <- pow_IZR). field. lra. }
  unfold e_radam. rewrite Ero. cbn [fle fcast XROps]. split; intros Hth.
  - apply xle_fin_f in Hth. rewrite Hth. reflexivity.
  - pose proof (proj2 (xle_fin th rho) Hth) as ->.
    assert (Er : radam_r (Fin b2) (Fin rho) = Fin r).
    { unfold radam_r, radam_ro_inf, fone. cbn [flit fcast fsub fdiv fmul fsqrt XROps]. rewrite xpy1m.
      rewrite Q2R_1. replace (Q2R 2) with 2 by (unfold Q2R; cbn; lra). replace (Q2R 4) with 4 by (unfold Q2R; cbn; lra).
      rewrite xdiv_fin by lra. rewrite !xsub_fin. rewrite !xmul_fin. fold ri. rewrite xdiv_fin by lra. rewrite xsqrt_fin by (apply Rdiv_nonneg; lra). reflexivity. }
    rewrite Er. cbn [fdiv fmul fadd fsqrt fcast XROps].
    rewrite xmul_fin, xadd_fin, xsqrt_fin by lra. rewrite xadd_fin, xdiv_fin; [reflexivity|].
    pose proof (sqrt_pos (vhat + er)). lra.
Qed.
(*@ex C21_example *)
Lemma radam_example : forall `{P : Platform}, exists outs r,
  trains (scale_by_radam (Fin 0) (Fin (9/10)) (Fin 1) (Fin 0) (Fin 5)) (one (Fin 1)) (ones_hist (repeat (Fin 1) 10)) outs /\
  oelt outs 0 (0%nat, 0%nat) = Some (Fin 1) /\ oelt outs 9 (0%nat, 0%nat) = Some (Fin r) /\ 0 <= r <= / 2.
Proof.
  intros P.
  destruct (radam_closed_form 0 (9/10) 1 0 5 ltac:(lra) ltac:(lra) ltac:(lra) ltac:(lra) ltac:(lra) (one (Fin 1)) (ones_hist (repeat (Fin 1) 10)) (one_wf _) (ones_ok true _ _)) as (outs & Ht & _ & _ & He).
  assert (Hg : forall n i, (n < 10)%nat -> (i <= n)%nat -> helt (ones_hist (repeat (Fin 1) 10)) i (0%nat, 0%nat) = Some (Fin 1)).
  { intros n i Hn Hi. rewrite ones_elt. do 10 (destruct i as [|i]; [reflexivity|]). lia. }
  destruct (He 0%nat (0%nat, 0%nat) (fun _ => 1) (fun _ => 0)) as (y & E0 & H0); [cbn; lia|intros i Hi; apply (Hg 0%nat); lia|discriminate|].
  destruct (He 9%nat (0%nat, 0%nat) (fun _ => 1) (fun _ => 0)) as (y' & E9 & H9); [cbn; lia|intros i Hi; apply (Hg 9%nat); lia|discriminate|].
  destruct (H0 ltac:(lia)) as (A & _). destruct (H9 ltac:(lia)) as (_ & B).
  rewrite A in E0 by (cbn; lra). destruct B as (Hr & B); [cbn; lra|]. rewrite B in E9.
  eexists outs, _. split; [exact Ht|]. split; [rewrite E0; do 2 f_equal; cbn; lra|]. split; [exact E9|].
  match type of Hr with 0 <= ?q <= 1 => set (r := q) in * end.
  replace (sqrt _ + 1) with 2; [cbn; lra|]. replace (_ + 0) with 1 by (cbn; field). rewrite sqrt_1. lra.
Qed.

(** ** C22 *)
(*@ C22_scale : scale(s) multiplies every element by s (cast to the leaf's dtype), in every arithmetic and dtype; it keeps structure, shapes, dtypes and state and ignores params. *)
Lemma scale_spec : forall `{O : Ops} (s : F) (u : tree tensor) (st : state) par, trwf u ->
  exists u', update (scale s) u st par = Ok (u', st) /\ like u u' /\
    forall pos x, elt u pos = Some x -> let d := leafdt u pos in elt u' pos = Some (fmul d (fcast d s) x).
Proof.
  intros O s u st par W. exists (emapt (fun d x => fmul d (fcast d s) x) u). split; [reflexivity|]. split.
  - split; [apply emapt_avals|now apply emapt_wf].
  - intros pos x Hx d. unfold d. rewrite elt_emapt, Hx. reflexivity.
Qed.

(*@ C22_scale_by_schedule : For every schedule, history and arithmetic, the n-th call (n from 0) multiplies by the schedule at count n, saturating at 2^31-1: the schedule is evaluated at 0, 1, 2, ... in order. *)
Lemma schedule_spec : forall `{O : Ops} (f : Z -> F) (p : tree tensor) H,
  trwf p -> hist_ok true p H ->
  exists outs, trains (scale_by_schedule f) p H outs /\ length outs = length H /\ Forall (like p) outs /\
    forall n pos (gs : nat -> F), (n < length H)%nat ->
      (forall i, (i <= n)%nat -> helt H i pos = Some (gs i)) ->
      let d := leafdt p pos in
      oelt outs n pos = Some (fmul d (fcast d (f (Z.min (Z.of_nat n) (2 ^ 31 - 1)))) (gs n)).
Proof.
  intros O f p H Wp HH. destruct (refines_trains true _ _ (refines_schedule f) p H Wp HH) as (outs & Ht & Hl & Ho & He).
  exists outs. repeat split; auto. intros n pos gs Hn Hg d.
  destruct (He n pos gs (fun _ => fzero) Hn Hg) as (x & _ & ->); [discriminate|]. reflexivity.
Qed.

(*@ex C22_example *)
Lemma schedule_example : forall `{P : Platform}, exists outs,
  trains (scale_by_schedule (fun c => Fin (IZR c * 10))) ex_p ex_H outs /\ oelt outs 2 (0%nat, 1%nat) = Some (Fin 60).
Proof.
  intros P. destruct (@schedule_spec (XROps P) (fun c => Fin (IZR c * 10)) ex_p ex_H ex_p_wf (ex_H_ok true)) as (outs & Ht & _ & _ & He).
  exists outs. split; [exact Ht|].
  rewrite (He 2%nat (0%nat, 1%nat) (fun i => Fin (INR (S i)))); [|cbn; lia|exact (fun i => ex_H_elt i)].
  cbn. do 2 f_equal. rewrite Z.min_l by lia. lra.
Qed.

(** ** C23 *)
(*@ C23_add_decayed_weights : With params shaped like the updates, every element becomes g + weight_decay * p in the leaf's dtype; structure, shapes and dtypes are kept; no state. *)
Lemma wd_spec : forall `{O : Ops} (wd : F) (u p : tree tensor) (st : state),
  avals u = avals p -> trwf u -> trwf p ->
  exists u', update (add_decayed_weights wd) u st (Some p) = Ok (u', st) /\ like p u' /\
    forall pos g q, elt u pos = Some g -> elt p pos = Some q ->
      let d := leafdt p pos in elt u' pos = Some (fadd d g (fmul d (fcast d wd) q)).
Proof.
  intros O wd u p st E Wu Wp. destruct (tree_gzip u p E Wu Wp) as (W & HW & WW & E1 & E2). subst.
  cbn [update add_decayed_weights stateless].
  erewrite tmm2_ew by (intros; rewrite sl_emap, bin_emap; reflexivity). cbn [rbind].
  eexists; split; [reflexivity|]. split; [split; [now rewrite !emapt_avals|now apply emapt_wf]|].
  intros pos g q. rewrite !elt_emapt. destruct (elt W pos) as [[a b]|]; cbn; [|discriminate].
  intros [= ->] [= ->]. now rewrite (leafdt_avals W (emapt (fun _ => snd) W) pos) by now rewrite emapt_avals.
Qed.

(*@ C23_add_decayed_weights_needs_params : Without params it raises ValueError, whatever the updates and state. *)
Lemma wd_none : forall `{O : Ops} (wd : F) u st, update (add_decayed_weights wd) u st None = Err EValue.
Proof. reflexivity. Qed.

(*@ex C23_example *)
Lemma wd_example : forall `{P : Platform}, exists u', update (add_decayed_weights (Fin (1/10))) (ex_g 2) EmptyState (Some ex_p) = Ok (u', EmptyState) /\
  elt u' (1%nat, 3%nat) = Some (Fin (34/10)).
Proof.
  intros P. destruct (@wd_spec (XROps P) (Fin (1/10)) (ex_g 2) ex_p EmptyState eq_refl (ex_g_wf 2) ex_p_wf) as (u' & E & _ & He).
  exists u'. split; [exact E|]. rewrite (He (1%nat, 3%nat) (Fin 4) (Fin (-6))); [cbn; do 2 f_equal; lra|cbn; do 2 f_equal; lra|reflexivity].
Qed.

(** ** C26 *)
Lemma mod_S n k : (0 < k)%nat -> (S n mod k = if S (n mod k) =? k then 0 else S (n mod k))%nat.
Proof.
  intros Hk. pose proof (Nat.mod_upper_bound n k ltac:(lia)). pose proof (Nat.div_mod n k ltac:(lia)).
  destruct (Nat.eqb_spec (S (n mod k)) k) as [E|E].
  - symmetry. apply (Nat.mod_unique (S n) k (S (n / k))); nia.
  - symmetry. apply (Nat.mod_unique (S n) k (n / k)); lia.
Qed.

Definition blk (k : nat) (g : nat -> R) (n : nat) : R := sum_f_R0 (fun j => g (n - n mod k + j)%nat) (n mod k).
Lemma blk_S k g n : (0 < k)%nat -> blk k g (S n) = (if S n mod k =? 0 then 0 else blk k g n) + g (S n).
Proof.
  intros Hk. pose proof (mod_S n k Hk) as E. pose proof (Nat.mod_le n k ltac:(lia)). unfold blk.
  destruct (Nat.eqb_spec (S (n mod k)) k) as [Ek|Ek]; rewrite E; cbn [Nat.eqb].
  - cbn [sum_f_R0]. rewrite Nat.sub_0_r, Nat.add_0_r. ring.
  - cbn [sum_f_R0]. replace (S n - S (n mod k))%nat with (n - n mod k)%nat by lia.
    replace (n - n mod k + S (n mod k))%nat with (S n) by lia. reflexivity.
Qed.

Lemma Zmod_nat n k : (0 < k)%nat -> (Z.of_nat n mod Z.of_nat k)%Z = Z.of_nat (n mod k).
Proof. intros. now rewrite Nat2Z.inj_mod. Qed.

Lemma every_state `{P : Platform} k d x g ps n : (0 < k)%nat ->
  mst (m_every (Z.of_nat k)) d x (fun i => Fin (g i)) ps (S n) = Fin (blk k g n).
Proof.
  intros Hk. induction n as [|n IH].
  - cbn [mst]. unfold m_every; cbn [m_init m_step snd]. rewrite Zmod_nat, Nat.mod_0_l by lia. cbn [Z.eqb negb b2f Z.of_nat].
    rewrite f0. cbn [fcast fadd fmul XROps]. rewrite xmul_fin, xadd_fin. f_equal. unfold blk. rewrite Nat.mod_0_l by lia. cbn. ring.
  - cbn [mst]. cbn [mst] in IH. rewrite IH. unfold m_every; cbn [m_step snd]. rewrite Zmod_nat by lia.
    rewrite blk_S by assumption. change (Z.of_nat (S n mod k) =? 0)%Z with (Z.of_nat (S n mod k) =? Z.of_nat 0)%Z.
    replace (Z.of_nat (S n mod k) =? Z.of_nat 0)%Z with (S n mod k =? 0) by (destruct (Nat.eqb_spec (S n mod k) 0), (Z.eqb_spec (Z.of_nat (S n mod k)) (Z.of_nat 0)); lia).
    cbn [fcast fadd fmul XROps]. destruct (S n mod k =? 0); cbn [negb b2f]; rewrite ?f0, ?f1, xmul_fin, xadd_fin; f_equal; ring.
Qed.

(*@ C26_apply_every : For k between 1 and 2^31-1 and finite gradients: at calls k, 2k, 3k, ... the output is the sum of exactly the last k gradients, at all other calls it is 0. *)
Lemma every_spec : forall `{P : Platform} (k : nat), (1 <= Z.of_nat k <= 2 ^ 31 - 1)%Z ->
  emits true (apply_every (Z.of_nat k)) (fun g _ n y =>
    (S n mod k = 0 -> y = Fin (sum_f_R0 (fun j => g (S n - k + j)%nat) (k - 1)))%nat /\
    (S n mod k <> 0 -> y = Fin 0)%nat).
Proof.
  intros P k Hk. eapply refines_emits; [apply refines_every; exact Hk|]. intros d x g q n.
  assert (0 < k)%nat by lia.
  assert (E : mout (m_every (Z.of_nat k)) d x (fun i => Fin (g i)) (fun i => Fin (q i)) n =
              Fin (if (n mod k =? k - 1)%nat then blk k g n else 0)).
  { pose proof (every_state k d x g (fun i => Fin (q i)) n ltac:(lia)) as HS. cbn [mst] in HS.
    unfold mout. unfold m_every in *; cbn [m_step fst snd] in *. rewrite HS. rewrite Zmod_nat by lia.
    replace (Z.of_nat (n mod k) =? Z.of_nat k - 1)%Z with (n mod k =? k - 1)%nat
      by (destruct (Nat.eqb_spec (n mod k) (k - 1)), (Z.eqb_spec (Z.of_nat (n mod k)) (Z.of_nat k - 1)); lia).
    destruct (n mod k =? k - 1)%nat; cbn [b2f]; rewrite ?f0, ?f1; cbn [fmul fcast XROps]; rewrite xmul_fin; f_equal; ring. }
  rewrite E. pose proof (mod_S n k ltac:(lia)) as Em. pose proof (Nat.mod_upper_bound n k ltac:(lia)).
  pose proof (Nat.mod_le n k ltac:(lia)).
  split; intros Hm; rewrite Em in Hm; destruct (Nat.eqb_spec (S (n mod k)) k); try lia.
  - replace (n mod k =? k - 1)%nat with true by (symmetry; apply Nat.eqb_eq; lia). f_equal. unfold blk.
    replace (n mod k) with (k - 1)%nat by lia. apply sum_eq. intros i Hi. f_equal. lia.
  - replace (n mod k =? k - 1)%nat with false by (symmetry; apply Nat.eqb_neq; lia). reflexivity.
Qed.

(** Totals. *)
Fixpoint rsumn (f : nat -> R) (n : nat) : R := match n with O => 0 | S m => rsumn f m + f m end.
Lemma rsumn_split f a b : rsumn f (a + b) = rsumn f a + rsumn (fun j => f (a + j)%nat) b.
Proof.
  induction b as [|b IH]; [rewrite Nat.add_0_r; cbn; ring|]. rewrite Nat.add_succ_r. cbn [rsumn]. rewrite IH. ring.
Qed.
Lemma rsumn_ext f g n : (forall i, (i < n)%nat -> f i = g i) -> rsumn f n = rsumn g n.
Proof. induction n as [|n IH]; intros H; cbn; [reflexivity|]. rewrite IH, H by auto. reflexivity. Qed.
Lemma rsumn_zero n : rsumn (fun _ => 0) n = 0.
Proof. induction n as [|n IH]; cbn; [reflexivity|]. rewrite IH. ring. Qed.
Lemma rsumn_sum_f f n : rsumn f (S n) = sum_f_R0 f n.
Proof. induction n as [|n IH]; [cbn; ring|]. cbn [sum_f_R0]. rewrite <- IH. reflexivity. Qed.

(*@ C26_apply_every_total : Nothing is lost or counted twice: over the first m*k calls the emitted values add up to the received gradients. *)
Lemma every_total : forall `{P : Platform} (k m : nat) (p : tree tensor) H,
  (1 <= Z.of_nat k <= 2 ^ 31 - 1)%Z -> trwf p -> hist_ok true p H -> (m * k <= length H)%nat ->
  exists outs, trains (apply_every (Z.of_nat k)) p H outs /\
    forall pos (g : nat -> R), (forall i, (i < m * k)%nat -> helt H i pos = Some (Fin (g i))) ->
    exists ys : nat -> R, (forall i, (i < m * k)%nat -> oelt outs i pos = Some (Fin (ys i))) /\
      rsumn ys (m * k) = rsumn g (m * k).
Proof.
  intros P k m p H Hk Wp HH Hm. destruct (every_spec k Hk p H Wp HH) as (outs & Ht & Hl & _ & He).
  exists outs. split; [exact Ht|]. intros pos g Hg.
  set (ys := fun n => if (S n mod k =? 0)%nat then sum_f_R0 (fun j => g (S n - k + j)%nat) (k - 1) else 0).
  exists ys. split.
  - intros i Hi. destruct (He i pos g (fun _ => 0)) as (y & -> & H1 & H2); [lia|intros; apply Hg; lia|discriminate|].
    f_equal. unfold ys. destruct (Nat.eqb_spec (S i mod k) 0); auto.
  - clear - Hk. induction m as [|m IH]; [reflexivity|].
    replace (S m * k)%nat with (m * k + k)%nat by lia. rewrite !rsumn_split, IH. f_equal.
    destruct k as [|k]; [lia|]. cbn [rsumn].
    rewrite (rsumn_ext _ (fun _ => 0)), rsumn_zero.
    + unfold ys. replace (S (m * S k + k)) with (0 + (m + 1) * S k)%nat by lia.
      rewrite Nat.mod_add, Nat.mod_0_l by lia. cbn [Nat.eqb].
      replace (0 + (m + 1) * S k - S k)%nat with (m * S k)%nat by lia.
      replace (S k - 1)%nat with k by lia. rewrite <- rsumn_sum_f. cbn [rsumn]. ring.
    + intros i Hi. unfold ys. replace (S (m * S k + i)) with (S i + m * S k)%nat by lia.
      rewrite Nat.mod_add by lia. rewrite Nat.mod_small by lia. reflexivity.
Qed.

Lemma xmul_nan_r x : xmul x NaN = NaN. Proof. destruct x as [r| | |]; cbn; try reflexivity. Qed.
Lemma xmul_nan_l x : xmul NaN x = NaN. Proof. destruct x; reflexivity. Qed.
Lemma xadd_nan_l x : xadd NaN x = NaN. Proof. destruct x; reflexivity. Qed.
Lemma xadd_nan_r x : xadd x NaN = NaN. Proof. destruct x; reflexivity. Qed.

(*@ C26_apply_every_nan_never_clears_refuted : The zero is not guaranteed for non-finite gradients: once an element has received one NaN, every later output there is NaN, at emitting and at non-emitting calls, for ever. *)
Lemma every_nan : forall `{P : Platform} (k : Z) (p : tree tensor) H, (1 <= k <= 2 ^ 31 - 1)%Z ->
  trwf p -> hist_ok true p H ->
  exists outs, trains (apply_every k) p H outs /\
    forall n m pos (gs : nat -> XR), (n < length H)%nat -> (m <= n)%nat ->
      (forall i, (i <= n)%nat -> helt H i pos = Some (gs i)) -> gs m = NaN -> oelt outs n pos = Some NaN.
Proof.
  intros P k p H Hk Wp HH.
  destruct (refines_trains true _ _ (@refines_every (XROps P) k Hk) p H Wp HH) as (outs & Ht & _ & _ & He).
  exists outs. split; [exact Ht|]. intros n m pos gs Hn Hm Hg Hnan.
  destruct (He n pos gs (fun _ => NaN) Hn Hg) as (x & _ & ->); [discriminate|]. f_equal.
  set (d := leafdt p pos). set (M := m_every k).
  assert (HS : forall j, (m <= j)%nat -> mst M d x gs (fun _ => NaN) (S j) = NaN).
  { intros j Hj. induction Hj as [|j Hj IH]; cbn [mst].
    - unfold M, m_every; cbn [m_step snd]. rewrite Hnan. cbn [fadd XROps]. apply xadd_nan_r.
    - cbn [mst] in IH. rewrite IH. unfold M, m_every; cbn [m_step snd fadd fmul XROps].
      rewrite xmul_nan_r. apply xadd_nan_l. }
  specialize (HS n Hm). cbn [mst] in HS. unfold mout. unfold M, m_every in *; cbn [m_step fst snd] in *.
  rewrite HS. apply xmul_nan_r.
Qed.

(*@ex C26_example *)
Lemma every_example : forall `{P : Platform}, exists outs,
  trains (apply_every 2) ex_p ex_H outs /\ oelt outs 1 (0%nat, 1%nat) = Some (Fin 3) /\ oelt outs 2 (0%nat, 1%nat) = Some (Fin 0).
Proof.
  intros P. destruct (every_spec 2 ltac:(lia) ex_p ex_H ex_p_wf (ex_H_ok true)) as (outs & Ht & _ & _ & He).
  exists outs. split; [exact Ht|]. split.
  - destruct (He 1%nat (0%nat, 1%nat) (fun i => INR (S i)) (fun _ => 0)) as (y & -> & H1 & _);
      [cbn; lia|intros i Hi; apply ex_H_elt; lia|discriminate|]. rewrite H1 by reflexivity. do 2 f_equal; cbn; lra.
  - destruct (He 2%nat (0%nat, 1%nat) (fun i => INR (S i)) (fun _ => 0)) as (y & -> & _ & H1);
      [cbn; lia|intros i Hi; apply ex_H_elt; lia|discriminate|]. now rewrite H1.
Qed.
