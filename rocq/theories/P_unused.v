(** Parameters whose gradient is zero: which optimisers leave them alone, which keep moving them (C104). *)
From Verif Require Export P_budget.
From Coq Require Import List Psatz Reals Qreals.
Import ListNotations.
Open Scope R_scope.
(*@header
From Coq Require Import List Reals ZArith.
Import ListNotations.
Open Scope R_scope.
*)

(** ** Specification *)
(** Training any parameters p on any gradients gs (both of any values, NaN included) with T does not raise; and at every position where the parameter starts at a number and the first N gradients (N within the given limit) are numbers g 0 .. g (N-1), whatever happens at all other positions, the parameter takes values q 0 .. q N which satisfy Q g N q. *)
Definition element_path_upto `{P : Platform} (lim : nat -> Prop) (T : GT) (Q : (nat -> R) -> nat -> (nat -> R) -> Prop) : Prop :=
  forall (p : tree tensor) (gs : list (tree tensor)), trwf p -> Forall (like p) gs ->
  exists s0 qs sf, init T p = Ok s0 /\ train_loop T s0 p gs = Ok (qs, sf) /\ length qs = length gs /\
    forall pos x (g : nat -> R) N, (N <= length gs)%nat -> lim N -> elt p pos = Some (Fin x) -> (forall i, (i < N)%nat -> oelt gs i pos = Some (Fin (g i))) ->
      exists q : nat -> R, (forall k, (k <= N)%nat -> oelt (p :: qs) k pos = Some (Fin (q k))) /\ Q g N q.
Definition element_path `{P : Platform} := element_path_upto (fun _ => True).
(** The gradient is zero from step M on. *)
Definition zero_from (M N : nat) (g : nat -> R) : Prop := forall i, (M <= i < N)%nat -> g i = 0.
(** From step M on the parameter does not change any more. *)
Definition rests_from (M N : nat) (q : nat -> R) : Prop := forall k, (M <= k <= N)%nat -> q k = q M.

(** ** Proofs *)
Fixpoint traj (F : (nat -> R) -> R -> nat -> R) (g : nat -> R) (x : R) (n : nat) : R := match n with O => x | S k => traj F g x k + F g (traj F g x k) k end.
Lemma emits_path `{P : Platform} np T (lim : nat -> Prop) F : (forall n m, (n <= m)%nat -> lim m -> lim n) -> emits np T (fun g q n y => lim (S n) -> y = Fin (F g (q n) n)) ->
  element_path_upto lim T (fun g N q => forall k, (k < N)%nat -> q (S k) = q k + F g (q k) k).
Proof.
  intros HC HE p gs Wp Hgs. destruct (emits_loop np T _ HE p gs Wp Hgs) as (s0 & qs & sf & Ei & El & Hl & Hq & Hn). exists s0, qs, sf. split; [exact Ei|]. split; [exact El|]. split; [exact Hl|].
  intros pos x g N HN HlN Hx Hg. exists (traj F g x). split; [|intros k _; reflexivity].
  intros k. induction k as [k IH] using lt_wf_ind. intros Hk. destruct k as [|k]; [exact Hx|]. destruct (Hn pos k g (traj F g x)) as (y & Hy & Ey); [lia|intros; apply Hg; lia|intros i Hi; apply IH; lia|]. rewrite Ey, Hy, xadd_fin; [reflexivity|]. eapply HC; [|exact HlN]. lia.
Qed.
Lemma emits_path' `{P : Platform} np T F : emits np T (fun g q n y => y = Fin (F g (q n) n)) -> element_path T (fun g N q => forall k, (k < N)%nat -> q (S k) = q k + F g (q k) k).
Proof. intros HE. apply (emits_path np T (fun _ => True) F); [auto|]. eapply emits_impl; [|exact HE]. cbn beta. auto. Qed.
Lemma path_impl `{P : Platform} (lim : nat -> Prop) T (Q Q' : (nat -> R) -> nat -> (nat -> R) -> Prop) : (forall g N q, lim N -> Q g N q -> Q' g N q) -> element_path_upto lim T Q -> element_path_upto lim T Q'.
Proof.
  intros HQ H p gs Wp Hgs. destruct (H p gs Wp Hgs) as (s0 & qs & sf & Ei & El & Hl & Hn). exists s0, qs, sf. split; [exact Ei|]. split; [exact El|]. split; [exact Hl|].
  intros pos x g N HN HlN Hx Hg. destruct (Hn pos x g N HN HlN Hx Hg) as (q & Hq & HQq). exists q. split; [exact Hq|]. now apply HQ.
Qed.
Lemma rests (F : (nat -> R) -> R -> nat -> R) g M N q : (forall k, (k < N)%nat -> q (S k) = q k + F g (q k) k) -> (forall k, (M <= k < N)%nat -> F g (q k) k = 0) -> rests_from M N q.
Proof.
  intros HS H0 k Hk. replace k with (M + (k - M))%nat by lia. assert (Hk' : (M + (k - M) <= N)%nat) by lia. revert Hk'. generalize (k - M)%nat as j. clear k Hk. intros j. induction j as [|j IH]; intros Hj; [f_equal; lia|].
  replace (M + S j)%nat with (S (M + j)) by lia. rewrite HS, H0, IH by lia. ring.
Qed.
Lemma wsum0 b (g : nat -> R) n : (forall i, (i <= n)%nat -> g i = 0) -> sum_f_R0 (fun i => b ^ (n - i) * g i) n = 0.
Proof. intros H. rewrite (sum_eq _ (fun _ => 0)) by (intros i Hi; rewrite H by lia; ring). rewrite sum_cte. ring. Qed.
Lemma momentum0 m nest g n : (forall i, (i <= n)%nat -> g i = 0) -> momentum_of m nest g n = 0.
Proof. intros H. unfold momentum_of. destruct m as [b|]; [|now apply H]. rewrite wsum0, (H n) by (auto; lia). destruct nest; ring. Qed.
Lemma ema0 b f n : (forall i, (i < n)%nat -> f i = 0) -> ema_seq b 0 f n = 0.
Proof. induction n as [|n IH]; intros H; cbn [ema_seq]; [reflexivity|]. rewrite IH, H by auto with arith. ring. Qed.

(*@ C104_unused : A parameter whose gradient is 0 at every step (a never-used embedding row, a masked-out weight) keeps its value exactly, through any number of steps and whatever the other gradients are (NaN included), under sgd (with or without momentum), adam, adabelief, adagrad, rmsprop (centered or not, with or without momentum) and radam (fewer than 2^30 steps), with any fixed or scheduled learning rate; eps > 0. *)
Lemma unused_kept : forall `{P : Platform} (L : lrate) (lr : Z -> R) (b1 b2 eps er th a0 : R) (m : option R) (nest centered : bool), (forall c, rate L c = Fin (lr c)) -> 0 <= b1 < 1 -> 0 <= b2 < 1 -> 0 < eps -> 0 <= er -> 4 < th -> 0 <= a0 ->
  let keeps := fun g N q => zero_from 0 N g -> rests_from 0 N q in
  (exists T, sgd L (option_map Fin m) nest = Ok T /\ element_path T keeps) /\
  (exists T, adam L (Fin b1) (Fin b2) (Fin eps) (Fin er) = Ok T /\ element_path T keeps) /\
  (exists T, adabelief L (Fin b1) (Fin b2) (Fin eps) = Ok T /\ element_path T keeps) /\
  (exists T, adagrad L (Fin a0) (Fin eps) = Ok T /\ element_path T keeps) /\
  (exists T, rmsprop L (Fin b2) (Fin eps) (Fin a0) centered (option_map Fin m) nest = Ok T /\ element_path T keeps) /\
  (exists T, radam L (Fin b1) (Fin b2) (Fin eps) (Fin er) (Fin th) = Ok T /\ element_path_upto (fun N => (Z.of_nat N < 2 ^ 30)%Z) T keeps).
Proof.
  intros P L lr b1 b2 eps er th a0 m nest ce HL H1 H2 He Hr Ht Ha keeps.
  assert (K : forall lim T F, element_path_upto lim T (fun g N q => forall k, (k < N)%nat -> q (S k) = q k + F g (q k) k) -> (forall g x n, (forall i, (i <= n)%nat -> g i = 0) -> F g x n = 0) -> element_path_upto lim T keeps).
  { intros lim T F HE HF. eapply path_impl; [|exact HE]. cbn beta. intros g N q _ HS Hz. apply (rests F g 0 N q HS). intros k Hk. apply HF. intros i Hi. apply Hz. lia. }
  destruct (alias_closed_forms L lr b1 b2 eps er th a0 HL H1 H2 He Hr Ht Ha) as ((T1 & E1 & H1') & (T2 & E2 & H2') & (T3 & E3 & H3') & (T4 & E4 & H4') & _).
  split. { destruct (sgd_emits L lr m nest HL) as (T & E & HE). exists T. split; [exact E|]. apply (K _ _ (fun g x n => - lr (count_at n) * momentum_of m nest g n) (emits_path' true _ (fun g x n => - lr (count_at n) * momentum_of m nest g n) HE)). cbn beta. intros g x n Hg. rewrite momentum0 by exact Hg. ring. }
  split. { exists T1. split; [exact E1|]. apply (K _ _ (fun g x n => - lr (count_at n) * adam_dir b1 b2 eps er g n) (emits_path' true _ (fun g x n => - lr (count_at n) * adam_dir b1 b2 eps er g n) H1')). cbn beta. intros g x n Hg. unfold adam_dir. cbn zeta. rewrite (wsum0 b1) by exact Hg. unfold Rdiv. ring. }
  split. { exists T2. split; [exact E2|]. apply (K _ _ (fun g x n => - lr (count_at n) * belief_dir b1 b2 eps (/ 10 ^ 16) g n) (emits_path' true _ (fun g x n => - lr (count_at n) * belief_dir b1 b2 eps (/ 10 ^ 16) g n) H2')). cbn beta. intros g x n Hg. unfold belief_dir. cbn zeta. rewrite (ema0 b1) by (intros i Hi; apply Hg; lia). unfold Rdiv. ring. }
  split. { exists T3. split; [exact E3|]. apply (K _ _ (fun g x n => - lr (count_at n) * rss_dir a0 eps g n) (emits_path' true _ (fun g x n => - lr (count_at n) * rss_dir a0 eps g n) H3')). cbn beta. intros g x n Hg. unfold rss_dir. rewrite (Hg n) by lia. unfold Rdiv. ring. }
  split. { destruct (rmsprop_closed_form L lr b2 eps a0 ce m nest HL H2 He Ha) as (T & E & HE). exists T. split; [exact E|]. apply (K _ _ (fun g x n => momentum_of m nest (fun i => - lr (count_at i) * rms_dir b2 eps a0 ce g i) n) (emits_path' true _ (fun g x n => momentum_of m nest (fun i => - lr (count_at i) * rms_dir b2 eps a0 ce g i) n) HE)). cbn beta. intros g x n Hg. apply momentum0. intros i Hi. unfold rms_dir. rewrite (Hg i Hi). unfold Rdiv. ring. }
  exists T4. split; [exact E4|]. apply (K _ _ (fun g x n => - lr (count_at n) * radam_dir b1 b2 eps er th g n) (emits_path true _ (fun N => (Z.of_nat N < 2 ^ 30)%Z) (fun g x n => - lr (count_at n) * radam_dir b1 b2 eps er th g n) ltac:(cbn beta; intros; lia) H4')). cbn beta. intros g x n Hg. unfold radam_dir. cbn zeta. rewrite (wsum0 b1) by exact Hg. destruct (Rlt_dec _ _); unfold Rdiv; ring.
Qed.

Lemma wsum_S b (f : nat -> R) n : sum_f_R0 (fun i => b ^ (S n - i) * f i) (S n) = b * sum_f_R0 (fun i => b ^ (n - i) * f i) n + f (S n).
Proof. cbn [sum_f_R0]. rewrite Nat.sub_diag, scal_sum. f_equal; [|cbn; ring]. apply sum_eq. intros i Hi. replace (S n - i)%nat with (S (n - i)) by lia. cbn [pow]. ring. Qed.
Lemma wsum_coast b (f : nat -> R) M k : (forall i, (M < i <= M + k)%nat -> f i = 0) -> sum_f_R0 (fun i => b ^ (M + k - i) * f i) (M + k) = b ^ k * sum_f_R0 (fun i => b ^ (M - i) * f i) M.
Proof.
  induction k as [|k IH]; intros H; [rewrite Nat.add_0_r; cbn; ring|]. replace (M + S k)%nat with (S (M + k)) by lia. rewrite wsum_S, IH by (intros i Hi; apply H; lia). rewrite (H (S (M + k))) by lia. cbn [pow]. ring.
Qed.
(*@ C104_weight_decay : Under adamw the unused parameter is not left alone: it is multiplied by 1 - lr_t * weight_decay at every step, exactly, and nothing else. *)
Lemma unused_adamw : forall `{P : Platform} (L : lrate) (lr : Z -> R) (b1 b2 eps er wd : R), (forall c, rate L c = Fin (lr c)) -> 0 <= b1 < 1 -> 0 <= b2 < 1 -> 0 < eps -> 0 <= er ->
  exists T, adamw L (Fin b1) (Fin b2) (Fin eps) (Fin er) (Fin wd) = Ok T /\ element_path T (fun g N q => zero_from 0 N g -> forall k, (k < N)%nat -> q (S k) = (1 - lr (count_at k) * wd) * q k).
Proof.
  intros P L lr b1 b2 eps er wd HL H1 H2 He Hr. destruct (adamw_closed_form L lr b1 b2 eps er wd HL H1 H2 He Hr) as (T & E & HE). exists T. split; [exact E|].
  eapply path_impl; [|apply (emits_path' false T (fun g x n => - lr (count_at n) * adam_dir b1 b2 eps er g n - lr (count_at n) * wd * x)); exact HE]. cbn beta. intros g N q _ HS Hz k Hk. rewrite HS by exact Hk.
  unfold adam_dir. cbn zeta. rewrite (wsum0 b1) by (intros i Hi; apply Hz; lia). unfold Rdiv. ring.
Qed.
(*@ C104_yogi_drifts : (finding) yogi pushes an unused parameter down at every step, for ever: its first moment starts at 1e-6 instead of 0, so with b1 > 0 and positive learning rates every parameter whose gradient is always 0 strictly decreases at every step. *)
Lemma unused_yogi : forall `{P : Platform} (L : lrate) (lr : Z -> R) (b1 b2 eps : R), (forall c, rate L c = Fin (lr c)) -> (forall c, 0 < lr c) -> 0 < b1 < 1 -> 0 <= b2 < 1 -> 0 < eps ->
  exists T, yogi L (Fin b1) (Fin b2) (Fin eps) = Ok T /\ element_path T (fun g N q => zero_from 0 N g -> forall k, (k < N)%nat -> q (S k) < q k).
Proof.
  intros P L lr b1 b2 eps HL Hlr H1 H2 He. destruct (alias_closed_forms L lr b1 b2 eps 0 5 0 HL ltac:(lra) H2 He ltac:(lra) ltac:(lra) ltac:(lra)) as (_ & _ & _ & _ & T & E & HE). exists T. split; [exact E|].
  eapply path_impl; [|apply (emits_path' true T (fun g x n => - lr (count_at n) * yogi_dir b1 b2 eps 0 (/ 10 ^ 6) g n)); exact HE]. cbn beta. intros g N q _ HS Hz k Hk. rewrite HS by exact Hk.
  assert (D : 0 < yogi_dir b1 b2 eps 0 (/ 10 ^ 6) g k); [|specialize (Hlr (count_at k)); nra].
  unfold yogi_dir. cbn zeta. set (t := satcount (S k)). assert (Em : ema_seq b1 (/ 10 ^ 6) g (S k) = b1 ^ S k * (/ 10 ^ 6)).
  { assert (Hz' : forall i, (i < S k)%nat -> g i = 0) by (intros i Hi; apply Hz; lia). clear - Hz'. induction (S k) as [|j IH]; [cbn; ring|]. cbn [ema_seq]. rewrite IH, Hz' by auto with arith. cbn [pow]. ring. }
  rewrite Em. assert (0 < / 10 ^ 6) by (apply Rinv_0_lt_compat; lra). pose proof (pow_lt b1 (S k) (proj1 H1)). assert (Tt : (0 < t)%nat) by (unfold t; apply satcount_pos). assert (b1 ^ t < 1) by (apply pow_lt_1_compat; lra || lia).
  apply Rdiv_lt_0_compat; [apply Rdiv_lt_0_compat; [now apply Rmult_lt_0_compat|lra]|]. pose proof (sqrt_pos (yogi_v b2 (/ 10 ^ 6) g (S k) / (1 - b2 ^ t) + 0)). lra.
Qed.

(** ** When the gradient stops *)
(*@ C104_stops_at_once : Without momentum, sgd, adagrad and rmsprop stop moving a parameter at the very step its gradient becomes and stays 0, whatever the history before. *)
Lemma stops_at_once : forall `{P : Platform} (L : lrate) (lr : Z -> R) (b eps a0 : R) (nest centered : bool), (forall c, rate L c = Fin (lr c)) -> 0 <= b < 1 -> 0 < eps -> 0 <= a0 ->
  let stops := fun g N q => forall M, (M <= N)%nat -> zero_from M N g -> rests_from M N q in
  (exists T, sgd L None nest = Ok T /\ element_path T stops) /\
  (exists T, adagrad L (Fin a0) (Fin eps) = Ok T /\ element_path T stops) /\
  (exists T, rmsprop L (Fin b) (Fin eps) (Fin a0) centered None nest = Ok T /\ element_path T stops).
Proof.
  intros P L lr b eps a0 nest ce HL Hb He Ha stops.
  assert (K : forall T F, element_path T (fun g N q => forall k, (k < N)%nat -> q (S k) = q k + F g (q k) k) -> (forall g x n, g n = 0 -> F g x n = 0) -> element_path T stops).
  { intros T F HE HF. eapply path_impl; [|exact HE]. cbn beta. intros g N q _ HS M HM Hz. apply (rests F g M N q HS). intros k Hk. apply HF, Hz, Hk. }
  destruct (alias_closed_forms L lr 0 0 eps 0 5 a0 HL ltac:(lra) ltac:(lra) He ltac:(lra) ltac:(lra) Ha) as (_ & _ & (T3 & E3 & H3') & _).
  split. { destruct (sgd_emits L lr None nest HL) as (T & E & HE). exists T. split; [exact E|]. apply (K _ (fun g x n => - lr (count_at n) * momentum_of None nest g n) (emits_path' true _ (fun g x n => - lr (count_at n) * momentum_of None nest g n) HE)). intros g x n Hg. cbn [momentum_of]. rewrite Hg. ring. }
  split. { exists T3. split; [exact E3|]. apply (K _ (fun g x n => - lr (count_at n) * rss_dir a0 eps g n) (emits_path' true _ (fun g x n => - lr (count_at n) * rss_dir a0 eps g n) H3')). intros g x n Hg. unfold rss_dir. rewrite Hg. unfold Rdiv. ring. }
  destruct (rmsprop_closed_form L lr b eps a0 ce None nest HL Hb He Ha) as (T & E & HE). exists T. split; [exact E|]. apply (K _ (fun g x n => momentum_of None nest (fun i => - lr (count_at i) * rms_dir b eps a0 ce g i) n) (emits_path' true _ (fun g x n => momentum_of None nest (fun i => - lr (count_at i) * rms_dir b eps a0 ce g i) n) HE)). intros g x n Hg. cbn [momentum_of]. unfold rms_dir. rewrite Hg. unfold Rdiv. ring.
Qed.

Lemma geo_coast (q : nat -> R) b : 0 <= b < 1 -> forall M K, (forall j, (j <= K)%nat -> q (S (M + j)) - q (M + j)%nat = b ^ j * (q (S M) - q M)) -> forall k, (k <= K)%nat -> q (S M + k)%nat - q (S M) = (q (S M) - q M) * (b * (1 - b ^ k) / (1 - b)).
Proof.
  intros Hb M K H k. induction k as [|k IH]; intros Hk; [rewrite Nat.add_0_r; cbn [pow]; field; lra|]. specialize (IH ltac:(lia)). pose proof (H (S k) ltac:(lia)) as E. replace (M + S k)%nat with (S M + k)%nat in E by lia. replace (S M + S k)%nat with (S (S M + k)) by lia.
  replace (q (S (S M + k)) - q (S M)) with (q (S (S M + k)) - q (S M + k)%nat + (q (S M + k)%nat - q (S M))) by ring. rewrite E, IH. cbn [pow]. field. lra.
Qed.
(*@ C104_momentum_coasts : With momentum b (nesterov or not) and a fixed learning rate the parameter coasts on after its gradient has become 0: the step of the first zero gradient is followed by steps shrinking by the factor b, so in k more steps it travels exactly b (1 - b^k) / (1 - b) times that step: 9 times the step for b = 0.9. *)
Lemma momentum_coasts : forall `{P : Platform} (a b : R) (nest : bool), 0 <= b < 1 ->
  exists T, sgd (LConst (Fin a)) (Some (Fin b)) nest = Ok T /\
    element_path T (fun g N q => forall M k, zero_from M N g -> (S M + k <= N)%nat -> q (S M + k)%nat - q (S M) = (q (S M) - q M) * (b * (1 - b ^ k) / (1 - b))).
Proof.
  intros P a b nest Hb. destruct (sgd_emits (@LConst (XROps P) (Fin a)) (fun _ => a) (Some b) nest (fun c => eq_refl)) as (T & E & HE). exists T. split; [exact E|].
  eapply path_impl; [|exact (emits_path' true _ (fun g x n => - a * momentum_of (Some b) nest g n) HE)]. cbn beta. intros g N q _ HS M k Hz Hk. apply (geo_coast q b Hb M k); [|lia]. intros j Hj.
  assert (D : forall i, (i <= k)%nat -> q (S (M + i)) - q (M + i)%nat = b ^ i * (- a * momentum_of (Some b) nest g M)).
  { intros i Hi. rewrite HS by lia. replace (q (M + i)%nat + - a * momentum_of (Some b) nest g (M + i)%nat - q (M + i)%nat) with (- a * momentum_of (Some b) nest g (M + i)%nat) by ring.
    unfold momentum_of. cbn zeta. rewrite wsum_coast by (intros l Hl; apply Hz; lia). destruct nest; [|ring]. rewrite (Hz (M + i)%nat), (Hz M) by lia. ring. }
  rewrite (D j Hj). pose proof (D 0%nat ltac:(lia)) as D0. rewrite Nat.add_0_r in D0. rewrite D0. cbn [pow]. ring.
Qed.

Lemma satcount_mono n m : (n <= m)%nat -> (satcount n <= satcount m)%nat.
Proof. with_strategy transparent [satcount] (unfold satcount). generalize (Z.to_nat (2 ^ 31 - 1)). intros. lia. Qed.
Lemma pow_anti b n m : 0 <= b < 1 -> (n <= m)%nat -> b ^ m <= b ^ n.
Proof. intros Hb H. replace m with (n + (m - n))%nat by lia. rewrite pow_add. pose proof (pow_le b n (proj1 Hb)). assert (b ^ (m - n) <= 1) by (rewrite <- (pow1 (m - n)); apply pow_incr; lra). pose proof (pow_le b (m - n) (proj1 Hb)). nra. Qed.
Lemma adam_coast b1 b2 eps er g M k : 0 <= b1 < 1 -> 0 < b2 < 1 -> 0 < eps -> 0 <= er -> (forall i, (M <= i <= M + k)%nat -> g i = 0) ->
  Rabs (adam_dir b1 b2 eps er g (M + k)) <= (b1 / sqrt b2) ^ k * / sqrt (1 - b2 ^ satcount (S M)) * Rabs (adam_dir b1 b2 eps er g M).
Proof.
  intros H1 H2 He Hr Hz. unfold adam_dir. cbn zeta. rewrite (wsum_coast b1 g) by (intros i Hi; apply Hz; lia). rewrite (wsum_coast b2 (fun i => g i * g i)) by (intros i Hi; rewrite Hz by lia; ring).
  set (s := satcount (S M)). set (t := satcount (S (M + k))). set (W := sum_f_R0 (fun i => b1 ^ (M - i) * g i) M). set (V := sum_f_R0 (fun i => b2 ^ (M - i) * (g i * g i)) M).
  assert (HV : 0 <= V) by (apply cond_pos_sum; intros i; apply Rmult_le_pos; [apply pow_le; lra|nra]). assert (Hst : (s <= t)%nat) by (apply satcount_mono; lia). assert (Hs : (0 < s)%nat) by apply satcount_pos.
  assert (B1 : b1 ^ t <= b1 ^ s) by (apply pow_anti; [lra|lia]). assert (B1s : b1 ^ s < 1) by (apply pow_lt_1_compat; [lra|lia]). assert (B2s : b2 ^ s < 1) by (apply pow_lt_1_compat; [lra|lia]). assert (B2t : b2 ^ t < 1) by (apply pow_lt_1_compat; [lra|lia]).
  assert (P1 : 0 <= b1 ^ t) by (apply pow_le; lra). assert (P2 : 0 < b2 ^ t) by (apply pow_lt; lra). assert (P2s : 0 < b2 ^ s) by (apply pow_lt; lra). assert (P2k : 0 < b2 ^ k) by (apply pow_lt; lra). assert (P1k : 0 <= b1 ^ k) by (apply pow_le; lra).
  assert (Q2 : 0 < sqrt b2) by (apply sqrt_lt_R0; lra). set (c := 1 - b2 ^ s). assert (Hc : 0 < c <= 1) by (unfold c; lra). assert (Qc : 0 < sqrt c) by (apply sqrt_lt_R0; lra). assert (Qc1 : sqrt c <= 1) by (rewrite <- sqrt_1; apply sqrt_le_1; lra).
  assert (Qk : 0 < sqrt b2 ^ k) by (apply pow_lt; lra). assert (Qk1 : sqrt b2 ^ k <= 1) by (rewrite <- (pow1 k); apply pow_incr; split; [lra|]; rewrite <- sqrt_1; apply sqrt_le_1; lra).
  set (D0 := sqrt ((1 - b2) * V / c + er) + eps). set (Dk := sqrt ((1 - b2) * (b2 ^ k * V) / (1 - b2 ^ t) + er) + eps).
  assert (HD0 : 0 < D0) by (unfold D0; pose proof (sqrt_pos ((1 - b2) * V / c + er)); lra).
  assert (HDk : sqrt b2 ^ k * sqrt c * D0 <= Dk).
  { assert (Ek : sqrt b2 ^ k = sqrt (b2 ^ k)). { clear - H2. induction k as [|k IH]; [cbn; now rewrite sqrt_1|]. cbn [pow]. rewrite sqrt_mult, IH by (try apply pow_le; lra). reflexivity. }
    unfold D0, Dk. rewrite Rmult_plus_distr_l. apply Rplus_le_compat.
    - rewrite Ek, <- !sqrt_mult; try lra; try (apply Rmult_le_pos; lra); [|apply Rplus_le_le_0_compat; [|lra]; apply Rmult_le_pos; [apply Rmult_le_pos; lra|left; apply Rinv_0_lt_compat; lra]].
      apply sqrt_le_1_alt. replace (b2 ^ k * c * ((1 - b2) * V / c + er)) with ((1 - b2) * (b2 ^ k * V) + b2 ^ k * c * er) by (field; lra). apply Rplus_le_compat.
      + unfold Rdiv. rewrite <- (Rmult_1_r ((1 - b2) * (b2 ^ k * V))) at 1. apply Rmult_le_compat_l; [apply Rmult_le_pos; [lra|]; apply Rmult_le_pos; lra|]. rewrite <- Rinv_1. apply Rinv_le_contravar; lra.
      + assert (b2 ^ k <= 1) by (rewrite <- (pow1 k); apply pow_incr; lra). assert (b2 ^ k * c <= 1) by nra. nra.
    - assert (sqrt b2 ^ k * sqrt c <= 1) by nra. nra. }
  assert (HDkp : 0 < sqrt b2 ^ k * sqrt c * D0) by (apply Rmult_lt_0_compat; [nra|lra]).
  assert (EA : forall x y z, 0 < y -> 0 < z -> Rabs (x / y / z) = Rabs x / y / z) by (intros x y z Hy Hz'; unfold Rdiv; rewrite !Rabs_mult, (Rabs_right (/ y)), (Rabs_right (/ z)) by (apply Rle_ge; left; now apply Rinv_0_lt_compat); reflexivity).
  rewrite !EA by lra. replace ((1 - b1) * (b1 ^ k * W)) with (b1 ^ k * ((1 - b1) * W)) by ring. rewrite Rabs_mult, (Rabs_right (b1 ^ k)) by lra. set (A := Rabs ((1 - b1) * W)). assert (HA : 0 <= A) by apply Rabs_pos.
  apply Rle_trans with (b1 ^ k * A / (1 - b1 ^ s) / (sqrt b2 ^ k * sqrt c * D0)).
  - unfold Rdiv. apply Rmult_le_compat.
    + apply Rmult_le_pos; [nra|left; apply Rinv_0_lt_compat; lra].
    + left. apply Rinv_0_lt_compat. lra.
    + apply Rmult_le_compat_l; [nra|]. apply Rinv_le_contravar; lra.
    + apply Rinv_le_contravar; lra.
  - right. unfold Rdiv. rewrite Rpow_mult_distr. rewrite pow_inv. field. split; [lra|]. split; [lra|]. split; lra.
Qed.
(*@ C104_adam_coasts : adam with b1^2 < b2 and a fixed learning rate coasts too, but a bounded distance: after the first step with gradient 0 (step M, from 0) it moves the parameter at most r / (1 - r) / sqrt(1 - b2^(M+1)) times as far again as that step did, r = b1 / sqrt(b2), however many steps follow (9.05 times for the defaults, late in training). *)
Lemma adam_coasts : forall `{P : Platform} (a b1 b2 eps er : R), 0 <= b1 < 1 -> 0 < b2 < 1 -> b1 ^ 2 < b2 -> 0 < eps -> 0 <= er ->
  exists T, adam (LConst (Fin a)) (Fin b1) (Fin b2) (Fin eps) (Fin er) = Ok T /\
    element_path T (fun g N q => forall M k, zero_from M N g -> (S M + k <= N)%nat -> let r := b1 / sqrt b2 in Rabs (q (S M + k)%nat - q (S M)) <= Rabs (q (S M) - q M) * (r / (1 - r) / sqrt (1 - b2 ^ satcount (S M)))).
Proof.
  intros P a b1 b2 eps er H1 H2 H12 He Hr. destruct (alias_closed_forms (@LConst (XROps P) (Fin a)) (fun _ => a) b1 b2 eps er 5 0 (fun c => eq_refl) H1 ltac:(lra) He Hr ltac:(lra) ltac:(lra)) as ((T & E & HE) & _). exists T. split; [exact E|].
  eapply path_impl; [|exact (emits_path' true _ (fun g x n => - a * adam_dir b1 b2 eps er g n) HE)]. cbn beta. intros g N q _ HS M k Hz Hk r.
  assert (Q2 : 0 < sqrt b2) by (apply sqrt_lt_R0; lra). assert (Hr1 : 0 <= r < 1).
  { unfold r. split; [apply Rmult_le_pos; [lra|left; now apply Rinv_0_lt_compat]|]. apply (Rmult_lt_reg_r (sqrt b2)); [exact Q2|]. unfold Rdiv. rewrite Rmult_assoc, Rinv_l, Rmult_1_r, Rmult_1_l by lra. rewrite <- (sqrt_pow2 b1) by lra. apply sqrt_lt_1; nra. }
  assert (B2s : b2 ^ satcount (S M) < 1) by (apply pow_lt_1_compat; [lra|apply satcount_pos]). assert (Qc : 0 < sqrt (1 - b2 ^ satcount (S M))) by (apply sqrt_lt_R0; lra). set (cc := / sqrt (1 - b2 ^ satcount (S M))). assert (Hcc : 0 < cc) by now apply Rinv_0_lt_compat.
  set (d := Rabs (q (S M) - q M)). assert (Hd : 0 <= d) by apply Rabs_pos.
  assert (D : forall i, (i <= k)%nat -> Rabs (q (S (M + i)) - q (M + i)%nat) <= r ^ i * cc * d).
  { intros i Hi. rewrite HS by lia. replace (q (M + i)%nat + - a * adam_dir b1 b2 eps er g (M + i) - q (M + i)%nat) with (- a * adam_dir b1 b2 eps er g (M + i)) by ring. unfold d. rewrite HS by lia. replace (q M + - a * adam_dir b1 b2 eps er g M - q M) with (- a * adam_dir b1 b2 eps er g M) by ring. rewrite !Rabs_mult.
    pose proof (adam_coast b1 b2 eps er g M i H1 H2 He Hr ltac:(intros l Hl; apply Hz; lia)) as C. fold r cc in C. apply (Rmult_le_compat_l (Rabs (- a))) in C; [|apply Rabs_pos]. lra. }
  assert (G : forall j, (j <= k)%nat -> Rabs (q (S M + j)%nat - q (S M)) <= d * cc * (r * (1 - r ^ j) / (1 - r))).
  { intros j. induction j as [|j IH]; intros Hj; [rewrite Nat.add_0_r, Rminus_diag_eq, Rabs_R0 by reflexivity; cbn [pow]; right; field; lra|]. specialize (IH ltac:(lia)). pose proof (D (S j) Hj) as C. replace (M + S j)%nat with (S M + j)%nat in C by lia. replace (S M + S j)%nat with (S (S M + j)) by lia.
    replace (q (S (S M + j)) - q (S M)) with (q (S (S M + j)) - q (S M + j)%nat + (q (S M + j)%nat - q (S M))) by ring. eapply Rle_trans; [apply Rabs_triang|]. eapply Rle_trans; [apply Rplus_le_compat; [exact C|exact IH]|]. right. cbn [pow]. field. lra. }
  eapply Rle_trans; [apply (G k (le_n _))|]. replace (d * (r / (1 - r) / sqrt (1 - b2 ^ satcount (S M)))) with (d * cc * (r / (1 - r))) by (unfold cc, Rdiv; ring). apply Rmult_le_compat_l; [apply Rmult_le_pos; lra|]. unfold Rdiv. apply Rmult_le_compat_r; [left; apply Rinv_0_lt_compat; lra|].
  pose proof (pow_le r k (proj1 Hr1)). nra.
Qed.
(*@ C104_adam_runaway : (finding) with b1^2 > b2 a parameter whose gradient has become 0 may accelerate: for every bound B there are an eps > 0 and a number of steps k after which, a single gradient 1 followed by zeros, one step moves the parameter by more than B learning rates. *)
Lemma adam_runs_away : forall `{P : Platform} (a b1 b2 B : R), 0 < a -> 0 <= b1 < 1 -> 0 < b2 < 1 -> b2 < b1 ^ 2 ->
  exists eps k T, 0 < eps /\ adam (LConst (Fin a)) (Fin b1) (Fin b2) (Fin eps) (Fin 0) = Ok T /\
    element_path T (fun g N q => g 0%nat = 1 -> zero_from 1 N g -> (S k <= N)%nat -> q k - q (S k) > a * B).
Proof.
  intros P a b1 b2 B Ha H1 H2 H12. assert (Q2 : 0 < sqrt b2) by (apply sqrt_lt_R0; lra). set (r := b1 / sqrt b2).
  assert (Hr : 1 < r). { unfold r. apply (Rmult_lt_reg_r (sqrt b2)); [exact Q2|]. unfold Rdiv. rewrite Rmult_assoc, Rinv_l, Rmult_1_r, Rmult_1_l by lra. rewrite <- (sqrt_pow2 b1) by lra. apply sqrt_lt_1; nra. }
  destruct (Pow_x_infinity r ltac:(rewrite Rabs_right; lra) ((Rabs B + 1) * 2 / (1 - b1))) as (k & Hk). specialize (Hk k (le_n _)). rewrite Rabs_right in Hk by (apply Rle_ge, pow_le; lra).
  set (e := sqrt b2 ^ k). assert (He : 0 < e) by (apply pow_lt; lra). exists e, k.
  destruct (alias_closed_forms (@LConst (XROps P) (Fin a)) (fun _ => a) b1 b2 e 0 5 0 (fun c => eq_refl) H1 ltac:(lra) He ltac:(lra) ltac:(lra) ltac:(lra)) as ((T & E & HE) & _). exists T. split; [exact He|]. split; [exact E|].
  eapply path_impl; [|exact (emits_path' true _ (fun g x n => - a * adam_dir b1 b2 e 0 g n) HE)]. cbn beta. intros g N q _ HS G0 Hz HN. rewrite HS by lia.
  assert (D : Rabs B + 1 <= adam_dir b1 b2 e 0 g k); [|pose proof (Rle_abs B); nra].
  unfold adam_dir. cbn zeta. pose proof (wsum_coast b1 g 0 k ltac:(intros i Hi; apply Hz; lia)) as W1. pose proof (wsum_coast b2 (fun i => g i * g i) 0 k ltac:(intros i Hi; cbn beta; rewrite Hz by lia; ring)) as W2. cbn [Nat.add sum_f_R0 Nat.sub pow] in W1, W2. rewrite W1, W2, G0.
  set (t := satcount (S k)). assert (Ht : (0 < t)%nat) by apply satcount_pos. assert (B1 : b1 ^ t < 1) by (apply pow_lt_1_compat; [lra|lia]). assert (0 <= b1 ^ t) by (apply pow_le; lra). assert (B2 : b2 ^ t <= b2) by (rewrite <- (pow_1 b2) at 2; apply pow_anti; [lra|lia]). assert (0 < b2 ^ t) by (apply pow_lt; lra).
  assert (Ek : sqrt (b2 ^ k) = e). { unfold e. clear - H2. induction k as [|k IH]; [cbn; now rewrite sqrt_1|]. cbn [pow]. rewrite sqrt_mult, IH by (try apply pow_le; lra). reflexivity. }
  assert (Pk : 0 < b2 ^ k) by (apply pow_lt; lra). assert (SQ : sqrt ((1 - b2) * (b2 ^ k * (1 * (1 * 1))) / (1 - b2 ^ t) + 0) <= e).
  { rewrite <- Ek. apply sqrt_le_1_alt. rewrite Rplus_0_r. apply (Rmult_le_reg_r (1 - b2 ^ t)); [lra|]. unfold Rdiv. rewrite Rmult_assoc, Rinv_l by lra. nra. }
  pose proof (sqrt_pos ((1 - b2) * (b2 ^ k * (1 * (1 * 1))) / (1 - b2 ^ t) + 0)) as SP. set (sq := sqrt ((1 - b2) * (b2 ^ k * (1 * (1 * 1))) / (1 - b2 ^ t) + 0)) in *.
  assert (Er : r ^ k * e = b1 ^ k). { unfold r, e, Rdiv. rewrite <- Rpow_mult_distr, Rmult_assoc, Rinv_l by lra. f_equal. ring. }
  apply Rle_trans with ((1 - b1) * b1 ^ k / (2 * e)).
  - rewrite <- Er. apply (Rmult_le_reg_r (2 / (1 - b1))); [apply Rdiv_lt_0_compat; lra|]. replace ((1 - b1) * (r ^ k * e) / (2 * e) * (2 / (1 - b1))) with (r ^ k) by (field; lra). unfold Rdiv in Hk |- *. lra.
  - unfold Rdiv. assert (0 <= b1 ^ k) by (apply pow_le; lra). apply Rmult_le_compat; [nra|left; apply Rinv_0_lt_compat; lra| |apply Rinv_le_contravar; lra].
    replace (b1 ^ k * (1 * 1)) with (b1 ^ k) by ring. rewrite <- (Rmult_1_r ((1 - b1) * b1 ^ k)) at 1. apply Rmult_le_compat_l; [nra|]. rewrite <- Rinv_1. apply Rinv_le_contravar; lra.
Qed.
(*@ex C104_example *)
Lemma unused_example : forall `{P : Platform}, let p := Leaf (mkT F32 [2%nat] [Fin 2; Fin 3]) in let gs := [Leaf (mkT F32 [2%nat] [Fin 0; NaN]); Leaf (mkT F32 [2%nat] [Fin 0; PInf])] in
  (exists T s0 q1 q2 sf, adam (LConst (Fin (1/10))) (Fin (9/10)) (Fin (999/1000)) (Fin (/ 10 ^ 8)) (Fin 0) = Ok T /\ init T p = Ok s0 /\ train_loop T s0 p gs = Ok ([q1; q2], sf) /\ elt q1 (0%nat, 0%nat) = Some (Fin 2) /\ elt q2 (0%nat, 0%nat) = Some (Fin 2)) /\
  (exists T s0 q1 q2 sf x y, yogi (LConst (Fin (1/10))) (Fin (9/10)) (Fin (999/1000)) (Fin (/ 10 ^ 3)) = Ok T /\ init T p = Ok s0 /\ train_loop T s0 p gs = Ok ([q1; q2], sf) /\ elt q1 (0%nat, 0%nat) = Some (Fin x) /\ elt q2 (0%nat, 0%nat) = Some (Fin y) /\ y < x < 2).
Proof.
  intros P p gs. assert (Wp : trwf p) by (repeat constructor). assert (Hg : Forall (like p) gs) by (repeat constructor). assert (Hz : forall i, (i < 2)%nat -> oelt gs i (0%nat, 0%nat) = Some (Fin 0)) by (intros [|[|i]] Hi; [reflexivity..|lia]).
  assert (E8 : forall n, 0 < / 10 ^ n) by (intros n; apply Rinv_0_lt_compat, pow_lt; lra). split.
  - destruct (@unused_kept P (@LConst (XROps P) (Fin (1/10))) (fun _ => 1/10) (9/10) (999/1000) (/ 10 ^ 8) 0 5 0 None false false (fun _ => eq_refl) ltac:(lra) ltac:(lra) (E8 8%nat) ltac:(lra) ltac:(lra) ltac:(lra)) as (_ & (T & E & H) & _).
    destruct (H p gs Wp Hg) as (s0 & qs & sf & Ei & El & Hl & Hn). destruct qs as [|q1 [|q2 [|? ?]]]; try discriminate. exists T, s0, q1, q2, sf. split; [exact E|]. split; [exact Ei|]. split; [exact El|].
    destruct (Hn (0%nat, 0%nat) 2 (fun _ => 0) 2%nat ltac:(cbn; lia) Logic.I eq_refl Hz) as (q & Hq & HQ). specialize (HQ (fun _ _ => eq_refl)). pose proof (Hq 0%nat ltac:(lia)) as H0. injection H0 as H0.
    pose proof (Hq 1%nat ltac:(lia)) as A1. pose proof (Hq 2%nat ltac:(lia)) as A2. rewrite (HQ 1%nat ltac:(lia)), <- H0 in A1. rewrite (HQ 2%nat ltac:(lia)), <- H0 in A2. split; [exact A1|exact A2].
  - destruct (@unused_yogi P (@LConst (XROps P) (Fin (1/10))) (fun _ => 1/10) (9/10) (999/1000) (/ 10 ^ 3) (fun _ => eq_refl) ltac:(intros; lra) ltac:(lra) ltac:(lra) (E8 3%nat)) as (T & E & H).
    destruct (H p gs Wp Hg) as (s0 & qs & sf & Ei & El & Hl & Hn). destruct qs as [|q1 [|q2 [|? ?]]]; try discriminate.
    destruct (Hn (0%nat, 0%nat) 2 (fun _ => 0) 2%nat ltac:(cbn; lia) Logic.I eq_refl Hz) as (q & Hq & HQ). specialize (HQ (fun _ _ => eq_refl)). pose proof (Hq 0%nat ltac:(lia)) as H0. injection H0 as H0.
    exists T, s0, q1, q2, sf, (q 1%nat), (q 2%nat). split; [exact E|]. split; [exact Ei|]. split; [exact El|]. split; [exact (Hq 1%nat ltac:(lia))|]. split; [exact (Hq 2%nat ltac:(lia))|]. pose proof (HQ 0%nat ltac:(lia)). pose proof (HQ 1%nat ltac:(lia)). lra.
Qed.
