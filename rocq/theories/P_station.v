(** Adaptive optimizers reach stationary points of smooth functions, convex or not (C89). *)
From Verif Require Export P_diverge.
From Coq Require Import List Psatz.
Import ListNotations.
Open Scope R_scope.
(*@header
From Coq Require Import List.
Import ListNotations.
Open Scope R_scope.
*)

Notation S_ N F := (rsum (map F (seq 0 N))).
(** The minimisation of a smooth function by coordinate-wise directions. *)
Section Smooth.
  Context {P : Platform}.
  Notation xr := (XROps P).
  Lemma minimise_smooth (T : @GT xr) (dir : (nat -> R) -> nat -> R) grad p f L : @emits P true T (fun g _ n y => y = Fin (dir g n)) -> trwf p -> finite_tree p -> (forall x, point_of p x -> point_of p (grad x)) -> smooth p f grad L ->
    forall n, exists s0 qs sf, @init xr T p = Ok s0 /\ @minimise xr T grad n s0 p = Ok (qs, sf) /\ length qs = n /\ Forall (point_of p) qs /\
      let N := length (rvals p) in let x t := nth t (p :: qs) p in let g t i := nth i (rvals (grad (x t))) 0 in
      (forall t i, (t < n)%nat -> (i < N)%nat -> nth i (rvals (x (S t))) 0 = nth i (rvals (x t)) 0 + dir (fun k => g k i) t) /\
      (forall t, (t < n)%nat -> f (rvals (x (S t))) <= f (rvals (x t)) + S_ N (fun i => g t i * dir (fun k => g k i) t) + L / 2 * S_ N (fun i => dir (fun k => g k i) t * dir (fun k => g k i) t)) /\
      (forall t, (t <= n)%nat -> point_of p (x t) /\ sumsq (rvals (grad (x t))) = S_ N (fun i => g t i * g t i)).
  Proof.
    intros HE Wp Fp Hgr Hsm n. destruct (minimise_vec T dir grad p HE Wp Fp Hgr n) as (s0 & qs & sf & Ei & El & Hl & Hq & Hs). exists s0, qs, sf. repeat (split; [assumption|]). cbn zeta. nx. unfold pt in Hs.
    set (N := length (rvals p)) in *.
    assert (HP : forall t, (t <= n)%nat -> point_of p (nth t (p :: qs) p)). { intros t Ht. destruct t; [split; [split; [reflexivity|exact Wp]|exact Fp]|]. cbn [nth]. rewrite Forall_forall in Hq. apply Hq, nth_In. lia. }
    assert (LX : forall t, (t <= n)%nat -> length (rvals (nth t (p :: qs) p)) = N) by (intros; apply rvals_length; auto).
    assert (LG : forall t, (t <= n)%nat -> length (rvals (grad (nth t (p :: qs) p))) = N) by (intros; apply rvals_length; auto).
    split; [intros t i Ht Hi; now apply Hs|]. split; [|intros t Ht; split; [now apply HP|apply sumsq_seq; now apply LG]].
    intros t Ht. eapply Rle_trans; [apply (Hsm _ _ (HP t ltac:(lia)) (HP (S t) ltac:(lia)))|]. rewrite (dot_vsub _ _ _ N), (sumsq_vsub _ _ N) by (try apply LX; try apply LG; lia).
    right. f_equal; [f_equal|f_equal]; apply rsum_map_ext; intros i Hi; apply in_seq in Hi; rewrite (Hs i t) by lia; ring.
  Qed.
End Smooth.

(** ** adagrad, one coordinate *)
Section AdaOne.
  Variables (c2 : R) (g : nat -> R).
  Hypothesis Hc : 0 < c2.
  (** accumulated squares before step t *)
  Let A t := c2 + S_ t (fun k => g k * g k).
  Lemma acc_pos t : c2 <= A t.
  Proof. unfold A. assert (0 <= S_ t (fun k => g k * g k)) by (apply S_nonneg; intros; nra). lra. Qed.
  Lemma acc_S t : A (S t) = A t + g t * g t.
  Proof. unfold A. rewrite rsum_seq_S. ring. Qed.
  Lemma acc_lower n : sqrt (A n) - sqrt c2 <= S_ n (fun t => g t * (g t / sqrt (A (S t)))).
  Proof.
    induction n as [|n IH]; [unfold A; cbn [seq map]; rewrite !rsum_nil, Rplus_0_r; lra|]. rewrite rsum_seq_S.
    assert (H0 := acc_pos n). assert (H1 := acc_pos (S n)). assert (E := acc_S n). set (a := sqrt (A n)) in *. set (b := sqrt (A (S n))) in *.
    assert (Ha : 0 < a) by (apply sqrt_lt_R0; lra). assert (Hb : 0 < b) by (apply sqrt_lt_R0; lra). assert (Ea : a * a = A n) by (apply sqrt_sqrt; lra). assert (Eb : b * b = A (S n)) by (apply sqrt_sqrt; lra).
    assert (K : b - a <= g n * (g n / b)); [|lra]. replace (g n * (g n / b)) with ((b * b - a * a) / b) by (rewrite Ea, Eb, E; field; lra).
    apply (Rmult_le_reg_r b); [exact Hb|]. unfold Rdiv. rewrite Rmult_assoc, Rinv_l by lra. assert (a <= b) by nra. nra.
  Qed.
  Lemma ln_ratio a b : 0 < a -> 0 < b -> 1 - a / b <= ln b - ln a.
  Proof.
    intros Ha Hb. replace (ln b - ln a) with (- ln (a / b)) by (unfold Rdiv; rewrite ln_mult, ln_Rinv by (try apply Rinv_0_lt_compat; assumption); ring).
    assert (H : 0 < a / b) by (apply Rmult_lt_0_compat; [|apply Rinv_0_lt_compat]; assumption). pose proof (exp_ineq1_le (ln (a / b))) as E. rewrite exp_ln in E by exact H. lra.
  Qed.
  Lemma acc_upper n : S_ n (fun t => g t / sqrt (A (S t)) * (g t / sqrt (A (S t)))) <= 2 * (ln (sqrt (A n)) - ln (sqrt c2)).
  Proof.
    induction n as [|n IH]; [unfold A; cbn [seq map]; rewrite !rsum_nil, Rplus_0_r; lra|]. rewrite rsum_seq_S.
    assert (H0 := acc_pos n). assert (H1 := acc_pos (S n)). assert (E := acc_S n). set (a := sqrt (A n)) in *. set (b := sqrt (A (S n))) in *.
    assert (Ha : 0 < a) by (apply sqrt_lt_R0; lra). assert (Hb : 0 < b) by (apply sqrt_lt_R0; lra). assert (Ea : a * a = A n) by (apply sqrt_sqrt; lra). assert (Eb : b * b = A (S n)) by (apply sqrt_sqrt; lra).
    assert (K : g n / b * (g n / b) <= 2 * (ln b - ln a)); [|lra]. replace (g n / b * (g n / b)) with (1 - (a * a) / (b * b)) by (rewrite Ea; replace (A n) with (b * b - g n * g n) by lra; field; lra).
    eapply Rle_trans; [apply ln_ratio; nra|]. rewrite !ln_mult by assumption. lra.
  Qed.
  (** the logarithm grows slower than any line *)
  Lemma ln_line s k : 0 < s -> 0 < k -> ln s <= k * s - 1 - ln k.
  Proof. intros Hs Hk. pose proof (exp_ineq1_le (ln (k * s))) as E. rewrite exp_ln in E by (apply Rmult_lt_0_compat; assumption). rewrite ln_mult in E by assumption. lra. Qed.
End AdaOne.
Lemma sum_squares N (s : nat -> R) : (forall i, 0 <= s i) -> S_ N (fun i => s i * s i) <= S_ N s * S_ N s.
Proof.
  intros Hs. induction N as [|N IH]; [cbn; unfold rsum; cbn; lra|]. rewrite !rsum_seq_S. assert (0 <= S_ N s) by (apply S_nonneg; exact Hs). specialize (Hs N). nra.
Qed.
(** A potential that decreases by at least v t at step t. *)
Lemma telescope (F v : nat -> R) n : (forall t, (t < n)%nat -> F (S t) <= F t - v t) -> S_ n v <= F 0%nat - F n.
Proof. induction n as [|n IH]; intros H; [cbn; unfold rsum; cbn; lra|]. rewrite rsum_seq_S. assert (S_ n v <= F 0%nat - F n) by (apply IH; intros; apply H; lia). specialize (H n (le_n _)). lra. Qed.

(** What the squared gradients of adagrad sum to at most: N parameters, D the initial distance to the lower bound. *)
Definition adagrad_budget (lr L c D : R) (N : nat) : R := 2 * D / lr + 2 * INR N * (c + L * lr * (ln (2 * L * lr / c) - 1)).
(*@ C89_adagrad : adagrad with ANY learning rate lr > 0, initial accumulator a0 >= 0 and eps > 0, minimising any L-smooth function (convex or not) that never goes below m: n steps never fail, and the squared norms of the gradients at the n visited points sum to at most the square of a budget that does not depend on n -- so the gradients tend to 0 and one of the first n has squared norm at most budget^2 / n. The rate needs no tuning to L. *)
Lemma adagrad_stationary : forall `{P : Platform} (lr L a0 eps m : R) (p : tree tensor) (grad : tree tensor -> tree tensor) (f : list R -> R) (n : nat), 0 < lr -> 0 < L -> 0 <= a0 -> 0 < eps -> trwf p -> finite_tree p ->
  (forall x, point_of p x -> point_of p (grad x)) -> smooth p f grad L -> (forall y, m <= f y) ->
  exists T s0 qs sf, adagrad (LConst (Fin lr)) (Fin a0) (Fin eps) = Ok T /\ init T p = Ok s0 /\ minimise T grad n s0 p = Ok (qs, sf) /\ length qs = n /\ Forall (point_of p) qs /\
    let x t := nth t (p :: qs) p in let B := adagrad_budget lr L (sqrt (a0 + eps)) (f (rvals p) - m) (length (rvals p)) in
    rsum (map (fun t => sumsq (rvals (grad (x t)))) (seq 0 n)) <= B ^ 2 /\
    ((0 < n)%nat -> exists t, (t < n)%nat /\ sumsq (rvals (grad (x t))) <= B ^ 2 / INR n).
Proof.
  intros P lr L a0 eps m p grad f n Hlr HL Ha He Wp Fp Hgr Hsm Hm.
  assert (HE : exists T, adagrad (LConst (Fin lr)) (Fin a0) (Fin eps) = Ok T /\ emits true T (fun g _ n y => y = Fin (- lr * rss_dir a0 eps g n))).
  { destruct (@alias_closed_forms P (@LConst (XROps P) (Fin lr)) (fun _ => lr) 0 0 eps 0 5 a0 (fun _ => eq_refl)) as (_ & _ & H & _); [lra..|]. exact H. }
  destruct HE as (T & ET & HE). destruct (minimise_smooth T _ grad p f L HE Wp Fp Hgr Hsm n) as (s0 & qs & sf & Ei & El & Hl & Hq & _ & Hd & HG).
  exists T, s0, qs, sf. repeat (split; [assumption|]). cbn zeta in *. nx. set (N := length (rvals p)) in *. set (c := sqrt (a0 + eps)). assert (Hc : 0 < c) by (apply sqrt_lt_R0; lra).
  set (g := fun t i => nth i (rvals (grad (nth t (p :: qs) p))) 0).
  set (A := fun i t => a0 + eps + S_ t (fun k => g k i * g k i)).
  assert (Edir : forall t i, rss_dir a0 eps (fun k => g k i) t = g t i / sqrt (A i (S t))). { intros t i. unfold rss_dir, A. rewrite sum_seq. do 2 f_equal. ring. }
  assert (K1 : S_ n (fun t => S_ N (fun i => lr * (g t i * (g t i / sqrt (A i (S t)))) - L / 2 * (lr * lr) * (g t i / sqrt (A i (S t)) * (g t i / sqrt (A i (S t)))))) <= f (rvals p) - f (rvals (nth n (p :: qs) p))).
  { apply (telescope (fun t => f (rvals (nth t (p :: qs) p)))). intros t Ht. eapply Rle_trans; [apply Hd; exact Ht|]. rewrite rsum_map_sub, !rsum_map_scal. fold g.
    rewrite (rsum_map_ext (fun i => nth i (rvals (grad (nth t (p :: qs) p))) 0 * _) (fun i => - lr * (g t i * (g t i / sqrt (A i (S t)))))) by (intros i _; rewrite <- Edir; unfold g; ring).
    rewrite (rsum_map_ext (fun i => - lr * _ * _) (fun i => lr * lr * (g t i / sqrt (A i (S t)) * (g t i / sqrt (A i (S t)))))) by (intros i _; rewrite <- Edir; unfold g; ring).
    rewrite !rsum_map_scal. lra. }
  rewrite rsum_swap in K1. set (s := fun i => sqrt (A i n)). assert (A0 : forall i t, 0 < A i t) by (intros i t; pose proof (acc_pos (a0 + eps) (fun k => g k i) t) as H; unfold A; cbv zeta in H; lra). assert (Hs : forall i, 0 < s i) by (intros i; apply sqrt_lt_R0, A0).
  assert (K2 : S_ N (fun i => lr / 2 * s i - lr * (c + L * lr * (ln (2 * L * lr / c) - 1))) <= f (rvals p) - m).
  { apply Rle_trans with (f (rvals p) - f (rvals (nth n (p :: qs) p))); [|specialize (Hm (rvals (nth n (p :: qs) p))); lra]. eapply Rle_trans; [|exact K1]. apply rsum_map_le. intros i _.
    rewrite rsum_map_sub, !rsum_map_scal. pose proof (acc_lower (a0 + eps) (fun k => g k i) ltac:(lra) n) as B1. pose proof (acc_upper (a0 + eps) (fun k => g k i) ltac:(lra) n) as B2. cbv zeta in B1, B2.
    change (fun k => a0 + eps + _) with (A i) in B1, B2. fold (A i n) in B1, B2. fold (s i) c in B1, B2. specialize (Hs i).
    assert (Hk : 0 < 2 * L * lr) by nra. pose proof (ln_line (s i) (/ (2 * L * lr)) Hs ltac:(apply Rinv_0_lt_compat; exact Hk)) as B3. rewrite ln_Rinv in B3 by exact Hk.
    assert (E1 : ln (2 * L * lr / c) = ln (2 * L * lr) - ln c) by (unfold Rdiv; rewrite ln_mult, ln_Rinv by (try apply Rinv_0_lt_compat; assumption); ring). rewrite E1.
    apply Rmult_le_compat_l with (r := lr) in B1; [|lra]. apply Rmult_le_compat_l with (r := L / 2 * (lr * lr)) in B2; [|nra].
    assert (B4 : L * (lr * lr) * ln (s i) <= L * (lr * lr) * (/ (2 * L * lr) * s i - 1 - - ln (2 * L * lr))) by (apply Rmult_le_compat_l; [nra|exact B3]).
    replace (L * (lr * lr) * (/ (2 * L * lr) * s i - 1 - - ln (2 * L * lr))) with (lr / 2 * s i + L * (lr * lr) * (ln (2 * L * lr) - 1)) in B4 by (field; lra).
    unfold A in *. lra. }
  rewrite rsum_map_sub, rsum_map_scal, rsum_map_const, seq_length in K2.
  set (B := adagrad_budget lr L c (f (rvals p) - m) N).
  assert (K3 : S_ N s <= B).
  { unfold B, adagrad_budget. apply (Rmult_le_reg_l (lr / 2)); [lra|]. apply Rle_trans with (f (rvals p) - m + INR N * (lr * (c + L * lr * (ln (2 * L * lr / c) - 1)))); [lra|]. right. field. lra. }
  assert (K4 : S_ n (fun t => sumsq (rvals (grad (nth t (p :: qs) p)))) <= B ^ 2).
  { rewrite (rsum_map_ext _ (fun t => S_ N (fun i => g t i * g t i))) by (intros t Ht; apply in_seq in Ht; apply HG; lia). rewrite rsum_swap.
    apply Rle_trans with (S_ N (fun i => s i * s i)). { apply rsum_map_le. intros i _. unfold s. rewrite sqrt_sqrt by (left; apply A0). unfold A. lra. }
    eapply Rle_trans; [apply sum_squares; intros i; left; apply Hs|]. assert (0 <= S_ N s) by (apply S_nonneg; intros i; left; apply Hs). replace (B ^ 2) with (B * B) by ring. apply Rmult_le_compat; assumption. }
  split; [exact K4|]. intros Hn. apply (some_below _ n _ Hn). eapply Rle_trans; [exact K4|]. right. field. apply not_0_INR. lia.
Qed.

(** ** rmsprop *)
(** The root that rmsprop divides by. *)
Definition rms_root (b eps v0 : R) (centered : bool) (g : nat -> R) (n : nat) : R :=
  let mu := if centered then (1 - b) * wsum b g n else 0 in sqrt (ema_of b v0 (fun i => g i * g i) n - mu * mu + eps).
Lemma rms_root_dir b eps v0 c g n : rms_dir b eps v0 c g n = g n / rms_root b eps v0 c g n.
Proof. reflexivity. Qed.
Lemma rms_root_low b eps v0 c g n : 0 <= b < 1 -> 0 <= v0 -> 0 <= eps -> sqrt eps <= rms_root b eps v0 c g n.
Proof.
  intros Hb Hv He. unfold rms_root. cbv zeta. apply sqrt_le_1_alt. pose proof (ema_jensen b v0 g n ltac:(lra) Hv) as HJ. destruct c.
  - replace ((1 - b) * wsum b g n) with (ema_of b 0 g n) by (unfold ema_of; ring). lra.
  - pose proof (Rle_0_sqr (ema_of b 0 g n)) as Q. unfold Rsqr in Q. lra.
Qed.
Lemma rms_root_high b eps v0 c g n G : 0 <= b < 1 -> 0 <= v0 -> (forall i, (i <= n)%nat -> Rabs (g i) <= G) -> rms_root b eps v0 c g n <= sqrt (Rmax v0 (G * G) + eps).
Proof.
  intros Hb Hv HG. unfold rms_root. cbv zeta. apply sqrt_le_1_alt. apply Rplus_le_compat_r. set (mu := if c then _ else _). set (M := Rmax v0 (G * G)).
  assert (H : ema_of b v0 (fun i => g i * g i) n <= M).
  { unfold ema_of. pose proof (wsum_const b M n) as E. assert (W : wsum b (fun i => g i * g i) n <= wsum b (fun _ => M) n).
    { apply wsum_le; [lra|]. intros i Hi. apply Rle_trans with (G * G); [|apply Rmax_r]. specialize (HG i Hi). pose proof (Rabs_pos (g i)). replace (g i * g i) with (Rabs (g i) * Rabs (g i)) by (rewrite <- Rabs_mult, Rabs_pos_eq; [reflexivity|nra]). nra. }
    assert (0 <= b ^ S n) by (apply pow_le; lra). pose proof (Rmax_l v0 (G * G)) as V. fold M in V. assert (b ^ S n * v0 <= b ^ S n * M) by (apply Rmult_le_compat_l; assumption). nra. }
  pose proof (Rle_0_sqr mu) as Q. unfold Rsqr in Q. lra.
Qed.
(*@ C89_rmsprop : rmsprop (centered or not, no momentum) with lr * L <= sqrt eps, minimising any L-smooth function, convex or not: n steps never fail and f never increases; while the partial derivatives at the visited points stay within G, each step decreases f by at least lr / (2 sqrt(max(v0, G^2) + eps)) |grad|^2, so if f never goes below m the squared norms of the gradients sum to at most 2 sqrt(max(v0, G^2) + eps) (f(x_0) - m) / lr, for every n. *)
Lemma rmsprop_stationary : forall `{P : Platform} (lr L b eps v0 : R) (centered nest : bool) (p : tree tensor) (grad : tree tensor -> tree tensor) (f : list R -> R) (n : nat), 0 < lr -> 0 <= L -> lr * L <= sqrt eps -> 0 <= b < 1 -> 0 < eps -> 0 <= v0 -> trwf p -> finite_tree p ->
  (forall x, point_of p x -> point_of p (grad x)) -> smooth p f grad L ->
  exists T s0 qs sf, rmsprop (LConst (Fin lr)) (Fin b) (Fin eps) (Fin v0) centered None nest = Ok T /\ init T p = Ok s0 /\ minimise T grad n s0 p = Ok (qs, sf) /\ length qs = n /\ Forall (point_of p) qs /\
    let x t := nth t (p :: qs) p in
    (forall t, (t < n)%nat -> f (rvals (x (S t))) <= f (rvals (x t))) /\
    forall G, (forall t v, (t < n)%nat -> In v (rvals (grad (x t))) -> Rabs v <= G) ->
      let H := sqrt (Rmax v0 (G * G) + eps) in
      (forall t, (t < n)%nat -> f (rvals (x (S t))) <= f (rvals (x t)) - lr / (2 * H) * sumsq (rvals (grad (x t)))) /\
      forall m, (forall y, m <= f y) -> rsum (map (fun t => sumsq (rvals (grad (x t)))) (seq 0 n)) <= 2 * H * (f (rvals p) - m) / lr.
Proof.
  intros P lr L b eps v0 c nest p grad f n Hlr HL HlL Hb He Hv Wp Fp Hgr Hsm.
  destruct (@rmsprop_closed_form P (@LConst (XROps P) (Fin lr)) (fun _ => lr) b eps v0 c None nest (fun _ => eq_refl) Hb He Hv) as (T & ET & HE). cbn [momentum_of option_map] in HE, ET.
  destruct (minimise_smooth T _ grad p f L HE Wp Fp Hgr Hsm n) as (s0 & qs & sf & Ei & El & Hl & Hq & _ & Hd & HG).
  exists T, s0, qs, sf. repeat (split; [assumption|]). cbn zeta in *. nx. set (N := length (rvals p)) in *.
  set (g := fun t i => nth i (rvals (grad (nth t (p :: qs) p))) 0). set (h := fun t i => rms_root b eps v0 c (fun k => g k i) t).
  assert (Hs : 0 < sqrt eps) by (apply sqrt_lt_R0; lra). assert (Hh : forall t i, sqrt eps <= h t i) by (intros t i; apply rms_root_low; lra).
  assert (K : forall t, (t < n)%nat -> f (rvals (nth (S t) (p :: qs) p)) <= f (rvals (nth t (p :: qs) p)) - lr / 2 * S_ N (fun i => g t i * g t i / h t i)).
  { intros t Ht. eapply Rle_trans; [apply Hd; exact Ht|]. fold g. rewrite <- rsum_map_scal, Rplus_assoc, <- rsum_map_add. apply Rplus_le_compat_l. rewrite <- Ropp_mult_distr_l_reverse, <- rsum_map_scal. apply rsum_map_le. intros i _.
    change (fun k => nth i (rvals (grad (nth k (p :: qs) p))) 0) with (fun k => g k i). rewrite rms_root_dir. fold (h t i). change (nth i (rvals (grad (nth t (p :: qs) p))) 0) with (g t i). specialize (Hh t i). set (u := g t i). set (r := h t i) in *.
    assert (Hu : 0 <= u * u * / r) by (apply Rmult_le_pos; [nra|left; apply Rinv_0_lt_compat; lra]).
    replace (u * (- lr * (u / r)) + L / 2 * (- lr * (u / r) * (- lr * (u / r)))) with (- lr * (u * u * / r) + lr / 2 * (u * u * / r) * (lr * L * / r)) by (field; lra).
    assert (lr * L * / r <= 1) by (apply (Rmult_le_reg_r r); [lra|]; rewrite Rmult_assoc, Rinv_l by lra; lra).
    assert (lr / 2 * (u * u * / r) * (lr * L * / r) <= lr / 2 * (u * u * / r) * 1) by (apply Rmult_le_compat_l; [nra|assumption]). change (u * u / r) with (u * u * / r). lra. }
  split.
  { intros t Ht. specialize (K t Ht). assert (0 <= S_ N (fun i => g t i * g t i / h t i)); [|nra]. apply S_nonneg. intros i. specialize (Hh t i). apply Rmult_le_pos; [nra|left; apply Rinv_0_lt_compat; lra]. }
  intros G HGb. set (H := sqrt (Rmax v0 (G * G) + eps)). assert (HH : 0 < H) by (apply sqrt_lt_R0; pose proof (Rmax_l v0 (G * G)); lra).
  assert (LG : forall t, (t <= n)%nat -> length (rvals (grad (nth t (p :: qs) p))) = N) by (intros t Ht; apply rvals_length; [exact Wp|]; apply Hgr, HG, Ht).
  assert (K2 : forall t, (t < n)%nat -> f (rvals (nth (S t) (p :: qs) p)) <= f (rvals (nth t (p :: qs) p)) - lr / (2 * H) * sumsq (rvals (grad (nth t (p :: qs) p)))).
  { intros t Ht. eapply Rle_trans; [apply K; exact Ht|]. apply Rplus_le_compat_l, Ropp_le_contravar. rewrite (proj2 (HG t ltac:(lia))). fold g. replace (lr / (2 * H)) with (lr / 2 * / H) by (field; lra). rewrite Rmult_assoc. apply Rmult_le_compat_l; [lra|]. rewrite <- rsum_map_scal. apply rsum_map_le. intros i Hi. apply in_seq in Hi.
    change (nth i (rvals (grad (nth t (p :: qs) p))) 0) with (g t i). unfold Rdiv. rewrite (Rmult_comm (/ H)). apply Rmult_le_compat_l; [apply Rle_0_sqr|]. specialize (Hh t i). apply Rinv_le_contravar; [lra|]. apply rms_root_high; [lra|lra|]. intros k Hk. apply (HGb k); [lia|]. apply nth_In. rewrite LG by lia. lia. }
  split; [exact K2|]. intros m Hm.
  pose proof (telescope (fun t => f (rvals (nth t (p :: qs) p))) _ n K2) as Q. cbv beta in Q. change (nth 0 (p :: qs) p) with p in Q. rewrite rsum_map_scal in Q. specialize (Hm (rvals (nth n (p :: qs) p))).
  apply (Rmult_le_reg_l (lr / (2 * H))); [apply Rmult_lt_0_compat; [lra|apply Rinv_0_lt_compat; lra]|]. replace (lr / (2 * H) * (2 * H * (f (rvals p) - m) / lr)) with (f (rvals p) - m) by (field; lra). lra.
Qed.

(** ** adam *)
Lemma wsum_plus b (f g : nat -> R) n : wsum b (fun k => f k + g k) n = wsum b f n + wsum b g n.
Proof. induction n as [|n IH]; [now rewrite !wsum_0|]. rewrite !wsum_S, IH. ring. Qed.
Lemma wsum_rsum b N (h : nat -> nat -> R) n : S_ N (fun i => wsum b (h i) n) = wsum b (fun k => S_ N (fun i => h i k)) n.
Proof. induction n as [|n IH]; [rewrite wsum_0; apply rsum_map_ext; intros; apply wsum_0|]. rewrite wsum_S, <- IH, <- rsum_map_scal, <- rsum_map_add. apply rsum_map_ext. intros. apply wsum_S. Qed.
Section Geo.
  Variable b : R.
  Hypothesis Hb : 0 <= b < 1.
  Lemma g0_pos n : 0 < wsum b (fun _ => 1) n.
  Proof. induction n as [|n IH]; [rewrite wsum_0; lra|]. rewrite wsum_S. nra. Qed.
  Lemma g0_le n : (1 - b) * wsum b (fun _ => 1) n <= 1.
  Proof. rewrite wsum_const. assert (0 <= b ^ S n) by (apply pow_le; lra). lra. Qed.
  Lemma wsum_cs a n : wsum b a n * wsum b a n <= wsum b (fun _ => 1) n * wsum b (fun k => a k * a k) n.
  Proof.
    induction n as [|n IH]; [rewrite !wsum_0; lra|]. rewrite !wsum_S. pose proof (g0_pos n) as Hg. set (W := wsum b a n) in *. set (V := wsum b (fun k => a k * a k) n) in *. set (y := wsum b (fun _ => 1) n) in *. set (u := a (S n)).
    assert (K : 0 <= V + y * (u * u) - 2 * u * W). { apply (Rmult_le_reg_l y); [exact Hg|]. rewrite Rmult_0_r. pose proof (Rle_0_sqr (W - y * u)) as Q. unfold Rsqr in Q. nra. }
    assert (b * (V + y * (u * u) - 2 * u * W) >= 0) by nra. assert (b * b * (W * W) <= b * b * (y * V)) by (apply Rmult_le_compat_l; [nra|exact IH]). nra.
  Qed.
  (** first and second moment of the age of a gradient in the moving average *)
  Lemma age_shift (h : nat -> R) n : wsum b (fun k => h (S n - k)%nat) (S n) = h 0%nat + b * wsum b (fun k => h (S (n - k))) n.
  Proof. rewrite wsum_S, Nat.sub_diag. f_equal. f_equal. apply wsum_ext. intros i Hi. now rewrite Nat.sub_succ_l. Qed.
  Lemma age1 n : (1 - b) * wsum b (fun k => INR (n - k)) n <= b * wsum b (fun _ => 1) n.
  Proof.
    induction n as [|n IH]; [rewrite !wsum_0; cbn; lra|]. rewrite (age_shift INR). cbn [INR]. rewrite (wsum_ext b (fun k => INR (S (n - k))) (fun k => INR (n - k) + 1)) by (intros; apply S_INR).
    assert (E : wsum b (fun k => INR (n - k) + 1) n = wsum b (fun k => INR (n - k)) n + wsum b (fun _ => 1) n) by apply wsum_plus. rewrite E, (wsum_S b (fun _ => 1)). pose proof (g0_pos n). pose proof (g0_le n). set (y := wsum b (fun _ => 1) n) in *. clear E. set (M := wsum b (fun k => INR (n - k)) n) in *.
    assert (b * ((1 - b) * M) <= b * (b * y)) by (apply Rmult_le_compat_l; lra). assert (b * ((1 - b) * y) <= b * 1) by (apply Rmult_le_compat_l; lra). lra.
  Qed.
  Lemma age2 n : (1 - b) * (1 - b) * wsum b (fun k => INR (n - k) * INR (n - k)) n <= b * (1 + b) * wsum b (fun _ => 1) n.
  Proof.
    induction n as [|n IH]; [rewrite !wsum_0; cbn; nra|]. rewrite (age_shift (fun j => INR j * INR j)). cbn [INR]. rewrite (wsum_ext b (fun k => INR (S (n - k)) * INR (S (n - k))) (fun k => INR (n - k) * INR (n - k) + (2 * INR (n - k) + 1))) by (intros; rewrite S_INR; ring).
    rewrite wsum_plus, (wsum_plus b (fun k => 2 * INR (n - k)) (fun _ => 1)), (wsum_scal b 2), (wsum_S b (fun _ => 1)). pose proof (g0_pos n). pose proof (age1 n) as A1. set (y := wsum b (fun _ => 1) n) in *. set (M := wsum b (fun k => INR (n - k)) n) in *. set (Q := wsum b (fun k => INR (n - k) * INR (n - k)) n) in *.
    assert (2 * (1 - b) * ((1 - b) * M) <= 2 * (1 - b) * (b * y)) by (apply Rmult_le_compat_l; lra).
    assert ((1 - b) * (1 - b) * (Q + (2 * M + y)) <= (1 + b) * y) by lra.
    assert (b * ((1 - b) * (1 - b) * (Q + (2 * M + y))) <= b * ((1 + b) * y)) by (apply Rmult_le_compat_l; lra). pose proof (g0_le n) as G. fold y in G. assert (b * (1 + b) * ((1 - b) * y) <= b * (1 + b) * 1) by (apply Rmult_le_compat_l; nra). lra.
  Qed.
End Geo.
(** Adam's two estimates. *)
Definition adam_m (b : R) (g : nat -> R) (n : nat) : R := (1 - b) * wsum b g n / (1 - b ^ S n).
Definition adam_root (b2 eps er : R) (g : nat -> R) (n : nat) : R := sqrt ((1 - b2) * wsum b2 (fun i => g i * g i) n / (1 - b2 ^ S n) + er) + eps.
Lemma adam_dir_parts b1 b2 eps er g n : (Z.of_nat (S n) < 2 ^ 31)%Z -> adam_dir b1 b2 eps er g n = adam_m b1 g n / adam_root b2 eps er g n.
Proof. intros Hn. unfold adam_dir. cbv zeta. rewrite satcount_small by lia. reflexivity. Qed.
Lemma mean_weights b n : 0 <= b < 1 -> (1 - b) / (1 - b ^ S n) = / wsum b (fun _ => 1) n.
Proof.
  intros Hb. pose proof (g0_pos b Hb n) as Hg. pose proof (wsum_const b 1 n) as E. rewrite Rmult_1_l in E. rewrite <- E. field. split; lra.
Qed.
Lemma adam_m_mean b g n : 0 <= b < 1 -> adam_m b g n = wsum b g n / wsum b (fun _ => 1) n.
Proof. intros Hb. unfold adam_m. pose proof (mean_weights b n Hb) as E. unfold Rdiv in *. rewrite (Rmult_comm (wsum b g n) (/ _)), <- E. ring. Qed.
Lemma adam_root_bounds b2 eps er g n G : 0 <= b2 < 1 -> 0 < eps -> 0 <= er -> (forall i, (i <= n)%nat -> Rabs (g i) <= G) -> eps <= adam_root b2 eps er g n <= sqrt (G * G + er) + eps.
Proof.
  intros Hb He Hr HG. unfold adam_root. split; [pose proof (sqrt_pos ((1 - b2) * wsum b2 (fun i => g i * g i) n / (1 - b2 ^ S n) + er)); lra|]. apply Rplus_le_compat_r, sqrt_le_1_alt, Rplus_le_compat_r.
  pose proof (adam_m_mean b2 (fun i => g i * g i) n Hb) as E. unfold adam_m in E. rewrite E. pose proof (g0_pos b2 Hb n) as Hg. apply (Rmult_le_reg_r (wsum b2 (fun _ => 1) n)); [exact Hg|]. unfold Rdiv. rewrite Rmult_assoc, Rinv_l, Rmult_1_r by lra.
  rewrite <- wsum_scal. apply wsum_le; [lra|]. intros i Hi. specialize (HG i Hi). pose proof (Rabs_pos (g i)). replace (g i * g i) with (Rabs (g i) * Rabs (g i)) by (rewrite <- Rabs_mult, Rabs_pos_eq; [reflexivity|nra]). nra.
Qed.
(** Distance of the averaged gradient from the current one. *)
Lemma adam_m_lag b g n : 0 <= b < 1 -> (g n - adam_m b g n) * (g n - adam_m b g n) <= wsum b (fun k => (g n - g k) * (g n - g k)) n / wsum b (fun _ => 1) n.
Proof.
  intros Hb. rewrite (adam_m_mean b g n Hb). pose proof (g0_pos b Hb n) as Hg. pose proof (wsum_cs b Hb (fun k => g n - g k) n) as CS.
  assert (E : wsum b (fun k => g n - g k) n = g n * wsum b (fun _ => 1) n - wsum b g n). { rewrite <- wsum_scal. rewrite (wsum_ext b (fun k => g n - g k) (fun k => g n * 1 + (-1) * g k)) by (intros; ring). rewrite wsum_plus, (wsum_scal b (-1)). ring. }
  rewrite E in CS. set (y := wsum b (fun _ => 1) n) in *. set (V := wsum b (fun k => (g n - g k) * (g n - g k)) n) in *. set (W := wsum b g n) in *.
  replace ((g n - W / y) * (g n - W / y)) with ((g n * y - W) * (g n * y - W) / (y * y)) by (field; lra). apply (Rmult_le_reg_r (y * y)); [nra|]. unfold Rdiv. rewrite Rmult_assoc, Rinv_l, Rmult_1_r by nra. replace (V * / y * (y * y)) with (y * V) by (field; lra). exact CS.
Qed.
(*@ C90_adam : adam with full gradients, learning rate lr > 0, b1^2 < b2, minimising any function with an L-Lipschitz gradient (convex or not), for fewer than 2^31 steps: n steps never fail, and while the partial derivatives at the visited points stay within G and f never goes below m, the average of |grad|^2 over the n visited points is at most H (2 (f(x_0) - m) / (lr n) + lr N U^2 L (1 + L lr k / eps)), where N is the number of parameters, H = sqrt(G^2 + eps_root) + eps, U = adam_max b1 b2 and k = b1 (1 + b1) / (1 - b1)^2: as close to 0 as wished, with lr small and n large. (C83: with one gradient per example instead of full gradients this fails for every lr.) *)
Lemma adam_stationary : forall `{P : Platform} (lr b1 b2 eps er L m G : R) (p : tree tensor) (grad : tree tensor -> tree tensor) (df : list R -> list R) (f : list R -> R) (n : nat), 0 < lr -> 0 <= b1 < 1 -> 0 < b2 < 1 -> b1 * b1 < b2 -> 0 < eps -> 0 <= er -> 0 <= L ->
  (0 < n)%nat -> (Z.of_nat n < 2 ^ 31)%Z -> trwf p -> finite_tree p -> computes p grad df -> smooth_field (length (rvals p)) f df L -> (forall y, m <= f y) ->
  exists T s0 qs sf, adam (LConst (Fin lr)) (Fin b1) (Fin b2) (Fin eps) (Fin er) = Ok T /\ init T p = Ok s0 /\ minimise T grad n s0 p = Ok (qs, sf) /\ length qs = n /\ Forall (point_of p) qs /\
    let x t := nth t (p :: qs) p in
    ((forall t v, (t < n)%nat -> In v (rvals (grad (x t))) -> Rabs v <= G) ->
     rsum (map (fun t => sumsq (rvals (grad (x t)))) (seq 0 n)) / INR n <=
       (sqrt (G * G + er) + eps) * (2 * (f (rvals p) - m) / (lr * INR n) + lr * INR (length (rvals p)) * adam_max b1 b2 ^ 2 * L * (1 + L * lr * (b1 * (1 + b1) / (1 - b1) ^ 2) / eps))).
Proof.
  intros P lr b1 b2 eps er L m G p grad df f n Hlr H1 H2 H12 He Hr HL Hn Hn31 Wp Fp Hcomp Hf Hm.
  destruct (@alias_closed_forms P (@LConst (XROps P) (Fin lr)) (fun _ => lr) b1 b2 eps er 5 0 (fun _ => eq_refl)) as ((T & ET & HE) & _); [lra..|]. cbn beta in HE.
  assert (Hgr : forall x, point_of p x -> point_of p (grad x)) by (intros x Hx; apply Hcomp, Hx).
  assert (Hsm : smooth p f grad L). { intros x y Hx Hy. destruct (Hf (rvals x) (rvals y)) as (_ & H & _); [now apply rvals_length|now apply rvals_length|]. rewrite (proj2 (Hcomp x Hx)). exact H. }
  destruct (minimise_smooth T _ grad p f L HE Wp Fp Hgr Hsm n) as (s0 & qs & sf & Ei & El & Hl & Hq & Hx & Hd & HG).
  exists T, s0, qs, sf. repeat (split; [assumption|]). cbn zeta in *. nx. set (N := length (rvals p)) in *. intros HGb.
  set (X := fun t i => nth i (rvals (nth t (p :: qs) p)) 0). set (g := fun t i => nth i (rvals (grad (nth t (p :: qs) p))) 0). set (U := adam_max b1 b2) in *. set (H := sqrt (G * G + er) + eps).
  assert (LX : forall t, (t <= n)%nat -> length (rvals (nth t (p :: qs) p)) = N) by (intros t Ht; apply rvals_length; [exact Wp|]; apply HG, Ht).
  assert (LG : forall t, (t <= n)%nat -> length (rvals (grad (nth t (p :: qs) p))) = N) by (intros t Ht; apply rvals_length; [exact Wp|]; apply Hgr, HG, Ht).
  assert (HH : 0 < H) by (unfold H; pose proof (sqrt_pos (G * G + er)); lra).
  assert (HU : forall t i, Rabs (adam_dir b1 b2 eps er (fun k => g k i) t) <= U) by (intros; apply adam_dir_max; assumption). assert (U0 : 0 <= U) by (eapply Rle_trans; [apply Rabs_pos|apply (HU 0%nat 0%nat)]).
  (* how far the parameters move in j steps *)
  assert (Mv : forall i j t, (i < N)%nat -> (t + j <= n)%nat -> Rabs (X (t + j)%nat i - X t i) <= lr * U * INR j).
  { intros i j t Hi. induction j as [|j IH]; intros Hj; [rewrite Nat.add_0_r, Rminus_diag_eq, Rabs_R0 by reflexivity; cbn [INR]; lra|]. specialize (IH ltac:(lia)). rewrite Nat.add_succ_r, S_INR. pose proof (Hx (t + j)%nat i ltac:(lia) Hi) as E. fold g in E. fold (X (S (t + j)) i) (X (t + j)%nat i) in E. rewrite E.
    replace (X (t + j)%nat i + _ - X t i) with ((X (t + j)%nat i - X t i) + - lr * adam_dir b1 b2 eps er (fun k => g k i) (t + j)) by (unfold g; ring). eapply Rle_trans; [apply Rabs_triang|]. rewrite Rabs_mult, Rabs_Ropp, (Rabs_right lr) by lra. specialize (HU (t + j)%nat i). assert (lr * Rabs (adam_dir b1 b2 eps er (fun k => g k i) (t + j)) <= lr * U) by (apply Rmult_le_compat_l; lra). lra. }
  assert (Lip : forall k t, (k <= t)%nat -> (t < n)%nat -> S_ N (fun i => (g t i - g k i) * (g t i - g k i)) <= L ^ 2 * (INR N * (lr * U) ^ 2) * (INR (t - k) * INR (t - k))).
  { intros k t Hk Ht. destruct (Hf (rvals (nth t (p :: qs) p)) (rvals (nth k (p :: qs) p))) as (_ & _ & HLip); [apply LX; lia|apply LX; lia|].
    rewrite <- !(fun x Hx => proj2 (Hcomp x Hx)) in HLip by (apply HG; lia). rewrite !(sumsq_vsub _ _ N) in HLip by (first [apply LG|apply LX]; lia). fold (X t) (X k) in HLip. eapply Rle_trans; [exact HLip|]. rewrite !Rmult_assoc. apply Rmult_le_compat_l; [nra|].
    rewrite <- (seq_length N 0) at 2. rewrite <- rsum_map_const. apply rsum_map_le. intros i Hi. apply in_seq in Hi. pose proof (Mv i (t - k)%nat k ltac:(lia) ltac:(lia)) as B. replace (k + (t - k))%nat with t in B by lia. fold (X t i) (X k i). pose proof (Rabs_pos (X t i - X k i)).
    replace ((X t i - X k i) * (X t i - X k i)) with (Rabs (X t i - X k i) * Rabs (X t i - X k i)) by (rewrite <- Rabs_mult, Rabs_pos_eq; [reflexivity|apply Rle_0_sqr]). replace ((lr * U) ^ 2 * (INR (t - k) * INR (t - k))) with (lr * U * INR (t - k) * (lr * U * INR (t - k))) by ring. apply Rmult_le_compat; assumption. }
  set (kap := b1 * (1 + b1) / (1 - b1) ^ 2).
  assert (Lag : forall t, (t < n)%nat -> S_ N (fun i => (g t i - adam_m b1 (fun k => g k i) t) * (g t i - adam_m b1 (fun k => g k i) t)) <= L ^ 2 * (INR N * (lr * U) ^ 2) * kap).
  { intros t Ht. pose proof (g0_pos b1 H1 t) as Hy. set (y := wsum b1 (fun _ => 1) t) in *. set (C := L ^ 2 * (INR N * (lr * U) ^ 2)). assert (HC : 0 <= C) by (unfold C; apply Rmult_le_pos; [nra|apply Rmult_le_pos; [apply pos_INR|nra]]).
    apply Rle_trans with (S_ N (fun i => / y * wsum b1 (fun k => (g t i - g k i) * (g t i - g k i)) t)). { apply rsum_map_le. intros i _. rewrite (Rmult_comm (/ y)). exact (adam_m_lag b1 (fun k => g k i) t H1). }
    rewrite rsum_map_scal. apply (Rmult_le_reg_l y); [exact Hy|]. rewrite <- Rmult_assoc, Rinv_r, Rmult_1_l by lra.
    apply Rle_trans with (wsum b1 (fun k => C * (INR (t - k) * INR (t - k))) t).
    - apply Rle_trans with (wsum b1 (fun k => S_ N (fun i => (g t i - g k i) * (g t i - g k i))) t); [right; exact (wsum_rsum b1 N (fun i k => (g t i - g k i) * (g t i - g k i)) t)|]. apply wsum_le; [lra|]. intros k Hk. now apply Lip.
    - rewrite wsum_scal. replace (y * (C * kap)) with (C * (b1 * (1 + b1) * y / ((1 - b1) * (1 - b1)))) by (unfold kap; field; lra). apply Rmult_le_compat_l; [exact HC|]. apply (Rmult_le_reg_r ((1 - b1) * (1 - b1))); [nra|]. unfold Rdiv. rewrite (Rmult_assoc (b1 * (1 + b1) * y)), Rinv_l, Rmult_1_r by nra. rewrite Rmult_comm. exact (age2 b1 H1 t). }
  set (E1 := lr / (2 * eps) * (L ^ 2 * (INR N * (lr * U) ^ 2) * kap)). set (E2 := L / 2 * (INR N * (lr * U) ^ 2)).
  assert (K : forall t, (t < n)%nat -> f (rvals (nth (S t) (p :: qs) p)) <= f (rvals (nth t (p :: qs) p)) - (lr / (2 * H) * sumsq (rvals (grad (nth t (p :: qs) p))) - (E1 + E2))).
  { intros t Ht. eapply Rle_trans; [apply Hd; exact Ht|]. rewrite (proj2 (HG t ltac:(lia))). fold g. change (fun i => nth i (rvals (grad (nth t (p :: qs) p))) 0 * nth i (rvals (grad (nth t (p :: qs) p))) 0) with (fun i => g t i * g t i).
    match goal with |- _ + ?a + L / 2 * ?b <= _ => assert (A1 : a <= - (lr / (2 * H)) * S_ N (fun i => g t i * g t i) + lr / (2 * eps) * S_ N (fun i => (g t i - adam_m b1 (fun k => g k i) t) * (g t i - adam_m b1 (fun k => g k i) t))); [|assert (A2 : b <= INR N * (lr * U) ^ 2)] end.
    - rewrite <- !rsum_map_scal, <- rsum_map_add. apply rsum_map_le. intros i Hi. apply in_seq in Hi. change (nth i (rvals (grad (nth t (p :: qs) p))) 0) with (g t i). change (fun k => nth i (rvals (grad (nth k (p :: qs) p))) 0) with (fun k => g k i). rewrite adam_dir_parts by lia.
      destruct (adam_root_bounds b2 eps er (fun k => g k i) t G ltac:(lra) He Hr) as (R1 & R2). { intros k Hk. apply (HGb k); [lia|]. apply nth_In. rewrite LG by lia. lia. } fold H in R2. set (r := adam_root _ _ _ _ _) in *. set (mh := adam_m _ _ _). set (u := g t i).
      assert (I1 : / H <= / r) by (apply Rinv_le_contravar; lra). assert (I2 : / r <= / eps) by (apply Rinv_le_contravar; lra). assert (I0 : 0 < / H) by (apply Rinv_0_lt_compat; lra).
      replace (- (lr / (2 * H)) * (u * u) + lr / (2 * eps) * ((u - mh) * (u - mh))) with (lr / 2 * (- (/ H * (u * u)) + / eps * ((u - mh) * (u - mh)))) by (field; lra).
      replace (u * (- lr * (mh / r))) with (lr / 2 * (- (/ r * (u * u)) + / r * ((u - mh) * (u - mh)) - / r * (mh * mh))) by (field; lra). apply Rmult_le_compat_l; [lra|].
      assert (/ H * (u * u) <= / r * (u * u)) by (apply Rmult_le_compat_r; [apply Rle_0_sqr|exact I1]). assert (/ r * ((u - mh) * (u - mh)) <= / eps * ((u - mh) * (u - mh))) by (apply Rmult_le_compat_r; [apply Rle_0_sqr|exact I2]). assert (0 <= / r * (mh * mh)) by (apply Rmult_le_pos; [lra|apply Rle_0_sqr]). lra.
    - rewrite <- (seq_length N 0) at 2. rewrite <- rsum_map_const. apply rsum_map_le. intros i _. change (fun k => nth i (rvals (grad (nth k (p :: qs) p))) 0) with (fun k => g k i). specialize (HU t i). set (d := adam_dir _ _ _ _ _ _) in *. pose proof (Rabs_pos d).
      replace (- lr * d * (- lr * d)) with (lr * lr * (Rabs d * Rabs d)) by (rewrite <- Rabs_mult, (Rabs_pos_eq (d * d)) by apply Rle_0_sqr; ring). replace ((lr * U) ^ 2) with (lr * lr * (U * U)) by ring. apply Rmult_le_compat_l; [nra|]. apply Rmult_le_compat; assumption.
    - specialize (Lag t Ht). apply (Rmult_le_compat_l (lr / (2 * eps))) in Lag; [|left; apply Rmult_lt_0_compat; [lra|apply Rinv_0_lt_compat; lra]]. fold E1 in Lag. apply (Rmult_le_compat_l (L / 2)) in A2; [|lra]. fold E2 in A2. lra. }
  pose proof (telescope (fun t => f (rvals (nth t (p :: qs) p))) _ n K) as Q. cbv beta in Q. change (nth 0 (p :: qs) p) with p in Q. rewrite rsum_map_sub, rsum_map_scal, rsum_map_const, seq_length in Q. specialize (Hm (rvals (nth n (p :: qs) p))). pose proof (lt_0_INR n Hn) as Hn'.
  apply (Rmult_le_reg_l (INR n * (lr / (2 * H)))); [apply Rmult_lt_0_compat; [exact Hn'|apply Rmult_lt_0_compat; [lra|apply Rinv_0_lt_compat; lra]]|].
  match goal with |- ?l <= ?r => replace l with (lr / (2 * H) * S_ n (fun t => sumsq (rvals (grad (nth t (p :: qs) p))))) by (field; lra); replace r with (f (rvals p) - m + INR n * (E1 + E2)) by (unfold E1, E2; field; lra) end. lra.
Qed.
(** A non-convex example: the sum of v^2 / (1 + v^2). *)
Definition bowl (l : list R) : R := rsum (map (fun v => v * v / (1 + v * v)) l).
Definition bowl_df (v : R) : R := 2 * v / ((1 + v * v) * (1 + v * v)).
Definition bowl_grad (x : tree (gt XR)) : tree (gt XR) := emapt (fun _ v => Fin (bowl_df (xval v))) x.
Lemma bowl_grad_vals x : rvals (bowl_grad x) = map bowl_df (rvals x).
Proof.
  unfold rvals, vals, bowl_grad, emapt. rewrite leaves_tmap, map_map. change (fun x : gt XR => dat (emap (fun _ v => Fin (bowl_df (xval v))) x)) with (fun x : gt XR => map (fun v => Fin (bowl_df (xval v))) (dat x)).
  rewrite <- (map_map dat (map (fun v => Fin (bowl_df (xval v))))), <- concat_map, !map_map. reflexivity.
Qed.
Lemma bowl_ok `{P : Platform} (p x : tree (gt XR)) : point_of p x -> point_of p (bowl_grad x).
Proof.
  intros ((Ha & Hw) & Fx). split; [split; [unfold bowl_grad; now rewrite emapt_avals|now apply emapt_wf]|]. apply finite_of_elts. intros pos v. unfold bowl_grad. rewrite elt_emapt.
  destruct (elt x pos) as [w|] eqn:E; [|discriminate]. intros [= <-]. eexists; reflexivity.
Qed.
Lemma bowl_one x y : y * y / (1 + y * y) <= x * x / (1 + x * x) + bowl_df x * (y - x) + 2 / 2 * ((y - x) * (y - x)).
Proof.
  unfold bowl_df. assert (Ha : 1 <= 1 + x * x) by nra. assert (Hb : 1 <= 1 + y * y) by nra. set (a := 1 + x * x) in *. set (b := 1 + y * y) in *.
  apply (Rmult_le_reg_r (a * a * b)); [nra|].
  replace (y * y / b * (a * a * b)) with (y * y * (a * a)) by (field; lra). replace ((x * x / a + 2 * x / (a * a) * (y - x) + 2 / 2 * ((y - x) * (y - x))) * (a * a * b)) with (x * x * (a * b) + 2 * x * (y - x) * b + (y - x) * (y - x) * (a * a * b)) by (field; lra).
  assert (E : y * y * (a * a) - x * x * (a * b) - 2 * x * (y - x) * b = (y - x) * (y - x) * (b - (x + y) * (x + y))) by (unfold a, b; ring).
  assert (H : b <= a * a * b) by (assert (1 <= a * a) by nra; nra). pose proof (Rle_0_sqr (x + y)) as Q. pose proof (Rle_0_sqr (y - x)) as Q2. unfold Rsqr in *.
  assert ((y - x) * (y - x) * (b - (x + y) * (x + y)) <= (y - x) * (y - x) * (a * a * b)) by (apply Rmult_le_compat_l; lra). lra.
Qed.
Lemma bowl_taylor (x y : list R) : length y = length x -> bowl y <= bowl x + dot (map bowl_df x) (vsub y x) + 2 / 2 * sumsq (vsub y x).
Proof.
  revert y. induction x as [|a x IH]; intros [|b y] E; try discriminate; [unfold bowl, dot, vsub, sumsq; cbn; unfold rsum; cbn; lra|]. cbn in E. injection E as E. specialize (IH y E). pose proof (bowl_one a b) as B.
  unfold bowl, vsub in *. cbn [map combine fst snd]. rewrite !rsum_cons, dot_cons, sumsq_cons. lra.
Qed.
Lemma bowl_smooth `{P : Platform} (p : tree (gt XR)) : trwf p -> smooth p bowl bowl_grad 2.
Proof.
  intros Wp x y Hx Hy. rewrite bowl_grad_vals. apply bowl_taylor. transitivity (length (rvals p)); [now apply rvals_length|symmetry; now apply rvals_length].
Qed.
Lemma bowl_nonneg y : 0 <= bowl y.
Proof. unfold bowl. induction y as [|a y IH]; cbn [map]; rewrite ?rsum_cons, ?rsum_nil; [lra|]. assert (0 <= a * a / (1 + a * a)) by (apply Rmult_le_pos; [nra|left; apply Rinv_0_lt_compat; nra]). lra. Qed.
Lemma bowl_df_le v : Rabs (bowl_df v) <= 1.
Proof.
  unfold bowl_df. apply Rabs_le. assert (H : 1 <= (1 + v * v) * (1 + v * v)) by nra. set (a := (1 + v * v) * (1 + v * v)) in *. assert (- a <= 2 * v <= a) by (unfold a; nra).
  split; apply (Rmult_le_reg_r a); try lra; unfold Rdiv; rewrite Rmult_assoc, Rinv_l by lra; lra.
Qed.
(*@ex C89_example *)
Lemma station_example : forall `{P : Platform} (n : nat), (0 < n)%nat -> let p := Leaf (mkT F32 [2%nat] [Fin 5; Fin 1]) in
  (bowl [1] + bowl [3]) / 2 < bowl [(1 + 3) / 2] /\
  (exists T s0 qs sf, adagrad (LConst (Fin 100)) (Fin (1/10)) (Fin (1/10000000)) = Ok T /\ init T p = Ok s0 /\ minimise T bowl_grad n s0 p = Ok (qs, sf) /\
     exists t, (t < n)%nat /\ sumsq (rvals (bowl_grad (nth t (p :: qs) p))) <= adagrad_budget 100 2 (sqrt (1/10 + 1/10000000)) (bowl (rvals p) - 0) 2 ^ 2 / INR n) /\
  (exists T s0 qs sf, rmsprop (LConst (Fin (1/2))) (Fin (9/10)) (Fin 1) (Fin 0) true None false = Ok T /\ init T p = Ok s0 /\ minimise T bowl_grad n s0 p = Ok (qs, sf) /\
     rsum (map (fun t => sumsq (rvals (bowl_grad (nth t (p :: qs) p)))) (seq 0 n)) <= 2 * sqrt (Rmax 0 (1 * 1) + 1) * (bowl (rvals p) - 0) / (1/2)).
Proof.
  intros P n Hn. cbn zeta. set (p := Leaf (mkT F32 [2%nat] [Fin 5; Fin 1])). assert (Wp : trwf p) by (repeat constructor). assert (Fp : finite_tree p) by (repeat constructor; eexists; reflexivity).
  split; [unfold bowl, rsum; cbn; lra|]. split.
  - destruct (@adagrad_stationary P 100 2 (1/10) (1/10000000) 0 p bowl_grad bowl n) as (T & s0 & qs & sf & ET & Ei & El & _ & _ & _ & H); [lra|lra|lra|lra|exact Wp|exact Fp|apply bowl_ok|now apply bowl_smooth|apply bowl_nonneg|].
    exists T, s0, qs, sf. repeat (split; [assumption|]). exact (H Hn).
  - destruct (@rmsprop_stationary P (1/2) 2 (9/10) 1 0 true false p bowl_grad bowl n) as (T & s0 & qs & sf & ET & Ei & El & _ & _ & _ & H); [lra|lra|rewrite sqrt_1; lra|lra|lra|lra|exact Wp|exact Fp|apply bowl_ok|now apply bowl_smooth|].
    exists T, s0, qs, sf. repeat (split; [assumption|]). apply (H 1); [|apply bowl_nonneg]. intros t v _. rewrite bowl_grad_vals. intros Hv. apply in_map_iff in Hv as (w & <- & _). apply bowl_df_le.
Qed.
Lemma bowl_lip x y : (bowl_df x - bowl_df y) * (bowl_df x - bowl_df y) <= 2 * 2 * ((x - y) * (x - y)).
Proof.
  unfold bowl_df. set (a := 1 + x * x). set (b := 1 + y * y). assert (Ha : 1 <= a) by (unfold a; nra). assert (Hb : 1 <= b) by (unfold b; nra).
  set (q := 1 - 2 * (x * y) - x * y * (x * x + x * y + y * y)). assert (Hab : 0 < a * a * (b * b)) by (apply Rmult_lt_0_compat; apply Rmult_lt_0_compat; lra).
  replace (2 * x / (a * a) - 2 * y / (b * b)) with (2 * (x - y) * (q / (a * a * (b * b)))) by (unfold q, a, b in *; field; lra).
  set (h := (x * x + y * y) / 2). set (s := x * y).
  assert (Hs : - h <= s <= h). { unfold h, s. pose proof (Rle_0_sqr (x - y)) as Q1. pose proof (Rle_0_sqr (x + y)) as Q2. unfold Rsqr in *. split; lra. }
  assert (E1 : q = 1 - 2 * s - s * (2 * h + s)) by (unfold q, s, h; field). assert (E2 : a * b = 1 + 2 * h + s * s) by (unfold a, b, s, h; field).
  assert (Hq : - (a * b * (a * b)) <= q <= a * b * (a * b)). { rewrite E1, E2. assert (0 <= h) by (unfold h; nra). assert (- (h * (2 * h + h)) <= s * (2 * h + s) <= h * (2 * h + h)) by nra. assert ((1 + 2 * h) * (1 + 2 * h) <= (1 + 2 * h + s * s) * (1 + 2 * h + s * s)) by (apply Rmult_le_compat; nra). nra. }
  assert (K : -1 <= q / (a * a * (b * b)) <= 1). { split; apply (Rmult_le_reg_r (a * a * (b * b))); try exact Hab; unfold Rdiv; rewrite (Rmult_assoc q), Rinv_l by lra; lra. }
  set (k := q / (a * a * (b * b))) in *. pose proof (Rle_0_sqr (x - y)) as Q. unfold Rsqr in Q. assert (k * k <= 1) by nra. replace (2 * (x - y) * k * (2 * (x - y) * k)) with (4 * ((x - y) * (x - y)) * (k * k)) by ring. nra.
Qed.
Lemma bowl_field N : smooth_field N bowl (map bowl_df) 2.
Proof.
  intros u v Hu Hv. split; [now rewrite map_length|]. split; [apply bowl_taylor; congruence|]. rewrite <- Hv in Hu. clear Hv N. revert v Hu. induction u as [|a u IH]; intros [|b v] E; try discriminate; [unfold vsub, sumsq; cbn; unfold rsum; cbn; lra|]. cbn in E. injection E as E. specialize (IH v E). pose proof (bowl_lip a b) as B.
  unfold vsub in *. cbn [map combine fst snd]. rewrite !sumsq_cons. lra.
Qed.
(*@ex C90_example *)
Lemma adam_stationary_example : forall `{P : Platform} (n : nat), (0 < n)%nat -> (Z.of_nat n < 2 ^ 31)%Z -> let p := Leaf (mkT F32 [2%nat] [Fin 5; Fin 1]) in
  exists T s0 qs sf, adam (LConst (Fin (1/1000))) (Fin (9/10)) (Fin (999/1000)) (Fin (1/100000000)) (Fin 0) = Ok T /\ init T p = Ok s0 /\ minimise T bowl_grad n s0 p = Ok (qs, sf) /\
    rsum (map (fun t => sumsq (rvals (bowl_grad (nth t (p :: qs) p)))) (seq 0 n)) / INR n <=
      (sqrt (1 * 1 + 0) + 1/100000000) * (2 * (bowl [5; 1] - 0) / (1/1000 * INR n) + 1/1000 * INR 2 * adam_max (9/10) (999/1000) ^ 2 * 2 * (1 + 2 * (1/1000) * (9/10 * (1 + 9/10) / (1 - 9/10) ^ 2) / (1/100000000))).
Proof.
  intros P n Hn Hn31. cbn zeta. set (p := Leaf (mkT F32 [2%nat] [Fin 5; Fin 1])). assert (Wp : trwf p) by (repeat constructor). assert (Fp : finite_tree p) by (repeat constructor; eexists; reflexivity).
  destruct (@adam_stationary P (1/1000) (9/10) (999/1000) (1/100000000) 0 2 0 1 p bowl_grad (map bowl_df) bowl n) as (T & s0 & qs & sf & ET & Ei & El & _ & _ & H); [lra|lra|lra|lra|lra|lra|lra|exact Hn|exact Hn31|exact Wp|exact Fp| |apply bowl_field|apply bowl_nonneg|].
  { intros x Hx. split; [now apply bowl_ok|apply bowl_grad_vals]. }
  exists T, s0, qs, sf. repeat (split; [assumption|]). apply H. intros t v _. rewrite bowl_grad_vals. intros Hv. apply in_map_iff in Hv as (w & <- & _). apply bowl_df_le.
Qed.
