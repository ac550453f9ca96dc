(** keep_params_nonnegative after sgd is projected gradient descent (C101). *)
From Verif Require Export P_relaxed P_front.
From Coq Require Import List Psatz Reals Qreals.
Import ListNotations.
Open Scope R_scope.
(*@header
From Coq Require Import List Reals.
Import ListNotations.
Open Scope R_scope.
*)
Notation vsub := P_regret.vsub.
Notation point_of := P_regret.point_of.

(** ** Specification *)
Definition nonneg_vec (l : list R) : Prop := Forall (Rle 0) l.
(** [grad] computes subgradients of f on the orthant. *)
Definition orthant_subgradients `{P : Platform} (p : tree (gt XR)) (f : list R -> R) (grad : tree (gt XR) -> tree (gt XR)) : Prop :=
  forall x y, point_of p x -> nonneg_vec (rvals x) -> length y = length (rvals p) -> nonneg_vec y -> f (rvals x) + dot (rvals (grad x)) (vsub y (rvals x)) <= f y.
Definition orthant_smooth `{P : Platform} (p : tree (gt XR)) (f : list R -> R) (grad : tree (gt XR) -> tree (gt XR)) (L : R) : Prop :=
  forall x y, point_of p x -> nonneg_vec (rvals x) -> point_of p y -> nonneg_vec (rvals y) -> f (rvals y) <= f (rvals x) + dot (rvals (grad x)) (vsub (rvals y) (rvals x)) + L / 2 * sumsq (vsub (rvals y) (rvals x)).
(** No direction into the orthant decreases f to first order. *)
Definition kkt (x g : list R) : Prop := forall i, (i < length x)%nat -> 0 <= nth i g 0 /\ nth i x 0 * nth i g 0 = 0.

Lemma nonneg_nth l i : nonneg_vec l -> 0 <= nth i l 0.
Proof. intros H. destruct (Nat.lt_ge_cases i (length l)) as [Hi|Hi]; [|rewrite nth_overflow by lia; lra]. unfold nonneg_vec in H. rewrite Forall_forall in H. apply H, nth_In, Hi. Qed.
Lemma nonneg_of_nth l : (forall i, (i < length l)%nat -> 0 <= nth i l 0) -> nonneg_vec l.
Proof. intros H. apply Forall_forall. intros x Hx. destruct (In_nth l x 0 Hx) as (i & Hi & <-). auto. Qed.

Section LoopQ.
  Context {P : Platform}.
  Notation xr := (XROps P).
  Lemma minimise_vec_q np (T : @GT xr) (dir : (nat -> R) -> (nat -> R) -> nat -> R) grad p : @emits P np T (fun g q n y => y = Fin (dir g q n)) ->
    (forall g g' q n, (forall i, (i <= n)%nat -> g i = g' i) -> dir g q n = dir g' q n) -> trwf p -> finite_tree p -> (forall x, point_of p x -> point_of p (grad x)) ->
    forall n, exists s0 qs sf, @init xr T p = Ok s0 /\ @minimise xr T grad n s0 p = Ok (qs, sf) /\ length qs = n /\ Forall (point_of p) qs /\
      forall i t, (i < length (rvals p))%nat -> (t < n)%nat -> nth i (pt p (p :: qs) (S t)) 0 = nth i (pt p (p :: qs) t) 0 + dir (fun k => nth i (rvals (grad (nth k (p :: qs) p))) 0) (fun k => nth i (pt p (p :: qs) k) 0) t.
  Proof.
    intros HE Hx Wp Fp Hgr n. assert (Hpp : point_of p p) by (split; [split; [reflexivity|exact Wp]|exact Fp]).
    enough (G : exists gs s0 qs sf, length gs = n /\ Forall (point_of p) gs /\ @init xr T p = Ok s0 /\ @train_loop xr T s0 p gs = Ok (qs, sf) /\ length qs = n /\
       forall t, (t < n)%nat -> nth_error gs t = option_map grad (nth_error (p :: qs) t)).
    { destruct G as (gs & s0 & qs & sf & Hl & Hg & Ei & El & Hq & Ht). destruct (loop_vec_q np T dir HE p gs Wp Fp Hg) as (s0' & qs' & sf' & Ei' & El' & Hl' & Hp' & Hs).
      rewrite Ei in Ei'. injection Ei' as <-. rewrite El in El'. injection El' as <- <-. exists s0, qs, sf. split; [exact Ei|]. split. { rewrite <- Hl. apply minimise_of_loop; [exact El|]. intros t H. apply Ht. nx. lia. }
      split; [exact Hq|]. split; [exact Hp'|]. intros i t Hi Hlt. rewrite (Hs i t Hi) by (nx; lia). f_equal. nx. apply Hx. intros k Hk.
      pose proof (Ht k ltac:(lia)) as E. nx. rewrite (nth_error_nth' gs p), (nth_error_nth' (p :: qs) p) in E by (cbn; lia). cbn in E. injection E as E. unfold pt. rewrite E. reflexivity. }
    induction n as [|n IH].
    - destruct (loop_vec_q np T dir HE p [] Wp Fp (Forall_nil _)) as (s0 & qs & sf & Ei & El & Hl & _). exists [], s0, qs, sf. repeat split; auto. intros t Ht; lia.
    - destruct IH as (gs & s0 & qs & sf & Hl & Hg & Ei & El & Hq & Ht).
      destruct (loop_vec_q np T dir HE p gs Wp Fp Hg) as (s0' & qs' & sf' & Ei' & El' & _ & Hp' & _). rewrite Ei in Ei'. injection Ei' as <-. rewrite El in El'. injection El' as <- <-.
      assert (HP : point_of p (nth n (p :: qs) p)). { destruct n as [|k]; [exact Hpp|]. cbn [nth]. rewrite Forall_forall in Hp'. apply Hp'. nx. apply nth_In. lia. }
      assert (Hg' : Forall (point_of p) (gs ++ [grad (nth n (p :: qs) p)])) by (apply Forall_app; split; [exact Hg|constructor; [now apply Hgr|constructor]]).
      destruct (loop_vec_q np T dir HE p _ Wp Fp Hg') as (s0' & qs' & sf' & Ei' & El' & Hl' & _). rewrite Ei in Ei'. injection Ei' as <-.
      destruct (train_loop_prefix T s0 p gs _ qs' sf' El' qs sf El) as (q & ->).
      exists (gs ++ [grad (nth n (p :: qs) p)]), s0, (qs ++ [q]), sf'. nx. split; [rewrite app_length; cbn; lia|]. split; [exact Hg'|]. split; [exact Ei|]. split; [exact El'|]. split; [rewrite app_length; cbn; lia|]. nx.
      intros t Hlt. change (p :: qs ++ [q]) with ((p :: qs) ++ [q]). rewrite (nth_error_app1 (p :: qs)) by (cbn; lia). destruct (Nat.eq_dec t n) as [->|Hne].
      + nx. rewrite nth_error_app2, Hl, Nat.sub_diag by lia. rewrite (nth_error_nth' (p :: qs) p) by (cbn; lia). reflexivity.
      + nx. rewrite nth_error_app1 by lia. apply Ht. lia.
  Qed.
  (** The clamp in terms of the numbers. *)
  Lemma nonneg_emits : @emits P false (@keep_params_nonnegative xr) (fun g q n y => y = Fin (Rmax 0 (q n + g n) - q n)).
  Proof.
    eapply refines_emits; [apply refines_nonneg|]. intros d x g q n. cbn [mout m_fun m_step fst]. cbn [fadd flt fneg fcast XROps]. rewrite (f0 P), xadd_fin. destruct (xlt (Fin (q n + g n)) (Fin 0)) eqn:E.
    - apply xlt_fin in E. cbn [xneg]. f_equal. rewrite Rmax_left by lra. ring.
    - apply xlt_fin_f in E. f_equal. rewrite Rmax_right by lra. ring.
  Qed.
  Lemma clamped_emits np (T : @GT xr) (dir : (nat -> R) -> (nat -> R) -> nat -> R) : @emits P np T (fun g q n y => y = Fin (dir g q n)) ->
    @emits P false (chain_gt [T; @keep_params_nonnegative xr]) (fun g q n y => y = Fin (Rmax 0 (q n + dir g q n) - q n)).
  Proof.
    intros HE. assert (HE' : @emits P false T (fun g q n y => y = Fin (dir g q n))) by (destruct np; [now apply emits_weaken|exact HE]).
    eapply emits_impl; [|apply (emits_cons false T [@keep_params_nonnegative xr] _ _ HE' (emits_one false _ _ nonneg_emits))]. cbn beta. intros g q n y Hy. apply (Hy (dir g q)). intros i _ z ->. reflexivity.
  Qed.
  (** Projected gradient descent, step by step. *)
  Lemma projected_loop lr p grad n : trwf p -> finite_tree p -> nonneg_vec (rvals p) -> (forall x, point_of p x -> point_of p (grad x)) ->
    exists T0 T s0 qs sf, @sgd xr (@LConst xr (Fin lr)) None false = Ok T0 /\ @chain xr [T0; @keep_params_nonnegative xr] = Ok T /\ @init xr T p = Ok s0 /\ @minimise xr T grad n s0 p = Ok (qs, sf) /\ length qs = n /\ Forall (point_of p) qs /\
      (forall t, (t <= n)%nat -> point_of p (nth t (p :: qs) p) /\ nonneg_vec (rvals (nth t (p :: qs) p))) /\
      forall i t, (i < length (rvals p))%nat -> (t < n)%nat -> nth i (rvals (nth (S t) (p :: qs) p)) 0 = Rmax 0 (nth i (rvals (nth t (p :: qs) p)) 0 - lr * nth i (rvals (grad (nth t (p :: qs) p))) 0).
  Proof.
    intros Wp Fp Np Hgr. destruct (@sgd_dir P lr) as (T & ET & HE). pose proof (clamped_emits true T (fun g _ n => - lr * g n) HE) as HE2.
    destruct (minimise_vec_q false _ _ grad p HE2) with (n := n) as (s0 & qs & sf & Ei & El & Hl & Hq & Hs); [|exact Wp|exact Fp|exact Hgr|].
    { intros g g' q k H. cbn beta. rewrite (H k (le_n _)). reflexivity. }
    assert (Hpp : point_of p p) by (split; [split; [reflexivity|exact Wp]|exact Fp]).
    assert (HP : forall t, (t <= n)%nat -> point_of p (nth t (p :: qs) p)). { intros t Ht. destruct t; [exact Hpp|]. cbn [nth]. rewrite Forall_forall in Hq. apply Hq. nx. apply nth_In. lia. }
    assert (HS : forall i t, (i < length (rvals p))%nat -> (t < n)%nat -> nth i (rvals (nth (S t) (p :: qs) p)) 0 = Rmax 0 (nth i (rvals (nth t (p :: qs) p)) 0 - lr * nth i (rvals (grad (nth t (p :: qs) p))) 0)).
    { intros i t Hi Ht. specialize (Hs i t Hi Ht). unfold pt in Hs. nx. rewrite Hs. match goal with |- ?a + (?m - ?a) = _ => replace (a + (m - a)) with m by ring end. f_equal. ring. }
    exists T, (chain_gt [T; @keep_params_nonnegative xr]), s0, qs, sf. split; [exact ET|]. split; [reflexivity|]. split; [exact Ei|]. split; [exact El|]. split; [exact Hl|]. split; [exact Hq|]. split; [|exact HS].
    intros t Ht. split; [exact (HP t Ht)|]. destruct t as [|t]; [exact Np|]. apply nonneg_of_nth. intros i Hi. rewrite (rvals_length p) in Hi by (auto; apply HP, Ht). rewrite HS by (auto; lia). apply Rmax_l.
  Qed.
End LoopQ.

(** One clamped coordinate: the distance to a non-negative number does not grow, and the variational inequality of the projection. *)
Lemma clamp_closer a u : 0 <= u -> (Rmax 0 a - u) * (Rmax 0 a - u) <= (a - u) * (a - u).
Proof. intros H. destruct (Rle_dec 0 a); [rewrite Rmax_right by lra; lra|rewrite Rmax_left by lra; nra]. Qed.
Lemma clamp_vi x lr g u : 0 <= u -> lr * g * (Rmax 0 (x - lr * g) - u) <= (x - Rmax 0 (x - lr * g)) * (Rmax 0 (x - lr * g) - u).
Proof. intros H. destruct (Rle_dec 0 (x - lr * g)); [rewrite Rmax_right by lra; nra|rewrite Rmax_left by lra; nra]. Qed.
Section Steps.
  Variables (N : nat) (lr : R) (x x' g u : nat -> R).
  Hypotheses (Hlr : 0 < lr) (Hu : forall i, 0 <= u i) (Hx : forall i, (i < N)%nat -> x' i = Rmax 0 (x i - lr * g i)).
  Local Notation S_ f := (rsum (map f (seq 0 N))).
  Lemma proj_regret : S_ (fun i => (x' i - u i) * (x' i - u i)) <= S_ (fun i => (x i - u i) * (x i - u i)) - 2 * lr * S_ (fun i => g i * (x i - u i)) + lr * lr * S_ (fun i => g i * g i).
  Proof.
    rewrite <- !rsum_map_scal, <- rsum_map_sub, <- rsum_map_add. apply rsum_map_le. intros i Hi. apply in_seq in Hi. rewrite Hx by lia. pose proof (clamp_closer (x i - lr * g i) (u i) (Hu i)). nra.
  Qed.
  (** the step measured against a non-negative vector: lr <g, x' - u> <= <x - x', x' - u> *)
  Lemma proj_vi : 2 * lr * S_ (fun i => g i * (x' i - u i)) <= S_ (fun i => (x i - u i) * (x i - u i)) - S_ (fun i => (x' i - u i) * (x' i - u i)) - S_ (fun i => (x' i - x i) * (x' i - x i)).
  Proof.
    rewrite <- !rsum_map_scal, <- !rsum_map_sub. apply rsum_map_le. intros i Hi. apply in_seq in Hi. rewrite Hx by lia. pose proof (clamp_vi (x i) lr (g i) (u i) (Hu i)). nra.
  Qed.
End Steps.

(*@ C101_convex : keep_params_nonnegative after sgd is projected gradient descent.  For every learning rate lr > 0, non-negative finite parameters and any function f with subgradients (computed by grad) of squared norm at most G on the non-negative vectors: n steps of chain(sgd(lr), keep_params_nonnegative) and apply_updates never fail, every visited point is non-negative, each element goes to max(0, x - lr g), and the average of f at the n visited points exceeds f at any non-negative vector q by at most |x_0 - q|^2 / (2 lr n) + lr G / 2; so does f at one of them. *)
Lemma projected_convex : forall `{P : Platform} (lr G : R) (p : tree tensor) (grad : tree tensor -> tree tensor) (f : list R -> R) (n : nat) (q : list R), 0 < lr -> (0 < n)%nat -> trwf p -> finite_tree p -> nonneg_vec (rvals p) ->
  (forall x, point_of p x -> point_of p (grad x)) -> (forall x, point_of p x -> nonneg_vec (rvals x) -> sumsq (rvals (grad x)) <= G) -> orthant_subgradients p f grad -> length q = length (rvals p) -> nonneg_vec q ->
  exists T0 T s0 qs sf, sgd (LConst (Fin lr)) None false = Ok T0 /\ chain [T0; keep_params_nonnegative] = Ok T /\ init T p = Ok s0 /\ minimise T grad n s0 p = Ok (qs, sf) /\ length qs = n /\ Forall (point_of p) qs /\ Forall (fun x => nonneg_vec (rvals x)) qs /\
    let x t := nth t (p :: qs) p in
    (forall i t, (i < length (rvals p))%nat -> (t < n)%nat -> nth i (rvals (x (S t))) 0 = Rmax 0 (nth i (rvals (x t)) 0 - lr * nth i (rvals (grad (x t))) 0)) /\
    rsum (map (fun t => f (rvals (x t))) (seq 0 n)) / INR n - f q <= sumsq (vsub (rvals p) q) / (2 * lr * INR n) + lr * G / 2 /\
    exists t, (t < n)%nat /\ f (rvals (x t)) - f q <= sumsq (vsub (rvals p) q) / (2 * lr * INR n) + lr * G / 2.
Proof.
  intros P lr G p grad f n q Hlr Hn Wp Fp Np Hgr HG Hsub Lq Nq. destruct (projected_loop lr p grad n Wp Fp Np Hgr) as (T0 & T & s0 & qs & sf & ET & EC & Ei & El & Hl & Hq & HP & HS).
  exists T0, T, s0, qs, sf. repeat (split; [assumption|]). split.
  { apply Forall_forall. intros x Hx. destruct (In_nth qs x p Hx) as (i & Hi & <-). apply (HP (S i)). nx. lia. }
  cbn zeta. split; [exact HS|]. nx. pose proof (lt_0_INR n Hn) as Hn'. set (N := length (rvals p)) in *.
  assert (Lx : forall t, (t <= n)%nat -> length (rvals (nth t (p :: qs) p)) = N) by (intros t Ht; apply rvals_length; [exact Wp|apply HP, Ht]).
  assert (E : forall k, (k <= n)%nat -> rsum (map (fun t => f (rvals (nth t (p :: qs) p)) - f q) (seq 0 k)) <= (sumsq (vsub (rvals p) q) - sumsq (vsub (rvals (nth k (p :: qs) p)) q)) / (2 * lr) + INR k * (lr * G / 2)).
  { induction k as [|k IH]; intros Hk; [change (nth 0 (p :: qs) p) with p; cbn [seq map INR]; rewrite rsum_nil; right; field; lra|]. specialize (IH ltac:(lia)). rewrite rsum_seq_S, S_INR. destruct (HP k ltac:(lia)) as (Hk' & Nk).
    pose proof (proj_regret N lr (fun i => nth i (rvals (nth k (p :: qs) p)) 0) (fun i => nth i (rvals (nth (S k) (p :: qs) p)) 0) (fun i => nth i (rvals (grad (nth k (p :: qs) p))) 0) (fun i => nth i q 0) (fun i => nonneg_nth q i Nq) (fun i Hi => HS i k Hi ltac:(lia))) as Hs. cbn beta in Hs.
    rewrite <- (sumsq_vsub _ q N (Lx (S k) Hk) Lq), <- (sumsq_vsub _ q N (Lx k ltac:(lia)) Lq) in Hs.
    set (xk := nth k (p :: qs) p) in *. assert (Lg : length (rvals (grad xk)) = N) by (apply rvals_length; auto). rewrite <- (dot_vsub (rvals (grad xk)) (rvals xk) q N Lg (Lx k ltac:(lia)) Lq), <- (sumsq_seq (rvals (grad xk)) N Lg) in Hs.
    pose proof (Hsub xk q Hk' Nk Lq Nq) as H1. rewrite (dot_vsub_anti _ _ _ N) in H1 by (try apply rvals_length; auto). pose proof (HG xk Hk' Nk) as Hg2.
    set (d := dot (rvals (grad xk)) (vsub (rvals xk) q)) in *. set (s := sumsq (rvals (grad xk))) in *. set (a := sumsq (vsub (rvals xk) q)) in *. set (b := sumsq (vsub (rvals (nth (S k) (p :: qs) p)) q)) in *.
    assert (E1 : d <= (a - b) / (2 * lr) + lr * s / 2) by (apply (Rmult_le_reg_l (2 * lr)); [lra|]; replace (2 * lr * ((a - b) / (2 * lr) + lr * s / 2)) with (a - b + lr * lr * s) by (field; lra); lra).
    assert (E2 : lr * s / 2 <= lr * G / 2) by nra.
    replace ((sumsq (vsub (rvals p) q) - b) / (2 * lr)) with ((sumsq (vsub (rvals p) q) - a) / (2 * lr) + (a - b) / (2 * lr)) by (field; lra). lra. }
  specialize (E n (le_n _)). set (B := sumsq (vsub (rvals p) q) / (2 * lr * INR n) + lr * G / 2).
  assert (E2 : rsum (map (fun t => f (rvals (nth t (p :: qs) p)) - f q) (seq 0 n)) <= INR n * B).
  { eapply Rle_trans; [exact E|]. unfold B. pose proof (sumsq_nonneg (vsub (rvals (nth n (p :: qs) p)) q)) as H. apply (Rmult_le_compat_r (/ (2 * lr))) in H; [|left; apply Rinv_0_lt_compat; lra].
    replace (INR n * (sumsq (vsub (rvals p) q) / (2 * lr * INR n) + lr * G / 2)) with (sumsq (vsub (rvals p) q) * / (2 * lr) + INR n * (lr * G / 2)) by (field; lra). unfold Rdiv. lra. }
  split.
  - rewrite rsum_map_sub, rsum_const in E2. apply (Rmult_le_reg_l (INR n)); [exact Hn'|]. rewrite Rmult_minus_distr_l. replace (INR n * (rsum (map (fun t => f (rvals (nth t (p :: qs) p))) (seq 0 n)) / INR n)) with (rsum (map (fun t => f (rvals (nth t (p :: qs) p))) (seq 0 n))) by (field; lra). exact E2.
  - exact (some_below _ n B Hn E2).
Qed.

(*@ C101_smooth : If f is L-smooth on the non-negative vectors and lr <= 1/L, every step decreases f by at least |x_{t+1} - x_t|^2 / (2 lr), convex or not; if moreover grad computes subgradients there (f convex), f after n steps exceeds f at any non-negative vector q by at most |x_0 - q|^2 / (2 lr n). *)
Lemma projected_smooth : forall `{P : Platform} (lr L : R) (p : tree tensor) (grad : tree tensor -> tree tensor) (f : list R -> R) (n : nat), 0 < lr -> lr * L <= 1 -> (0 < n)%nat -> trwf p -> finite_tree p -> nonneg_vec (rvals p) ->
  (forall x, point_of p x -> point_of p (grad x)) -> orthant_smooth p f grad L ->
  exists T0 T s0 qs sf, sgd (LConst (Fin lr)) None false = Ok T0 /\ chain [T0; keep_params_nonnegative] = Ok T /\ init T p = Ok s0 /\ minimise T grad n s0 p = Ok (qs, sf) /\ length qs = n /\ Forall (point_of p) qs /\ Forall (fun x => nonneg_vec (rvals x)) qs /\
    let x t := nth t (p :: qs) p in
    (forall t, (t < n)%nat -> f (rvals (x (S t))) <= f (rvals (x t)) - sumsq (vsub (rvals (x (S t))) (rvals (x t))) / (2 * lr)) /\
    (forall q, orthant_subgradients p f grad -> length q = length (rvals p) -> nonneg_vec q -> f (rvals (x n)) - f q <= sumsq (vsub (rvals p) q) / (2 * lr * INR n)).
Proof.
  intros P lr L p grad f n Hlr HL Hn Wp Fp Np Hgr Hsm. destruct (projected_loop lr p grad n Wp Fp Np Hgr) as (T0 & T & s0 & qs & sf & ET & EC & Ei & El & Hl & Hq & HP & HS).
  exists T0, T, s0, qs, sf. repeat (split; [assumption|]). split.
  { apply Forall_forall. intros x Hx. destruct (In_nth qs x p Hx) as (i & Hi & <-). apply (HP (S i)). nx. lia. }
  cbn zeta. nx. pose proof (lt_0_INR n Hn) as Hn'. set (N := length (rvals p)) in *.
  assert (Lx : forall t, (t <= n)%nat -> length (rvals (nth t (p :: qs) p)) = N) by (intros t Ht; apply rvals_length; [exact Wp|apply HP, Ht]).
  (* one step against any non-negative vector *)
  assert (K : forall t q, (t < n)%nat -> length q = N -> nonneg_vec q -> 2 * lr * dot (rvals (grad (nth t (p :: qs) p))) (vsub (rvals (nth (S t) (p :: qs) p)) q) <=
     sumsq (vsub (rvals (nth t (p :: qs) p)) q) - sumsq (vsub (rvals (nth (S t) (p :: qs) p)) q) - sumsq (vsub (rvals (nth (S t) (p :: qs) p)) (rvals (nth t (p :: qs) p)))).
  { intros t q Ht Lq Nq. assert (Lg : length (rvals (grad (nth t (p :: qs) p))) = N) by (apply rvals_length; [exact Wp|apply Hgr, HP; lia]).
    rewrite (dot_vsub _ _ q N Lg (Lx (S t) Ht) Lq), (sumsq_vsub _ q N (Lx t ltac:(lia)) Lq), (sumsq_vsub _ q N (Lx (S t) Ht) Lq), (sumsq_vsub _ _ N (Lx (S t) Ht) (Lx t ltac:(lia))).
    apply (proj_vi N lr (fun i => nth i (rvals (nth t (p :: qs) p)) 0) (fun i => nth i (rvals (nth (S t) (p :: qs) p)) 0) (fun i => nth i (rvals (grad (nth t (p :: qs) p))) 0) (fun i => nth i q 0) (fun i => nonneg_nth q i Nq) (fun i Hi => HS i t Hi Ht)). }
  assert (Z : forall l, sumsq (vsub l l) = 0). { intros l. rewrite (sumsq_vsub l l (length l) eq_refl eq_refl). rewrite (rsum_map_ext _ (fun _ => 0)) by (intros; ring). rewrite rsum_map_const. ring. }
  assert (HD : forall t, (t < n)%nat -> f (rvals (nth (S t) (p :: qs) p)) <= f (rvals (nth t (p :: qs) p)) - sumsq (vsub (rvals (nth (S t) (p :: qs) p)) (rvals (nth t (p :: qs) p))) / (2 * lr)).
  { intros t Ht. destruct (HP t ltac:(lia)) as (P1 & N1). destruct (HP (S t) Ht) as (P2 & N2). pose proof (Hsm _ _ P1 N1 P2 N2) as H. pose proof (K t (rvals (nth t (p :: qs) p)) Ht (Lx t ltac:(lia)) N1) as H2. rewrite Z in H2.
    set (d := dot _ _) in *. set (s := sumsq _) in *. assert (0 <= s) by apply sumsq_nonneg. apply (Rmult_le_compat_l (2 * lr)) in H; [|lra]. assert (lr * L * s <= 1 * s) by (apply Rmult_le_compat_r; assumption).
    apply (Rmult_le_reg_l (2 * lr)); [lra|]. rewrite Rmult_minus_distr_l. replace (2 * lr * (s / (2 * lr))) with s by (field; lra). nra. }
  split; [exact HD|]. intros q Hsub Lq Nq.
  assert (E : forall k, (k <= n)%nat -> INR k * (f (rvals (nth k (p :: qs) p)) - f q) <= (sumsq (vsub (rvals p) q) - sumsq (vsub (rvals (nth k (p :: qs) p)) q)) / (2 * lr)).
  { induction k as [|k IH]; intros Hk; [change (nth 0 (p :: qs) p) with p; cbn [INR]; right; field; lra|]. specialize (IH ltac:(lia)). rewrite S_INR. specialize (HD k ltac:(lia)). pose proof (K k q ltac:(lia) Lq Nq) as Hk2.
    destruct (HP k ltac:(lia)) as (P1 & N1). destruct (HP (S k) Hk) as (P2 & N2). pose proof (Hsm _ _ P1 N1 P2 N2) as H. pose proof (Hsub _ q P1 N1 Lq Nq) as H1.
    set (xk := nth k (p :: qs) p) in *. set (xk' := nth (S k) (p :: qs) p) in *. assert (Lg : length (rvals (grad xk)) = N) by (apply rvals_length; [exact Wp|apply Hgr, P1]).
    assert (ED : dot (rvals (grad xk)) (vsub (rvals xk') (rvals xk)) - dot (rvals (grad xk)) (vsub q (rvals xk)) = dot (rvals (grad xk)) (vsub (rvals xk') q)).
    { unfold xk', xk in *. rewrite (dot_vsub _ _ _ N Lg (Lx (S k) Hk) (Lx k ltac:(lia))), (dot_vsub _ q _ N Lg Lq (Lx k ltac:(lia))), (dot_vsub _ _ q N Lg (Lx (S k) Hk) Lq), <- rsum_map_sub. apply rsum_map_ext. intros i _. ring. }
    set (d1 := dot (rvals (grad xk)) (vsub (rvals xk') (rvals xk))) in *. set (d2 := dot (rvals (grad xk)) (vsub q (rvals xk))) in *. set (d3 := dot (rvals (grad xk)) (vsub (rvals xk') q)) in *.
    set (a := sumsq (vsub (rvals xk) q)) in *. set (b := sumsq (vsub (rvals xk') q)) in *. set (s := sumsq (vsub (rvals xk') (rvals xk))) in *. assert (0 <= s) by apply sumsq_nonneg. assert (lr * L * s <= 1 * s) by (apply Rmult_le_compat_r; assumption).
    assert (F1 : f (rvals xk') - f q <= (a - b) / (2 * lr)). { apply (Rmult_le_reg_l (2 * lr)); [lra|]. replace (2 * lr * ((a - b) / (2 * lr))) with (a - b) by (field; lra). apply (Rmult_le_compat_l (2 * lr)) in H; [|lra]. apply (Rmult_le_compat_l (2 * lr)) in H1; [|lra]. nra. }
    replace ((sumsq (vsub (rvals p) q) - b) / (2 * lr)) with ((sumsq (vsub (rvals p) q) - a) / (2 * lr) + (a - b) / (2 * lr)) by (field; lra).
    pose proof (pos_INR k). assert (0 <= s / (2 * lr)) by (apply Rmult_le_pos; [assumption|left; apply Rinv_0_lt_compat; lra]). assert (INR k * (f (rvals xk') - f q) <= INR k * (f (rvals xk) - f q)) by (apply Rmult_le_compat_l; lra). lra. }
  specialize (E n (le_n _)). pose proof (sumsq_nonneg (vsub (rvals (nth n (p :: qs) p)) q)) as H. apply (Rmult_le_compat_r (/ (2 * lr))) in H; [|left; apply Rinv_0_lt_compat; lra].
  apply (Rmult_le_reg_l (INR n)); [exact Hn'|]. replace (INR n * (sumsq (vsub (rvals p) q) / (2 * lr * INR n))) with (sumsq (vsub (rvals p) q) * / (2 * lr)) by (field; lra). unfold Rdiv in E. lra.
Qed.

(*@ C101_fixed_points : The points at which the loop stops are the constrained optima: from non-negative parameters p one step returns p if and only if every element of the gradient is non-negative and is zero wherever the parameter is positive; and then, if grad computes subgradients on the non-negative vectors, p minimises f among all non-negative vectors. *)
Lemma projected_fixed : forall `{P : Platform} (lr : R) (p : tree tensor) (grad : tree tensor -> tree tensor), 0 < lr -> trwf p -> finite_tree p -> nonneg_vec (rvals p) -> (forall x, point_of p x -> point_of p (grad x)) ->
  exists T0 T s0 q sf, sgd (LConst (Fin lr)) None false = Ok T0 /\ chain [T0; keep_params_nonnegative] = Ok T /\ init T p = Ok s0 /\ minimise T grad 1 s0 p = Ok ([q], sf) /\
    (q = p <-> kkt (rvals p) (rvals (grad p))) /\
    (q = p -> forall f y, orthant_subgradients p f grad -> length y = length (rvals p) -> nonneg_vec y -> f (rvals p) <= f y).
Proof.
  intros P lr p grad Hlr Wp Fp Np Hgr. destruct (projected_loop lr p grad 1 Wp Fp Np Hgr) as (T0 & T & s0 & qs & sf & ET & EC & Ei & El & Hl & Hq & HP & HS). destruct qs as [|q [|]]; try discriminate.
  exists T0, T, s0, q, sf. repeat (split; [assumption|]). assert (Pq : point_of p q) by (apply (HP 1%nat); lia). assert (Pp : point_of p p) by (apply (HP 0%nat); lia).
  assert (HS1 : forall i, (i < length (rvals p))%nat -> nth i (rvals q) 0 = Rmax 0 (nth i (rvals p) 0 - lr * nth i (rvals (grad p)) 0)) by (intros i Hi; exact (HS i 0%nat Hi ltac:(lia))).
  assert (HK : q = p <-> kkt (rvals p) (rvals (grad p))).
  { split.
    - intros -> i Hi. specialize (HS1 i Hi). pose proof (nonneg_nth _ i Np) as Hx. set (x := nth i (rvals p) 0) in *. set (g := nth i (rvals (grad p)) 0) in *. destruct (Rle_dec 0 (x - lr * g)); [rewrite Rmax_right in HS1 by lra; assert (g = 0) by nra; subst; split; [lra|]; rewrite H; ring|].
      rewrite Rmax_left in HS1 by lra. split; [nra|]. rewrite HS1. ring.
    - intros H. apply (rvals_ext p q p Pq Pp). apply (nth_ext _ _ 0 0); [apply rvals_length; assumption|]. intros i Hi. rewrite (rvals_length p q Wp Pq) in Hi. rewrite HS1 by exact Hi. destruct (H i Hi) as (H1 & H2). pose proof (nonneg_nth _ i Np) as Hx.
      set (x := nth i (rvals p) 0) in *. set (g := nth i (rvals (grad p)) 0) in *. destruct (Req_dec x 0) as [E|E]; [rewrite E; rewrite Rmax_left; nra|]. assert (g = 0) by nra. rewrite H0. rewrite Rmax_right by lra. ring. }
  split; [exact HK|]. intros Hqp f y Hsub Ly Ny. apply HK in Hqp. pose proof (Hsub p y Pp Np Ly Ny) as H. rewrite (dot_vsub _ _ _ (length (rvals p)) (rvals_length p _ Wp (Hgr p Pp)) Ly eq_refl) in H.
  enough (0 <= rsum (map (fun i => nth i (rvals (grad p)) 0 * (nth i y 0 - nth i (rvals p) 0)) (seq 0 (length (rvals p))))) by lra.
  eapply Rle_trans; [|apply (rsum_map_le (fun _ => 0))]; [rewrite rsum_map_const; right; ring|]. intros i Hi. apply in_seq in Hi. destruct (Hqp i ltac:(lia)) as (H1 & H2). pose proof (nonneg_nth _ i Ny). nra.
Qed.

(*@ C101_order : FINDING: in the other order, chain(keep_params_nonnegative, sgd(lr)), the clamp acts on the raw gradient and does not keep the parameters non-negative: one step takes x to x - lr (max(0, x + g) - x), hence to x - lr g for every non-negative parameter and gradient, negative as soon as lr g > x; and where g < -x it moves x to (1 + lr) x whatever the gradient. *)
Lemma projected_order : forall `{P : Platform} (lr : R) (p : tree tensor) (grad : tree tensor -> tree tensor), trwf p -> finite_tree p -> (forall x, point_of p x -> point_of p (grad x)) ->
  exists T0 T s0 q sf, sgd (LConst (Fin lr)) None false = Ok T0 /\ chain [keep_params_nonnegative; T0] = Ok T /\ init T p = Ok s0 /\ minimise T grad 1 s0 p = Ok ([q], sf) /\ point_of p q /\
    forall i, (i < length (rvals p))%nat -> let x := nth i (rvals p) 0 in let g := nth i (rvals (grad p)) 0 in
      nth i (rvals q) 0 = x - lr * (Rmax 0 (x + g) - x) /\ (0 <= x -> 0 <= g -> nth i (rvals q) 0 = x - lr * g) /\ (g < - x -> nth i (rvals q) 0 = (1 + lr) * x).
Proof.
  intros P lr p grad Wp Fp Hgr. destruct (@sgd_dir P lr) as (T & ET & HE).
  assert (HE2 : @emits P false (chain_gt [@keep_params_nonnegative (XROps P); T]) (fun g q n y => y = Fin (- lr * (Rmax 0 (q n + g n) - q n)))).
  { eapply emits_impl; [|apply (emits_cons false (@keep_params_nonnegative (XROps P)) [T] _ _ nonneg_emits (emits_one false _ _ (emits_weaken _ _ HE)))]. cbn beta. intros g q n y Hy. apply (Hy (fun i => Rmax 0 (q i + g i) - q i)). intros i _ z ->. reflexivity. }
  destruct (minimise_vec_q false _ (fun g q n => - lr * (Rmax 0 (q n + g n) - q n)) grad p HE2) with (n := 1%nat) as (s0 & qs & sf & Ei & El & Hl & Hq & Hs); [|exact Wp|exact Fp|exact Hgr|].
  { intros g g' q k H. cbn beta. rewrite (H k (le_n _)). reflexivity. }
  destruct qs as [|q [|]]; try discriminate. exists T, (chain_gt [@keep_params_nonnegative (XROps P); T]), s0, q, sf. split; [exact ET|]. split; [reflexivity|]. split; [exact Ei|]. split; [exact El|]. split; [now inversion Hq|].
  intros i Hi. cbn zeta. assert (E : nth i (rvals q) 0 = nth i (rvals p) 0 - lr * (Rmax 0 (nth i (rvals p) 0 + nth i (rvals (grad p)) 0) - nth i (rvals p) 0)) by (pose proof (Hs i 0%nat Hi ltac:(lia)) as H; unfold pt in H; cbn [nth] in H; rewrite H; ring).
  split; [exact E|]. split; intros; rewrite E; [rewrite Rmax_right by lra|rewrite Rmax_left by lra]; ring.
Qed.

(** The example: f(x) = sum (x_i - c_i)^2 / 2 with one target negative, so that the bound is active at the optimum [0, 3]. *)
Definition half : tree (gt XR) -> tree (gt XR) := fun x => match x with Leaf (mkT d s [Fin a; Fin b]) => Leaf (mkT d s [Fin (a + 2); Fin (b - 3)]) | _ => x end.
Definition target (l : list R) : R := (nth 0 l 0 + 2) * (nth 0 l 0 + 2) / 2 + (nth 1 l 0 - 3) * (nth 1 l 0 - 3) / 2.
(*@ex C101_example *)
Lemma projected_example : forall `{P : Platform}, let p := Leaf (mkT F32 [2%nat] [Fin 5; Fin 1]) in
  trwf p /\ finite_tree p /\ nonneg_vec (rvals p) /\ (forall x, point_of p x -> point_of p (half x)) /\ orthant_subgradients p target half /\ orthant_smooth p target half 1 /\
  (forall x, point_of p x -> nonneg_vec (rvals x) -> kkt (rvals x) (rvals (half x)) -> rvals x = [0; 3]) /\
  (exists T0 T s0 qs sf, sgd (LConst (Fin 1)) None false = Ok T0 /\ chain [T0; keep_params_nonnegative] = Ok T /\ init T p = Ok s0 /\ minimise T half 1 s0 p = Ok (qs, sf) /\ qs = [Leaf (mkT F32 [2%nat] [Fin 0; Fin 3])]) /\
  (exists T0 T s0 q sf, sgd (LConst (Fin 1)) None false = Ok T0 /\ chain [keep_params_nonnegative; T0] = Ok T /\ init T p = Ok s0 /\ minimise T half 1 s0 p = Ok ([q], sf) /\ nth 0 (rvals q) 0 = - 2).
Proof.
  intros P. cbn zeta. set (p := Leaf (mkT F32 [2%nat] [Fin 5; Fin 1])). assert (Wp : trwf p) by (repeat constructor). assert (Fp : finite_tree p) by (repeat constructor; eexists; reflexivity).
  assert (Hx : forall x, point_of p x -> exists a b, x = Leaf (mkT F32 [2%nat] [Fin a; Fin b])).
  { intros x ((Ha & Hw) & Fx). destruct x as [[d s l]|]; [|discriminate]. cbn in Ha. injection Ha as -> ->. inversion Hw as [|? ? Hl _]; subst. unfold twf in Hl. cbn in Hl. destruct l as [|a [|b [|]]]; try discriminate.
    unfold finite_tree, vals in Fx. cbn in Fx. inversion Fx as [|? ? (r & ->) Fx']; subst. inversion Fx' as [|? ? (r' & ->) _]; subst. eauto. }
  assert (Hh : forall x, point_of p x -> point_of p (half x)). { intros x Hp. destruct (Hx x Hp) as (a & b & ->). split; [split; [reflexivity|repeat constructor]|]. repeat constructor; eexists; reflexivity. }
  split; [exact Wp|]. split; [exact Fp|]. split; [repeat constructor; cbn; lra|]. split; [exact Hh|].
  assert (Tay : forall x y, point_of p x -> length y = 2%nat -> target y = target (rvals x) + dot (rvals (half x)) (vsub y (rvals x)) + 1 / 2 * sumsq (vsub y (rvals x))).
  { intros x y Hp Ly. destruct (Hx x Hp) as (a & b & ->). destruct y as [|c [|d [|]]]; try discriminate. unfold target, rvals, vals. cbn [half leaves concat map dat app nth xval]. unfold vsub. cbn [combine map fst snd]. rewrite !dot_cons, !sumsq_cons. unfold dot, sumsq. cbn [combine map]. rewrite rsum_nil. lra. }
  split; [intros x y Hp _ Ly _; rewrite (Tay x y Hp Ly); pose proof (sumsq_nonneg (vsub y (rvals x))); lra|].
  split; [intros x y Hp _ Hy _; right; apply Tay; [exact Hp|exact (rvals_length p y Wp Hy)]|].
  split. { intros x Hp Hnn H. destruct (Hx x Hp) as (a & b & ->). pose proof (H 0%nat ltac:(cbn; lia)) as H0. pose proof (H 1%nat ltac:(cbn; lia)) as H1. pose proof (nonneg_nth _ 0 Hnn) as H2. cbn in H0, H1, H2 |- *. assert (a = 0) by nra. assert (b = 3) by nra. now subst. }
  split.
  - destruct (projected_loop 1 p half 1 Wp Fp ltac:(repeat constructor; cbn; lra) Hh) as (T0 & T & s0 & qs & sf & ET & EC & Ei & El & Hl & Hq & _ & HS). exists T0, T, s0, qs, sf. repeat (split; [assumption|]).
    destruct qs as [|q [|]]; try discriminate. f_equal. inversion Hq as [|? ? Hq1 _]; subst. destruct (Hx q Hq1) as (a & b & ->). pose proof (HS 0%nat 0%nat ltac:(cbn; lia) ltac:(lia)) as H0. pose proof (HS 1%nat 0%nat ltac:(cbn; lia) ltac:(lia)) as H1. cbn in H0, H1.
    rewrite Rmax_left in H0 by lra. rewrite Rmax_right in H1 by lra. subst. repeat f_equal. lra.
  - destruct (projected_order 1 p half Wp Fp Hh) as (T0 & T & s0 & q & sf & ET & EC & Ei & El & _ & H). exists T0, T, s0, q, sf. repeat (split; [assumption|]). destruct (H 0%nat ltac:(cbn; lia)) as (_ & H' & _). cbn in H'. rewrite H' by lra. lra.
Qed.
