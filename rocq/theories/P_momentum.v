(** What sgd with momentum guarantees: convergence for convex and for smooth functions (C82). *)
From Verif Require Export P_regret.
From Coq Require Import List Psatz.
Import ListNotations.
Open Scope R_scope.
(*@header
From Coq Require Import List.
Import ListNotations.
Open Scope R_scope.
*)

(** ** Specification *)
(** [df] is the gradient field of [f] on vectors of length N: f is L-smooth along it and it is L-Lipschitz. *)
Definition smooth_field (N : nat) (f : list R -> R) (df : list R -> list R) (L : R) : Prop :=
  forall u v, length u = N -> length v = N ->
    length (df u) = N /\ f v <= f u + dot (df u) (vsub v u) + L / 2 * sumsq (vsub v u) /\ sumsq (vsub (df u) (df v)) <= L ^ 2 * sumsq (vsub u v).
(** [grad] computes [df] on parameter trees. *)
Definition computes `{P : Platform} (p : tree (gt XR)) (grad : tree (gt XR) -> tree (gt XR)) (df : list R -> list R) : Prop :=
  forall x, point_of p x -> point_of p (grad x) /\ rvals (grad x) = df (rvals x).

(** ** Momentum in coordinates *)
Section Mom.
  Variables (N : nat) (lr b : R) (nest : bool) (x g : nat -> nat -> R).
  Hypotheses (Hlr : 0 < lr) (Hb : 0 <= b < 1).
  Definition vel t i := sum_f_R0 (fun k => b ^ (t - k) * g k i) t.
  Definition mc := if nest then lr * b * b / (1 - b) else lr * b / (1 - b).
  Definition ma := lr / (1 - b).
  Definition zz t i := match t with 0%nat => x 0%nat i | S s => x (S s) i - mc * vel s i end.
  Definition pv t i := match t with 0%nat => 0 | S s => vel s i end.
  Lemma vel_S t i : vel (S t) i = g (S t) i + b * vel t i.
  Proof.
    unfold vel. cbn [sum_f_R0]. rewrite Nat.sub_diag. cbn [pow]. rewrite scal_sum. rewrite Rplus_comm. f_equal; [ring|]. apply sum_eq. intros k Hk. rewrite (Nat.sub_succ_l k t Hk). cbn [pow]. ring.
  Qed.
  Lemma vel_pv t i : vel t i = g t i + b * pv t i.
  Proof. destruct t; [unfold vel, pv; cbn; ring|apply vel_S]. Qed.
  Lemma zz_x t i : x t i = zz t i + mc * pv t i.
  Proof. destruct t; cbn [zz pv]; ring. Qed.
  Lemma zz_step t i : x (S t) i = x t i + - lr * momentum_of (Some b) nest (fun k => g k i) t -> zz (S t) i = zz t i - ma * g t i.
  Proof.
    intros Hx. cbn [zz]. rewrite Hx, (zz_x t i). unfold momentum_of. fold (vel t i). rewrite (vel_pv t i). unfold mc, ma. destruct nest; field; lra.
  Qed.
  Notation S_ F := (rsum (map F (seq 0 N))).
  Lemma S_nonneg F : (forall i, 0 <= F i) -> 0 <= S_ F.
  Proof. intros H. replace 0 with (S_ (fun _ => 0)); [apply rsum_map_le; intros; apply H|]. rewrite rsum_map_const. ring. Qed.
  Lemma vel_sq t : S_ (fun i => vel t i * vel t i) <= S_ (fun i => g t i * g t i) / (1 - b) + b * S_ (fun i => pv t i * pv t i).
  Proof.
    unfold Rdiv. rewrite (Rmult_comm _ (/ (1 - b))), <- !rsum_map_scal, <- rsum_map_add. apply rsum_map_le. intros i _. rewrite vel_pv. set (u := g t i). set (w := pv t i).
    assert (H : 0 < 1 - b) by lra. apply (Rmult_le_reg_l (1 - b)); [exact H|]. replace ((1 - b) * (/ (1 - b) * (u * u) + b * (w * w))) with (u * u + (1 - b) * b * (w * w)) by (field; lra).
    pose proof (Rle_0_sqr (u - (1 - b) * w)) as Q. unfold Rsqr in Q. nra.
  Qed.
  Lemma vel_bound B t : (forall k, (k <= t)%nat -> S_ (fun i => g k i * g k i) <= B) -> S_ (fun i => vel t i * vel t i) <= B / ((1 - b) * (1 - b)).
  Proof.
    assert (H : 0 < 1 - b) by lra. assert (Hi : 0 < / (1 - b)) by now apply Rinv_0_lt_compat.
    induction t as [|t IH]; intros HB.
    - eapply Rle_trans; [apply vel_sq|]. cbn [pv]. rewrite (rsum_map_const (0 * 0)). pose proof (HB 0%nat (le_n _)) as H0. assert (H1 : 0 <= S_ (fun i => g 0%nat i * g 0%nat i)) by (apply S_nonneg; intros; nra).
      set (s := S_ _) in *. replace (B / ((1 - b) * (1 - b))) with (B * / (1 - b) * / (1 - b)) by (field; lra). unfold Rdiv. assert (1 <= / (1 - b)) by (rewrite <- Rinv_1 at 1; apply Rinv_le_contravar; lra). assert (0 <= B * / (1 - b)) by nra. assert (s * / (1 - b) <= B * / (1 - b)) by nra. nra.
    - eapply Rle_trans; [apply vel_sq|]. cbn [pv]. specialize (IH (fun k Hk => HB k ltac:(lia))). pose proof (HB (S t) (le_n _)) as H0. set (s := S_ (fun i => g (S t) i * g (S t) i)) in *. set (w := S_ (fun i => vel t i * vel t i)) in *.
      assert (H1 : s / (1 - b) <= B / (1 - b)) by (unfold Rdiv; nra). assert (H2 : b * w <= b * (B / ((1 - b) * (1 - b)))) by nra.
      replace (B / ((1 - b) * (1 - b))) with (B / (1 - b) + b * (B / ((1 - b) * (1 - b)))) by (field; lra). lra.
  Qed.
  Lemma cross_bound B t : (forall k, (k <= t)%nat -> S_ (fun i => g k i * g k i) <= B) -> S_ (fun i => g t i * pv t i) <= B / (1 - b).
  Proof.
    intros HB. assert (H : 0 < 1 - b) by lra. assert (Hi : 0 < / (1 - b)) by now apply Rinv_0_lt_compat. pose proof (HB t (le_n _)) as H0. assert (H1 : 0 <= S_ (fun i => g t i * g t i)) by (apply S_nonneg; intros; nra).
    assert (Hp : S_ (fun i => pv t i * pv t i) <= B / ((1 - b) * (1 - b))).
    { destruct t; [cbn [pv]; rewrite (rsum_map_const (0 * 0)); replace (INR (length (seq 0 N)) * (0 * 0)) with 0 by ring; apply Rmult_le_pos; [lra|left; apply Rinv_0_lt_compat; nra]|]. cbn [pv]. apply vel_bound. intros; apply HB; lia. }
    assert (E : S_ (fun i => g t i * pv t i) <= / (2 * (1 - b)) * S_ (fun i => g t i * g t i) + (1 - b) / 2 * S_ (fun i => pv t i * pv t i)).
    { rewrite <- !rsum_map_scal, <- rsum_map_add. apply rsum_map_le. intros i _. set (u := g t i). set (w := pv t i). apply (Rmult_le_reg_l (2 * (1 - b))); [lra|].
      replace (2 * (1 - b) * (/ (2 * (1 - b)) * (u * u) + (1 - b) / 2 * (w * w))) with (u * u + (1 - b) * (1 - b) * (w * w)) by (field; lra). pose proof (Rle_0_sqr (u - (1 - b) * w)) as Q. unfold Rsqr in Q. nra. }
    eapply Rle_trans; [exact E|]. set (s := S_ (fun i => g t i * g t i)) in *. set (w := S_ (fun i => pv t i * pv t i)) in *.
    replace (B / (1 - b)) with (/ (2 * (1 - b)) * B + (1 - b) / 2 * (B / ((1 - b) * (1 - b)))) by (field; lra).
    apply Rplus_le_compat; apply Rmult_le_compat_l; try lra. left. apply Rinv_0_lt_compat. lra.
  Qed.
  (** The velocities, summed over the steps. *)
  Lemma vel_total n : rsum (map (fun t => S_ (fun i => pv t i * pv t i)) (seq 0 n)) <= rsum (map (fun t => S_ (fun i => g t i * g t i)) (seq 0 n)) / ((1 - b) * (1 - b)).
  Proof.
    assert (H : 0 < 1 - b) by lra. set (V n := rsum (map (fun t => S_ (fun i => pv t i * pv t i)) (seq 0 n))). set (Q n := rsum (map (fun t => S_ (fun i => g t i * g t i)) (seq 0 n))).
    assert (Hq : forall t, 0 <= S_ (fun i => g t i * g t i)) by (intros t; apply S_nonneg; intros; nra). assert (Hw : forall t, 0 <= S_ (fun i => pv t i * pv t i)) by (intros t; apply S_nonneg; intros; nra).
    assert (HQ : forall n, 0 <= Q n). { intros m. induction m as [|m IH]; [unfold Q; cbn; apply Rle_refl|]. unfold Q in *. rewrite rsum_seq_S. specialize (Hq m). lra. }
    assert (K : forall n, V (S n) <= Q n / (1 - b) + b * V n).
    { intros k; induction k as [|m IH]; [unfold V, Q; rewrite rsum_seq_S; cbn [seq map pv]; rewrite !rsum_nil, (rsum_map_const (0 * 0)); apply Req_le; field; lra|].
      unfold V in *. rewrite (rsum_seq_S _ (S m)). unfold Q in *. rewrite (rsum_seq_S (fun t => rsum (map (fun i => g t i * g t i) (seq 0 N))) m). cbn [pv]. pose proof (vel_sq m) as Hv. change (fun i => pv (S m) i * pv (S m) i) with (fun i => vel m i * vel m i).
      rewrite (rsum_seq_S (fun t => rsum (map (fun i => pv t i * pv t i) (seq 0 N))) m) in IH |- *. unfold Rdiv in *. rewrite (Rmult_plus_distr_r _ _ (/ (1 - b))). lra. }
    assert (Hmono : V n <= V (S n)) by (unfold V; rewrite rsum_seq_S; specialize (Hw n); lra). specialize (K n).
    change (V n <= Q n / ((1 - b) * (1 - b))). apply (Rmult_le_reg_l (1 - b)); [exact H|]. replace ((1 - b) * (Q n / ((1 - b) * (1 - b)))) with (Q n / (1 - b)) by (field; lra). lra.
  Qed.
End Mom.

Lemma mom_core (N : nat) (lr b G : R) (nest : bool) (X g : nat -> nat -> R) (qi : nat -> R) (n : nat) : 0 < lr -> 0 <= b < 1 -> 
  (forall t i, (t < n)%nat -> (i < N)%nat -> X (S t) i = X t i + - lr * momentum_of (Some b) nest (fun k => g k i) t) -> (forall t, (t < n)%nat -> rsum (map (fun i => g t i * g t i) (seq 0 N)) <= G) -> 0 <= G ->
  rsum (map (fun t => rsum (map (fun i => g t i * (X t i - qi i)) (seq 0 N))) (seq 0 n)) <= (1 - b) * rsum (map (fun i => (X 0%nat i - qi i) * (X 0%nat i - qi i)) (seq 0 N)) / (2 * lr) + INR n * (lr * G * (1 + b) / (2 * (1 - b) ^ 2)).
Proof.
  intros Hlr Hb Hs HG HG0. set (a := ma lr b). set (c := mc lr b nest). set (Z := zz lr b nest X g).
  assert (Ha : 0 < a) by (unfold a, ma; apply Rdiv_lt_0_compat; lra).
  assert (Hc : 0 <= c <= lr * b / (1 - b)). { unfold c, mc. assert (0 < / (1 - b)) by (apply Rinv_0_lt_compat; lra). assert (Hk : 0 <= lr * b / (1 - b)) by (unfold Rdiv; apply Rmult_le_pos; nra). replace (lr * b * b / (1 - b)) with (b * (lr * b / (1 - b))) by (field; lra). destruct nest; nra. }
  assert (R1 : 2 * a * rsum (map (fun t => rsum (map (fun i => g t i * (Z t i - qi i)) (seq 0 N))) (seq 0 n)) =
    rsum (map (fun i => (Z 0%nat i - qi i) * (Z 0%nat i - qi i)) (seq 0 N)) - rsum (map (fun i => (Z n i - qi i) * (Z n i - qi i)) (seq 0 N)) + a * a * rsum (map (fun t => rsum (map (fun i => g t i * g t i) (seq 0 N))) (seq 0 n))).
  { apply (run_identity N a Z g qi n). intros t i Ht Hi. apply zz_step; [exact Hb|]. exact (Hs t i Ht Hi). }
  assert (En : 0 <= rsum (map (fun i => (Z n i - qi i) * (Z n i - qi i)) (seq 0 N))) by (apply S_nonneg; intros; apply Rle_0_sqr).
  assert (EG : rsum (map (fun t => rsum (map (fun i => g t i * g t i) (seq 0 N))) (seq 0 n)) <= INR n * G). { rewrite <- (rsum_const n G). apply rsum_map_le. intros t Ht. apply in_seq in Ht. apply HG. lia. }
  assert (E2 : rsum (map (fun t => rsum (map (fun i => g t i * (X t i - qi i)) (seq 0 N))) (seq 0 n)) <= rsum (map (fun t => rsum (map (fun i => g t i * (Z t i - qi i)) (seq 0 N)) + c * (G / (1 - b))) (seq 0 n))).
  { apply rsum_map_le. intros t Ht. apply in_seq in Ht.
    assert (E3 : rsum (map (fun i => g t i * (X t i - qi i)) (seq 0 N)) = rsum (map (fun i => g t i * (Z t i - qi i)) (seq 0 N)) + c * rsum (map (fun i => g t i * pv b g t i) (seq 0 N))).
    { rewrite <- rsum_map_scal, <- rsum_map_add. apply rsum_map_ext. intros i _. rewrite (zz_x lr b nest X g t i). fold c. unfold Z. ring. }
    pose proof (cross_bound N b g Hb G t ltac:(intros k Hk; apply HG; lia)) as Hcr. assert (c * rsum (map (fun i => g t i * pv b g t i) (seq 0 N)) <= c * (G / (1 - b))) by (apply Rmult_le_compat_l; [apply Hc|exact Hcr]). lra. }
  rewrite rsum_map_add, rsum_const in E2. eapply Rle_trans; [exact E2|]. change (Z 0%nat) with (X 0%nat) in R1.
  set (I := rsum (map (fun t => rsum (map (fun i => g t i * (Z t i - qi i)) (seq 0 N))) (seq 0 n))) in *. set (D0 := rsum (map (fun i => (X 0%nat i - qi i) * (X 0%nat i - qi i)) (seq 0 N))) in *. set (GG := rsum (map (fun t => rsum (map (fun i => g t i * g t i) (seq 0 N))) (seq 0 n))) in *. pose proof (pos_INR n) as Hn'.
  assert (HI : I <= D0 / (2 * a) + a / 2 * (INR n * G)). { apply (Rmult_le_reg_l (2 * a)); [lra|]. rewrite R1. replace (2 * a * (D0 / (2 * a) + a / 2 * (INR n * G))) with (D0 + a * a * (INR n * G)) by (field; lra). assert (a * a * GG <= a * a * (INR n * G)) by (apply Rmult_le_compat_l; [nra|exact EG]). lra. }
  assert (H3 : INR n * (c * (G / (1 - b))) <= INR n * (lr * b / (1 - b) * (G / (1 - b)))). { apply Rmult_le_compat_l; [lra|]. apply Rmult_le_compat_r; [|apply Hc]. apply Rmult_le_pos; [exact HG0|left; apply Rinv_0_lt_compat; lra]. }
  replace ((1 - b) * D0 / (2 * lr) + INR n * (lr * G * (1 + b) / (2 * (1 - b) ^ 2))) with (D0 / (2 * a) + a / 2 * (INR n * G) + INR n * (lr * b / (1 - b) * (G / (1 - b)))) by (unfold a, ma; field; lra). lra.
Qed.

(*@ C82_regret : for every learning rate lr > 0, momentum 0 <= b < 1, Nesterov or not, finite parameters and list of finite gradients (whatever they are gradients of): the loop of sgd(lr, momentum=b) updates and apply_updates never fails, and if the first n gradients have squared norm at most G, then for every vector q, sum_{t<n} <g_t, x_t - q> <= (1 - b) |x_0 - q|^2 / (2 lr) + n lr G (1 + b) / (2 (1 - b)^2). *)
Lemma momentum_regret : forall `{P : Platform} (lr b G : R) (nest : bool) (p : tree tensor) (gs : list (tree tensor)) (q : list R), 0 < lr -> 0 <= b < 1 -> trwf p -> finite_tree p -> Forall (point_of p) gs -> length q = length (rvals p) ->
  exists T s0 qs sf, sgd (LConst (Fin lr)) (Some (Fin b)) nest = Ok T /\ init T p = Ok s0 /\ train_loop T s0 p gs = Ok (qs, sf) /\ length qs = length gs /\ Forall (point_of p) qs /\
    let x t := rvals (nth t (p :: qs) p) in let g t := rvals (nth t gs p) in
    forall n, (n <= length gs)%nat -> (forall t, (t < n)%nat -> sumsq (g t) <= G) ->
      rsum (map (fun t => dot (g t) (vsub (x t) q)) (seq 0 n)) <= (1 - b) * sumsq (vsub (rvals p) q) / (2 * lr) + INR n * (lr * G * (1 + b) / (2 * (1 - b) ^ 2)).
Proof.
  intros P lr b G nest p gs q Hlr Hb Wp Fp Hgs Lq. destruct (@sgd_emits P (@LConst (XROps P) (Fin lr)) (fun _ => lr) (Some b) nest (fun _ => eq_refl)) as (T & ET & HE).
  destruct (loop_vec T _ HE p gs Wp Fp Hgs) as (s0 & qs & sf & Ei & El & Hl & Hq & Hs).
  exists T, s0, qs, sf. repeat (split; [assumption|]). cbn zeta. intros n Hn HG. nx. set (N := length (rvals p)) in *.
  assert (Hpp : point_of p p) by (split; [split; [reflexivity|exact Wp]|exact Fp]).
  assert (Lx : forall t, (t <= n)%nat -> length (rvals (nth t (p :: qs) p)) = N). { intros t Ht. apply rvals_length; [exact Wp|]. destruct t; [exact Hpp|]. cbn [nth]. rewrite Forall_forall in Hq. apply Hq, nth_In. lia. }
  assert (Lg : forall t, (t < n)%nat -> length (rvals (nth t gs p)) = N). { intros t Ht. apply rvals_length; [exact Wp|]. rewrite Forall_forall in Hgs. apply Hgs, nth_In. lia. }
  destruct n as [|n0]; [cbn [seq map]; rewrite rsum_nil; cbn [INR]; rewrite Rmult_0_l, Rplus_0_r; apply Rmult_le_pos; [apply Rmult_le_pos; [lra|apply sumsq_nonneg]|left; apply Rinv_0_lt_compat; lra]|]. set (n := S n0) in *.
  rewrite (rsum_map_ext (fun t => dot _ _) (fun t => rsum (map (fun i => nth i (rvals (nth t gs p)) 0 * (nth i (rvals (nth t (p :: qs) p)) 0 - nth i q 0)) (seq 0 N)))).
  2:{ intros t Ht. apply in_seq in Ht. apply dot_vsub; [apply Lg; lia|apply Lx; lia|exact Lq]. }
  rewrite (sumsq_vsub (rvals p) q N) by auto.
  apply (mom_core N lr b G nest (fun t i => nth i (rvals (nth t (p :: qs) p)) 0) (fun t i => nth i (rvals (nth t gs p)) 0) (fun i => nth i q 0) n Hlr Hb).
  - intros t i Ht Hi. exact (Hs i t Hi ltac:(lia)).
  - intros t Ht. rewrite <- (sumsq_seq _ N (Lg t Ht)). now apply HG.
  - eapply Rle_trans; [apply (sumsq_nonneg (rvals (nth 0 gs p)))|]. apply HG. unfold n. lia.
Qed.

Section Mini.
  Context {P : Platform}.
  Notation xr := (XROps P).
  Variables (lr b : R) (nest : bool) (p : tree (gt XR)) (grad : tree (gt XR) -> tree (gt XR)).
  Hypotheses (Wp : trwf p) (Fp : finite_tree p) (Hgr : forall x, point_of p x -> point_of p (grad x)).
  Lemma mom_minimise n : exists T s0 qs sf, @sgd xr (@LConst xr (Fin lr)) (Some (Fin b)) nest = Ok T /\ @init xr T p = Ok s0 /\ @minimise xr T grad n s0 p = Ok (qs, sf) /\ length qs = n /\ Forall (point_of p) qs /\
    (forall t, (t <= n)%nat -> point_of p (nth t (p :: qs) p)) /\
    forall i t, (i < length (rvals p))%nat -> (t < n)%nat ->
      nth i (rvals (nth (S t) (p :: qs) p)) 0 = nth i (rvals (nth t (p :: qs) p)) 0 + - lr * momentum_of (Some b) nest (fun k => nth i (rvals (grad (nth k (p :: qs) p))) 0) t.
  Proof.
    destruct (@sgd_emits P (@LConst xr (Fin lr)) (fun _ => lr) (Some b) nest (fun _ => eq_refl)) as (T & ET & HE). destruct (minimise_vec T _ grad p HE Wp Fp Hgr n) as (s0 & qs & sf & Ei & El & Hl & Hq & Hs).
    assert (Hpp : point_of p p) by (split; [split; [reflexivity|exact Wp]|exact Fp]).
    exists T, s0, qs, sf. repeat (split; [assumption|]). split.
    - intros t Ht. destruct t; [exact Hpp|]. cbn [nth]. rewrite Forall_forall in Hq. apply Hq. nx. apply nth_In. lia.
    - exact Hs.
  Qed.
End Mini.

(*@ C82_convex : minimising any function f of which grad computes subgradients of squared norm at most G (f is then convex; it need not be differentiable) with sgd(lr, momentum=b), 0 <= b < 1, Nesterov or not: n steps never fail, the average of f at the n visited points exceeds f at any vector q by at most (1 - b) |x_0 - q|^2 / (2 lr n) + lr G (1 + b) / (2 (1 - b)^2), and so does f at one of the visited points. *)
Lemma momentum_convex : forall `{P : Platform} (lr b G : R) (nest : bool) (p : tree tensor) (grad : tree tensor -> tree tensor) (f : list R -> R) (n : nat) (q : list R), 0 < lr -> 0 <= b < 1 -> (0 < n)%nat -> trwf p -> finite_tree p ->
  (forall x, point_of p x -> point_of p (grad x) /\ sumsq (rvals (grad x)) <= G) -> subgradients p f grad -> length q = length (rvals p) ->
  exists T s0 qs sf, sgd (LConst (Fin lr)) (Some (Fin b)) nest = Ok T /\ init T p = Ok s0 /\ minimise T grad n s0 p = Ok (qs, sf) /\ length qs = n /\ Forall (point_of p) qs /\
    let x t := rvals (nth t (p :: qs) p) in let bound := (1 - b) * sumsq (vsub (rvals p) q) / (2 * lr * INR n) + lr * G * (1 + b) / (2 * (1 - b) ^ 2) in
    rsum (map (fun t => f (x t)) (seq 0 n)) / INR n - f q <= bound /\ exists t, (t < n)%nat /\ f (x t) - f q <= bound.
Proof.
  intros P lr b G nest p grad f n q Hlr Hb Hn Wp Fp Hgr Hsub Lq. destruct (mom_minimise lr b nest p grad Wp Fp (fun x H => proj1 (Hgr x H)) n) as (T & s0 & qs & sf & ET & Ei & El & Hl & Hq & HP & Hs).
  exists T, s0, qs, sf. repeat (split; [assumption|]). cbn zeta. nx. pose proof (lt_0_INR n Hn) as Hn'. set (N := length (rvals p)) in *.
  set (X := fun t i => nth i (rvals (nth t (p :: qs) p)) 0). set (g := fun t i => nth i (rvals (grad (nth t (p :: qs) p))) 0). set (qi := fun i => nth i q 0).
  assert (Lx : forall t, (t <= n)%nat -> length (rvals (nth t (p :: qs) p)) = N) by (intros t Ht; apply rvals_length; auto).
  assert (Lg : forall t, (t <= n)%nat -> length (rvals (grad (nth t (p :: qs) p))) = N) by (intros t Ht; apply rvals_length; [exact Wp|apply Hgr; auto]).
  assert (HG : forall t, (t <= n)%nat -> rsum (map (fun i => g t i * g t i) (seq 0 N)) <= G). { intros t Ht. unfold g. rewrite <- (sumsq_seq _ N (Lg t Ht)). apply Hgr. auto. }
  assert (HG0 : 0 <= G). { eapply Rle_trans; [|apply (HG 0%nat); lia]. apply S_nonneg. intros; nra. }
  pose proof (mom_core N lr b G nest X g qi n Hlr Hb (fun t i Ht Hi => Hs i t Hi Ht) (fun t Ht => HG t ltac:(lia)) HG0) as E1.
  assert (E2 : rsum (map (fun t => f (rvals (nth t (p :: qs) p)) - f q) (seq 0 n)) <= rsum (map (fun t => rsum (map (fun i => g t i * (X t i - qi i)) (seq 0 N))) (seq 0 n))).
  { apply rsum_map_le. intros t Ht. apply in_seq in Ht. pose proof (Hsub (nth t (p :: qs) p) q (HP t ltac:(lia)) Lq) as H1. rewrite (dot_vsub_anti _ _ _ N), (dot_vsub _ _ _ N) in H1 by (try apply Lx; try apply Lg; auto; lia).
    unfold g, X, qi. lra. }
  assert (E0 : rsum (map (fun i => (X 0%nat i - qi i) * (X 0%nat i - qi i)) (seq 0 N)) = sumsq (vsub (rvals p) q)) by (symmetry; exact (sumsq_vsub (rvals p) q N eq_refl Lq)). rewrite E0 in E1.
  set (bound := (1 - b) * sumsq (vsub (rvals p) q) / (2 * lr * INR n) + lr * G * (1 + b) / (2 * (1 - b) ^ 2)).
  assert (E4 : rsum (map (fun t => f (rvals (nth t (p :: qs) p)) - f q) (seq 0 n)) <= INR n * bound).
  { eapply Rle_trans; [exact E2|]. eapply Rle_trans; [exact E1|]. right. unfold bound. field. lra. }
  split.
  - rewrite rsum_map_sub, rsum_const in E4. apply (Rmult_le_reg_l (INR n)); [exact Hn'|]. rewrite Rmult_minus_distr_l. replace (INR n * (rsum (map (fun t => f (rvals (nth t (p :: qs) p))) (seq 0 n)) / INR n)) with (rsum (map (fun t => f (rvals (nth t (p :: qs) p))) (seq 0 n))) by (field; lra). exact E4.
  - exact (some_below _ n bound Hn E4).
Qed.

(*@ C82_smooth : minimising any L-smooth function f (convex or not) that never goes below m with sgd(lr, momentum=b), 0 <= b < 1, Nesterov or not, and lr L <= (1 - b)^2 / 2: n steps never fail, the squared norms of the n gradients met add up to at most 4 (1 - b) (f(x_0) - m) / lr, so one of them is at most that divided by n. *)
Lemma momentum_smooth : forall `{P : Platform} (lr b L m : R) (nest : bool) (p : tree tensor) (grad : tree tensor -> tree tensor) (df : list R -> list R) (f : list R -> R) (n : nat), 0 < lr -> 0 <= b < 1 -> 0 <= L -> lr * L <= (1 - b) ^ 2 / 2 -> (0 < n)%nat -> trwf p -> finite_tree p ->
  computes p grad df -> smooth_field (length (rvals p)) f df L -> (forall y, m <= f y) ->
  exists T s0 qs sf, sgd (LConst (Fin lr)) (Some (Fin b)) nest = Ok T /\ init T p = Ok s0 /\ minimise T grad n s0 p = Ok (qs, sf) /\ length qs = n /\ Forall (point_of p) qs /\
    let norms t := sumsq (rvals (grad (nth t (p :: qs) p))) in
    rsum (map norms (seq 0 n)) <= 4 * (1 - b) * (f (rvals p) - m) / lr /\ exists t, (t < n)%nat /\ norms t <= 4 * (1 - b) * (f (rvals p) - m) / (lr * INR n).
Proof.
  intros P lr b L m nest p grad df f n Hlr Hb HL HlL Hn Wp Fp Hgr Hsm Hm. destruct (mom_minimise lr b nest p grad Wp Fp (fun x H => proj1 (Hgr x H)) n) as (T & s0 & qs & sf & ET & Ei & El & Hl & Hq & HP & Hs).
  exists T, s0, qs, sf. repeat (split; [assumption|]). cbn zeta. nx. pose proof (lt_0_INR n Hn) as Hn'. set (N := length (rvals p)) in *.
  set (X := fun t i => nth i (rvals (nth t (p :: qs) p)) 0). set (g := fun t i => nth i (rvals (grad (nth t (p :: qs) p))) 0).
  assert (Lx : forall t, (t <= n)%nat -> length (rvals (nth t (p :: qs) p)) = N) by (intros t Ht; apply rvals_length; auto).
  assert (Lg : forall t, (t <= n)%nat -> length (rvals (grad (nth t (p :: qs) p))) = N) by (intros t Ht; apply rvals_length; [exact Wp|apply Hgr; auto]).
  set (a := ma lr b). set (c := mc lr b nest). set (Z := zz lr b nest X g). set (Zv := fun t => map (Z t) (seq 0 N)). set (GG := fun t => rsum (map (fun i => g t i * g t i) (seq 0 N))). set (PV := fun t => rsum (map (fun i => pv b g t i * pv b g t i) (seq 0 N))).
  assert (Ha : 0 < a) by (unfold a, ma; apply Rdiv_lt_0_compat; lra). assert (Hi : 0 < / (1 - b)) by (apply Rinv_0_lt_compat; lra).
  assert (Hc : 0 <= c <= lr * b / (1 - b)). { unfold c, mc. assert (Hk : 0 <= lr * b / (1 - b)) by (unfold Rdiv; apply Rmult_le_pos; nra). replace (lr * b * b / (1 - b)) with (b * (lr * b / (1 - b))) by (field; lra). destruct nest; nra. }
  assert (LZ : forall t, length (Zv t) = N) by (intros t; unfold Zv; rewrite map_length; apply seq_length).
  assert (NZ : forall t i, (i < N)%nat -> nth i (Zv t) 0 = Z t i) by (intros t i Hi'; unfold Zv; now apply nth_map_seq).
  assert (Hstep : forall t i, (t < n)%nat -> (i < N)%nat -> Z (S t) i = Z t i - a * g t i). { intros t i Ht Hi'. apply zz_step; [exact Hb|]. exact (Hs i t Hi' Ht). }
  assert (K : forall t, (t < n)%nat -> f (Zv (S t)) <= f (Zv t) - a / 2 * GG t + a / 2 * (L ^ 2 * (c * c * PV t)) + L / 2 * (a * a * GG t)).
  { intros t Ht. destruct (Hsm (Zv t) (Zv (S t)) (LZ t) (LZ (S t))) as (Ld & H1 & _). destruct (Hsm (Zv t) (rvals (nth t (p :: qs) p)) (LZ t) (Lx t ltac:(lia))) as (_ & _ & H2).
    rewrite (dot_vsub _ _ _ N Ld (LZ _) (LZ _)), (sumsq_vsub _ _ N (LZ _) (LZ _)) in H1.
    destruct (Hgr _ (HP t ltac:(lia))) as (_ & Eg). rewrite <- Eg in H2. rewrite (sumsq_vsub _ _ N Ld (Lg t ltac:(lia))), (sumsq_vsub _ _ N (LZ _) (Lx t ltac:(lia))) in H2. set (h := fun i => nth i (df (Zv t)) 0) in *.
    assert (E1 : rsum (map (fun i => h i * (nth i (Zv (S t)) 0 - nth i (Zv t) 0)) (seq 0 N)) <= a / 2 * rsum (map (fun i => (h i - g t i) * (h i - g t i)) (seq 0 N)) + - (a / 2) * GG t).
    { unfold GG. rewrite <- !rsum_map_scal, <- rsum_map_add. apply rsum_map_le. intros i Hin. apply in_seq in Hin. rewrite !NZ, Hstep by lia. pose proof (Rle_0_sqr (h i)) as Q. unfold Rsqr in Q. nra. }
    assert (E2 : rsum (map (fun i => (nth i (Zv (S t)) 0 - nth i (Zv t) 0) * (nth i (Zv (S t)) 0 - nth i (Zv t) 0)) (seq 0 N)) = a * a * GG t).
    { unfold GG. rewrite <- rsum_map_scal. apply rsum_map_ext. intros i Hin. apply in_seq in Hin. rewrite !NZ, Hstep by lia. ring. }
    assert (E3 : rsum (map (fun i => (nth i (Zv t) 0 - nth i (rvals (nth t (p :: qs) p)) 0) * (nth i (Zv t) 0 - nth i (rvals (nth t (p :: qs) p)) 0)) (seq 0 N)) = c * c * PV t).
    { unfold PV. rewrite <- rsum_map_scal. apply rsum_map_ext. intros i Hin. apply in_seq in Hin. rewrite !NZ by lia. fold (X t i). rewrite (zz_x lr b nest X g t i). fold c. unfold Z. ring. }
    rewrite E2 in H1. rewrite E3 in H2. fold h in H1. change (fun i => (nth i (df (Zv t)) 0 - nth i (rvals (grad (nth t (p :: qs) p))) 0) * (nth i (df (Zv t)) 0 - nth i (rvals (grad (nth t (p :: qs) p))) 0)) with (fun i => (h i - g t i) * (h i - g t i)) in H2.
    change (rsum (map (fun i => nth i (df (Zv t)) 0 * (nth i (Zv (S t)) 0 - nth i (Zv t) 0)) (seq 0 N))) with (rsum (map (fun i => h i * (nth i (Zv (S t)) 0 - nth i (Zv t) 0)) (seq 0 N))) in H1.
    assert (E4 : a / 2 * rsum (map (fun i => (h i - g t i) * (h i - g t i)) (seq 0 N)) <= a / 2 * (L ^ 2 * (c * c * PV t))) by (apply Rmult_le_compat_l; [lra|exact H2]). lra. }
  assert (K2 : forall k, (k <= n)%nat -> f (Zv k) <= f (rvals p) - (a / 2 - L / 2 * (a * a)) * rsum (map GG (seq 0 k)) + a / 2 * (L ^ 2 * (c * c)) * rsum (map PV (seq 0 k))).
  { induction k as [|k IH]; intros Hk.
    - cbn [seq map]. rewrite !rsum_nil. replace (Zv 0%nat) with (rvals p) by (rewrite (map_seq_nth (rvals p)); reflexivity). lra.
    - specialize (IH ltac:(lia)). rewrite !rsum_seq_S. specialize (K k ltac:(lia)). lra. }
  specialize (K2 n (le_n _)). pose proof (vel_total N b g Hb n) as HV. fold PV GG in HV. set (SG := rsum (map GG (seq 0 n))) in *. set (SP := rsum (map PV (seq 0 n))) in *.
  assert (HSG : 0 <= SG). { unfold SG. replace 0 with (rsum (map (fun _ : nat => 0) (seq 0 n))) by (rewrite rsum_const; ring). apply rsum_map_le. intros t _. apply S_nonneg. intros; apply Rle_0_sqr. }
  assert (HLc : L * c / (1 - b) <= b / 2). { apply Rle_trans with (b * (lr * L / ((1 - b) * (1 - b)))).
    - replace (b * (lr * L / ((1 - b) * (1 - b)))) with (L * (lr * b / (1 - b)) * / (1 - b)) by (field; lra). unfold Rdiv at 1. apply Rmult_le_compat_r; [lra|]. apply Rmult_le_compat_l; lra.
    - assert (lr * L / ((1 - b) * (1 - b)) <= / 2); [|nra]. apply (Rmult_le_reg_r ((1 - b) * (1 - b))); [nra|]. unfold Rdiv. rewrite Rmult_assoc, Rinv_l by nra. nra. }
  assert (HLa : L * a <= (1 - b) / 2). { unfold a, ma. apply (Rmult_le_reg_r (1 - b)); [lra|]. replace (L * (lr / (1 - b)) * (1 - b)) with (lr * L) by (field; lra). nra. }
  assert (H0 : 0 <= L * c / (1 - b)) by (unfold Rdiv; apply Rmult_le_pos; [apply Rmult_le_pos; [lra|apply Hc]|lra]).
  assert (HP' : L ^ 2 * (c * c) * SP <= b / 2 * (b / 2) * SG).
  { apply Rle_trans with (L ^ 2 * (c * c) * (SG / ((1 - b) * (1 - b)))); [apply Rmult_le_compat_l; [|exact HV]; assert (0 <= L * c) by (apply Rmult_le_pos; [lra|apply Hc]); nra|].
    replace (L ^ 2 * (c * c) * (SG / ((1 - b) * (1 - b)))) with (L * c / (1 - b) * (L * c / (1 - b)) * SG) by (field; lra). apply Rmult_le_compat_r; [exact HSG|]. apply Rmult_le_compat; lra. }
  assert (K3 : m <= f (rvals p) - a / 4 * SG).
  { eapply Rle_trans; [apply (Hm (Zv n))|]. eapply Rle_trans; [exact K2|].
    assert (U1 : a / 2 * (L ^ 2 * (c * c)) * SP <= a / 2 * (b / 2 * (b / 2) * SG)) by (rewrite Rmult_assoc; apply Rmult_le_compat_l; [lra|exact HP']).
    assert (U2 : L / 2 * (a * a) * SG <= a / 2 * ((1 - b) / 2) * SG) by (apply Rmult_le_compat_r; [exact HSG|]; nra).
    assert (U3 : 0 <= a * SG) by nra. assert (U4 : 0 <= (b / 2 - b * b / 4) * (a * SG)) by (apply Rmult_le_pos; nra). nra. }
  assert (HSum : SG <= 4 * (1 - b) * (f (rvals p) - m) / lr).
  { replace (4 * (1 - b) * (f (rvals p) - m) / lr) with (4 / a * (f (rvals p) - m)) by (unfold a, ma; field; lra). apply (Rmult_le_reg_l (a / 4)); [lra|]. replace (a / 4 * (4 / a * (f (rvals p) - m))) with (f (rvals p) - m) by (field; lra). lra. }
  assert (EN : rsum (map (fun t => sumsq (rvals (grad (nth t (p :: qs) p)))) (seq 0 n)) = SG). { apply rsum_map_ext. intros t Ht. apply in_seq in Ht. apply sumsq_seq. apply Lg. lia. }
  split; [rewrite EN; exact HSum|]. apply (some_below _ n); [exact Hn|]. rewrite EN. eapply Rle_trans; [exact HSum|]. right. field. lra.
Qed.

(** Two functions that meet the hypotheses: the quadratic of P_regret (smooth) and the distance |v - 3| (convex, not differentiable). *)
Definition quad_df (l : list R) : list R := map (fun v => v - 3) l.
Lemma quad_field N : smooth_field N quad quad_df 1.
Proof.
  intros u v Hu Hv. split; [unfold quad_df; now rewrite map_length|]. split; [right; apply quad_taylor; congruence|].
  right. rewrite pow1, Rmult_1_l. unfold quad_df. assert (E : forall u v, vsub (map (fun v => v - 3) u) (map (fun v => v - 3) v) = vsub u v); [|now rewrite E].
  clear. intros u. induction u as [|a u IH]; intros [|b v]; try reflexivity. unfold vsub in *. cbn [map combine fst snd]. rewrite IH. f_equal. ring.
Qed.
Lemma quad_nonneg l : 0 <= quad l.
Proof. unfold quad. induction l as [|a l IH]; [cbn [map]; rewrite rsum_nil; lra|]. cbn [map]. rewrite rsum_cons. pose proof (Rle_0_sqr (a - 3)) as Q. unfold Rsqr in Q. lra. Qed.
Definition sg (v : R) : R := if Rle_dec 3 v then 1 else -1.
Definition dist (l : list R) : R := rsum (map (fun v => Rabs (v - 3)) l).
Definition dist_grad (x : tree (gt XR)) : tree (gt XR) := emapt (fun _ v => match v with Fin r => Fin (sg r) | _ => v end) x.
Lemma dist_grad_vals x : finite_tree x -> rvals (dist_grad x) = map sg (rvals x).
Proof.
  intros Fx. unfold rvals, vals, dist_grad, emapt. rewrite leaves_tmap, map_map. change (fun x : gt XR => dat (emap (fun _ v => match v with Fin r => Fin (sg r) | _ => v end) x)) with (fun x : gt XR => map (fun v => match v with Fin r => Fin (sg r) | _ => v end) (dat x)).
  rewrite <- (map_map dat (map (fun v => match v with Fin r => Fin (sg r) | _ => v end))), <- concat_map, !map_map. apply map_ext_in. intros v Hv. unfold finite_tree in Fx. rewrite Forall_forall in Fx. destruct (Fx v Hv) as (r & ->). reflexivity.
Qed.
Lemma dist_ok `{P : Platform} (p x : tree (gt XR)) : point_of p x -> point_of p (dist_grad x).
Proof.
  intros ((Ha & Hw) & Fx). split; [split; [unfold dist_grad; now rewrite emapt_avals|now apply emapt_wf]|]. apply finite_of_elts. intros pos v. unfold dist_grad. rewrite elt_emapt.
  destruct (elt x pos) as [y|] eqn:E; [|discriminate]. destruct (finite_elt x pos y Fx E) as (r & ->). intros [= <-]. eexists; reflexivity.
Qed.
Lemma dist_sub `{P : Platform} (p : tree (gt XR)) : trwf p -> subgradients p dist dist_grad.
Proof.
  intros Wp x y Hx Ly. rewrite dist_grad_vals by apply Hx. pose proof (rvals_length p x Wp Hx) as Lx. rewrite <- Lx in Ly. clear -Ly. revert y Ly. induction (rvals x) as [|a l IH]; intros [|b y] E; try discriminate; [unfold dist, dot, vsub; cbn; unfold rsum; cbn; lra|].
  cbn in E. injection E as E. specialize (IH y E). unfold dist, vsub in *. cbn [map combine fst snd]. rewrite !rsum_cons, dot_cons.
  assert (Rabs (a - 3) + sg a * (b - a) <= Rabs (b - 3)); [|lra]. unfold sg, Rabs. destruct (Rle_dec 3 a), (Rcase_abs (a - 3)), (Rcase_abs (b - 3)); lra.
Qed.
Lemma sg_sumsq l : sumsq (map sg l) = INR (length l).
Proof. induction l as [|a l IH]; [reflexivity|]. cbn [map length]. rewrite sumsq_cons, IH, S_INR. unfold sg. destruct (Rle_dec 3 a); lra. Qed.
(*@ex C82_example *)
Lemma momentum_example : forall `{P : Platform}, let p := Leaf (mkT F32 [2%nat] [Fin 5; Fin 1]) in
  trwf p /\ finite_tree p /\ rvals p = [5; 1] /\
  (computes p quad_grad quad_df /\ smooth_field 2 quad quad_df 1 /\ (forall y, 0 <= quad y)) /\
  ((forall x, point_of p x -> point_of p (dist_grad x) /\ sumsq (rvals (dist_grad x)) <= 2) /\ subgradients p dist dist_grad) /\
  (exists T s0 qs sf, sgd (LConst (Fin (1 / 8))) (Some (Fin (1 / 2))) true = Ok T /\ init T p = Ok s0 /\ minimise T quad_grad 100 s0 p = Ok (qs, sf) /\
    exists t, (t < 100)%nat /\ sumsq (rvals (quad_grad (nth t (p :: qs) p))) <= 16 / 25) /\
  (exists T s0 qs sf, sgd (LConst (Fin (1 / 20))) (Some (Fin (1 / 2))) false = Ok T /\ init T p = Ok s0 /\ minimise T dist_grad 400 s0 p = Ok (qs, sf) /\
    exists t, (t < 400)%nat /\ dist (rvals (nth t (p :: qs) p)) - dist [3; 3] <= 2 / 5).
Proof.
  intros P. cbn zeta. set (p := Leaf (mkT F32 [2%nat] [Fin 5; Fin 1])). assert (Wp : trwf p) by (repeat constructor). assert (Fp : finite_tree p) by (repeat constructor; eexists; reflexivity).
  assert (Hc : computes p quad_grad quad_df) by (intros x Hx; split; [now apply quad_ok|apply quad_grad_vals, Hx]).
  assert (Hd : forall x, point_of p x -> point_of p (dist_grad x) /\ sumsq (rvals (dist_grad x)) <= 2).
  { intros x Hx. split; [now apply dist_ok|]. rewrite dist_grad_vals by apply Hx. rewrite sg_sumsq, (rvals_length p x Wp Hx). cbn. lra. }
  split; [exact Wp|]. split; [exact Fp|]. split; [reflexivity|]. split; [split; [exact Hc|split; [apply quad_field|apply quad_nonneg]]|]. split; [split; [exact Hd|now apply dist_sub]|]. split.
  - destruct (@momentum_smooth P (1/8) (1/2) 1 0 true p quad_grad quad_df quad 100) as (T & s0 & qs & sf & ET & Ei & El & _ & _ & _ & t & Ht & H); [lra|lra|lra|lra|lia|exact Wp|exact Fp|exact Hc|apply quad_field|apply quad_nonneg|].
    exists T, s0, qs, sf. repeat (split; [assumption|]). exists t. split; [exact Ht|]. eapply Rle_trans; [exact H|]. right. change (rvals p) with [5; 1]. unfold quad. cbn [map]. rewrite !rsum_cons, rsum_nil. replace (INR 100) with 100 by (rewrite INR_IZR_INZ; reflexivity). field.
  - destruct (@momentum_convex P (1/20) (1/2) 2 false p dist_grad dist 400 [3; 3]) as (T & s0 & qs & sf & ET & Ei & El & _ & _ & _ & t & Ht & H); [lra|lra|lia|exact Wp|exact Fp|exact Hd|now apply dist_sub|reflexivity|].
    exists T, s0, qs, sf. repeat (split; [assumption|]). exists t. split; [exact Ht|]. eapply Rle_trans; [exact H|]. change (rvals p) with [5; 1]. unfold vsub. cbn [combine map fst snd]. rewrite !sumsq_cons. change (sumsq []) with 0. replace (INR 400) with 400 by (rewrite INR_IZR_INZ; reflexivity). lra.
Qed.
