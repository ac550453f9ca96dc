(** Linear convergence of sgd, and acceleration by Nesterov momentum, on strongly convex functions (C85). *)
From Verif Require Export P_momentum.
From Coq Require Import List Psatz.
Import ListNotations.
Open Scope R_scope.
(*@header
From Coq Require Import List.
Import ListNotations.
Open Scope R_scope.
*)

(** ** Specification *)
(** [df] is the gradient field of [f] on vectors of length N, and f lies between the two parabolas
    of curvature m (strong convexity) and L (smoothness) that touch it at any point. *)
Definition between_parabolas (N : nat) (f : list R -> R) (df : list R -> list R) (m L : R) : Prop :=
  forall u v, length u = N -> length v = N -> length (df u) = N /\
    f u + dot (df u) (vsub v u) + m / 2 * sumsq (vsub v u) <= f v <= f u + dot (df u) (vsub v u) + L / 2 * sumsq (vsub v u).
(** [q] is a minimiser of [f] among the vectors of length N. *)
Definition minimiser (N : nat) (f : list R -> R) (q : list R) : Prop := length q = N /\ forall y, length y = N -> f q <= f y.

(** ** In coordinates *)
Section Core.
  Variables (N : nat) (f : list R -> R) (df : list R -> list R) (m L : R).
  Hypothesis HF : between_parabolas N f df m L.
  Definition vec (x : nat -> R) : list R := map x (seq 0 N).
  Notation S_ F := (rsum (map F (seq 0 N))).
  Lemma vec_length x : length (vec x) = N.
  Proof. unfold vec. rewrite map_length. apply seq_length. Qed.
  Lemma vec_nth x i : (i < N)%nat -> nth i (vec x) 0 = x i.
  Proof. apply nth_map_seq. Qed.
  Lemma vec_of l : length l = N -> vec (fun i => nth i l 0) = l.
  Proof. intros H. unfold vec. rewrite <- H. symmetry. apply map_seq_nth. Qed.
  Lemma S_ext F G : (forall i, (i < N)%nat -> F i = G i) -> S_ F = S_ G.
  Proof. intros H. apply rsum_map_ext. intros i Hi. apply in_seq in Hi. apply H. lia. Qed.
  Lemma S_le F G : (forall i, (i < N)%nat -> F i <= G i) -> S_ F <= S_ G.
  Proof. intros H. apply rsum_map_le. intros i Hi. apply in_seq in Hi. apply H. lia. Qed.
  Lemma bounds x y : let g i := nth i (df (vec x)) 0 in
    f (vec x) + S_ (fun i => g i * (y i - x i)) + m / 2 * S_ (fun i => (y i - x i) * (y i - x i)) <= f (vec y) <=
    f (vec x) + S_ (fun i => g i * (y i - x i)) + L / 2 * S_ (fun i => (y i - x i) * (y i - x i)).
  Proof.
    intros g. destruct (HF (vec x) (vec y) (vec_length x) (vec_length y)) as (Ld & H). rewrite (dot_vsub _ _ _ N Ld (vec_length y) (vec_length x)), (sumsq_vsub _ _ N (vec_length y) (vec_length x)) in H.
    rewrite (S_ext (fun i => nth i (df (vec x)) 0 * (nth i (vec y) 0 - nth i (vec x) 0)) (fun i => g i * (y i - x i))) in H by (intros i Hi; now rewrite !vec_nth).
    rewrite (S_ext (fun i => (nth i (vec y) 0 - nth i (vec x) 0) * (nth i (vec y) 0 - nth i (vec x) 0)) (fun i => (y i - x i) * (y i - x i))) in H by (intros i Hi; now rewrite !vec_nth). exact H.
  Qed.
  Lemma bounds' x y g : g = (fun i => nth i (df (vec x)) 0) ->
    f (vec x) + S_ (fun i => g i * (y i - x i)) + m / 2 * S_ (fun i => (y i - x i) * (y i - x i)) <= f (vec y) <=
    f (vec x) + S_ (fun i => g i * (y i - x i)) + L / 2 * S_ (fun i => (y i - x i) * (y i - x i)).
  Proof. intros ->. exact (bounds x y). Qed.
  Variable q : nat -> R.
  Hypothesis Hq : forall y, f (vec q) <= f (vec y).
  Hypothesis HL : 0 < L.
  (** One plain gradient step from y lowers f by |g|^2 / (2 L). *)
  Lemma gradient_step y lr : 0 <= lr -> lr * L <= 1 -> let g i := nth i (df (vec y)) 0 in f (vec (fun i => y i - lr * g i)) <= f (vec y) - lr / 2 * S_ (fun i => g i * g i).
  Proof.
    intros Hlr HlL g. destruct (bounds y (fun i => y i - lr * g i)) as (_ & H). fold g in H. eapply Rle_trans; [exact H|].
    rewrite (S_ext (fun i => nth i (df (vec y)) 0 * (y i - lr * g i - y i)) (fun i => - lr * (g i * g i))) by (intros; fold (g i); ring).
    rewrite (S_ext (fun i => (y i - lr * g i - y i) * (y i - lr * g i - y i)) (fun i => lr * lr * (g i * g i))) by (intros; ring). rewrite !rsum_map_scal.
    assert (0 <= S_ (fun i => g i * g i)) by (apply S_nonneg; intros; apply Rle_0_sqr). set (s := S_ (fun i => g i * g i)) in *. assert (lr * L * (lr * s) <= 1 * (lr * s)) by (apply Rmult_le_compat_r; [apply Rmult_le_pos; lra|lra]). lra.
  Qed.
  Lemma zero_gradient : S_ (fun i => nth i (df (vec q)) 0 * nth i (df (vec q)) 0) <= 0.
  Proof.
    pose proof (gradient_step q (/ L) ltac:(left; now apply Rinv_0_lt_compat) ltac:(right; field; lra)) as H. cbv zeta in H. specialize (Hq (fun i => q i - / L * nth i (df (vec q)) 0)).
    set (s := S_ _) in *. assert (0 < / L / 2) by (apply Rdiv_lt_0_compat; [now apply Rinv_0_lt_compat|lra]). nra.
  Qed.
  Lemma S_zero F : S_ (fun i => F i * F i) <= 0 -> forall i, (i < N)%nat -> F i = 0.
  Proof.
    intros H. assert (G : forall k, rsum (map (fun i => F i * F i) (seq 0 k)) <= 0 -> forall i, (i < k)%nat -> F i = 0); [|apply G; exact H]. clear H.
    induction k as [|k IH]; intros H i Hi; [lia|]. rewrite rsum_seq_S in H. assert (H1 : 0 <= rsum (map (fun i => F i * F i) (seq 0 k))) by (apply S_nonneg; intros; apply Rle_0_sqr). pose proof (Rle_0_sqr (F k)) as H2. unfold Rsqr in H2.
    destruct (Nat.eq_dec i k) as [->|Hne]; [nra|]. apply IH; [lra|lia].
  Qed.
  (** Distance to the minimiser and loss. *)
  Lemma loss_dist y : m / 2 * S_ (fun i => (y i - q i) * (y i - q i)) <= f (vec y) - f (vec q) <= L / 2 * S_ (fun i => (y i - q i) * (y i - q i)).
  Proof.
    pose proof (bounds q y) as H. cbv beta zeta in H. rewrite (S_ext (fun i => nth i (df (vec q)) 0 * (y i - q i)) (fun _ => 0)) in H.
    - rewrite rsum_const in H. lra.
    - intros i Hi. rewrite (S_zero (fun i => nth i (df (vec q)) 0) zero_gradient i Hi). ring.
  Qed.
  (** Plain gradient descent. *)
  Lemma descent_step y lr : 0 <= lr -> lr * L <= 1 -> let g i := nth i (df (vec y)) 0 in let y' i := y i - lr * g i in S_ (fun i => (y' i - q i) * (y' i - q i)) <= (1 - lr * m) * S_ (fun i => (y i - q i) * (y i - q i)).
  Proof.
    intros Hlr HlL g y'. pose proof (gradient_step y lr Hlr HlL) as G. cbv zeta in G. fold g in G. fold y' in G. pose proof (Hq y') as Q. destruct (bounds' y q g eq_refl) as (B & _).
    rewrite (S_ext (fun i => (y' i - q i) * (y' i - q i)) (fun i => 1 * ((y i - q i) * (y i - q i)) + (2 * lr * (g i * (q i - y i)) + lr * lr * (g i * g i)))) by (intros; unfold y'; ring).
    rewrite !rsum_map_add, !rsum_map_scal. rewrite (S_ext (fun i => (q i - y i) * (q i - y i)) (fun i => (y i - q i) * (y i - q i))) in B by (intros; ring).
    set (a := S_ (fun i => g i * (q i - y i))) in *. set (b := S_ (fun i => (y i - q i) * (y i - q i))) in *. set (c := S_ (fun i => g i * g i)) in *. assert (H : a + m / 2 * b + lr / 2 * c <= 0) by lra. assert (2 * lr * (a + m / 2 * b + lr / 2 * c) <= 0) by nra. lra.
  Qed.
  (** ** Nesterov's method: one step of the potential *)
  Variable s : R.
  Hypotheses (Hs : 0 < s <= 1) (Hm : m = s * s * L).
  Definition pot (xh z : nat -> R) : R := f (vec xh) - f (vec q) + m / 2 * S_ (fun i => (z i - q i) * (z i - q i)).
  Lemma pot_step y xh z xh' z' : let g i := nth i (df (vec y)) 0 in
    (forall i, (i < N)%nat -> (1 + s) * y i = xh i + s * z i) -> (forall i, (i < N)%nat -> xh' i = y i - / L * g i) -> (forall i, (i < N)%nat -> z' i = (1 - s) * z i + s * y i - / (s * L) * g i) ->
    pot xh' z' <= (1 - s) * pot xh z.
  Proof.
    intros g Hy Hx Hz. unfold pot. assert (Hi : 0 < / L) by now apply Rinv_0_lt_compat.
    assert (Ex : vec xh' = vec (fun i => y i - / L * g i)) by (apply map_ext_in; intros i Hi'; apply in_seq in Hi'; apply Hx; lia). rewrite Ex.
    pose proof (gradient_step y (/ L) ltac:(lra) ltac:(right; field; lra)) as G. cbv zeta in G. fold g in G.
    destruct (bounds' y xh g eq_refl) as (B1 & _). destruct (bounds' y q g eq_refl) as (B2 & _).
    assert (C : 0 <= m / 2 * S_ (fun i => (xh i - y i) * (xh i - y i))) by (apply Rmult_le_pos; [rewrite Hm; assert (0 < s * s * L) by (apply Rmult_lt_0_compat; nra); lra|apply S_nonneg; intros; apply Rle_0_sqr]).
    assert (D : m / 2 * S_ (fun i => (z' i - q i) * (z' i - q i)) <= m / 2 * (1 - s) * S_ (fun i => (z i - q i) * (z i - q i)) + (m / 2 * s * S_ (fun i => (q i - y i) * (q i - y i)) + ((1 - s) * S_ (fun i => g i * (xh i - y i)) + (s * S_ (fun i => g i * (q i - y i)) + / L / 2 * S_ (fun i => g i * g i))))).
    { rewrite <- !rsum_map_scal, <- !rsum_map_add. apply S_le. intros i Hi'. rewrite (Hz i Hi'). pose proof (Hy i Hi') as Ey. generalize dependent (g i). intros gi. generalize dependent (xh i). generalize (y i), (z i), (q i). intros yi zi qi xi Ey.
      assert (Exi : xi = (1 + s) * yi - s * zi) by lra. subst xi. set (a := (1 - s) * (zi - qi) + s * (yi - qi)).
      assert (E1 : m / 2 * (((1 - s) * zi + s * yi - / (s * L) * gi - qi) * ((1 - s) * zi + s * yi - / (s * L) * gi - qi)) = m / 2 * (a * a) - s * gi * a + / L / 2 * (gi * gi)) by (unfold a; rewrite Hm; field; lra).
      assert (E2 : a * a <= (1 - s) * ((zi - qi) * (zi - qi)) + s * ((qi - yi) * (qi - yi))). { assert (0 <= s * (1 - s) * ((zi - yi) * (zi - yi))) by (apply Rmult_le_pos; [nra|apply Rle_0_sqr]). unfold a. lra. }
      assert (E3 : m / 2 * (a * a) <= m / 2 * ((1 - s) * ((zi - qi) * (zi - qi)) + s * ((qi - yi) * (qi - yi)))). { apply Rmult_le_compat_l; [|exact E2]. rewrite Hm. assert (0 < s * s * L) by (apply Rmult_lt_0_compat; nra). lra. }
      assert (E4 : - (s * gi * a) = (1 - s) * (gi * ((1 + s) * yi - s * zi - yi)) + s * (gi * (qi - yi))) by (unfold a; ring). lra. }
    set (F := f (vec y)) in *. set (Fx := f (vec xh)) in *. set (Fq := f (vec q)) in *. set (b := S_ (fun i => g i * (xh i - y i))) in *. set (c := S_ (fun i => g i * (q i - y i))) in *. set (e := S_ (fun i => (q i - y i) * (q i - y i))) in *.
    assert (U1 : (1 - s) * (F + b) <= (1 - s) * Fx) by (apply Rmult_le_compat_l; lra). assert (U2 : s * (F + c + m / 2 * e) <= s * Fq) by (apply Rmult_le_compat_l; lra). lra.
  Qed.
End Core.


(*@ C85_sgd : minimising any function f that lies between the parabolas of curvatures m and L (m-strongly convex and L-smooth, 0 <= m <= L, 0 < L) with sgd(lr), 0 < lr <= 1/L: n steps never fail, and after each step t the squared distance to a minimiser q is at most (1 - lr m)^t times what it was at the start, and the loss exceeds f(q) by at most L/2 times that. *)
Lemma sgd_linear : forall `{P : Platform} (lr m L : R) (p : tree tensor) (grad : tree tensor -> tree tensor) (df : list R -> list R) (f : list R -> R) (n : nat) (q : list R), 0 < lr -> 0 < L -> lr * L <= 1 -> 0 <= m <= L -> trwf p -> finite_tree p ->
  computes p grad df -> between_parabolas (length (rvals p)) f df m L -> minimiser (length (rvals p)) f q ->
  exists T s0 qs sf, sgd (LConst (Fin lr)) None false = Ok T /\ init T p = Ok s0 /\ minimise T grad n s0 p = Ok (qs, sf) /\ length qs = n /\ Forall (point_of p) qs /\
    let x t := rvals (nth t (p :: qs) p) in
    forall t, (t <= n)%nat -> sumsq (vsub (x t) q) <= (1 - lr * m) ^ t * sumsq (vsub (rvals p) q) /\ f (x t) - f q <= L / 2 * ((1 - lr * m) ^ t * sumsq (vsub (rvals p) q)).
Proof.
  intros P lr m L p grad df f n q Hlr HL HlL Hm Wp Fp Hgr HF (Lq & Hq). assert (Hpp : point_of p p) by (split; [split; [reflexivity|exact Wp]|exact Fp]).
  destruct (@sgd_emits P (@LConst (XROps P) (Fin lr)) (fun _ => lr) None false (fun _ => eq_refl)) as (T & ET & HE). destruct (minimise_vec T _ grad p HE Wp Fp (fun x H => proj1 (Hgr x H)) n) as (s0 & qs & sf & Ei & El & Hl & Hq' & Hs).
  exists T, s0, qs, sf. repeat (split; [assumption|]). cbn zeta. nx. set (N := length (rvals p)) in *.
  assert (HP : forall t, (t <= n)%nat -> point_of p (nth t (p :: qs) p)). { intros t Ht. destruct t; [exact Hpp|]. cbn [nth]. rewrite Forall_forall in Hq'. apply Hq'. apply nth_In. lia. }
  set (X := fun t i => nth i (rvals (nth t (p :: qs) p)) 0). set (qi := fun i => nth i q 0).
  assert (Lx : forall t, (t <= n)%nat -> length (rvals (nth t (p :: qs) p)) = N) by (intros t Ht; apply rvals_length; auto).
  assert (EX : forall t, (t <= n)%nat -> rvals (nth t (p :: qs) p) = vec N (X t)) by (intros t Ht; symmetry; apply vec_of; auto).
  assert (Eq : q = vec N qi) by (symmetry; now apply vec_of). assert (HQ : forall y, f (vec N qi) <= f (vec N y)) by (intros y; rewrite <- Eq; apply Hq, vec_length).
  assert (Ed : forall t, (t <= n)%nat -> sumsq (vsub (rvals (nth t (p :: qs) p)) q) = rsum (map (fun i => (X t i - qi i) * (X t i - qi i)) (seq 0 N))) by (intros t Ht; apply sumsq_vsub; auto).
  assert (K : forall t, (t <= n)%nat -> sumsq (vsub (rvals (nth t (p :: qs) p)) q) <= (1 - lr * m) ^ t * sumsq (vsub (rvals p) q)).
  { intros t; induction t as [|t IH]; intros Ht; [cbn [pow nth]; lra|]. specialize (IH ltac:(lia)). rewrite (Ed (S t) Ht). rewrite (Ed t ltac:(lia)) in IH.
    pose proof (descent_step N f df m L HF qi HQ (X t) lr ltac:(lra) HlL) as H. cbv zeta in H. rewrite <- (EX t ltac:(lia)) in H. destruct (Hgr _ (HP t ltac:(lia))) as (_ & Eg).
    rewrite (rsum_map_ext (fun i => (X (S t) i - qi i) * (X (S t) i - qi i)) (fun i => (X t i - lr * nth i (df (rvals (nth t (p :: qs) p))) 0 - qi i) * (X t i - lr * nth i (df (rvals (nth t (p :: qs) p))) 0 - qi i))).
    - eapply Rle_trans; [exact H|]. cbn [pow]. rewrite Rmult_assoc. apply Rmult_le_compat_l; [nra|exact IH].
    - intros i Hi. apply in_seq in Hi. assert (E : X (S t) i = X t i + - lr * nth i (rvals (grad (nth t (p :: qs) p))) 0) by exact (Hs i t ltac:(lia) ltac:(lia)). rewrite E, <- Eg. ring. }
  intros t Ht. split; [now apply K|]. rewrite (EX t Ht). rewrite Eq at 1. eapply Rle_trans; [apply (loss_dist N f df m L HF qi HQ HL (X t))|]. apply Rmult_le_compat_l; [lra|]. rewrite <- (Ed t Ht). now apply K.
Qed.

(*@ C85_nesterov : minimising the same class of functions (0 < m <= L) with sgd(1/L, momentum=(1-s)/(1+s), nesterov=True), s = sqrt(m/L): n steps never fail, and after each step t the squared distance to the minimiser q is at most (1 + L/m) (1 - s)^t times the initial one, and the loss exceeds f(q) by at most L/2 times that: the number of steps for a given accuracy grows like sqrt(L/m), not L/m. *)
Lemma nesterov_accelerates : forall `{P : Platform} (m L : R) (p : tree tensor) (grad : tree tensor -> tree tensor) (df : list R -> list R) (f : list R -> R) (n : nat) (q : list R), 0 < m <= L -> trwf p -> finite_tree p ->
  computes p grad df -> between_parabolas (length (rvals p)) f df m L -> minimiser (length (rvals p)) f q ->
  let s := sqrt (m / L) in
  exists T s0 qs sf, sgd (LConst (Fin (1 / L))) (Some (Fin ((1 - s) / (1 + s)))) true = Ok T /\ init T p = Ok s0 /\ minimise T grad n s0 p = Ok (qs, sf) /\ length qs = n /\ Forall (point_of p) qs /\
    let x t := rvals (nth t (p :: qs) p) in
    forall t, (t <= n)%nat -> sumsq (vsub (x t) q) <= (1 + L / m) * (1 - s) ^ t * sumsq (vsub (rvals p) q) /\ f (x t) - f q <= L / 2 * ((1 + L / m) * (1 - s) ^ t * sumsq (vsub (rvals p) q)).
Proof.
  intros P m L p grad df f n q Hm Wp Fp Hgr HF (Lq & Hq) s. assert (HL : 0 < L) by lra. assert (Hmi : 0 < / m) by (apply Rinv_0_lt_compat; lra).
  assert (Hr : 0 < m / L <= 1). { split; [apply Rdiv_lt_0_compat; lra|]. apply (Rmult_le_reg_r L); [exact HL|]. replace (m / L * L) with m by (field; lra). lra. }
  assert (Hss : s * s = m / L) by (apply sqrt_sqrt; lra). assert (Hs1 : 0 < s <= 1). { split; [apply sqrt_lt_R0; lra|]. rewrite <- sqrt_1. apply sqrt_le_1; lra. }
  assert (Hm2 : m = s * s * L) by (rewrite Hss; field; lra). clearbody s.
  set (b := (1 - s) / (1 + s)). destruct (mom_minimise (1 / L) b true p grad Wp Fp (fun x H => proj1 (Hgr x H)) n) as (T & s0 & qs & sf & ET & Ei & El & Hl & Hq' & HP & Hs).
  exists T, s0, qs, sf. repeat (split; [assumption|]). cbn zeta. nx. set (N := length (rvals p)) in *.
  set (X := fun t i => nth i (rvals (nth t (p :: qs) p)) 0). set (g := fun t i => nth i (rvals (grad (nth t (p :: qs) p))) 0). set (qi := fun i => nth i q 0).
  assert (Lx : forall t, (t <= n)%nat -> length (rvals (nth t (p :: qs) p)) = N) by (intros t Ht; apply rvals_length; auto).
  assert (EX : forall t, (t <= n)%nat -> rvals (nth t (p :: qs) p) = vec N (X t)) by (intros t Ht; symmetry; apply vec_of; auto).
  assert (Eq : q = vec N qi) by (symmetry; now apply vec_of). assert (HQ : forall y, f (vec N qi) <= f (vec N y)) by (intros y; rewrite <- Eq; apply Hq, vec_length).
  assert (Ed : forall t, (t <= n)%nat -> sumsq (vsub (rvals (nth t (p :: qs) p)) q) = rsum (map (fun i => (X t i - qi i) * (X t i - qi i)) (seq 0 N))) by (intros t Ht; apply sumsq_vsub; auto).
  set (xh := fun t i => X t i + / L * b * pv b g t i). set (z := fun t i => xh t i - (/ s - 1) * / L * pv b g t i).
  assert (Hb : b * (1 + s) = 1 - s) by (unfold b; field; lra).
  assert (Y : forall t i, (1 + s) * X t i = xh t i + s * z t i). { intros t i. unfold z, xh. replace (s * (X t i + / L * b * pv b g t i - (/ s - 1) * / L * pv b g t i)) with (s * X t i + / L * pv b g t i * (s * b - (1 - s))) by (field; lra). rewrite <- Hb. ring. }
  assert (PS : forall t, (t < n)%nat -> pot N f m qi (xh (S t)) (z (S t)) <= (1 - s) * pot N f m qi (xh t) (z t)).
  { intros t Ht. destruct (Hgr _ (HP t ltac:(lia))) as (_ & Eg). assert (Eg' : forall i, nth i (df (vec N (X t))) 0 = g t i) by (intros i; rewrite <- (EX t ltac:(lia)), <- Eg; reflexivity).
    assert (E1 : forall i, (i < N)%nat -> X (S t) i = X t i - / L * (g t i + b * vel b g t i)). { intros i Hi. unfold X at 1. rewrite (Hs i t Hi Ht). unfold momentum_of. fold (vel b (fun k => g k) t i). fold (X t i). unfold vel, g. unfold Rdiv. ring. }
    apply (pot_step N f df m L HF qi HL s Hs1 Hm2 (X t)).
    - intros i _. apply Y.
    - intros i Hi. rewrite Eg'. unfold xh. rewrite (E1 i Hi). cbn [pv]. ring.
    - intros i Hi. rewrite Eg'. unfold z. assert (E2 : xh (S t) i = X t i - / L * g t i) by (unfold xh; rewrite (E1 i Hi); cbn [pv]; ring). rewrite E2. cbn [pv]. rewrite (vel_pv b g t i). unfold xh. unfold b. field. lra. }
  assert (P0 : pot N f m qi (xh 0%nat) (z 0%nat) <= (L + m) / 2 * sumsq (vsub (rvals p) q)).
  { assert (E0 : forall i, xh 0%nat i = X 0%nat i) by (intros i; unfold xh; cbn [pv]; ring). assert (E1 : forall i, z 0%nat i = X 0%nat i) by (intros i; unfold z; rewrite E0; cbn [pv]; ring).
    unfold pot. assert (E2 : vec N (xh 0%nat) = vec N (X 0%nat)) by (apply map_ext; exact E0). rewrite E2. rewrite (rsum_map_ext _ (fun i => (X 0%nat i - qi i) * (X 0%nat i - qi i))) by (intros; now rewrite E1).
    pose proof (loss_dist N f df m L HF qi HQ HL (X 0%nat)) as (_ & H). pose proof (Ed 0%nat ltac:(lia)) as E. cbn [nth] in E. rewrite E. lra. }
  assert (PN : forall t, (t <= n)%nat -> pot N f m qi (xh t) (z t) <= (1 - s) ^ t * ((L + m) / 2 * sumsq (vsub (rvals p) q))).
  { intros t; induction t as [|t IH]; intros Ht; [cbn [pow]; lra|]. specialize (IH ltac:(lia)). eapply Rle_trans; [apply PS; lia|]. cbn [pow]. rewrite Rmult_assoc. apply Rmult_le_compat_l; [lra|exact IH]. }
  assert (K : forall t, (t <= n)%nat -> sumsq (vsub (rvals (nth t (p :: qs) p)) q) <= (1 + L / m) * (1 - s) ^ t * sumsq (vsub (rvals p) q)).
  { intros t Ht. rewrite (Ed t Ht). specialize (PN t Ht). unfold pot in PN. pose proof (loss_dist N f df m L HF qi HQ HL (xh t)) as (H & _).
    set (A := rsum (map (fun i => (xh t i - qi i) * (xh t i - qi i)) (seq 0 N))) in *. set (B := rsum (map (fun i => (z t i - qi i) * (z t i - qi i)) (seq 0 N))) in *. set (D := f (vec N (xh t)) - f (vec N qi)) in *. set (W := sumsq (vsub (rvals p) q)) in *.
    assert (HB : 0 <= B) by (apply S_nonneg; intros; apply Rle_0_sqr). assert (HA : 0 <= A) by (apply S_nonneg; intros; apply Rle_0_sqr).
    assert (C : rsum (map (fun i => (X t i - qi i) * (X t i - qi i)) (seq 0 N)) <= A + B).
    { unfold A, B. rewrite <- rsum_map_add. apply rsum_map_le. intros i _. specialize (Y t i). set (u := xh t i - qi i). set (w := z t i - qi i). set (v := X t i - qi i). assert (E : (1 + s) * v = u + s * w) by (unfold u, v, w; lra).
      apply (Rmult_le_reg_l ((1 + s) * (1 + s))); [nra|]. replace ((1 + s) * (1 + s) * (v * v)) with ((u + s * w) * (u + s * w)) by (rewrite <- E; ring).
      pose proof (Rle_0_sqr (u - w)) as Q. pose proof (Rle_0_sqr u) as Qu. pose proof (Rle_0_sqr w) as Qw. unfold Rsqr in *. nra. }
    eapply Rle_trans; [exact C|]. apply (Rmult_le_reg_l (m / 2)); [lra|]. replace (m / 2 * ((1 + L / m) * (1 - s) ^ t * W)) with ((1 - s) ^ t * ((L + m) / 2 * W)) by (field; lra). lra. }
  intros t Ht. split; [now apply K|]. rewrite (EX t Ht). rewrite Eq at 1. eapply Rle_trans; [apply (loss_dist N f df m L HF qi HQ HL (X t))|]. apply Rmult_le_compat_l; [lra|]. rewrite <- (Ed t Ht). now apply K.
Qed.

(** ** A separable function between the parabolas of curvature 1 and 25 *)
(** Lessard, Recht and Packard's function: slope 25 x below 1, x + 24 between 1 and 2, 25 x - 24 above 2, summed over the coordinates. *)
Definition bend (x : R) : R := if Rlt_dec x 1 then 25 / 2 * (x * x) else if Rlt_dec x 2 then x * x / 2 + 24 * x - 12 else 25 / 2 * (x * x) - 24 * x + 36.
Definition bend_slope (x : R) : R := if Rlt_dec x 1 then 25 * x else if Rlt_dec x 2 then x + 24 else 25 * x - 24.
Definition bends (l : list R) : R := rsum (map bend l).
Definition bends_df (l : list R) : list R := map bend_slope l.
Definition bends_grad (x : tree (gt XR)) : tree (gt XR) := emapt (fun _ v => match v with Fin r => Fin (bend_slope r) | _ => v end) x.
Lemma bend_between a b : bend a + bend_slope a * (b - a) + 1 / 2 * ((b - a) * (b - a)) <= bend b <= bend a + bend_slope a * (b - a) + 25 / 2 * ((b - a) * (b - a)).
Proof.
  unfold bend, bend_slope. pose proof (Rle_0_sqr (b - a)) as Q. unfold Rsqr in Q.
  destruct (Rlt_dec a 1), (Rlt_dec a 2), (Rlt_dec b 1), (Rlt_dec b 2); try lra; split; nra.
Qed.
Lemma bends_between N : between_parabolas N bends bends_df 1 25.
Proof.
  intros u v Hu Hv. split; [unfold bends_df; now rewrite map_length|]. assert (E : length v = length u) by congruence. clear Hu Hv N. revert v E.
  induction u as [|a u IH]; intros [|b v] E; try discriminate; [unfold bends, bends_df, dot, vsub, sumsq; cbn; unfold rsum; cbn; lra|]. cbn in E. injection E as E. specialize (IH v E).
  unfold bends, bends_df, vsub in *. cbn [map combine fst snd]. rewrite !rsum_cons, dot_cons, sumsq_cons. pose proof (bend_between a b). lra.
Qed.
Lemma bend_0 : bend 0 = 0.
Proof. unfold bend. destruct (Rlt_dec 0 1); lra. Qed.
Lemma bend_nonneg x : x * x / 2 <= bend x.
Proof. pose proof (bend_between 0 x) as (H & _). rewrite bend_0 in H. unfold bend_slope in H. destruct (Rlt_dec 0 1); lra. Qed.
Lemma bends_min N : minimiser N bends (repeat 0 N).
Proof.
  split; [apply repeat_length|]. intros y <-. induction y as [|a y IH]; [apply Rle_refl|]. cbn [length repeat]. unfold bends in *. cbn [map]. rewrite !rsum_cons, bend_0. pose proof (bend_nonneg a). pose proof (Rle_0_sqr a) as Q. unfold Rsqr in Q. lra.
Qed.
Lemma bends_vals x : finite_tree x -> rvals (bends_grad x) = bends_df (rvals x).
Proof.
  intros Fx. unfold rvals, vals, bends_grad, emapt. rewrite leaves_tmap, map_map. change (fun x : gt XR => dat (emap (fun _ v => match v with Fin r => Fin (bend_slope r) | _ => v end) x)) with (fun x : gt XR => map (fun v => match v with Fin r => Fin (bend_slope r) | _ => v end) (dat x)).
  unfold bends_df. rewrite <- (map_map dat (map (fun v => match v with Fin r => Fin (bend_slope r) | _ => v end))), <- concat_map, !map_map. apply map_ext_in. intros v Hv. unfold finite_tree in Fx. rewrite Forall_forall in Fx. destruct (Fx v Hv) as (r & ->). reflexivity.
Qed.
Lemma bends_computes `{P : Platform} (p : tree (gt XR)) : computes p bends_grad bends_df.
Proof.
  intros x ((Ha & Hw) & Fx). split; [|now apply bends_vals]. split; [split; [unfold bends_grad; now rewrite emapt_avals|now apply emapt_wf]|]. apply finite_of_elts. intros pos v. unfold bends_grad. rewrite elt_emapt.
  destruct (elt x pos) as [y|] eqn:E; [|discriminate]. destruct (finite_elt x pos y Fx E) as (r & ->). intros [= <-]. eexists; reflexivity.
Qed.

(** ** Heavy ball on that function *)
Section Cycle.
  Variable x : nat -> R.
  Hypotheses (H0 : x 0%nat = 33 / 10) (H1 : x 1%nat = x 0%nat - 1 / 9 * bend_slope (x 0%nat)) (HS : forall t, x (S (S t)) = x (S t) - 1 / 9 * bend_slope (x (S t)) + 4 / 9 * (x (S t) - x t)).
  Definition cpoint (t : nat) : R := match (t mod 3)%nat with 0%nat => 792 / 1225 | 1%nat => - (2208 / 1225) | _ => 2592 / 1225 end.
  Lemma low v : v < 1 -> bend_slope v = 25 * v.
  Proof. intros H. unfold bend_slope. destruct (Rlt_dec v 1); lra. Qed.
  Lemma high v : 2 <= v -> bend_slope v = 25 * v - 24.
  Proof. intros H. unfold bend_slope. destruct (Rlt_dec v 1), (Rlt_dec v 2); lra. Qed.
  Lemma early : x 1%nat = -16 / 5 /\ x 2%nat = 14 / 5 /\ x 3%nat = 16 / 45 /\ x 4%nat = -232 / 135 /\ x 5%nat = 864 / 405 /\ x 6%nat = 712 / 1215 /\ x 7%nat = -6304 / 3645.
  Proof.
    assert (E1 : x 1%nat = -16 / 5) by (rewrite H1, H0, high; lra). assert (E2 : x 2%nat = 14 / 5) by (rewrite HS, E1, H0, low; lra). assert (E3 : x 3%nat = 16 / 45) by (rewrite HS, E2, E1, high; lra).
    assert (E4 : x 4%nat = -232 / 135) by (rewrite HS, E3, E2, low; lra). assert (E5 : x 5%nat = 864 / 405) by (rewrite HS, E4, E3, low; lra). assert (E6 : x 6%nat = 712 / 1215) by (rewrite HS, E5, E4, high; lra). assert (E7 : x 7%nat = -6304 / 3645) by (rewrite HS, E6, E5, low; lra). tauto.
  Qed.
  Lemma cpoint_3 k : cpoint (3 * k) = 792 / 1225 /\ cpoint (S (3 * k)) = - (2208 / 1225) /\ cpoint (S (S (3 * k))) = 2592 / 1225.
  Proof.
    unfold cpoint. replace (S (S (3 * k))) with (2 + k * 3)%nat by lia. replace (S (3 * k)) with (1 + k * 3)%nat by lia. replace (3 * k)%nat with (0 + k * 3)%nat by lia. rewrite !Nat.mod_add by lia. repeat split; reflexivity.
  Qed.
  Lemma settle k : (2 <= k)%nat -> let t := (3 * k)%nat in -1/10 <= x t - 792 / 1225 <= 1/10 /\ -1/30 <= (x (S t) + 2208 / 1225) + 2/3 * (x t - 792 / 1225) <= 1/30.
  Proof.
    induction k as [|k IH]; [lia|]. intros Hk. destruct (Nat.eq_dec k 1) as [->|Hne].
    - change (3 * 2)%nat with 6%nat. cbn zeta. destruct early as (_ & _ & _ & _ & _ & -> & ->). lra.
    - specialize (IH ltac:(lia)). cbn zeta in *. replace (3 * S k)%nat with (S (S (S (3 * k)))) by lia. set (t := (3 * k)%nat) in *. destruct IH as (A & B).
      pose proof (HS t) as E2. rewrite (low (x (S t))) in E2 by lra.
      pose proof (HS (S t)) as E3. rewrite (high (x (S (S t)))) in E3 by lra. pose proof (HS (S (S t))) as E4. rewrite (low (x (S (S (S t))))) in E4 by lra. lra.
  Qed.
  Lemma cycle_near t : (6 <= t)%nat -> Rabs (x t - cpoint t) <= 1 / 10.
  Proof.
    intros Ht. set (k := (t / 3)%nat). assert (Hk : (2 <= k)%nat) by (apply (Nat.div_le_lower_bound t 3 2); lia). pose proof (settle k Hk) as (A & B). destruct (cpoint_3 k) as (C0 & C1 & C2).
    pose proof (HS (3 * k)) as E2. rewrite (low (x (S (3 * k)))) in E2 by lra.
    pose proof (Nat.div_mod t 3 ltac:(lia)) as Et. fold k in Et. pose proof (Nat.mod_upper_bound t 3 ltac:(lia)) as Hr. destruct (t mod 3)%nat as [|[|[|r]]]; [| | |lia].
    - rewrite Nat.add_0_r in Et. rewrite Et, C0. apply Rabs_le. lra.
    - rewrite Nat.add_1_r in Et. rewrite Et, C1. apply Rabs_le. lra.
    - rewrite (Nat.add_comm _ 2) in Et. cbn [Nat.add] in Et. rewrite Et, C2. apply Rabs_le. lra.
  Qed.
  Lemma cycle_away t : 1 / 3 <= Rabs (x t).
  Proof.
    destruct (le_lt_dec 6 t) as [Ht|Ht].
    - pose proof (cycle_near t Ht) as H. unfold cpoint in H. pose proof (Nat.mod_upper_bound t 3 ltac:(lia)) as Hr. destruct (t mod 3)%nat as [|[|[|r]]]; [| | |lia]; unfold Rabs in *; destruct (Rcase_abs _), (Rcase_abs _); lra.
    - destruct early as (E1 & E2 & E3 & E4 & E5 & _). destruct t as [|[|[|[|[|[|t]]]]]]; [rewrite H0|rewrite E1|rewrite E2|rewrite E3|rewrite E4|rewrite E5|lia]; unfold Rabs; destruct (Rcase_abs _); lra.
  Qed.
End Cycle.

(*@ C86_cycles : sgd(1/9, momentum=4/9) without Nesterov, the learning rate and momentum that are optimal for quadratics with curvatures between 1 and 25, started at any tree of parameters all equal to 3.3 on a function that lies between the parabolas of curvatures 1 and 25 and has its minimum at 0: however many steps are taken, no coordinate ever comes within 1/3 of the minimum, and from the sixth step on every coordinate stays within 1/10 of a cycle of three distinct points. *)
Lemma heavy_ball_cycles : forall `{P : Platform} (p : tree tensor) (n : nat), trwf p -> finite_tree p -> Forall (fun v => v = 33 / 10) (rvals p) ->
  exists T s0 qs sf, sgd (LConst (Fin (1 / 9))) (Some (Fin (4 / 9))) false = Ok T /\ init T p = Ok s0 /\ minimise T bends_grad n s0 p = Ok (qs, sf) /\ length qs = n /\ Forall (point_of p) qs /\
    let x t := rvals (nth t (p :: qs) p) in
    (forall t, (t <= n)%nat -> Forall (fun v => 1 / 3 <= Rabs v) (x t) /\ INR (length (rvals p)) / 18 <= bends (x t) - bends (repeat 0 (length (rvals p)))) /\
    (forall t, (6 <= t <= n)%nat -> Forall (fun v => Rabs (v - match (t mod 3)%nat with 0%nat => 792 / 1225 | 1%nat => - (2208 / 1225) | _ => 2592 / 1225 end) <= 1 / 10) (x t)).
Proof.
  intros P p n Wp Fp Hp. destruct (mom_minimise (1 / 9) (4 / 9) false p bends_grad Wp Fp (fun x H => proj1 (bends_computes p x H)) n) as (T & s0 & qs & sf & ET & Ei & El & Hl & Hq & HP & Hs).
  exists T, s0, qs, sf. repeat (split; [assumption|]). cbn zeta. nx. set (N := length (rvals p)) in *.
  assert (Lx : forall t, (t <= n)%nat -> length (rvals (nth t (p :: qs) p)) = N) by (intros t Ht; apply rvals_length; auto).
  set (X := fun t i => nth i (rvals (nth t (p :: qs) p)) 0).
  (* the sequence, continued for ever *)
  set (two := fix two (t : nat) : R * R := match t with 0%nat => (33 / 10, 33 / 10) | S s => (snd (two s), snd (two s) - 1 / 9 * bend_slope (snd (two s)) + 4 / 9 * (snd (two s) - fst (two s))) end). set (Y := fun t => snd (two t)).
  assert (Y0 : Y 0%nat = 33 / 10) by reflexivity. assert (Y1 : Y 1%nat = Y 0%nat - 1 / 9 * bend_slope (Y 0%nat)) by (unfold Y; cbn [two fst snd]; ring). assert (YS : forall t, Y (S (S t)) = Y (S t) - 1 / 9 * bend_slope (Y (S t)) + 4 / 9 * (Y (S t) - Y t)) by reflexivity. clearbody Y. clear two.
  assert (Hg : forall t i, (t <= n)%nat -> (i < N)%nat -> nth i (rvals (bends_grad (nth t (p :: qs) p))) 0 = bend_slope (X t i)).
  { intros t i Ht Hi. rewrite (bends_vals (nth t (p :: qs) p) (proj2 (HP t Ht))). unfold bends_df. rewrite (nth_indep _ 0 (bend_slope 0)) by (rewrite map_length, (Lx t Ht); exact Hi). rewrite map_nth. reflexivity. }
  assert (XY : forall t i, (i < N)%nat -> ((t <= n)%nat -> X t i = Y t) /\ ((S t <= n)%nat -> X (S t) i = Y (S t))).
  { intros t i Hi. set (g := fun k j => nth j (rvals (bends_grad (nth k (p :: qs) p))) 0). assert (St : forall t, (t < n)%nat -> X (S t) i = X t i + - (1 / 9) * vel (4 / 9) g t i) by (intros k Hk; exact (Hs i k Hi Hk)).
    assert (Gt : forall t, (t <= n)%nat -> g t i = bend_slope (X t i)) by (intros k Hk; now apply Hg). clearbody g.
    assert (X0 : X 0%nat i = Y 0%nat). { rewrite Y0. unfold X. cbn [nth]. rewrite Forall_forall in Hp. apply Hp, nth_In. exact Hi. }
    induction t as [|t [IH1 IH2]].
    - split; [intros _; exact X0|]. intros H. rewrite (St 0%nat ltac:(lia)), (vel_pv (4 / 9) g 0 i), (Gt 0%nat ltac:(lia)), Y1, X0. cbn [pv]. ring.
    - split; [exact IH2|]. intros H. rewrite (St (S t) ltac:(lia)), vel_S, (Gt (S t) ltac:(lia)), YS. pose proof (St t ltac:(lia)) as E. rewrite <- (IH1 ltac:(lia)), <- (IH2 ltac:(lia)). lra. }
  assert (FX : forall t, (t <= n)%nat -> forall v, In v (rvals (nth t (p :: qs) p)) -> v = Y t).
  { intros t Ht v Hv. apply (In_nth _ _ 0) in Hv. destruct Hv as (i & Hi & <-). rewrite (Lx t Ht) in Hi. exact (proj1 (XY t i Hi) Ht). }
  split; intros t Ht; [split|].
  - apply Forall_forall. intros v Hv. rewrite (FX t Ht v Hv). now apply cycle_away.
  - pose proof (bends_min N) as _. rewrite <- (Lx t Ht). specialize (FX t Ht). induction (rvals (nth t (p :: qs) p)) as [|a l IH]; [cbn; unfold bends; cbn [map]; rewrite !rsum_nil; lra|].
    specialize (IH (fun v Hv => FX v (or_intror Hv))). pose proof (FX a (or_introl eq_refl)) as Ea. cbn [length repeat]. unfold bends in *. cbn [map]. rewrite !rsum_cons, S_INR, bend_0. pose proof (bend_nonneg a) as Hb. pose proof (cycle_away Y Y0 Y1 YS t) as Hc. rewrite <- Ea in Hc.
    assert (1 / 9 <= a * a) by (unfold Rabs in Hc; destruct (Rcase_abs a); nra). lra.
  - apply Forall_forall. intros v Hv. rewrite (FX t ltac:(lia) v Hv). apply (cycle_near Y Y0 Y1 YS t). lia.
Qed.

(*@ C86_contrast : on that same function and from any finite parameters, sgd(1/25) without momentum and sgd(1/25, momentum=2/3, nesterov=True) do converge to the minimum 0, at the rates of C85 with m = 1 and L = 25. *)
Lemma bends_converge : forall `{P : Platform} (p : tree tensor) (n : nat), trwf p -> finite_tree p ->
  (exists T s0 qs sf, sgd (LConst (Fin (1 / 25))) None false = Ok T /\ init T p = Ok s0 /\ minimise T bends_grad n s0 p = Ok (qs, sf) /\ length qs = n /\ forall t, (t <= n)%nat -> sumsq (rvals (nth t (p :: qs) p)) <= (24 / 25) ^ t * sumsq (rvals p)) /\
  (exists T s0 qs sf, sgd (LConst (Fin (1 / 25))) (Some (Fin (2 / 3))) true = Ok T /\ init T p = Ok s0 /\ minimise T bends_grad n s0 p = Ok (qs, sf) /\ length qs = n /\ forall t, (t <= n)%nat -> sumsq (rvals (nth t (p :: qs) p)) <= 26 * (4 / 5) ^ t * sumsq (rvals p)).
Proof.
  intros P p n Wp Fp. assert (Hpp : point_of p p) by (split; [split; [reflexivity|exact Wp]|exact Fp]).
  assert (Z : forall x, point_of p x -> sumsq (vsub (rvals x) (repeat 0 (length (rvals p)))) = sumsq (rvals x)).
  { intros x Hx. rewrite <- (rvals_length p x Wp Hx). induction (rvals x) as [|a l IH]; [reflexivity|]. cbn [length repeat]. unfold vsub in *. cbn [combine map fst snd]. rewrite !sumsq_cons, IH. ring. }
  split.
  - destruct (@sgd_linear P (1 / 25) 1 25 p bends_grad bends_df bends n (repeat 0 (length (rvals p)))) as (T & s0 & qs & sf & ET & Ei & El & Hl & Hq & H); [lra|lra|lra|lra|exact Wp|exact Fp|apply bends_computes|apply bends_between|apply bends_min|].
    exists T, s0, qs, sf. repeat (split; [assumption|]). intros t Ht. destruct (H t Ht) as (A & _). nx. rewrite !Z in A; [|exact Hpp|]. { replace (24 / 25) with (1 - 1 / 25 * 1) by lra. exact A. }
    destruct t; [exact Hpp|]. cbn [nth]. rewrite Forall_forall in Hq. apply Hq, nth_In. lia.
  - assert (Es : sqrt (1 / 25) = 1 / 5) by (replace (1 / 25) with (1 / 5 * (1 / 5)) by lra; apply sqrt_square; lra).
    destruct (@nesterov_accelerates P 1 25 p bends_grad bends_df bends n (repeat 0 (length (rvals p)))) as (T & s0 & qs & sf & ET & Ei & El & Hl & Hq & H); [lra|exact Wp|exact Fp|apply bends_computes|apply bends_between|apply bends_min|].
    rewrite Es in ET, H. replace ((1 - 1 / 5) / (1 + 1 / 5)) with (2 / 3) in ET by lra. exists T, s0, qs, sf. repeat (split; [assumption|]). intros t Ht. destruct (H t Ht) as (A & _). nx. rewrite !Z in A; [|exact Hpp|]. { replace (1 + 25 / 1) with 26 in A by lra. replace (1 - 1 / 5) with (4 / 5) in A by lra. exact A. }
    destruct t; [exact Hpp|]. cbn [nth]. rewrite Forall_forall in Hq. apply Hq, nth_In. lia.
Qed.
(*@ex C86_example *)
Lemma heavy_ball_example : forall `{P : Platform}, let p := Leaf (mkT F32 [2%nat] [Fin (33 / 10); Fin (33 / 10)]) in
  trwf p /\ finite_tree p /\ Forall (fun v => v = 33 / 10) (rvals p) /\
  (exists T s0 qs sf, sgd (LConst (Fin (1 / 9))) (Some (Fin (4 / 9))) false = Ok T /\ init T p = Ok s0 /\ minimise T bends_grad 100 s0 p = Ok (qs, sf) /\ 1 / 9 <= bends (rvals (nth 100 (p :: qs) p)) - bends [0; 0]).
Proof.
  intros P. cbn zeta. set (p := Leaf (mkT F32 [2%nat] [Fin (33 / 10); Fin (33 / 10)])). assert (Wp : trwf p) by (repeat constructor). assert (Fp : finite_tree p) by (repeat constructor; eexists; reflexivity). assert (Hp : Forall (fun v => v = 33 / 10) (rvals p)) by (repeat constructor).
  repeat (split; [assumption|]). destruct (@heavy_ball_cycles P p 100 Wp Fp Hp) as (T & s0 & qs & sf & ET & Ei & El & _ & _ & H & _). exists T, s0, qs, sf. repeat (split; [assumption|]). destruct (H 100%nat (le_n _)) as (_ & H'). clear H. nx. assert (E : INR (length (rvals p)) = 2) by (change (length (rvals p)) with 2%nat; rewrite INR_IZR_INZ; reflexivity). rewrite E in H'. change (repeat 0 (length (rvals p))) with [0; 0] in H'. eapply Rle_trans; [|exact H']. lra.
Qed.
(*@ex C85_example *)
Lemma accel_example : forall `{P : Platform}, let p := Leaf (mkT F32 [2%nat] [Fin 5; Fin (-1)]) in
  trwf p /\ finite_tree p /\ computes p bends_grad bends_df /\ between_parabolas 2 bends bends_df 1 25 /\ minimiser 2 bends [0; 0] /\
  (exists T s0 qs sf, sgd (LConst (Fin (1 / 25))) (Some (Fin (2 / 3))) true = Ok T /\ init T p = Ok s0 /\ minimise T bends_grad 40 s0 p = Ok (qs, sf) /\ sumsq (rvals (nth 40 (p :: qs) p)) <= 1 / 10).
Proof.
  intros P. cbn zeta. set (p := Leaf (mkT F32 [2%nat] [Fin 5; Fin (-1)])). assert (Wp : trwf p) by (repeat constructor). assert (Fp : finite_tree p) by (repeat constructor; eexists; reflexivity).
  split; [exact Wp|]. split; [exact Fp|]. split; [apply bends_computes|]. split; [apply bends_between|]. split; [apply (bends_min 2)|].
  destruct (@bends_converge P p 40 Wp Fp) as (_ & T & s0 & qs & sf & ET & Ei & El & _ & H). exists T, s0, qs, sf. repeat (split; [assumption|]). eapply Rle_trans; [apply (H 40%nat (le_n _))|]. change (rvals p) with [5; -1]. rewrite !sumsq_cons. change (sumsq []) with 0.
  assert (E : (4 / 5) ^ 40 = 4 ^ 40 / 5 ^ 40) by (unfold Rdiv; rewrite Rpow_mult_distr, pow_inv; reflexivity). rewrite E. cbn [pow]. lra.
Qed.
