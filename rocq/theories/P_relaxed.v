(** Gradient clipping: sgd behind clip_by_global_norm minimises functions on which plain sgd blows up (C91). *)
From Verif Require Import P_noise.
From Verif Require Export P_station.
From Coq Require Import List Psatz.
Import ListNotations.
Open Scope R_scope.
(*@header
From Coq Require Import List.
Import ListNotations.
Open Scope R_scope.
*)

(** ** Specification *)
(** Relaxed smoothness: the curvature may grow with the norm of the gradient; the bound holds for steps up to length r. *)
Definition relaxed_smooth `{P : Platform} (p : tree (gt XR)) (f : list R -> R) (grad : tree (gt XR) -> tree (gt XR)) (L0 L1 r : R) : Prop :=
  forall x y, point_of p x -> point_of p y -> norm2 (vsub (rvals y) (rvals x)) <= r ->
    f (rvals y) <= f (rvals x) + dot (rvals (grad x)) (vsub (rvals y) (rvals x)) + (L0 + L1 * norm2 (rvals (grad x))) / 2 * sumsq (vsub (rvals y) (rvals x)).

(** A stateless transformation in front: the rest sees the transformed gradients. *)
Section Front.
  Context {P : Platform}.
  Notation xr := (XROps P).
  Lemma minimise_front (T0 T1 : @GT xr) grad grad' p : (forall x st, point_of p x -> update T0 (grad x) st (Some x) = Ok (grad' x, st)) ->
    forall n s0 s1 q qs sf, @minimise xr T1 grad' n s1 q = Ok (qs, sf) -> point_of p q -> Forall (point_of p) qs ->
    @minimise xr (chain_gt [T0; T1]) grad n (SNode NList [s0; s1]) q = Ok (qs, SNode NList [s0; sf]).
  Proof.
    intros H0. induction n as [|n IH]; intros s0 s1 q qs sf E Hq Hqs; cbn [minimise] in *; [injection E as <- <-; reflexivity|].
    cbn [update chain_gt length Nat.eqb chain_update]. nx. rewrite (H0 q s0 Hq). cbn [rbind]. nx. destruct (update T1 (grad' q) s1 (Some q)) as [[u s']|]; cbn [rbind] in *; [|discriminate]. nx.
    destruct (@apply_updates xr q u) as [q'|]; cbn [rbind] in *; [|discriminate]. destruct (@minimise xr T1 grad' n s' q') as [[qs' sf']|] eqn:E2; cbn [rbind] in E; [|discriminate]. injection E as <- <-. inversion Hqs as [|? ? A B]; subst.
    nx. rewrite (IH s0 s' q' qs' sf' E2 A B). reflexivity.
  Qed.
  Lemma avals_of_parts (v u : tree (gt XR)) : tmap (fun t => dt t) v = tmap (fun t => dt t) u -> tmap (fun t => shp t) v = tmap (fun t => shp t) u -> avals v = avals u.
  Proof.
    intros E1 E2. apply avals_of_leaves; [apply (f_equal tdef) in E2; now rewrite !tdef_tmap in E2|]. apply (f_equal leaves) in E1. apply (f_equal leaves) in E2. rewrite !leaves_tmap in E1. rewrite !leaves_tmap in E2. intros j a Ha.
    pose proof (f_equal (fun l => nth_error l j) E1) as A1. pose proof (f_equal (fun l => nth_error l j) E2) as A2. cbn beta in A1, A2. rewrite !nth_error_map, Ha in A1. rewrite !nth_error_map, Ha in A2. destruct (nth_error (leaves v) j) as [b|]; [|discriminate]. exists b. split; [reflexivity|]. cbn in A1, A2. unfold aval. congruence.
  Qed.
  Lemma one_dtype (p : tree (gt XR)) d (u : tree (gt XR)) : Forall (fun t => dt t = d) (leaves p) -> avals u = avals p -> Forall (fun t => dt t = d) (leaves u).
  Proof.
    intros Hd A. assert (El : map aval (leaves u) = map aval (leaves p)) by (rewrite <- !leaves_tmap; unfold avals in A; congruence).
    rewrite <- (Forall_map aval (fun a => fst a = d)), El, Forall_map. exact Hd.
  Qed.
  (** what clip_by_global_norm makes of finite gradients *)
  Definition clipped (c : R) (u : tree (gt XR)) : tree (gt XR) := match @update xr (@clip_by_global_norm xr (Fin c)) u EmptyState None with Ok (v, _) => v | Err _ => u end.
  Lemma promote_all d (l : list fdt) : Forall (eq d) l -> fold_left promote l d = d.
  Proof. induction 1 as [|x l <- _ IH]; [reflexivity|]. cbn. now rewrite promote_same. Qed.
  Lemma clipped_spec p d c u : trwf p -> Forall (fun t => dt t = d) (leaves p) -> 0 < c -> point_of p u ->
    (forall st par, @update xr (@clip_by_global_norm xr (Fin c)) u st par = Ok (clipped c u, st)) /\ point_of p (clipped c u) /\
    exists k, 0 < k <= 1 /\ rvals (clipped c u) = map (Rmult k) (rvals u) /\ k * norm2 (rvals u) = Rmin (norm2 (rvals u)) c.
  Proof.
    intros Wp Hd Hc ((Ha & Wu) & Fu). destruct (@cbgn_spec P u c EmptyState None Hc Wu Fu) as (v & k & E & Hk & K1 & K2 & Hs & Wv & Hdt & Hel & Fv & Hn). assert (Ec : clipped c u = v) by (unfold clipped; rewrite E; reflexivity). nx. assert (Hdu : Forall (fun t => dt t = d) (leaves u)) by (eapply one_dtype; eauto).
    rewrite Ec.
    assert (Hal : avals v = avals u).
    { assert (E1 : tmap (fun t => dt t) v = tmap (fun t => dt t) u). { rewrite Hdt. apply tmap_ext. intros t Ht. rewrite Forall_forall in Hdu. rewrite (Hdu t Ht). apply promote_all. apply Forall_map, Forall_forall. intros t' Ht'. symmetry. now apply Hdu. }
      exact (avals_of_parts v u E1 Hs). }
    assert (Pv : point_of p v) by (split; [split; [exact (eq_trans Hal Ha)|exact Wv]|exact Fv]).
    split; [|split; [exact Pv|]].
    - intros st par. cbn [update clip_by_global_norm stateless] in *. destruct (@global_norm xr u) as [gd gn]. match type of E with (let* _ := ?X in _) = _ => destruct X as [w|] end; cbn [rbind] in *; [injection E as <-; reflexivity|discriminate].
    - exists k. split; [exact Hk|]. assert (Ev : rvals v = map (Rmult k) (rvals u)).
      { assert (Lu : length (rvals u) = length (rvals p)) by (apply rvals_length; [exact Wp|]; split; [split; assumption|assumption]).
        apply (nth_ext _ _ 0 0); [rewrite map_length, Lu; now apply rvals_length|]. intros i Hi. assert (Hi' : (i < length (rvals p))%nat) by (rewrite <- (rvals_length p v Wp Pv); exact Hi).
        destruct (coord p i Wp Hi') as (pos & Hpos). pose proof (Hpos u (conj (conj Ha Wu) Fu)) as Pu. pose proof (Hpos v Pv) as Pv2. rewrite (Hel pos _ Pu) in Pv2. injection Pv2 as <-. rewrite (nth_indep (map (Rmult k) (rvals u)) 0 (k * 0)) by (rewrite map_length, Lu; exact Hi'). now rewrite map_nth. }
      split; [exact Ev|]. rewrite <- Hn, Ev, norm2_scal, Rabs_right by lra. reflexivity.
  Qed.
  Lemma dot_scal_l k l m : dot (map (Rmult k) l) m = k * dot l m.
  Proof. revert m. induction l as [|a l IH]; intros m; [unfold dot; cbn; unfold rsum; cbn; ring|]. destruct m as [|b m]; [unfold dot; cbn; unfold rsum; cbn; ring|]. cbn [map]. rewrite !dot_cons, IH. ring. Qed.
End Front.

(*@ C91_clipped_sgd : chain(clip_by_global_norm(c), sgd(lr)), parameters of one dtype, minimising a function whose curvature may grow with its gradient (f(y) <= f(x) + <g, y - x> + (L0 + L1 |g|)/2 |y - x|^2 for |y - x| <= r), with lr L0 <= 1/2, lr c <= r, lr c L1 <= 1/2: n steps never fail, no step moves further than lr c, each step decreases f by at least lr/2 min(|g|, c) |g|, and if f never goes below m, one of the first n gradients has min(|g|, c) |g| <= 2 (f(x_0) - m) / (lr n), hence |g|^2 <= 2 (f(x_0) - m) / (lr n) once this is below c^2. *)
Lemma clipped_sgd : forall `{P : Platform} (lr c L0 L1 r : R) (d : fdt) (p : tree tensor) (grad : tree tensor -> tree tensor) (f : list R -> R) (n : nat), 0 < lr -> 0 < c -> 0 <= L0 -> 0 <= L1 -> lr * L0 <= 1 / 2 -> lr * c <= r -> lr * c * L1 <= 1 / 2 ->
  trwf p -> finite_tree p -> Forall (fun t => dt t = d) (leaves p) -> (forall x, point_of p x -> point_of p (grad x)) -> relaxed_smooth p f grad L0 L1 r ->
  exists T s0 qs sf, (let* B := sgd (LConst (Fin lr)) None false in chain [clip_by_global_norm (Fin c); B]) = Ok T /\ init T p = Ok s0 /\ minimise T grad n s0 p = Ok (qs, sf) /\ length qs = n /\ Forall (point_of p) qs /\
    let x t := nth t (p :: qs) p in let g t := norm2 (rvals (grad (x t))) in
    (forall t, (t < n)%nat -> norm2 (vsub (rvals (x (S t))) (rvals (x t))) = lr * Rmin (g t) c /\ f (rvals (x (S t))) <= f (rvals (x t)) - lr / 2 * (Rmin (g t) c * g t)) /\
    forall m, (forall y, m <= f y) ->
      rsum (map (fun t => Rmin (g t) c * g t) (seq 0 n)) <= 2 * (f (rvals p) - m) / lr /\
      (2 * (f (rvals p) - m) < lr * INR n * c ^ 2 -> exists t, (t < n)%nat /\ g t ^ 2 <= 2 * (f (rvals p) - m) / (lr * INR n)).
Proof.
  intros P lr c L0 L1 r d p grad f n Hlr Hc HL0 HL1 H0 Hr H1 Wp Fp Hd Hgr Hsm.
  set (grad' := fun x => clipped c (grad x)).
  assert (CS : forall x, point_of p x -> (forall st par, update (clip_by_global_norm (Fin c)) (grad x) st par = Ok (grad' x, st)) /\ point_of p (grad' x) /\ exists k, 0 < k <= 1 /\ rvals (grad' x) = map (Rmult k) (rvals (grad x)) /\ k * norm2 (rvals (grad x)) = Rmin (norm2 (rvals (grad x))) c).
  { intros x Hx. exact (clipped_spec p d c (grad x) Wp Hd Hc (Hgr x Hx)). }
  destruct (sgd_minimise lr p grad' Wp Fp (fun x Hx => proj1 (proj2 (CS x Hx))) n) as (B & s1 & qs & sf & EB & Ei & El & Hl & Hq & HP & _ & HD).
  exists (@chain_gt (XROps P) [@clip_by_global_norm (XROps P) (Fin c); B]), (SNode NList [EmptyState; s1]), qs, (SNode NList [EmptyState; sf]).
  split; [rewrite EB; reflexivity|]. split; [cbn [init chain_gt chain_init clip_by_global_norm stateless rbind]; nx; rewrite Ei; reflexivity|].
  split. { apply (minimise_front (@clip_by_global_norm (XROps P) (Fin c)) B grad grad' p); [intros x st Hx; apply (proj1 (CS x Hx))|exact El|split; [split; [reflexivity|exact Wp]|exact Fp]|exact Hq]. }
  split; [exact Hl|]. split; [exact Hq|]. cbn zeta. nx.
  assert (K : forall t, (t < n)%nat -> norm2 (vsub (rvals (nth (S t) (p :: qs) p)) (rvals (nth t (p :: qs) p))) = lr * Rmin (norm2 (rvals (grad (nth t (p :: qs) p)))) c /\
     f (rvals (nth (S t) (p :: qs) p)) <= f (rvals (nth t (p :: qs) p)) - lr / 2 * (Rmin (norm2 (rvals (grad (nth t (p :: qs) p)))) c * norm2 (rvals (grad (nth t (p :: qs) p))))).
  { intros t Ht. assert (D1 : dot (rvals (grad' (nth t (p :: qs) p))) (vsub (rvals (nth (S t) (p :: qs) p)) (rvals (nth t (p :: qs) p))) = - lr * sumsq (rvals (grad' (nth t (p :: qs) p)))) by exact (proj1 (HD t Ht)).
    assert (D2 : sumsq (vsub (rvals (nth (S t) (p :: qs) p)) (rvals (nth t (p :: qs) p))) = lr * lr * sumsq (rvals (grad' (nth t (p :: qs) p)))) by exact (proj2 (HD t Ht)).
    destruct (CS _ (HP t ltac:(lia))) as (_ & _ & k & Hk & Ek & Nk).
    pose proof (Hsm _ _ (HP t ltac:(lia)) (HP (S t) ltac:(lia))) as S1. rewrite Ek, dot_scal_l, sumsq_scal in D1. rewrite Ek, sumsq_scal in D2.
    set (v := vsub (rvals (nth (S t) (p :: qs) p)) (rvals (nth t (p :: qs) p))) in *. set (g := rvals (grad (nth t (p :: qs) p))) in *. pose proof (norm2_sq g) as Eg. set (a := norm2 g) in *. assert (Ha : 0 <= a) by apply norm2_nonneg.
    assert (Dg : dot g v = - lr * (k * a * a)). { apply (Rmult_eq_reg_l k); [|lra]. rewrite D1, <- Eg. ring. }
    assert (Ev : norm2 v = lr * (k * a)). { apply Rsqr_inj; [apply norm2_nonneg|apply Rmult_le_pos; [lra|]; apply Rmult_le_pos; lra|]. unfold Rsqr. rewrite norm2_sq, D2, <- Eg. ring. }
    rewrite Nk in Ev. split; [exact Ev|]. assert (Hmc : Rmin a c <= c) by apply Rmin_r. assert (Hm0 : 0 <= Rmin a c) by (apply Rmin_glb; lra).
    specialize (S1 ltac:(rewrite Ev; apply Rle_trans with (lr * c); [apply Rmult_le_compat_l; lra|exact Hr])). rewrite Dg, D2, <- Eg in S1. rewrite <- Nk in *. set (q := k * a) in *.
    assert (A1 : (L0 + L1 * a) * (lr * k) <= 1). { assert (lr * L0 * k <= 1 / 2 * 1) by (apply Rmult_le_compat; try lra; apply Rmult_le_pos; lra). assert (L1 * lr * q <= L1 * lr * c) by (apply Rmult_le_compat_l; [apply Rmult_le_pos; lra|lra]). replace ((L0 + L1 * a) * (lr * k)) with (lr * L0 * k + L1 * lr * q) by (unfold q; ring). lra. }
    assert (A2 : 0 <= lr * (q * a)) by (apply Rmult_le_pos; [lra|apply Rmult_le_pos; lra]).
    replace ((L0 + L1 * a) / 2 * (lr * lr * (k * k * (a * a)))) with ((L0 + L1 * a) * (lr * k) * (lr * (q * a) / 2)) in S1 by (unfold q; field).
    assert ((L0 + L1 * a) * (lr * k) * (lr * (q * a) / 2) <= 1 * (lr * (q * a) / 2)) by (apply Rmult_le_compat_r; [lra|exact A1]). unfold q in *. lra. }
  split; [exact K|]. intros m Hm. specialize (Hm (rvals (nth n (p :: qs) p))).
  pose proof (telescope (fun t => f (rvals (nth t (p :: qs) p))) _ n (fun t Ht => proj2 (K t Ht))) as Q. cbv beta in Q. change (nth 0 (p :: qs) p) with p in Q. rewrite rsum_map_scal in Q.
  assert (Q2 : S_ n (fun t => Rmin (norm2 (rvals (grad (nth t (p :: qs) p)))) c * norm2 (rvals (grad (nth t (p :: qs) p)))) <= 2 * (f (rvals p) - m) / lr). { apply (Rmult_le_reg_l (lr / 2)); [lra|]. replace (lr / 2 * (2 * (f (rvals p) - m) / lr)) with (f (rvals p) - m) by (field; lra). lra. }
  split; [exact Q2|]. intros Hbig. destruct n as [|n'].
  { exfalso. cbn [nth] in Hm. cbn [INR] in Hbig. change (nth 0 (p :: qs) p) with p in Hm. nra. }
  set (n := S n') in *. assert (Hn : (0 < n)%nat) by (unfold n; lia). pose proof (lt_0_INR n Hn) as Hn'. set (D := f (rvals p) - m) in *.
  destruct (some_below (fun t => Rmin (norm2 (rvals (grad (nth t (p :: qs) p)))) c * norm2 (rvals (grad (nth t (p :: qs) p)))) n (2 * D / (lr * INR n)) Hn) as (t & Ht & Bt). { eapply Rle_trans; [exact Q2|]. right. field. lra. }
  exists t. split; [exact Ht|]. cbn beta in Bt. set (a := norm2 (rvals (grad (nth t (p :: qs) p)))) in *. assert (0 <= a) by apply norm2_nonneg.
  assert (Hlt : 2 * D / (lr * INR n) < c ^ 2). { apply (Rmult_lt_reg_r (lr * INR n)); [apply Rmult_lt_0_compat; lra|]. unfold Rdiv. rewrite Rmult_assoc, Rinv_l, Rmult_1_r by (apply Rgt_not_eq, Rmult_lt_0_compat; lra). lra. }
  destruct (Rle_lt_dec a c) as [Hle|Hlt2]; [rewrite Rmin_left in Bt by exact Hle; lra|]. rewrite Rmin_right in Bt by lra. exfalso. nra.
Qed.

(** The sum of fourth powers: its gradient is not Lipschitz. *)
Definition quart (l : list R) : R := rsum (map (fun v => v ^ 4) l).
Definition quart_grad (x : tree (gt XR)) : tree (gt XR) := emapt (fun _ v => Fin (4 * xval v ^ 3)) x.
Lemma quart_grad_vals x : rvals (quart_grad x) = map (fun v => 4 * v ^ 3) (rvals x).
Proof.
  unfold rvals, vals, quart_grad, emapt. rewrite leaves_tmap, map_map. change (fun x : gt XR => dat (emap (fun _ v => Fin (4 * xval v ^ 3)) x)) with (fun x : gt XR => map (fun v => Fin (4 * xval v ^ 3)) (dat x)).
  rewrite <- (map_map dat (map (fun v => Fin (4 * xval v ^ 3)))), <- concat_map, !map_map. reflexivity.
Qed.
Lemma quart_ok `{P : Platform} (p x : tree (gt XR)) : point_of p x -> point_of p (quart_grad x).
Proof.
  intros ((Ha & Hw) & Fx). split; [split; [unfold quart_grad; now rewrite emapt_avals|now apply emapt_wf]|]. apply finite_of_elts. intros pos v. unfold quart_grad. rewrite elt_emapt.
  destruct (elt x pos) as [w|] eqn:E; [|discriminate]. intros [= <-]. eexists; reflexivity.
Qed.
Lemma quart_nonneg y : 0 <= quart y.
Proof. unfold quart. induction y as [|a y IH]; cbn [map]; rewrite ?rsum_cons, ?rsum_nil; [lra|]. assert (0 <= a ^ 4) by (replace (a ^ 4) with ((a * a) * (a * a)) by ring; nra). lra. Qed.
Lemma quart_one x y G : Rabs (4 * x ^ 3) <= G -> Rabs (y - x) <= 1 -> y ^ 4 <= x ^ 4 + 4 * x ^ 3 * (y - x) + (22 + 6 * G) / 2 * ((y - x) * (y - x)).
Proof.
  intros HG Hd. set (d := y - x) in *. replace y with (x + d) by (unfold d; ring). replace ((x + d) ^ 4) with (x ^ 4 + 4 * x ^ 3 * d + (6 * (x * x) + 4 * (x * d) + d * d) * (d * d)) by ring.
  apply Rplus_le_compat_l. apply Rmult_le_compat_r; [apply Rle_0_sqr|]. rewrite Rabs_mult, (Rabs_right 4), <- RPow_abs in HG by lra. set (a := Rabs x) in *. assert (Ha : 0 <= a) by apply Rabs_pos. replace (x * x) with (a * a) by (unfold a; rewrite <- Rabs_mult, Rabs_pos_eq; [reflexivity|apply Rle_0_sqr]).
  assert (B1 : x * d <= a * 1). { eapply Rle_trans; [apply Rle_abs|]. rewrite Rabs_mult. apply Rmult_le_compat_l; assumption. }
  assert (B2 : d * d <= 1). { replace (d * d) with (Rabs d * Rabs d) by (rewrite <- Rabs_mult, Rabs_pos_eq; [reflexivity|apply Rle_0_sqr]). pose proof (Rabs_pos d). nra. }
  assert (B3 : 6 * (a * a) + 4 * a + 1 <= 11 + 12 * a ^ 3); [|lra]. replace (a ^ 3) with (a * a * a) by ring. destruct (Rle_lt_dec a 1); [nra|]. assert (a <= a * a) by nra. assert (a * a <= a * a * a) by nra. nra.
Qed.
Lemma quart_taylor (x y : list R) G r : length y = length x -> (forall v, In v x -> Rabs (4 * v ^ 3) <= G) -> (forall v, In v (vsub y x) -> Rabs v <= 1) -> r = (22 + 6 * G) / 2 ->
  quart y <= quart x + dot (map (fun v => 4 * v ^ 3) x) (vsub y x) + r * sumsq (vsub y x).
Proof.
  intros E HG Hd ->. revert y E HG Hd. induction x as [|a x IH]; intros [|b y] E HG Hd; try discriminate; [unfold quart, dot, vsub, sumsq; cbn; unfold rsum; cbn; lra|]. cbn in E. injection E as E.
  pose proof (quart_one a b G (HG a (or_introl eq_refl)) (Hd (b - a) (or_introl eq_refl))) as B. specialize (IH y E (fun v Hv => HG v (or_intror Hv)) (fun v Hv => Hd v (or_intror Hv))).
  unfold quart, vsub in *. cbn [map combine fst snd]. rewrite !rsum_cons, dot_cons, sumsq_cons. lra.
Qed.
Lemma in_norm2 v l : In v l -> Rabs v <= norm2 l.
Proof.
  intros Hv. apply Rsqr_incr_0_var; [|apply norm2_nonneg]. unfold Rsqr. rewrite norm2_sq, <- Rabs_mult, (Rabs_pos_eq (v * v)) by apply Rle_0_sqr. induction l as [|a l IH]; [easy|]. rewrite sumsq_cons. pose proof (sumsq_nonneg l). pose proof (Rle_0_sqr a) as Q. unfold Rsqr in Q. destruct Hv as [->|Hv]; [lra|]. specialize (IH Hv). lra.
Qed.
Lemma quart_relaxed `{P : Platform} (p : tree (gt XR)) : trwf p -> relaxed_smooth p quart quart_grad 22 6 1.
Proof.
  intros Wp x y Hx Hy Hr. rewrite quart_grad_vals. apply (quart_taylor _ _ (norm2 (map (fun v => 4 * v ^ 3) (rvals x)))); [transitivity (length (rvals p)); [now apply rvals_length|symmetry; now apply rvals_length]| | |reflexivity].
  - intros v Hv. apply in_norm2. apply in_map_iff. eauto.
  - intros v Hv. eapply Rle_trans; [apply in_norm2; exact Hv|exact Hr].
Qed.
(*@ C91_plain_sgd_explodes : without clipping: for EVERY learning rate lr > 0, sgd(lr) on the sum of fourth powers sends every parameter that starts at x with 4 lr x^2 >= 3 to infinity at least as fast as 2^n, while the same function meets the hypotheses of C91_clipped_sgd with L0 = 22, L1 = 6, r = 1 from every starting point. *)
Lemma sgd_explodes : forall `{P : Platform} (lr : R) (p : tree tensor) (n : nat), 0 < lr -> trwf p -> finite_tree p ->
  relaxed_smooth p quart quart_grad 22 6 1 /\
  exists T s0 qs sf, sgd (LConst (Fin lr)) None false = Ok T /\ init T p = Ok s0 /\ minimise T quart_grad n s0 p = Ok (qs, sf) /\ length qs = n /\
    forall i, (i < length (rvals p))%nat -> 3 <= 4 * lr * nth i (rvals p) 0 ^ 2 -> forall t, (t <= n)%nat -> 2 ^ t * Rabs (nth i (rvals p) 0) <= Rabs (nth i (rvals (nth t (p :: qs) p)) 0).
Proof.
  intros P lr p n Hlr Wp Fp. split; [now apply quart_relaxed|]. destruct (@sgd_dir P lr) as (T & ET & HE). destruct (minimise_vec T _ quart_grad p HE Wp Fp (quart_ok p) n) as (s0 & qs & sf & Ei & El & Hl & Hq & Hs). exists T, s0, qs, sf. repeat (split; [assumption|]).
  intros i Hi Hbig. nx. set (x := fun t => nth i (rvals (nth t (p :: qs) p)) 0).
  assert (Hx : forall t, (t < n)%nat -> x (S t) = x t * (1 - 4 * lr * x t ^ 2)).
  { intros t Ht. specialize (Hs i t Hi Ht). unfold pt in Hs. fold (x (S t)) (x t) in Hs. rewrite Hs, quart_grad_vals. rewrite (nth_indep _ 0 (4 * 0 ^ 3)).
    - rewrite (map_nth (fun v => 4 * v ^ 3)). fold (x t). ring.
    - rewrite map_length. assert (Hp : point_of p (nth t (p :: qs) p)). { destruct t; [split; [split; [reflexivity|exact Wp]|exact Fp]|]. cbn [nth]. rewrite Forall_forall in Hq. apply Hq, nth_In. lia. } rewrite (rvals_length p _ Wp Hp). exact Hi. }
  assert (K : forall t, (t <= n)%nat -> 2 ^ t * Rabs (x 0%nat) <= Rabs (x t) /\ 3 <= 4 * lr * x t ^ 2).
  { induction t as [|t IH]; intros Ht; [split; [cbn [pow]; lra|exact Hbig]|]. destruct (IH ltac:(lia)) as (I1 & I2). rewrite (Hx t Ht). rewrite Rabs_mult. set (a := Rabs (x t)) in *. assert (0 <= a) by apply Rabs_pos.
    assert (B : 2 <= Rabs (1 - 4 * lr * x t ^ 2)) by (rewrite Rabs_left1 by lra; lra). split; [apply Rle_trans with (a * 2); [change (2 ^ S t) with (2 * 2 ^ t); lra|apply Rmult_le_compat_l; assumption]|].
    replace ((x t * (1 - 4 * lr * x t ^ 2)) ^ 2) with (x t ^ 2 * (1 - 4 * lr * x t ^ 2) ^ 2) by ring. assert (4 <= (1 - 4 * lr * x t ^ 2) ^ 2) by nra. set (y := x t ^ 2) in *. set (w := (1 - 4 * lr * y) ^ 2) in *. assert (4 * lr * y * 4 <= 4 * lr * y * w) by (apply Rmult_le_compat_l; lra). lra. }
  intros t Ht. exact (proj1 (K t Ht)).
Qed.
(*@ex C91_example *)
Lemma relaxed_example : forall `{P : Platform} (n : nat), (1 <= n)%nat -> let p := Leaf (mkT F32 [1%nat] [Fin 10]) in
  (exists T s0 qs sf, sgd (LConst (Fin (1/44))) None false = Ok T /\ init T p = Ok s0 /\ minimise T quart_grad n s0 p = Ok (qs, sf) /\ 2 ^ n * 10 <= Rabs (nth 0 (rvals (nth n (p :: qs) p)) 0)) /\
  (exists T s0 qs sf, (let* B := sgd (LConst (Fin (1/44))) None false in chain [clip_by_global_norm (Fin 1); B]) = Ok T /\ init T p = Ok s0 /\ minimise T quart_grad n s0 p = Ok (qs, sf) /\
     (880000 < INR n -> exists t, (t < n)%nat /\ norm2 (rvals (quart_grad (nth t (p :: qs) p))) ^ 2 <= 2 * (10 ^ 4 - 0) / (1/44 * INR n))).
Proof.
  intros P n Hn. cbn zeta. set (p := Leaf (mkT F32 [1%nat] [Fin 10])). assert (Wp : trwf p) by (repeat constructor). assert (Fp : finite_tree p) by (repeat constructor; eexists; reflexivity). split.
  - destruct (@sgd_explodes P (1/44) p n ltac:(lra) Wp Fp) as (_ & T & s0 & qs & sf & ET & Ei & El & _ & H). exists T, s0, qs, sf. repeat (split; [assumption|]). pose proof (H 0%nat ltac:(cbn; lia) ltac:(change (rvals p) with [10]; cbn [nth]; lra) n (le_n _)) as B. change (nth 0 (rvals p) 0) with 10 in B. rewrite (Rabs_right 10) in B by lra. exact B.
  - destruct (@clipped_sgd P (1/44) 1 22 6 1 F32 p quart_grad quart n) as (T & s0 & qs & sf & ET & Ei & El & _ & _ & _ & H); [lra..|exact Wp|exact Fp|repeat constructor|apply quart_ok|now apply quart_relaxed|].
    exists T, s0, qs, sf. repeat (split; [assumption|]). destruct (H 0 quart_nonneg) as (_ & H2). assert (Eq : quart (rvals p) = 10 ^ 4) by (unfold quart; change (rvals p) with [10]; cbn [map]; rewrite rsum_cons, rsum_nil; lra). rewrite Eq in H2. intros Hbig. apply H2. lra.
Qed.
