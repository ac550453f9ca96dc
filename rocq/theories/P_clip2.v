(** Clipping as projection: clip_by_global_norm and clip return the nearest point of the ball / the box, never amplify a difference, compose to the smaller bound, and bound the influence of corrupted gradients (C102). *)
From Verif Require Export P_proj.
From Coq Require Import List Psatz Reals Qreals.
Import ListNotations.
Open Scope R_scope.
(*@header
From Coq Require Import List Reals.
Import ListNotations.
Open Scope R_scope.
*)

(** ** Specification *)
Definition one_kind {A} (d : fdt) (u : tree (gt A)) : Prop := Forall (fun t => dt t = d) (leaves u).
(** Two gradient sequences of one length differ in at most k places. *)
Definition differ_in {A} (k : nat) (gs gs' : list A) : Prop := length gs' = length gs /\ exists bad, length bad = k /\ forall t, (t < length gs)%nat -> ~ In t bad -> nth_error gs t = nth_error gs' t.

(** ** The ball, as vectors *)
Lemma vsub_len (x y : list R) : length y = length x -> length (vsub x y) = length x.
Proof. intros H. apply vsub_length; [reflexivity|exact H]. Qed.
Lemma pythagoras u v y : length v = length u -> length y = length u -> sumsq (vsub u y) = sumsq (vsub u v) + sumsq (vsub v y) + 2 * dot (vsub u v) (vsub v y).
Proof.
  unfold vsub. revert v y. induction u as [|a u IH]; intros [|b v] [|c y] Lv Ly; try discriminate; [unfold dot, sumsq; cbn; rewrite rsum_nil; ring|]. cbn [map combine fst snd]. rewrite !sumsq_cons, dot_cons, (IH v y) by (cbn in *; lia). ring.
Qed.
Lemma ball_vi c k u y : 0 < c -> 0 < k <= 1 -> k * norm2 u = Rmin (norm2 u) c -> length y = length u -> norm2 y <= c -> 0 <= dot (vsub u (map (Rmult k) u)) (vsub (map (Rmult k) u) y).
Proof.
  intros Hc Hk Ek Ly Hy. assert (E : dot (vsub u (map (Rmult k) u)) (vsub (map (Rmult k) u) y) = (1 - k) * (k * sumsq u - dot u y)).
  { clear - Ly. unfold vsub. revert y Ly. induction u as [|a l IH]; intros [|b y] Ly; try discriminate; [unfold dot, sumsq; cbn; rewrite rsum_nil; ring|]. cbn [map combine fst snd]. rewrite !dot_cons, sumsq_cons, (IH y) by (cbn in Ly; lia). ring. }
  rewrite E, <- norm2_sq. pose proof (dot_le u y (eq_sym Ly)) as D. pose proof (norm2_nonneg u) as Nu. pose proof (norm2_nonneg y) as Ny. set (s := norm2 u) in *. clearbody s.
  destruct (Rle_dec s c) as [H|H].
  - rewrite Rmin_left in Ek by lra. destruct (Req_dec s 0) as [Hs|Hs]; [subst s; apply Rmult_le_pos; [lra|]; lra|]. assert (k = 1) by (apply (Rmult_eq_reg_r s); lra). subst k. lra.
  - rewrite Rmin_right in Ek by lra. apply Rmult_le_pos; [lra|]. replace (k * (s * s)) with (c * s) by (rewrite <- Ek; ring). assert (s * norm2 y <= s * c) by (apply Rmult_le_compat_l; lra). lra.
Qed.
Lemma sumsq_sym x y : length y = length x -> sumsq (vsub x y) = sumsq (vsub y x).
Proof. intros L. rewrite (sumsq_vsub x y (length x) eq_refl L), (sumsq_vsub y x (length x) L eq_refl). apply rsum_map_ext. intros; ring. Qed.
(** a map satisfying the variational inequality at two points does not expand *)
Lemma firmly u v a b : length v = length u -> length a = length u -> length b = length u -> 0 <= dot (vsub u a) (vsub a b) -> 0 <= dot (vsub v b) (vsub b a) -> norm2 (vsub a b) <= norm2 (vsub u v).
Proof.
  intros Lv La Lb H1 H2. assert (E : dot (vsub u a) (vsub a b) + dot (vsub v b) (vsub b a) + sumsq (vsub a b) = dot (vsub u v) (vsub a b)).
  { clear H1 H2. unfold vsub. revert v a b Lv La Lb. induction u as [|x u IH]; intros [|y v] [|z a] [|w b] Lv La Lb; try discriminate; [unfold dot, sumsq; cbn; rewrite rsum_nil; ring|]. cbn [map combine fst snd]. rewrite !dot_cons, sumsq_cons, <- (IH v a b) by (cbn in *; lia). ring. }
  pose proof (dot_le (vsub u v) (vsub a b)) as D. rewrite !vsub_len in D by congruence. specialize (D (eq_sym La)). rewrite <- norm2_sq in E. pose proof (norm2_nonneg (vsub a b)). pose proof (norm2_nonneg (vsub u v)). set (x := norm2 (vsub a b)) in *. set (y := norm2 (vsub u v)) in *. nra.
Qed.

(*@ C102_nearest : On gradients of one dtype with finite elements, any tree shape and any max_norm c > 0, clip_by_global_norm(c) returns THE nearest point of the ball of radius c: the result v has norm at most c and |u - v|^2 + |v - y|^2 <= |u - y|^2 for every vector y of norm at most c (in particular v = u when u is in the ball, and every other y is strictly further away). *)
Lemma clip_nearest : forall `{P : Platform} (c : R) (d : fdt) (u : tree tensor) (st : state) par, 0 < c -> trwf u -> finite_tree u -> one_kind d u ->
  exists v, update (clip_by_global_norm (Fin c)) u st par = Ok (v, st) /\ point_of u v /\ norm2 (rvals v) <= c /\ (norm2 (rvals u) <= c -> v = u) /\
    forall y, length y = length (rvals u) -> norm2 y <= c -> sumsq (vsub (rvals u) (rvals v)) + sumsq (vsub (rvals v) y) <= sumsq (vsub (rvals u) y).
Proof.
  intros P c d u st par Hc Wu Fu Hd. assert (Pu : point_of u u) by (split; [split; [reflexivity|exact Wu]|exact Fu]).
  destruct (clipped_spec u d c u Wu Hd Hc Pu) as (E & Pv & k & Hk & Ev & Nk). exists (clipped c u). split; [apply E|]. split; [exact Pv|]. assert (Nv : norm2 (rvals (clipped c u)) = Rmin (norm2 (rvals u)) c) by (rewrite Ev, norm2_scal, Rabs_right by lra; exact Nk).
  split; [rewrite Nv; apply Rmin_r|]. split.
  - intros Hu. rewrite Rmin_left in Nk by lra. apply (rvals_ext u _ _ Pv Pu). rewrite Ev. destruct (Req_dec (norm2 (rvals u)) 0) as [H0|H0].
    + apply norm2_0 in H0. rewrite <- (map_id (rvals u)) at 2. apply map_ext_in. intros x Hx. rewrite Forall_forall in H0. rewrite (H0 x Hx). ring.
    + assert (k = 1) by (apply (Rmult_eq_reg_r (norm2 (rvals u))); lra). subst k. rewrite <- (map_id (rvals u)) at 2. apply map_ext. intros; ring.
  - intros y Ly Hy. rewrite (pythagoras (rvals u) (rvals (clipped c u)) y) by (try exact Ly; rewrite Ev; apply map_length). rewrite Ev. pose proof (ball_vi c k (rvals u) y Hc Hk Nk Ly Hy). lra.
Qed.

(*@ C102_nonexpansive : Clipping never amplifies a difference: for any two gradient trees of one signature and dtype with finite elements, |clip_by_global_norm(u) - clip_by_global_norm(u')| <= |u - u'| (and <= 2 c). *)
Lemma clip_nonexpansive : forall `{P : Platform} (c : R) (d : fdt) (u u' : tree tensor) (st : state) par, 0 < c -> trwf u -> finite_tree u -> one_kind d u -> point_of u u' ->
  exists v v', update (clip_by_global_norm (Fin c)) u st par = Ok (v, st) /\ update (clip_by_global_norm (Fin c)) u' st par = Ok (v', st) /\
    norm2 (vsub (rvals v) (rvals v')) <= Rmin (norm2 (vsub (rvals u) (rvals u'))) (2 * c).
Proof.
  intros P c d u u' st par Hc Wu Fu Hd Pu'. assert (Pu : point_of u u) by (split; [split; [reflexivity|exact Wu]|exact Fu]).
  destruct (clipped_spec u d c u Wu Hd Hc Pu) as (E & Pv & k & Hk & Ev & Nk). destruct (clipped_spec u d c u' Wu Hd Hc Pu') as (E' & Pv' & k' & Hk' & Ev' & Nk'). exists (clipped c u), (clipped c u'). split; [apply E|]. split; [apply E'|].
  assert (Nv : norm2 (rvals (clipped c u)) <= c) by (rewrite Ev, norm2_scal, Rabs_right, Nk by lra; apply Rmin_r). assert (Nv' : norm2 (rvals (clipped c u')) <= c) by (rewrite Ev', norm2_scal, Rabs_right, Nk' by lra; apply Rmin_r).
  pose proof (rvals_length u _ Wu Pu') as L1. pose proof (rvals_length u _ Wu Pv) as L2. pose proof (rvals_length u _ Wu Pv') as L3.
  apply Rmin_glb.
  - apply firmly; [exact L1|exact L2|exact L3| |]; [rewrite Ev; apply (ball_vi c k); auto; congruence|rewrite Ev'; apply (ball_vi c k'); auto; congruence].
  - replace (vsub (rvals (clipped c u)) (rvals (clipped c u'))) with (vadd (rvals (clipped c u)) (map (Rmult (-1)) (rvals (clipped c u')))).
    + eapply Rle_trans; [apply norm2_triangle; rewrite map_length; congruence|]. rewrite norm2_scal. replace (Rabs (-1)) with 1 by (rewrite Rabs_left; lra). lra.
    + unfold vsub, vadd. clear - L2 L3. generalize (rvals (clipped c u')), (rvals (clipped c u)), (eq_trans L2 (eq_sym L3)). induction l as [|a l IH]; intros [|b m] H; try discriminate; [reflexivity|]. cbn [map combine fst snd]. rewrite IH by (cbn in H; lia). f_equal. ring.
Qed.

(*@ C102_compose : Two clips in a chain are one clip at the smaller bound: chain(clip_by_global_norm(c1), clip_by_global_norm(c2)) returns exactly what clip_by_global_norm(min(c1, c2)) does, in either order. *)
Lemma clip_compose : forall `{P : Platform} (c1 c2 : R) (d : fdt) (u : tree tensor) (st : state) par, 0 < c1 -> 0 < c2 -> trwf u -> finite_tree u -> one_kind d u ->
  exists v T s, update (clip_by_global_norm (Fin (Rmin c1 c2))) u st par = Ok (v, st) /\ chain [clip_by_global_norm (Fin c1); clip_by_global_norm (Fin c2)] = Ok T /\ init T u = Ok s /\ update T u s par = Ok (v, s).
Proof.
  intros P c1 c2 d u st par H1 H2 Wu Fu Hd. assert (Pu : point_of u u) by (split; [split; [reflexivity|exact Wu]|exact Fu]). assert (Hm : 0 < Rmin c1 c2) by (apply Rmin_glb_lt; assumption).
  destruct (clipped_spec u d _ u Wu Hd Hm Pu) as (E & Pv & k & Hk & Ev & Nk). destruct (clipped_spec u d c1 u Wu Hd H1 Pu) as (E1 & Pv1 & k1 & Hk1 & Ev1 & Nk1). destruct (clipped_spec u d c2 _ Wu Hd H2 Pv1) as (E2 & Pv2 & k2 & Hk2 & Ev2 & Nk2).
  exists (clipped (Rmin c1 c2) u), (@chain_gt (XROps P) [@clip_by_global_norm (XROps P) (Fin c1); @clip_by_global_norm (XROps P) (Fin c2)]), (SNode NList [EmptyState; EmptyState]). split; [apply E|]. split; [reflexivity|]. split; [reflexivity|].
  assert (Eq : clipped c2 (clipped c1 u) = clipped (Rmin c1 c2) u).
  { apply (rvals_ext u _ _ Pv2 Pv). rewrite Ev2, Ev1, Ev, map_map. rewrite Ev1, norm2_scal, Rabs_right, Nk1 in Nk2 by lra. rewrite Rmin_assoc in Nk. apply map_ext_in. intros x Hx.
    destruct (Req_dec (norm2 (rvals u)) 0) as [H0|H0]; [apply norm2_0 in H0; rewrite Forall_forall in H0; rewrite (H0 x Hx); ring|]. assert (k2 * k1 = k); [|subst k; ring]. apply (Rmult_eq_reg_r (norm2 (rvals u))); [|exact H0]. rewrite Nk, <- Nk2, <- Nk1. ring. }
  cbn [update chain_gt length Nat.eqb chain_update]. nx. rewrite (E1 EmptyState par). cbn [rbind]. nx. rewrite (E2 EmptyState par). cbn [rbind]. nx. rewrite Eq. reflexivity.
Qed.

(*@ C102_clip_compose : Element-wise clipping composes the same way, for ANY elements (NaN and infinities included): chain(clip(c1), clip(c2)) is clip(min(c1, c2)); it returns the nearest number of [-c, c] and never amplifies a difference. *)
Lemma clip_box : forall `{P : Platform} (c1 c2 : R), 0 <= c1 -> 0 <= c2 ->
  (forall (u : tree tensor) (st : state) par, exists v T s, update (clip (Fin (Rmin c1 c2))) u st par = Ok (v, st) /\ chain [clip (Fin c1); clip (Fin c2)] = Ok T /\ init T u = Ok s /\ update T u s par = Ok (v, s)) /\
  (forall (u u' : tree tensor) (st : state) par v v', update (clip (Fin c1)) u st par = Ok (v, st) -> update (clip (Fin c1)) u' st par = Ok (v', st) -> forall pos x x', elt u pos = Some (Fin x) -> elt u' pos = Some (Fin x') ->
     exists y y', elt v pos = Some (Fin y) /\ elt v' pos = Some (Fin y') /\ Rabs (y - y') <= Rabs (x - x') /\ forall z, - c1 <= z <= c1 -> Rabs (x - y) <= Rabs (x - z)).
Proof.
  intros P c1 c2 H1 H2. assert (Hm : 0 <= Rmin c1 c2) by (apply Rmin_glb; assumption). split.
  - intros u st par. eexists _, (@chain_gt (XROps P) [@clip (XROps P) (Fin c1); @clip (XROps P) (Fin c2)]), (SNode NList [EmptyState; EmptyState]). split; [reflexivity|]. split; [reflexivity|]. split; [reflexivity|].
    cbn [update chain_gt length Nat.eqb chain_update clip stateless rbind]. do 2 f_equal. change (emapt (clip_elt (Fin c2)) (emapt (clip_elt (Fin c1)) u) = emapt (clip_elt (Fin (Rmin c1 c2))) u). rewrite emapt_emapt.
    apply emapt_ext. intros d x. rewrite !clip_elt_range by assumption. unfold Rmin. destruct (Rle_dec c1 c2); destruct x as [r0| | |]; try reflexivity; f_equal; repeat match goal with |- context [Rle_dec ?a ?b] => lazymatch a with context [Rle_dec _ _] => fail | _ => destruct (Rle_dec a b) end end; lra.
  - intros u u' st par v v' [= <-] [= <-] pos x x' Hx Hx'. change (tmap (emap ?f) ?u) with (emapt f u). rewrite !elt_emapt. nx. rewrite Hx, Hx'. cbn [option_map]. rewrite !clip_elt_range by assumption. eexists _, _. split; [reflexivity|]. split; [reflexivity|].
    split; [|intros z Hz]; repeat match goal with |- context [Rle_dec ?a ?b] => destruct (Rle_dec a b) end; unfold Rabs; repeat match goal with |- context [Rcase_abs ?a] => destruct (Rcase_abs a) end; lra.
Qed.

(** ** Two training runs that differ in some of their gradients *)
Section Robust.
  Context {P : Platform}.
  Notation xr := (XROps P).
  Lemma loop_front (T0 T1 : @GT xr) (F : tree (gt XR) -> tree (gt XR)) p : (forall g st par, point_of p g -> update T0 g st par = Ok (F g, st)) ->
    forall gs s0 s1 q, Forall (point_of p) gs -> @train_loop xr (chain_gt [T0; T1]) (SNode NList [s0; s1]) q gs = rmap (fun r : list (tree tensor) * state => (fst r, SNode NList [s0; snd r])) (@train_loop xr T1 s1 q (map F gs)).
  Proof.
    intros H0. induction gs as [|g gs IH]; intros s0 s1 q Hg; [reflexivity|]. inversion Hg as [|? ? Hg1 Hg2]; subst. cbn [map train_loop update chain_gt length Nat.eqb chain_update]. nx. rewrite (H0 g s0 (Some q) Hg1). cbn [rbind]. nx.
    destruct (update T1 (F g) s1 (Some q)) as [[u s']|]; cbn [rbind]; [|reflexivity]. nx. destruct (@apply_updates xr q u) as [q'|]; cbn [rbind]; [|reflexivity]. nx. rewrite (IH s0 s' q' Hg2). destruct (@train_loop xr T1 s' q' (map F gs)) as [[? ?]|]; reflexivity.
  Qed.
  Lemma clipped_loop lr c d p gs : 0 < c -> trwf p -> finite_tree p -> one_kind d p -> Forall (point_of p) gs ->
    exists T s0 qs sf, (let* B := @sgd xr (@LConst xr (Fin lr)) None false in @chain xr [@clip_by_global_norm xr (Fin c); B]) = Ok T /\ @init xr T p = Ok s0 /\ @train_loop xr T s0 p gs = Ok (qs, sf) /\ length qs = length gs /\ Forall (point_of p) qs /\
      forall i t, (i < length (rvals p))%nat -> (t < length gs)%nat -> nth i (rvals (nth (S t) (p :: qs) p)) 0 = nth i (rvals (nth t (p :: qs) p)) 0 - lr * nth i (rvals (clipped c (nth t gs p))) 0.
  Proof.
    intros Hc Wp Fp Hd Hg. destruct (@sgd_dir P lr) as (B & EB & HE). assert (Hg' : Forall (point_of p) (map (clipped c) gs)).
    { apply Forall_map, Forall_forall. intros g Hi. rewrite Forall_forall in Hg. apply (clipped_spec p d c g Wp Hd Hc (Hg g Hi)). }
    destruct (loop_vec B (fun g n => - lr * g n) HE p _ Wp Fp Hg') as (s1 & qs & sf & Ei & El & Hl & Hq & Hs).
    exists (@chain_gt xr [@clip_by_global_norm xr (Fin c); B]), (SNode NList [EmptyState; s1]), qs, (SNode NList [EmptyState; sf]). split; [rewrite EB; reflexivity|]. split; [cbn [init chain_gt chain_init clip_by_global_norm stateless rbind]; nx; rewrite Ei; reflexivity|].
    split. { rewrite (loop_front (@clip_by_global_norm xr (Fin c)) B (clipped c) p); [|intros g st par Pg; apply (clipped_spec p d c g Wp Hd Hc Pg)|exact Hg]. nx. rewrite El. reflexivity. }
    rewrite map_length in Hl, Hs. split; [exact Hl|]. split; [exact Hq|]. intros i t Hi Ht. pose proof (Hs i t Hi Ht) as H. unfold pt in H. nx. rewrite H. rewrite (nth_indep (map (clipped c) gs) p (clipped c p)) by (rewrite map_length; exact Ht). rewrite map_nth. ring.
  Qed.
End Robust.
Lemma norm_step N (x x' v v' y y' : list R) lr : 0 <= lr -> length x = N -> length x' = N -> length v = N -> length v' = N -> length y = N -> length y' = N ->
  (forall i, (i < N)%nat -> nth i y 0 = nth i x 0 - lr * nth i v 0) -> (forall i, (i < N)%nat -> nth i y' 0 = nth i x' 0 - lr * nth i v' 0) ->
  norm2 (vsub y y') <= norm2 (vsub x x') + lr * norm2 (vsub v v').
Proof.
  intros Hlr Lx Lx' Lv Lv' Ly Ly' H H'. replace (vsub y y') with (vadd (vsub x x') (map (Rmult (- lr)) (vsub v v'))).
  - eapply Rle_trans; [apply norm2_triangle; rewrite map_length, !vsub_len; congruence|]. rewrite norm2_scal, Rabs_left1 by lra. right. ring.
  - apply (nth_ext _ _ 0 0); [unfold vadd; rewrite map_length, combine_length, map_length, !vsub_len by congruence; lia|]. intros i Hi. assert (HiN : (i < N)%nat) by (unfold vadd in Hi; rewrite map_length, combine_length, map_length, !vsub_len in Hi by congruence; lia).
    rewrite (vsub_nth y y' N i Ly Ly' HiN), H, H' by exact HiN. unfold vadd. rewrite (nth_indep _ 0 (0 + - lr * 0)) by (rewrite map_length; unfold vadd in Hi; rewrite map_length in Hi; exact Hi).
    pose proof (map_nth (fun p : R * R => fst p + snd p) (combine (vsub x x') (map (Rmult (- lr)) (vsub v v'))) (0, - lr * 0) i) as M. cbn [fst snd] in M. etransitivity; [exact M|]. clear M. rewrite combine_nth by (rewrite map_length, !vsub_len; congruence). cbn [fst snd]. rewrite map_nth, (vsub_nth x x' N i Lx Lx' HiN), (vsub_nth v v' N i Lv Lv' HiN). ring.
Qed.
Lemma count_bad (f : nat -> R) b n : 0 <= b -> forall bad, (forall t, (t < n)%nat -> In t bad -> f t <= b) -> (forall t, (t < n)%nat -> ~ In t bad -> f t <= 0) -> rsum (map f (seq 0 n)) <= INR (length bad) * b.
Proof.
  intros Hb bad H1 H2. apply Rle_trans with (rsum (map (fun t => rsum (map (fun a => if Nat.eq_dec a t then b else 0) bad)) (seq 0 n))).
  - apply rsum_map_le. intros t Ht. apply in_seq in Ht. assert (H0 : forall l, 0 <= rsum (map (fun a => if Nat.eq_dec a t then b else 0) l)) by (intros l; apply rsum_nonneg, Forall_map, Forall_forall; intros a _; destruct (Nat.eq_dec a t); lra).
    destruct (in_dec Nat.eq_dec t bad) as [Hi|Hi]; [|eapply Rle_trans; [apply H2; [lia|exact Hi]|apply H0]]. eapply Rle_trans; [apply H1; [lia|exact Hi]|]. destruct (in_split t bad Hi) as (l1 & l2 & ->). rewrite map_app, rsum_app. cbn [map]. rewrite rsum_cons. destruct (Nat.eq_dec t t); [|easy]. pose proof (H0 l1). pose proof (H0 l2). lra.
  - rewrite rsum_swap. apply Rle_trans with (rsum (map (fun _ : nat => b) bad)); [|rewrite rsum_map_const; lra]. apply rsum_map_le. intros a _. clear - Hb. induction n as [|n IH]; [cbn; rewrite rsum_nil; exact Hb|]. rewrite rsum_seq_S. destruct (Nat.eq_dec a n) as [->|]; [|lra].
    enough (rsum (map (fun t => if Nat.eq_dec n t then b else 0) (seq 0 n)) = 0) by lra. rewrite (rsum_map_ext _ (fun _ => 0)), rsum_map_const; [ring|]. intros t Ht. apply in_seq in Ht. destruct (Nat.eq_dec n t); [lia|reflexivity].
Qed.

(*@ C102_robust : Two runs of chain(clip_by_global_norm(c), sgd(lr)), lr >= 0, from the same parameters (one dtype) on two gradient sequences: neither fails, and after n steps the parameters differ by at most lr times the sum of min(|g_t - g'_t|, 2 c); so if at most k of the gradients were replaced by ANY others - corrupted examples, wrong labels, an adversary - the final parameters move by at most 2 lr c k, however large the replacements. *)
Lemma clip_robust : forall `{P : Platform} (lr c : R) (d : fdt) (p : tree tensor) (gs gs' : list (tree tensor)) (k : nat), 0 <= lr -> 0 < c -> trwf p -> finite_tree p -> one_kind d p -> Forall (point_of p) gs -> Forall (point_of p) gs' -> length gs' = length gs ->
  exists T s0 qs qs' sf sf', (let* B := sgd (LConst (Fin lr)) None false in chain [clip_by_global_norm (Fin c); B]) = Ok T /\ init T p = Ok s0 /\ train_loop T s0 p gs = Ok (qs, sf) /\ train_loop T s0 p gs' = Ok (qs', sf') /\
    let gap := norm2 (vsub (rvals (last qs p)) (rvals (last qs' p))) in
    gap <= lr * rsum (map (fun t => Rmin (norm2 (vsub (rvals (nth t gs p)) (rvals (nth t gs' p)))) (2 * c)) (seq 0 (length gs))) /\
    (differ_in k gs gs' -> gap <= 2 * lr * c * INR k).
Proof.
  intros P lr c d p gs gs' k Hlr Hc Wp Fp Hd Hg Hg' Hlen. assert (Pp : point_of p p) by (split; [split; [reflexivity|exact Wp]|exact Fp]).
  destruct (clipped_loop lr c d p gs Hc Wp Fp Hd Hg) as (T & s0 & qs & sf & ET & Ei & El & Hl & Hq & HS). destruct (clipped_loop lr c d p gs' Hc Wp Fp Hd Hg') as (T' & s0' & qs' & sf' & ET' & Ei' & El' & Hl' & Hq' & HS').
  rewrite ET in ET'. injection ET' as <-. rewrite Ei in Ei'. injection Ei' as <-. exists T, s0, qs, qs', sf, sf'. repeat (split; [assumption|]). cbn zeta. nx. set (n := length gs) in *.
  assert (HP : forall t, (t <= n)%nat -> point_of p (nth t (p :: qs) p)). { intros t Ht. destruct t; [exact Pp|]. cbn [nth]. rewrite Forall_forall in Hq. apply Hq. nx. apply nth_In. lia. }
  assert (HP' : forall t, (t <= n)%nat -> point_of p (nth t (p :: qs') p)). { intros t Ht. destruct t; [exact Pp|]. cbn [nth]. rewrite Forall_forall in Hq'. apply Hq'. nx. apply nth_In. lia. }
  assert (Pg : forall t, point_of p (nth t gs p)). { intros t. destruct (Nat.lt_ge_cases t (length gs)); [|rewrite nth_overflow by assumption; exact Pp]. rewrite Forall_forall in Hg. apply Hg, nth_In. assumption. }
  assert (Pg' : forall t, point_of p (nth t gs' p)). { intros t. destruct (Nat.lt_ge_cases t (length gs')); [|rewrite nth_overflow by assumption; exact Pp]. rewrite Forall_forall in Hg'. apply Hg', nth_In. assumption. }
  set (D := fun t => Rmin (norm2 (vsub (rvals (nth t gs p)) (rvals (nth t gs' p)))) (2 * c)).
  assert (HD : forall t, norm2 (vsub (rvals (clipped c (nth t gs p))) (rvals (clipped c (nth t gs' p)))) <= D t).
  { intros t. pose proof (Pg t) as ((Ha & Wg) & Fg). destruct (clip_nonexpansive c d (nth t gs p) (nth t gs' p) EmptyState None Hc Wg Fg (one_dtype p d _ Hd Ha)) as (v & v' & E & E' & H); [destruct (Pg' t) as ((Ha' & Wg') & Fg'); split; [split; [exact (eq_trans Ha' (eq_sym Ha))|exact Wg']|exact Fg']|].
    assert (E1 : clipped c (nth t gs p) = v) by (unfold clipped; rewrite E; reflexivity). assert (E2 : clipped c (nth t gs' p) = v') by (unfold clipped; rewrite E'; reflexivity). rewrite E1, E2. exact H. }
  assert (HB : forall m, (m <= n)%nat -> norm2 (vsub (rvals (nth m (p :: qs) p)) (rvals (nth m (p :: qs') p))) <= lr * rsum (map D (seq 0 m))).
  { induction m as [|m IH]; intros Hm.
    - change (nth 0 (p :: qs) p) with p. change (nth 0 (p :: qs') p) with p. cbn [seq map]. rewrite rsum_nil. apply norm2_le_of_sq; [lra|]. rewrite (sumsq_vsub (rvals p) (rvals p) _ eq_refl eq_refl). rewrite (rsum_map_ext _ (fun _ => 0)), rsum_map_const by (intros; ring). right. ring.
    - specialize (IH ltac:(lia)). rewrite rsum_seq_S, Rmult_plus_distr_l. assert (LL : forall u, point_of p u -> length (rvals u) = length (rvals p)) by (intros; now apply rvals_length).
      eapply Rle_trans; [apply (norm_step (length (rvals p)) (rvals (nth m (p :: qs) p)) (rvals (nth m (p :: qs') p)) (rvals (clipped c (nth m gs p))) (rvals (clipped c (nth m gs' p))) _ _ lr Hlr); try (apply LL; auto)|].
      + apply HP. lia.
      + apply HP'. lia.
      + apply (clipped_spec p d c _ Wp Hd Hc (Pg m)).
      + apply (clipped_spec p d c _ Wp Hd Hc (Pg' m)).
      + intros i Hi. apply HS; [exact Hi|lia].
      + intros i Hi. apply HS'; [exact Hi|lia].
      + apply Rplus_le_compat; [exact IH|]. apply Rmult_le_compat_l; [exact Hlr|apply HD]. }
  assert (EL : forall l, length l = n -> last l p = nth n (p :: l) p). { intros l L. destruct n as [|m]; [destruct l; [reflexivity|discriminate]|]. cbn [nth]. clear - L. revert m L. induction l as [|a l IH]; intros m L; [discriminate|]. destruct l as [|b l]; [cbn in L; injection L as <-; reflexivity|]. destruct m as [|m]; [discriminate|]. change (last (a :: b :: l) p) with (last (b :: l) p). cbn [nth]. apply IH. cbn in *. lia. }
  rewrite (EL qs), (EL qs') by (nx; lia). pose proof (HB n (le_n _)) as HBn. split; [exact HBn|]. intros (_ & bad & Hk & Hbad). eapply Rle_trans; [exact HBn|].
  assert (rsum (map D (seq 0 n)) <= INR (length bad) * (2 * c)).
  { apply count_bad; [lra|intros t _ _; apply Rmin_r|]. intros t Ht Hi. eapply Rle_trans; [apply Rmin_l|]. assert (E : nth t gs p = nth t gs' p). { specialize (Hbad t Ht Hi). rewrite (nth_error_nth' gs p) in Hbad by exact Ht. rewrite (nth_error_nth' gs' p) in Hbad by (nx; lia). now injection Hbad. }
    rewrite E. apply norm2_le_of_sq; [lra|]. rewrite (sumsq_vsub _ _ _ eq_refl eq_refl). rewrite (rsum_map_ext _ (fun _ => 0)), rsum_map_const by (intros; ring). right. ring. }
  rewrite Hk in H. apply Rle_trans with (lr * (INR k * (2 * c))); [apply Rmult_le_compat_l; assumption|right; ring].
Qed.

(*@ex C102_example *)
Lemma clip2_example : forall `{P : Platform}, let u := Leaf (mkT F32 [2%nat] [Fin 3; Fin 4]) in let w := Leaf (mkT F32 [2%nat] [Fin 0; Fin 1]) in
  trwf u /\ finite_tree u /\ one_kind F32 u /\ point_of u w /\ differ_in 1 [u; w; u] [u; u; u] /\ norm2 (rvals u) = 5 /\
  exists v, update (clip_by_global_norm (Fin 1)) u EmptyState None = Ok (v, EmptyState) /\ norm2 (rvals v) <= 1 /\ sumsq (vsub (rvals u) (rvals v)) = 16.
Proof.
  intros P. cbn zeta. set (u := Leaf (mkT F32 [2%nat] [Fin 3; Fin 4])). set (w := Leaf (mkT F32 [2%nat] [Fin 0; Fin 1])). assert (Wu : trwf u) by (repeat constructor). assert (Fu : finite_tree u) by (repeat constructor; eexists; reflexivity). assert (Ou : one_kind F32 u) by (repeat constructor).
  assert (Pu : point_of u u) by (split; [split; [reflexivity|exact Wu]|exact Fu]).
  assert (N5 : norm2 (rvals u) = 5). { apply Rsqr_inj; [apply norm2_nonneg|lra|]. unfold Rsqr. rewrite norm2_sq. unfold rvals, vals, sumsq. cbn. unfold rsum. cbn. ring. }
  split; [exact Wu|]. split; [exact Fu|]. split; [exact Ou|]. split; [split; [split; [reflexivity|repeat constructor]|repeat constructor; eexists; reflexivity]|].
  split. { split; [reflexivity|]. exists [1%nat]. split; [reflexivity|]. intros [|[|[|t]]] Ht Hi; try reflexivity; try (cbn in Ht; lia); exfalso; apply Hi; now left. }
  split; [exact N5|]. destruct (clipped_spec u F32 1 u Wu Ou ltac:(lra) Pu) as (E & Pv & k & Hk & Ev & Nk). exists (clipped 1 u). split; [apply E|]. split; [rewrite Ev, norm2_scal, Rabs_right, Nk by lra; apply Rmin_r|].
  rewrite N5, Rmin_right in Nk by lra. assert (k = / 5) by lra. subst k. rewrite Ev. unfold rvals, vals, vsub, sumsq. cbn. unfold rsum. cbn. field.
Qed.
