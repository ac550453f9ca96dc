(** Gradients of safe_norm (C02) and of the regression losses (C67). *)
From Verif Require Export Dual P_loss P_norm.
From Coq Require Import List Psatz Reals Qreals.
Import ListNotations.
Open Scope R_scope.
(*@header
From Coq Require Import List.
Import ListNotations.
Open Scope R_scope.
*)

(** ** Specification *)
(** The array [x] carries the values a_i with the tangents t_i, for the pairs (a_i, t_i) of [l]. *)
Definition carries (x : gt dual) (l : list (R * R)) : Prop := dat x = map (fun p => fd (fst p) (snd p)) l.
(** sum of a_i t_i *)
Definition inner (l : list (R * R)) : R := rsum (map (fun p => fst p * snd p) l).
(** The point x + s t. *)
Definition along (l : list (R * R)) (s : R) : list R := map (fun p => fst p + s * snd p) l.
(** The obvious implementation of a norm bounded below: jnp.maximum(jnp.linalg.norm(x), m). *)
Definition naive_norm `{O : Ops} (x : tensor) (m : F) : F := fmax (norm x) (fcast (dt x) m).

Ltac dx := match goal with P : Platform |- _ => change (@F (DualOps P)) with dual in * end.

Lemma rsum_scal c l : rsum (map (fun x => c * x) l) = c * rsum l.
Proof. induction l as [|a l IH]; cbn [map]; rewrite ?rsum_nil, ?rsum_cons; [lra|rewrite IH; lra]. Qed.
Lemma xsum_list (l : list R) : xsum (map Fin l) = Fin (rsum l).
Proof. induction l as [|a l IH]; [reflexivity|]. cbn [map]. change (xsum (Fin a :: map Fin l)) with (xadd (Fin a) (xsum (map Fin l))). rewrite IH, rsum_cons. reflexivity. Qed.

(** The sum of squares and its tangent. *)
Lemma dual_squares `{P : Platform} (x : gt dual) l : carries x l ->
  @tsum (DualOps P) (@tsquare (DualOps P) x) = fd (rsum (map (fun a => a * a) (map fst l))) (2 * inner l).
Proof.
  intros H. unfold tsum, tsquare, un, emap. cbn [dat dt]. dx. rewrite H. cbn [fsum DualOps]. unfold fd. rewrite !map_map. cbn [fmul DualOps fst snd]. f_equal.
  - rewrite <- xsum_list, map_map. f_equal. 
  - unfold inner. rewrite <- rsum_scal, <- xsum_list, !map_map. f_equal. apply map_ext. intros [a t]. cbn. f_equal. lra.
Qed.
Lemma rsum_sq_pos l : 0 <= rsum (map (fun a => a * a) l).
Proof. induction l as [|a l IH]; cbn [map]; rewrite ?rsum_nil, ?rsum_cons; [lra|nra]. Qed.
Lemma dual_norm_pos `{P : Platform} (x : gt dual) l : carries x l -> 0 < norm2 (map fst l) ->
  @norm (DualOps P) x = fd (norm2 (map fst l)) (inner l / norm2 (map fst l)).
Proof.
  intros H Hn. unfold norm. rewrite (dual_squares x l H). unfold norm2 in *. set (q := rsum _) in *. assert (Hq : 0 < q) by (destruct (Rtotal_order q 0) as [G|[G|G]]; [pose proof (rsum_sq_pos (map fst l)); unfold q in G; lra|rewrite G, sqrt_0 in Hn; lra|exact G]).
  cbn [fsqrt DualOps]. unfold dun, fd. cbn [fst snd]. rewrite xsqrt_fin by lra. rewrite xdiv_fin by lra. rewrite xmul_fin. f_equal. f_equal. field. lra.
Qed.
Lemma dual_norm_zero `{P : Platform} (x : gt dual) l : carries x l -> norm2 (map fst l) = 0 -> @norm (DualOps P) x = (Fin 0, NaN).
Proof.
  intros H Hn. unfold norm. rewrite (dual_squares x l H).
  assert (Z : forall l, norm2 (map fst l) = 0 -> rsum (map (fun a => a * a) (map fst l)) = 0 /\ inner l = 0).
  { clear. intros l Hn. unfold norm2 in Hn. apply sqrt_eq_0 in Hn; [|apply rsum_sq_pos]. split; [exact Hn|]. unfold inner. induction l as [|[a t] l IH]; [reflexivity|]. cbn [map fst snd] in *. rewrite rsum_cons in *. pose proof (rsum_sq_pos (map fst l)).
    assert (a = 0) by nra. subst a. rewrite IH by nra. lra. }
  destruct (Z l Hn) as (-> & ->). cbn [fsqrt DualOps]. unfold dun, fd. cbn [fst snd]. rewrite xsqrt_fin by lra. rewrite sqrt_0. f_equal. rewrite xdiv_zero, Rmult_0_r. unfold rsgn. destruct (Rlt_dec 0 (/ 2)); [|lra]. cbn. unfold rsgn. destruct (Rlt_dec 0 0); [lra|]. reflexivity.
Qed.

(*@ C02_gradient : forward-mode differentiation of safe_norm(x, m), for every array x of finite values, every m >= 0 and every direction: the value is max(||x||, m) and the tangent is finite, 0 where ||x|| <= m and <x, t>/||x|| elsewhere. *)
Lemma safe_norm_jvp : forall `{P : Platform} (x : gt dual) (l : list (R * R)) (m : R), carries x l -> 0 <= m ->
  @safe_norm (DualOps P) x (dconst (Fin m)) =
    fd (Rmax (norm2 (map fst l)) m) (if Rle_dec (norm2 (map fst l)) m then 0 else inner l / norm2 (map fst l)).
Proof.
  intros P x l m H Hm. unfold safe_norm. cbn [fcast DualOps]. pose proof (sqrt_pos (rsum (map (fun a => a * a) (map fst l)))) as Hp. fold (norm2 (map fst l)) in Hp.
  destruct (Req_dec (norm2 (map fst l)) 0) as [E|E].
  - rewrite (dual_norm_zero x l H E). cbn [fle DualOps fst dconst]. destruct (xle (Fin 0) (Fin m)) eqn:Q; [|apply xle_fin_f in Q; lra].
    rewrite E. destruct (Rle_dec 0 m); [|lra]. rewrite Rmax_right by lra. reflexivity.
  - assert (Hn : 0 < norm2 (map fst l)) by lra. rewrite (dual_norm_pos x l H Hn). cbn [fle DualOps fst dconst fd]. destruct (Rle_dec (norm2 (map fst l)) m) as [C|C].
    + destruct (xle _ (Fin m)) eqn:Q; [|apply xle_fin_f in Q; lra]. rewrite Rmax_right by lra. reflexivity.
    + destruct (xle _ (Fin m)) eqn:Q; [apply xle_fin in Q; lra|]. etransitivity; [exact (dual_norm_pos x l H Hn)|]. rewrite Rmax_left by lra. reflexivity.
Qed.
Lemma sq_poly l s : rsum (map (fun a => a * a) (along l s)) = rsum (map (fun a => a * a) (map fst l)) + s * (2 * inner l) + s * s * rsum (map (fun a => a * a) (map snd l)).
Proof. unfold along, inner. induction l as [|[a t] l IH]; cbn [map fst snd]; rewrite ?rsum_nil, ?rsum_cons; [lra|]. rewrite IH. lra. Qed.
Lemma along_0 l : along l 0 = map fst l.
Proof. unfold along. apply map_ext. intros. lra. Qed.
Lemma along_limit l : 0 < norm2 (map fst l) -> derivable_pt_lim (fun s => norm2 (along l s)) 0 (inner l / norm2 (map fst l)).
Proof.
  intros Hn. set (q := rsum (map (fun a => a * a) (map fst l))). assert (Hq : 0 < q) by (unfold norm2 in Hn; fold q in Hn; destruct (Rtotal_order q 0) as [G|[G|G]]; [pose proof (rsum_sq_pos (map fst l)); unfold q in G; lra|rewrite G, sqrt_0 in Hn; lra|exact G]).
  set (v := rsum (map (fun a => a * a) (map snd l))).
  assert (D1 : derivable_pt_lim (fun s => q + s * (2 * inner l) + s * s * v) 0 ((0 + (1 * (2 * inner l) + 0 * 0)) + ((1 * 0 + 0 * 1) * v + (0 * 0) * 0))).
  {     apply (derivable_pt_lim_plus (fun s => q + s * (2 * inner l)) (fun s => s * s * v)).
    - apply (derivable_pt_lim_plus (fun _ => q) (fun s => s * (2 * inner l))); [apply derivable_pt_lim_const|]. apply (derivable_pt_lim_mult (fun s => s) (fun _ => 2 * inner l)); [apply derivable_pt_lim_id|apply derivable_pt_lim_const].
    - apply (derivable_pt_lim_mult (fun s => s * s) (fun _ => v)); [apply (derivable_pt_lim_mult (fun s => s) (fun s => s)); apply derivable_pt_lim_id|apply derivable_pt_lim_const]. }
  replace ((0 + (1 * (2 * inner l) + 0 * 0)) + ((1 * 0 + 0 * 1) * v + (0 * 0) * 0)) with (2 * inner l) in D1 by lra.
  pose proof (derivable_pt_lim_comp (fun s => q + s * (2 * inner l) + s * s * v) sqrt 0 (2 * inner l) (/ (2 * sqrt q)) D1) as D2. cbv beta in D2.
  replace (q + 0 * (2 * inner l) + 0 * 0 * v) with q in D2 by lra. specialize (D2 (derivable_pt_lim_sqrt q Hq)).
  replace (inner l / norm2 (map fst l)) with (/ (2 * sqrt q) * (2 * inner l)) by (unfold norm2; fold q; field; apply Rgt_not_eq, sqrt_lt_R0, Hq).
  intros eps He. destruct (D2 eps He) as (dl & Hd). exists dl. intros h H1 H2. specialize (Hd h H1 H2). unfold comp in Hd. unfold norm2. rewrite !sq_poly. exact Hd.
Qed.
(*@ C02_derivative : this tangent is the derivative at s = 0 of s |-> max(||x + s t||, m), wherever ||x|| <> m (m >= 0). *)
Lemma safe_norm_derivative : forall (l : list (R * R)) (m : R), 0 <= m -> norm2 (map fst l) <> m ->
  derivable_pt_lim (fun s => Rmax (norm2 (along l s)) m) 0 (if Rle_dec (norm2 (map fst l)) m then 0 else inner l / norm2 (map fst l)).
Proof.
  intros l m Hm Hne.
  assert (C : continuity_pt (fun s => norm2 (along l s)) 0).
  { intros. unfold norm2. apply (continuity_pt_comp (fun s => rsum (map (fun a => a * a) (along l s))) sqrt).
    - assert (forall s, rsum (map (fun a => a * a) (along l s)) = rsum (map (fun a => a * a) (map fst l)) + s * (2 * inner l) + s * s * rsum (map (fun a => a * a) (map snd l))) as E by apply sq_poly.
      intros eps He. assert (Cp : continuity (fun s => rsum (map (fun a => a * a) (map fst l)) + s * (2 * inner l) + s * s * rsum (map (fun a => a * a) (map snd l)))) by reg. destruct (Cp 0 eps He) as (a & Ha & Hb). exists a. split; [exact Ha|]. intros s Hs. specialize (Hb s Hs). cbv beta in Hb |- *. rewrite !E. exact Hb.
    - apply continuity_pt_sqrt. apply rsum_sq_pos. }
  assert (Gap : 0 < Rabs (norm2 (map fst l) - m)) by (apply Rabs_pos_lt; lra).
  destruct (C _ Gap) as (r & Hr & Hc). unfold dist in Hc. cbn in Hc. unfold R_dist, D_x, no_cond in Hc. rewrite along_0 in Hc.
  assert (Near : forall h, Rabs h < r -> Rabs (norm2 (along l h) - norm2 (map fst l)) < Rabs (norm2 (map fst l) - m)).
  { intros h Hh. destruct (Req_dec h 0) as [->|Hz]; [rewrite along_0, Rminus_eq_0, Rabs_R0; exact Gap|]. apply Hc. split; [split; [exact I|lra]|]. now rewrite Rminus_0_r. }
  destruct (Rle_dec (norm2 (map fst l)) m) as [L|L].
  - intros eps He. exists (mkposreal r Hr). intros h Hz Hh. cbn in Hh. rewrite Rplus_0_l, along_0. specialize (Near h Hh). rewrite (Rabs_left (norm2 (map fst l) - m)) in Near by lra.
    rewrite (Rmax_right (norm2 (map fst l))) by lra. rewrite Rmax_right by (unfold Rabs in Near; destruct (Rcase_abs _) in Near; lra). replace ((m - m) / h - 0) with 0 by (field; exact Hz). now rewrite Rabs_R0.
  - destruct (Rle_lt_dec (norm2 (map fst l)) 0) as [Z|Z]; [lra|]. intros eps He. destruct (along_limit l Z eps He) as (dl & Hd). assert (Hmin : 0 < Rmin dl r) by (apply Rmin_glb_lt; [apply cond_pos|exact Hr]).
    exists (mkposreal _ Hmin). intros h Hz Hh. cbn in Hh. assert (h1 : Rabs h < dl) by (eapply Rlt_le_trans; [exact Hh|apply Rmin_l]). assert (h2 : Rabs h < r) by (eapply Rlt_le_trans; [exact Hh|apply Rmin_r]).
    specialize (Hd h Hz h1). specialize (Near h h2). rewrite (Rabs_right (norm2 (map fst l) - m)) in Near by lra. rewrite Rplus_0_l in *. rewrite along_0 in *. rewrite !Rmax_left; [exact Hd|lra|]. unfold Rabs in Near. destruct (Rcase_abs _) in Near; lra.
Qed.
(*@ C02_naive : the same differentiation of the naive jnp.maximum(jnp.linalg.norm(x), m) at x = 0 has a NaN tangent, for every m and every direction. *)
Lemma naive_nan : forall `{P : Platform} (x : gt dual) (l : list (R * R)) (m : R), carries x l -> (forall p, In p l -> fst p = 0) ->
  @naive_norm (DualOps P) x (dconst (Fin m)) = (Fin (Rmax 0 m), NaN).
Proof.
  intros P x l m H Hz. assert (E : norm2 (map fst l) = 0).
  { unfold norm2. replace (rsum _) with 0; [apply sqrt_0|]. clear H. induction l as [|p l IH]; [reflexivity|]. cbn [map]. rewrite rsum_cons, (Hz p) by now left. rewrite <- IH; [lra|]. intros; apply Hz; now right. }
  unfold naive_norm. rewrite (dual_norm_zero x l H E). reflexivity.
Qed.
(*@ C02_negative_min : a finding: with a negative min_norm the masking never applies and the tangent at x = 0 is NaN. *)
Lemma safe_norm_negative : forall `{P : Platform} (x : gt dual) (l : list (R * R)) (m : R), carries x l -> (forall p, In p l -> fst p = 0) -> m < 0 ->
  @safe_norm (DualOps P) x (dconst (Fin m)) = (Fin 0, NaN).
Proof.
  intros P x l m H Hz Hm. assert (E : norm2 (map fst l) = 0).
  { unfold norm2. replace (rsum _) with 0; [apply sqrt_0|]. clear H. induction l as [|p l IH]; [reflexivity|]. cbn [map]. rewrite rsum_cons, (Hz p) by now left. rewrite <- IH; [lra|]. intros; apply Hz; now right. }
  unfold safe_norm. pose proof (dual_norm_zero x l H E) as N. rewrite N. cbn [fle fcast DualOps fst dconst]. destruct (xle (Fin 0) (Fin m)) eqn:Q; [apply xle_fin in Q; lra|]. exact N.
Qed.
(*@ex C02_gradient_example *)
Lemma safe_norm_jvp_example : forall `{P : Platform}, let x : gt dual := mkT F32 [2%nat] [fd 3 1; fd 4 0] in
  carries x [(3, 1); (4, 0)] /\ @safe_norm (DualOps P) x (dconst (Fin 1)) = fd 5 (3 / 5) /\ @safe_norm (DualOps P) x (dconst (Fin 6)) = fd 6 0.
Proof.
  intros P x. assert (C : carries x [(3, 1); (4, 0)]) by reflexivity. split; [exact C|].
  assert (N : norm2 (map fst [(3, 1); (4, 0)]) = 5). { unfold norm2. cbn [map fst]. rewrite !rsum_cons, rsum_nil. replace (3 * 3 + (4 * 4 + 0)) with (5 * 5) by lra. apply sqrt_square. lra. }
  assert (I : inner [(3, 1); (4, 0)] = 3). { unfold inner. cbn [map fst snd]. rewrite !rsum_cons, rsum_nil. lra. }
  rewrite !(safe_norm_jvp x _ _ C) by lra. rewrite N, I. destruct (Rle_dec 5 1), (Rle_dec 5 6); try lra. rewrite Rmax_left, Rmax_right by lra. auto.
Qed.
