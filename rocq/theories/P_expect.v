(** The three gradient estimators are unbiased (C79). *)
From Coquelicot Require Import Coquelicot.
From Verif Require Export Gauss P_score.
From Coq Require Import List Psatz Reals Qreals Lia.
Import ListNotations.
Open Scope R_scope.
(*@header
From Coquelicot Require Import Coquelicot.
From Coq Require Import List.
Import ListNotations.
Open Scope R_scope.
*)

(** ** Specification *)
(** The array z with the entry [n, k] replaced by t: the other draws are held fixed. *)
Definition setd (z : nat -> nat -> R) (n k : nat) (t : R) : nat -> nat -> R := fun n' i => if ((n' =? n) && (i =? k))%nat then t else z n' i.
(** The function along coordinate k through the n-th sample. *)
Definition along (phi : rvec -> R) (X : rvec) (k : nat) (x : R) : R := phi (upd X k x).

Lemma point_ext d D v v' : (forall i, (i < D)%nat -> v i = v' i) -> point d D v = point d D v'.
Proof. intros H. unfold point. f_equal. apply map_ext_in. intros i Hi. apply In_seq0 in Hi. now rewrite H. Qed.
Lemma dpoint_ext d D v v' t : (forall i, (i < D)%nat -> v i = v' i) -> dpoint d D v t = dpoint d D v' t.
Proof. intros H. unfold dpoint. f_equal. apply map_ext_in. intros i Hi. apply In_seq0 in Hi. now rewrite H. Qed.
Lemma gauss_setd mu s z n k t i : gauss mu s (setd z n k t) n i = upd (gauss mu s z n) k (mu k + exp (s k) * t) i.
Proof. unfold gauss, setd, upd. rewrite Nat.eqb_refl. cbn [andb]. destruct (Nat.eqb_spec i k) as [->|]; reflexivity. Qed.
Lemma upd_setd mu s z n k t x i : upd (gauss mu s (setd z n k t) n) k x i = upd (gauss mu s z n) k x i.
Proof. unfold upd. destruct (Nat.eqb_spec i k) as [|E]; [reflexivity|]. rewrite gauss_setd. unfold upd. now rewrite (proj2 (Nat.eqb_neq i k) E). Qed.
Lemma setd_at z n k t : setd z n k t n k = t.
Proof. unfold setd. now rewrite !Nat.eqb_refl. Qed.

Lemma J_derive_m h s (J : R -> R) m dm : (forall x, continuous h x) -> tame h -> (forall m, E_normal (fun x => h (m + exp s * x)) (J m)) -> is_derive (fun m => gmean h m s) m dm -> is_derive J m dm.
Proof. intros Hh Ht HJ. apply is_derive_ext. intros t. exact (line_unique _ _ _ (gmean_correct h Hh Ht t s) (HJ t)). Qed.
Lemma J_derive_s h m (J : R -> R) s ds : (forall x, continuous h x) -> tame h -> (forall r, E_normal (fun x => h (m + exp r * x)) (J r)) -> is_derive (fun s => gmean h m s) s ds -> is_derive J s ds.
Proof. intros Hh Ht HJ. apply is_derive_ext. intros t. exact (line_unique _ _ _ (gmean_correct h Hh Ht m t) (HJ t)). Qed.

(*@ C79_laws : The four laws used below are probability laws, their total mass is 1, and every continuous function of at most exponential growth has an expectation under the normal law of every mean and standard deviation. *)
Lemma laws_ok : E_normal (fun _ => 1) 1 /\ E_weibull (fun _ => 1) 1 /\ E_maxwell (fun _ => 1) 1 /\ E_uniform (fun _ => 1) 1 /\
  forall h, (forall x, continuous h x) -> tame h -> exists J : R -> R -> R, forall m s, E_normal (fun x => h (m + exp s * x)) (J m s).
Proof.
  split; [apply normal_mass|]. split; [apply weibull_mass|]. split; [apply maxwell_mass|]. split; [apply uniform_mass|].
  intros h Hh Ht. exists (gmean h). intros m s. exact (gmean_correct h Hh Ht m s).
Qed.

(*@ C79_score : score_function_jacobians with multi_normal is unbiased.  Fix every draw but the standard normal draw t behind entry k of sample n, for any continuous function of at most exponential growth along that coordinate: the [n, k] entries of the two jacobians, as functions of t, have as expectation exactly the derivative of the expected function value with respect to the mean, respectively the log-scale.  The function need not be differentiable. *)
Lemma score_unbiased : forall `{P : Platform} (f : gt dual -> dual) (phi : rvec -> R) (loc ls : gt XR) (d : fdt) (D N : nat) (mu s : rvec) (rng : R -> p_key P) (z : nat -> nat -> R) (n k : nat) (Jm Js : R -> R),
  let D1 := promote (@defdt (XROps P)) d in let h := along phi (gauss mu s z n) k in
  (forall v, f (dpoint D1 D v (fun _ => 0)) = fd (phi v) 0) -> is_vec loc d D mu -> is_vec ls d D s -> (n < N)%nat -> (k < D)%nat ->
  (forall t, draws_are (p_knormal P (rng t) (@defdt (XROps P)) [N; D]) N D (setd z n k t)) ->
  (forall x, continuous h x) -> tame h ->
  (forall m, E_normal (fun x => h (m + exp (s k) * x)) (Jm m)) -> (forall r, E_normal (fun x => h (mu k + exp r * x)) (Js r)) ->
  exists (gm gs : R -> R) (dm ds : R),
    (forall t, exists jm js, score_function_jacobians f [loc; ls] BNormal (rng t) N = Ok [jm; js] /\ @tget (XROps P) jm [n; k] = Fin (gm t) /\ @tget (XROps P) js [n; k] = Fin (gs t)) /\
    E_normal gm dm /\ is_derive Jm (mu k) dm /\ E_normal gs ds /\ is_derive Js (s k) ds.
Proof.
  intros P f phi loc ls d D N mu s rng z n k Jm Js D1 h Hf Hl Hs Hn Hk Hz Hh Ht HJm HJs.
  destruct (gmean_dm h Hh Ht (mu k) (s k)) as (dm & Em & Dm). destruct (gmean_ds h Hh Ht (mu k) (s k)) as (ds & Es & Ds).
  exists (fun x => h (mu k + exp (s k) * x) * (x / exp (s k))), (fun x => h (mu k + exp (s k) * x) * (x * x - 1)), dm, ds.
  split; [|split; [exact Em|split; [exact (J_derive_m h (s k) Jm (mu k) dm Hh Ht HJm Dm)|split; [exact Es|exact (J_derive_s h (mu k) Js (s k) ds Hh Ht HJs Ds)]]]].
  intros t. destruct (score f phi loc ls d D N mu s (rng t) (setd z n k t) Hf Hl Hs (Hz t)) as (jm & js & E & R1 & R2). exists jm, js. split; [exact E|].
  assert (Ep : phi (gauss mu s (setd z n k t) n) = h (mu k + exp (s k) * t)).
  { unfold h, along. assert (H := Hf (upd (gauss mu s z n) k (mu k + exp (s k) * t))). rewrite <- (dpoint_ext D1 D (gauss mu s (setd z n k t) n)) in H by (intros; apply gauss_setd). rewrite Hf in H. unfold fd in H. now injection H. }
  pose proof (exp_nz (s k)).
  split; [rewrite (rect_get _ _ _ _ _ n k R1 Hn Hk)|rewrite (rect_get _ _ _ _ _ n k R2 Hn Hk)]; cbv beta; rewrite Ep, gauss_setd; unfold upd; rewrite Nat.eqb_refl; f_equal; f_equal; field; assumption.
Qed.

(*@ C79_pathwise : pathwise_jacobians with multi_normal is unbiased, in the same sense, for every function that is continuously differentiable along the coordinate, with value and derivative of at most exponential growth. *)
Lemma pathwise_unbiased : forall `{P : Platform} (f : gt dual -> dual) (phi : rvec -> R) (grad : rvec -> rvec) (loc ls : gt XR) (d : fdt) (D N : nat) (mu s : rvec) (rng : R -> p_key P) (z : nat -> nat -> R) (n k : nat) (Jm Js : R -> R),
  let D1 := promote (@defdt (XROps P)) d in let h := along phi (gauss mu s z n) k in let h' := fun x => grad (upd (gauss mu s z n) k x) k in
  differentiates f D1 D phi grad -> is_vec loc d D mu -> is_vec ls d D s -> (n < N)%nat -> (k < D)%nat ->
  (forall t, draws_are (p_knormal P (rng t) (@defdt (XROps P)) [N; D]) N D (setd z n k t)) ->
  (forall x, is_derive h x (h' x)) -> (forall x, continuous h' x) -> tame h -> tame h' ->
  (forall m, E_normal (fun x => h (m + exp (s k) * x)) (Jm m)) -> (forall r, E_normal (fun x => h (mu k + exp r * x)) (Js r)) ->
  exists (gm gs : R -> R) (dm ds : R),
    (forall t, exists jm js, pathwise_jacobians f [loc; ls] BNormal (rng t) N = Ok [jm; js] /\ @tget (XROps P) jm [n; k] = Fin (gm t) /\ @tget (XROps P) js [n; k] = Fin (gs t)) /\
    E_normal gm dm /\ is_derive Jm (mu k) dm /\ E_normal gs ds /\ is_derive Js (s k) ds.
Proof.
  intros P f phi grad loc ls d D N mu s rng z n k Jm Js D1 h h' Hf Hl Hs Hn Hk Hz Hd Hh' Ht Ht' HJm HJs.
  assert (Hh : forall x, continuous h x) by (intros x; exact (derive_cont h x _ (Hd x))).
  destruct (gmean_dm h Hh Ht (mu k) (s k)) as (dm & Em & Dm). destruct (gmean_ds h Hh Ht (mu k) (s k)) as (ds & Es & Ds).
  exists (fun x => h' (mu k + exp (s k) * x)), (fun x => h' (mu k + exp (s k) * x) * (exp (s k) * x)), dm, ds.
  split; [|split; [exact (stein_m h Hh Ht (mu k) (s k) h' dm Hd Hh' Ht' Em)|split; [exact (J_derive_m h (s k) Jm (mu k) dm Hh Ht HJm Dm)|split; [exact (stein_s h Hh Ht (mu k) (s k) h' ds Hd Hh' Ht' Es)|exact (J_derive_s h (mu k) Js (s k) ds Hh Ht HJs Ds)]]]].
  intros t. destruct (pathwise f phi grad loc ls d D N mu s (rng t) (setd z n k t) Hf Hl Hs (Hz t)) as (jm & js & E & R1 & R2). exists jm, js. split; [exact E|].
  assert (Ep : grad (gauss mu s (setd z n k t) n) k = h' (mu k + exp (s k) * t)).
  { unfold h'. assert (H := Hf (upd (gauss mu s z n) k (mu k + exp (s k) * t)) (idm k)). rewrite <- (dpoint_ext D1 D (gauss mu s (setd z n k t) n)) in H by (intros; apply gauss_setd). rewrite Hf in H. rewrite !Sig_idm in H by exact Hk. unfold fd in H. now injection H. }
  split; [rewrite (rect_get _ _ _ _ _ n k R1 Hn Hk)|rewrite (rect_get _ _ _ _ _ n k R2 Hn Hk)]; cbv beta; rewrite Ep, ?setd_at; reflexivity.
Qed.

(*@ C79_measure_mean : measure_valued_jacobians, with or without coupling, is unbiased for the mean: a is the Weibull draw of the first key at entry [n, k], b that of the second (unused with coupling), everything else is held fixed; the expectation over both of the [n, k] entry is the derivative of the expected function value.  No derivative of the function is assumed. *)
Lemma mv_mean_unbiased : forall `{P : Platform} (f : gt dual -> dual) (phi : rvec -> R) (loc ls : gt XR) (d : fdt) (D N : nat) (mu s : rvec) (rng pos neg : R -> R -> p_key P) (coupling : bool) (z w w' : nat -> nat -> R) (n k : nat) (Jm : R -> R),
  let D1 := promote (@defdt (XROps P)) d in let h := along phi (gauss mu s z n) k in
  computes f D1 D phi -> is_vec loc d D mu -> is_vec ls d D s -> (n < N)%nat -> (k < D)%nat ->
  (forall a b, 0 <= a -> 0 <= b -> p_ksplit P (rng a b) 2 = [pos a b; neg a b] /\ draws_are (p_knormal P (rng a b) (@defdt (XROps P)) [N; D]) N D z /\
    draws_are (p_kdraw P LWeibull (pos a b) [N; D]) N D (setd w n k a) /\ draws_are (p_kdraw P LWeibull (neg a b) [N; D]) N D (setd w' n k b) /\
    exists m u z', draws_are (p_kdraw P LMaxwell (pos a b) [N; D]) N D m /\ draws_are (p_kdraw P LUniform (neg a b) [N; D]) N D u /\ draws_are (p_knormal P (neg a b) (@defdt (XROps P)) [N; D]) N D z') ->
  (forall x, continuous h x) -> tame h -> (forall m, E_normal (fun x => h (m + exp (s k) * x)) (Jm m)) ->
  exists (g : R -> R -> R) (avg : R -> R) (dm : R),
    (forall a b, 0 <= a -> 0 <= b -> exists gm gs, measure_valued_jacobians coupling f [loc; ls] BNormal (rng a b) N = Ok [gm; gs] /\ @tget (XROps P) gm [n; k] = Fin (g a b)) /\
    (forall a, E_weibull (g a) (avg a)) /\ E_weibull avg dm /\ is_derive Jm (mu k) dm.
Proof.
  intros P f phi loc ls d D N mu s rng pos neg coupling z w w' n k Jm D1 h Hf Hl Hs Hn Hk Hz Hh Ht HJm.
  destruct (gmean_dm h Hh Ht (mu k) (s k)) as (dm & Em & Dm). destruct (mv_m h Hh Ht (mu k) (s k) dm Em) as (a0 & b0 & Ha & Hb & Eab).
  pose proof (exp_nz (s k)) as Hx. pose proof sqrt2pi as Hp.
  set (c := / (sqrt (2 * PI) * exp (s k))).
  set (g := fun a b => c * h (mu k + exp (s k) * a) + - c * h (mu k - exp (s k) * (if coupling then a else b))).
  exists g, (fun a => if coupling then g a a else c * h (mu k + exp (s k) * a) + - c * b0), dm. split; [|split; [|split]].
  - intros a b Pa Pb. destruct (Hz a b Pa Pb) as (Ek & Hz0 & Hw & Hw' & m & u & z' & Hm & Hu & Hz').
    destruct (mv_jacobians f phi loc ls d D N mu s (rng a b) (pos a b) (neg a b) coupling z (setd w n k a) (if coupling then setd w n k a else setd w' n k b) m u z' Hf Hl Hs Ek Hz0 Hw) as (gm & gs & E & R1 & _); [destruct coupling; assumption|exact Hm|destruct coupling; assumption|].
    exists gm, gs. split; [exact E|]. rewrite (rect_get _ _ _ _ _ n k R1 Hn Hk). f_equal. unfold g, c, h, along. rewrite setd_at. replace ((if coupling then setd w n k a else setd w' n k b) n k) with (if coupling then a else b) by (destruct coupling; now rewrite setd_at). field. auto.
  - intros a. unfold g. destruct coupling.
    + apply E_weibull_const.
    + pose proof (E_weibull_lin _ _ _ _ 1 (- c) (E_weibull_const (c * h (mu k + exp (s k) * a))) Hb) as H. rewrite Rmult_1_l in H. eapply E_weibull_ext; [|exact H]. intros x _. cbv beta. now rewrite Rmult_1_l.
  - replace dm with (c * a0 + - c * b0) by (rewrite <- Eab; unfold c; field; auto). unfold g. destruct coupling.
    + exact (E_weibull_lin _ _ _ _ c (- c) Ha Hb).
    + pose proof (E_weibull_lin _ _ _ _ c 1 Ha (E_weibull_const (- c * b0))) as H. rewrite Rmult_1_l in H. eapply E_weibull_ext; [|exact H]. intros x _. cbv beta. now rewrite Rmult_1_l.
  - exact (J_derive_m h (s k) Jm (mu k) dm Hh Ht HJm Dm).
Qed.

(*@ C79_measure_scale : measure_valued_jacobians is unbiased for the log-scale: a is the double-sided Maxwell draw of the first key at entry [n, k] and b the second key's draw there, uniform with coupling and normal without; the expectation over b and then a of the [n, k] entry is the derivative of the expected function value with respect to the log-scale. *)
Lemma mv_scale_unbiased : forall `{P : Platform} (f : gt dual -> dual) (phi : rvec -> R) (loc ls : gt XR) (d : fdt) (D N : nat) (mu s : rvec) (rng pos neg : R -> R -> p_key P) (coupling : bool) (z m u z' : nat -> nat -> R) (n k : nat) (Js : R -> R),
  let D1 := promote (@defdt (XROps P)) d in let h := along phi (gauss mu s z n) k in
  computes f D1 D phi -> is_vec loc d D mu -> is_vec ls d D s -> (n < N)%nat -> (k < D)%nat ->
  (forall a b, (coupling = true -> 0 <= b <= 1) -> p_ksplit P (rng a b) 2 = [pos a b; neg a b] /\ draws_are (p_knormal P (rng a b) (@defdt (XROps P)) [N; D]) N D z /\
    draws_are (p_kdraw P LMaxwell (pos a b) [N; D]) N D (setd m n k a) /\
    (if coupling then draws_are (p_kdraw P LUniform (neg a b) [N; D]) N D (setd u n k b) else draws_are (p_knormal P (neg a b) (@defdt (XROps P)) [N; D]) N D (setd z' n k b)) /\
    exists w w', draws_are (p_kdraw P LWeibull (pos a b) [N; D]) N D w /\ draws_are (p_kdraw P LWeibull (neg a b) [N; D]) N D w') ->
  (forall x, continuous h x) -> tame h -> (forall r, E_normal (fun x => h (mu k + exp r * x)) (Js r)) ->
  exists (g : R -> R -> R) (avg : R -> R) (ds : R),
    (forall a b, (coupling = true -> 0 <= b <= 1) -> exists gm gs, measure_valued_jacobians coupling f [loc; ls] BNormal (rng a b) N = Ok [gm; gs] /\ @tget (XROps P) gs [n; k] = Fin (g a b)) /\
    (forall a, if coupling then E_uniform (g a) (avg a) else E_normal (g a) (avg a)) /\ E_maxwell avg ds /\ is_derive Js (s k) ds.
Proof.
  intros P f phi loc ls d D N mu s rng pos neg coupling z m u z' n k Js D1 h Hf Hl Hs Hn Hk Hz Hh Ht HJs.
  destruct (gmean_ds h Hh Ht (mu k) (s k)) as (ds & Es & Ds). pose proof (mv_s h Hh Ht (mu k) (s k) ds Es) as Hm.
  set (g := fun a b => h (mu k + exp (s k) * a) - h (mu k + exp (s k) * (if coupling then b * a else b))).
  assert (Hi : forall a, exists i, E_uniform (fun v => h (mu k + exp (s k) * (v * a))) i) by (intros a; destruct (prim_uniform h Hh (mu k) (s k) a) as (i & Hi & _); exists i; exact Hi).
  set (i := fun a => RInt (fun v => h (mu k + exp (s k) * (v * a))) 0 1).
  assert (Hi' : forall a, E_uniform (fun v => h (mu k + exp (s k) * (v * a))) (i a)). { intros a. destruct (Hi a) as (j & Hj). unfold i. rewrite (is_RInt_unique _ _ _ _ Hj). exact Hj. }
  exists g, (fun a => if coupling then h (mu k + exp (s k) * a) - i a else h (mu k + exp (s k) * a) - gmean h (mu k) (s k)), ds. split; [|split; [|split]].
  - intros a b Pb. destruct (Hz a b Pb) as (Ek & Hz0 & Hmx & Hv & w & w' & Hw & Hw').
    destruct (mv_jacobians f phi loc ls d D N mu s (rng a b) (pos a b) (neg a b) coupling z w (if coupling then w else w') (setd m n k a) (setd u n k b) (setd z' n k b) Hf Hl Hs Ek Hz0 Hw) as (gm & gs & E & _ & R2); [destruct coupling; assumption|exact Hmx|exact Hv|].
    exists gm, gs. split; [exact E|]. rewrite (rect_get _ _ _ _ _ n k R2 Hn Hk). f_equal. unfold g, h, along. rewrite !setd_at. reflexivity.
  - intros a. unfold g. destruct coupling.
    + apply (is_RInt_minus (V := R_NormedModule)); [|exact (Hi' a)]. pose proof (is_RInt_const (V := R_NormedModule) 0 1 (h (mu k + exp (s k) * a))) as H. unfold scal in H; cbn in H; unfold mult in H; cbn in H. now rewrite Rminus_0_r, Rmult_1_l in H.
    + pose proof (E_normal_lin _ _ _ _ 1 (-1) (E_normal_const (h (mu k + exp (s k) * a))) (gmean_correct h Hh Ht (mu k) (s k))) as H.
      replace (h (mu k + exp (s k) * a) - gmean h (mu k) (s k)) with (1 * h (mu k + exp (s k) * a) + -1 * gmean h (mu k) (s k)) by ring. eapply E_normal_ext; [|exact H]. intros x. cbv beta. ring.
  - replace ds with (1 * (gmean h (mu k) (s k) + ds) + -1 * gmean h (mu k) (s k)) by ring. destruct coupling.
    + pose proof (E_maxwell_lin _ _ _ _ 1 (-1) Hm (mv_coupled h Hh Ht (mu k) (s k) i Hi')) as H. eapply E_maxwell_ext; [|exact H]. intros x. cbv beta. ring.
    + pose proof (E_maxwell_lin _ _ _ _ 1 (-1) Hm (E_maxwell_const (gmean h (mu k) (s k)))) as H. eapply E_maxwell_ext; [|exact H]. intros x. cbv beta. ring.
  - exact (J_derive_s h (mu k) Js (s k) ds Hh Ht HJs Ds).
Qed.

(** Example: the function sum(x^2) at mu = (3, 4), sigma = (1, 1), one sample, entry [0, 0], the other draw being 1; the expected value is m^2 + exp(2 s) + 25. *)
Definition ex_keys : Platform := Build_Platform false (R * R * nat) (fun _ => (0, 0, 0%nat)) (fun k _ => [(fst (fst k), snd (fst k), 1%nat); (fst (fst k), snd (fst k), 2%nat)])
  (fun k _ _ i => Fin (if (i =? 0)%nat then match snd k with 0%nat => fst (fst k) | 2%nat => snd (fst k) | _ => 1 end else 1))
  (fun _ k _ i => Fin (if (i =? 0)%nat then match snd k with 1%nat => fst (fst k) | 2%nat => snd (fst k) | _ => 1 end else 1)).
Definition ex_phi : rvec -> R := fun v => Sig 2 (fun i => v i * v i).
Definition ex_mu : rvec := fun i => if (i =? 0)%nat then 3 else 4.
Definition ex_sc : rvec := fun i => if (i =? 0)%nat then 0 else 0.
Lemma ex_along x : along ex_phi (gauss ex_mu ex_sc (fun _ _ => 1) 0) 0 x = x * x + 25.
Proof. unfold along, ex_phi, Sig, upd, gauss, ex_mu, ex_sc. cbn. rewrite !rsum_cons, rsum_nil, exp_0. ring. Qed.
Lemma first_moment : E_normal (fun x => x) 0.
Proof.
  destruct (tame_dom (fun _ => -1) (tame_const (-1))) as (K & HK). apply (line_derive K (fun x => -1 * npdf x)); [| |exact HK].
  - intros x. evar_last; [apply is_derive_scal, npdf_derive|]. unfold scal; cbn. unfold mult; cbn. ring.
  - intros x. apply cont_mult; [apply continuous_id|apply npdf_cont].
Qed.
Lemma second_moment : E_normal (fun x => x * x) 1.
Proof. eapply line_ext; [|exact maxwell_mass]. intros x. cbv beta. ring. Qed.
Lemma ex_value m s : E_normal (fun x => along ex_phi (gauss ex_mu ex_sc (fun _ _ => 1) 0) 0 (m + exp s * x)) (m * m + exp s * exp s + 25).
Proof.
  replace (m * m + exp s * exp s + 25) with (1 * (2 * m * exp s * 0 + exp s * exp s * 1) + 1 * (m * m + 25)) by ring.
  eapply E_normal_ext; [|apply E_normal_lin; [apply E_normal_lin; [exact first_moment|exact second_moment]|apply E_normal_const]]. intros x. cbv beta. rewrite ex_along. ring.
Qed.
Lemma ex_cont x : continuous (along ex_phi (gauss ex_mu ex_sc (fun _ _ => 1) 0) 0) x.
Proof. apply (continuous_ext (fun x => x * x + 25)); [intros; symmetry; apply ex_along|]. apply (ex_derive_continuous (K := R_AbsRing) (V := R_NormedModule)). auto_derive. exact I. Qed.
Lemma ex_tame : tame (along ex_phi (gauss ex_mu ex_sc (fun _ _ => 1) 0) 0).
Proof. apply (tame_ext (fun x => x * x + 25)); [intros; symmetry; apply ex_along|]. apply tame_plus; [apply tame_mult; apply tame_id|apply tame_const]. Qed.
Lemma ex_sumsq v : sum_sq (dpoint F32 2 v (fun _ => 0)) = fd (ex_phi v) 0.
Proof. rewrite sum_sq_diff. unfold fd. f_equal. f_equal. unfold Sig. cbn. rewrite !rsum_cons, rsum_nil. ring. Qed.
Lemma ex_computes : @computes ex_keys sum_sq F32 2 ex_phi.
Proof. intros v. unfold valf. etransitivity; [|exact (f_equal fst (ex_sumsq v))]. f_equal. Qed.
(*@ex C79_example *)
Lemma expect_example : exists (gm gs cm : R -> R),
  (forall t, exists jm js, @score_function_jacobians ex_keys sum_sq [ex_loc; ex_ls] BNormal (t, 0, 0%nat) 1 = Ok [jm; js] /\ @tget (XROps ex_keys) jm [0; 0]%nat = Fin (gm t) /\ @tget (XROps ex_keys) js [0; 0]%nat = Fin (gs t)) /\
  E_normal gm 6 /\ E_normal gs 2 /\
  (exists g : R -> R -> R, (forall a b, 0 <= a -> 0 <= b -> exists jm js, @measure_valued_jacobians ex_keys false sum_sq [ex_loc; ex_ls] BNormal (a, b, 3%nat) 1 = Ok [jm; js] /\ @tget (XROps ex_keys) jm [0; 0]%nat = Fin (g a b)) /\
    (forall a, E_weibull (g a) (cm a)) /\ E_weibull cm 6).
Proof.
  assert (D1 : forall m, is_derive (fun m => m * m + exp (ex_sc 0%nat) * exp (ex_sc 0%nat) + 25) m (2 * m)) by (intros m; auto_derive; [exact I|ring]).
  assert (D2 : is_derive (fun r => ex_mu 0%nat * ex_mu 0%nat + exp r * exp r + 25) (ex_sc 0%nat) 2) by (auto_derive; [exact I|unfold ex_sc; cbn; rewrite exp_0; ring]).
  destruct (@score_unbiased ex_keys sum_sq ex_phi ex_loc ex_ls F32 2 1 ex_mu ex_sc (fun t => (t, 0, 0%nat)) (fun _ _ => 1) 0 0 (fun m => m * m + exp (ex_sc 0%nat) * exp (ex_sc 0%nat) + 25) (fun r => ex_mu 0%nat * ex_mu 0%nat + exp r * exp r + 25) ex_sumsq (ex_vec 3 4) (ex_vec 0 0) ltac:(lia) ltac:(lia)) as (gm & gs & dm & ds & E & Em & Dm & Es & Ds).
  { intros t n k Hn Hk. assert (n = 0%nat) by lia. subst n. destruct k as [|[|k]]; [reflexivity|reflexivity|lia]. }
  { apply ex_cont. } { apply ex_tame. } { intros m. apply ex_value. } { intros r. apply ex_value. }
  assert (Edm : dm = 2 * ex_mu 0%nat) by (rewrite <- (is_derive_unique _ _ _ Dm); exact (is_derive_unique _ _ _ (D1 (ex_mu 0%nat)))).
  assert (Eds : ds = 2) by (rewrite <- (is_derive_unique _ _ _ Ds); exact (is_derive_unique _ _ _ D2)).
  destruct (@mv_mean_unbiased ex_keys sum_sq ex_phi ex_loc ex_ls F32 2 1 ex_mu ex_sc (fun a b => (a, b, 3%nat)) (fun a b => (a, b, 1%nat)) (fun a b => (a, b, 2%nat)) false (fun _ _ => 1) (fun _ _ => 1) (fun _ _ => 1) 0 0 (fun m => m * m + exp (ex_sc 0%nat) * exp (ex_sc 0%nat) + 25) ex_computes (ex_vec 3 4) (ex_vec 0 0) ltac:(lia) ltac:(lia)) as (g & cm & dm' & Eg & Ha & Hc & Dm').
  { intros a b _ _. split; [reflexivity|]. split; [intros n k Hn Hk; destruct (n * 2 + k)%nat; reflexivity|].
    split; [intros n k Hn Hk; assert (n = 0%nat) by lia; subst n; destruct k as [|[|k]]; [reflexivity|reflexivity|lia]|].
    split; [intros n k Hn Hk; assert (n = 0%nat) by lia; subst n; destruct k as [|[|k]]; [reflexivity|reflexivity|lia]|].
    exists (setd (fun _ _ => 1) 0 0 a), (setd (fun _ _ => 1) 0 0 b), (setd (fun _ _ => 1) 0 0 b). repeat split; intros n k Hn Hk; assert (n = 0%nat) by lia; subst n; destruct k as [|[|k]]; try reflexivity; lia. }
  { apply ex_cont. } { apply ex_tame. } { intros m. apply ex_value. }
  assert (Edm' : dm' = 2 * ex_mu 0%nat) by (rewrite <- (is_derive_unique _ _ _ Dm'); exact (is_derive_unique _ _ _ (D1 (ex_mu 0%nat)))).
  assert (E6 : 2 * ex_mu 0%nat = 6) by (unfold ex_mu; cbn; ring). rewrite E6 in Edm, Edm'. subst dm ds dm'.
  exists gm, gs, cm. split; [exact E|]. split; [exact Em|]. split; [exact Es|]. exists g. split; [exact Eg|]. split; [exact Ha|exact Hc].
Qed.
