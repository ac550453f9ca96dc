(** sgd on randomly drawn examples: what holds on average over all draws (C92). *)
From Verif Require Import P_elem P_pipe.
From Verif Require Export P_relaxed.
From Coq Require Import List Psatz.
Import ListNotations.
Open Scope R_scope.
(*@header
From Verif Require Import P_pipe.
From Coq Require Import List.
Import ListNotations.
Open Scope R_scope.
*)

(** ** Specification *)
(** All sequences of n examples out of a training set of M (examples are numbered from 0; drawn with replacement). *)
Fixpoint draws (M n : nat) : list (list nat) := match n with 0%nat => [[]] | S m => flat_map (fun js => map (fun j => js ++ [j]) (seq 0 M)) (draws M m) end.
Definition average {A} (h : A -> R) (l : list A) : R := rsum (map h l) / INR (length l).
(** The parameters after training with one step per example of [js]; [grads j] computes the gradient of example j. *)
Definition trained `{P : Platform} (T : @GT (XROps P)) (grads : nat -> tree (gt XR) -> tree (gt XR)) (p : tree (gt XR)) (js : list nat) : list R :=
  match @fit (XROps P) T (fun i => grads (nth i js 0%nat)) (length js) p with Ok (x, _) => rvals x | Err _ => [] end.
(** [q] minimises the loss [f], of which the average of the examples' gradients is a subgradient towards q, with strong convexity mu >= 0;
    the average squared gradient grows at most like A times the excess loss, plus G. *)
Definition training_loss `{P : Platform} (p : tree (gt XR)) (M : nat) (grads : nat -> tree (gt XR) -> tree (gt XR)) (f : list R -> R) (q : list R) (mu A G : R) : Prop :=
  length q = length (rvals p) /\ forall x, point_of p x ->
    (forall j, (j < M)%nat -> point_of p (grads j x)) /\ f q <= f (rvals x) /\
    f (rvals x) - f q + mu / 2 * sumsq (vsub (rvals x) q) <= average (fun j => dot (rvals (grads j x)) (vsub (rvals x) q)) (seq 0 M) /\
    average (fun j => sumsq (rvals (grads j x))) (seq 0 M) <= A * (f (rvals x) - f q) + G.

(** ** Averages over all draws *)
Lemma nodup_app {A} (l1 l2 : list A) : NoDup l1 -> NoDup l2 -> (forall x, In x l1 -> ~ In x l2) -> NoDup (l1 ++ l2).
Proof. induction 1 as [|a l1 Ha Hn IH]; intros H2 Hd; [exact H2|]. cbn. constructor; [rewrite in_app_iff; intros [H|H]; [contradiction|]; exact (Hd a (or_introl eq_refl) H)|]. apply IH; [exact H2|]. intros x Hx. apply Hd. now right. Qed.
(*@ C92_draws : `draws M n` lists every sequence of n numbers below M exactly once; there are M^n of them. *)
Lemma draws_all : forall (M n : nat), NoDup (draws M n) /\ length (draws M n) = (M ^ n)%nat /\ forall js, In js (draws M n) <-> length js = n /\ Forall (fun j => (j < M)%nat) js.
Proof.
  intros M n. induction n as [|n (IH1 & IH2 & IH3)]; [split; [repeat constructor; easy|]; split; [reflexivity|]; intros js; cbn; split; [intros [<-|[]]; auto|]; intros (H & _); left; destruct js; [reflexivity|discriminate]|].
  cbn [draws]. split; [|split].
  - revert IH1 IH3. generalize (draws M n). intros l Hn Hin. assert (Hl : forall js, In js l -> length js = n) by (intros js H; now apply Hin). clear Hin IH2. induction Hn as [|a l Ha Hn IH]; [constructor|]. cbn [flat_map].
    assert (Hd : NoDup (map (fun j => a ++ [j]) (seq 0 M))). { apply FinFun.Injective_map_NoDup; [|apply seq_NoDup]. intros x y E. apply app_inj_tail in E. apply E. }
    assert (Hr : NoDup (flat_map (fun js => map (fun j => js ++ [j]) (seq 0 M)) l)) by (apply IH; intros js Hj; apply Hl; now right).
    apply nodup_app; [exact Hd|exact Hr|]. intros x H1 H. apply in_map_iff in H1 as (j & <- & _). apply in_flat_map in H as (b & Hb & H). apply in_map_iff in H as (k & E & _). apply app_inj_tail in E as (-> & _). contradiction.
  - assert (E : forall l : list (list nat), length (flat_map (fun js => map (fun j => js ++ [j]) (seq 0 M)) l) = (M * length l)%nat) by (induction l as [|a l IH]; cbn [flat_map length]; [lia|]; rewrite app_length, map_length, seq_length, IH; lia). rewrite E, IH2. reflexivity.
  - intros js. rewrite in_flat_map. split.
    + intros (b & Hb & H). apply in_map_iff in H as (j & <- & Hj). apply in_seq in Hj. apply IH3 in Hb as (L & F). rewrite app_length. cbn. split; [lia|]. apply Forall_app. split; [exact F|]. constructor; [lia|constructor].
    + intros (L & F). destruct js as [|a js _] using rev_ind; [discriminate|]. rewrite app_length in L. cbn in L. apply Forall_app in F as (F & Fa). inversion Fa; subst. exists js. split; [apply IH3; split; [lia|exact F]|]. apply in_map_iff. exists a. split; [reflexivity|]. apply in_seq. lia.
Qed.
Lemma average_ext {A} (h k : A -> R) l : (forall x, In x l -> h x = k x) -> average h l = average k l.
Proof. intros H. unfold average. f_equal. now apply rsum_map_ext. Qed.
Lemma average_le {A} (h k : A -> R) l : (forall x, In x l -> h x <= k x) -> average h l <= average k l.
Proof.
  intros H. unfold average. destruct l as [|a l]; [cbn [map]; rewrite !rsum_nil; lra|]. apply Rmult_le_compat_r; [left; apply Rinv_0_lt_compat, lt_0_INR; cbn; lia|]. apply rsum_map_le. exact H.
Qed.
Lemma average_plus {A} (h k : A -> R) l : average (fun x => h x + k x) l = average h l + average k l.
Proof. unfold average. rewrite rsum_map_add. unfold Rdiv. ring. Qed.
Lemma average_scal {A} c (h : A -> R) l : average (fun x => c * h x) l = c * average h l.
Proof. unfold average. rewrite rsum_map_scal. unfold Rdiv. ring. Qed.
Lemma average_const {A} c (l : list A) : l <> [] -> average (fun _ => c) l = c.
Proof. intros H. unfold average. rewrite rsum_map_const. field. apply not_0_INR. destruct l; [easy|cbn; lia]. Qed.
Lemma draws_some M n : (0 < M)%nat -> draws M n <> [].
Proof. intros HM E. destruct (draws_all M n) as (_ & L & _). rewrite E in L. cbn in L. symmetry in L. revert L. apply Nat.pow_nonzero. lia. Qed.
Lemma average_draws_S M n (h : list nat -> R) : (0 < M)%nat -> average h (draws M (S n)) = average (fun js => average (fun j => h (js ++ [j])) (seq 0 M)) (draws M n).
Proof.
  intros HM. unfold average. cbn [draws].
  assert (E1 : forall l : list (list nat), length (flat_map (fun js => map (fun j => js ++ [j]) (seq 0 M)) l) = (M * length l)%nat) by (induction l as [|a l IH]; cbn [flat_map length]; [lia|]; rewrite app_length, map_length, seq_length, IH; lia).
  assert (E2 : forall l : list (list nat), rsum (map h (flat_map (fun js => map (fun j => js ++ [j]) (seq 0 M)) l)) = rsum (map (fun js => rsum (map (fun j => h (js ++ [j])) (seq 0 M))) l)).
  { induction l as [|a l IH]; cbn [flat_map map]; [reflexivity|]. rewrite map_app, rsum_app, IH, rsum_cons, map_map. reflexivity. }
  rewrite E1, E2, seq_length, mult_INR. rewrite (rsum_map_ext (fun js => rsum (map (fun j => h (js ++ [j])) (seq 0 M)) / INR M) (fun js => / INR M * rsum (map (fun j => h (js ++ [j])) (seq 0 M)))) by (intros; unfold Rdiv; ring).
  rewrite rsum_map_scal. pose proof (draws_some M n HM) as Hd. assert (length (draws M n) <> 0%nat) by (destruct (draws M n); [easy|cbn; lia]). field. split; apply not_0_INR; lia.
Qed.

(** ** The steps of sgd *)
Lemma count_at_nonneg n : (0 <= count_at n)%Z.
Proof. unfold count_at. lia. Qed.
Section Steps.
  Context {P : Platform}.
  Notation xr := (XROps P).
  Definition sgd_state (L : @lrate xr) (k : nat) : state := SNode NList [SNode NEmpty []; match L with LConst _ => SNode NEmpty [] | LSched _ => SNode NSchedule [SInt I32 (cnt k)] end].
  Lemma sgd_step (L : @lrate xr) lr p u q k : (forall n, rate L (count_at n) = Fin (lr (count_at n))) -> trwf p -> point_of p u -> point_of p q ->
    exists T v q', @sgd xr L None false = Ok T /\ @init xr T p = Ok (sgd_state L 0) /\ @update xr T u (sgd_state L k) (Some q) = Ok (v, sgd_state L (S k)) /\ @apply_updates xr q v = Ok q' /\ point_of p q' /\
      forall i, (i < length (rvals p))%nat -> nth i (rvals q') 0 = nth i (rvals q) 0 - lr (count_at k) * nth i (rvals u) 0.
  Proof.
    intros HL Wp Hu Hq. set (v := emapt (fun d x => @fmul xr d (@fcast xr d (@fneg xr (rate L (count_at k)))) x) u).
    assert (Hv : point_of p v). { destruct Hu as ((Ha & Hw) & Fx). split; [split; [unfold v; now rewrite emapt_avals|now apply emapt_wf]|]. apply finite_of_elts. intros pos y. intros H. unfold v in H. rewrite elt_emapt in H. nx. destruct (elt u pos) as [w|] eqn:E; cbn [option_map] in H; [|inversion H]. destruct (finite_elt u pos w Fx E) as (r & ->). rewrite HL in H. apply (f_equal (fun o => match o with Some z => z | None => y end)) in H. rewrite <- H. eexists; reflexivity. }
    assert (Es : tmap (fun t => shp t) q = tmap (fun t => shp t) v).
    { destruct Hq as ((Hq1 & _) & _), Hv as ((Hv1 & _) & _). assert (E : avals q = avals v) by exact (eq_trans Hq1 (eq_sym Hv1)). apply (f_equal (tmap snd)) in E. unfold avals in E. rewrite !tmap_tmap in E. exact E. }
    destruct (@apply_updates_spec xr q v Es (proj2 (proj1 Hq)) (proj2 (proj1 Hv))) as (q' & Eq & Lq & Hel).
    assert (Hc : forall i, (i < length (rvals p))%nat -> exists pos, elt q' pos = Some (Fin (nth i (rvals q) 0 - lr (count_at k) * nth i (rvals u) 0)) /\ forall w, point_of p w -> elt w pos = Some (Fin (nth i (rvals w) 0))).
    { intros i Hi. destruct (coord p i Wp Hi) as (pos & Hpos). exists pos. split; [|exact Hpos]. pose proof (Hel pos _ _ (Hpos q Hq) (Hpos v Hv)) as E. cbv zeta in E. rewrite E. f_equal.
      assert (Ev : elt v pos = Some (Fin (- lr (count_at k) * nth i (rvals u) 0))). { unfold v. rewrite elt_emapt. nx. rewrite (Hpos u Hu). cbn [option_map]. rewrite HL. reflexivity. }
      pose proof (eq_trans (eq_sym (Hpos v Hv)) Ev) as E3. injection E3 as ->. nx. unfold conv. destruct (fdt_eqb _ _), (fdt_eqb _ _), (fdt_eqb _ _); cbn [fcast fadd XROps]; rewrite xadd_fin; f_equal; ring. }
    assert (Hq' : point_of p q').
    { assert (Ha : avals q' = avals p) by exact (eq_trans (proj1 Lq) (proj1 (proj1 Hq))). split; [split; [exact Ha|exact (proj2 Lq)]|]. apply finite_of_elts. intros pos y Hy.
      assert (Hn : forall w, point_of p w -> exists r, elt w pos = Some (Fin r)). { intros w ((Hwa & Ww) & Fw). destruct (elt w pos) as [z|] eqn:Ez; [destruct (finite_elt w pos z Fw Ez) as (r & ->); eauto|]. exfalso. assert (elt q' pos <> None) as H1 by (intros H1; nx; congruence). exact (elt_like w q' pos (eq_trans Ha (eq_sym Hwa)) Ww (proj2 Lq) H1 Ez). }
      destruct (Hn q Hq) as (r1 & E1). destruct (Hn v Hv) as (r2 & E2). pose proof (Hel pos _ _ E1 E2) as E. cbv zeta in E. nx. rewrite Hy in E. injection E as ->. unfold conv. destruct (fdt_eqb _ _), (fdt_eqb _ _), (fdt_eqb _ _); eexists; reflexivity. }
    exists (chain_gt [opt_trace None false; scale_by_learning_rate L]), v, q'. split; [reflexivity|]. split; [destruct L; reflexivity|]. split.
    { cbn [update chain_gt length Nat.eqb sgd_state chain_update opt_trace identity stateless rbind]. unfold v. destruct L as [x|f]; [reflexivity|]. cbn [update scale_by_learning_rate scale_by_schedule]. rewrite cnt_S. reflexivity. }
    split; [exact Eq|]. split; [exact Hq'|]. intros i Hi. destruct (Hc i Hi) as (pos & E & Hpos). pose proof (eq_trans (eq_sym (Hpos q' Hq')) E) as E3. now injection E3.
  Qed.
End Steps.

(** One step of sgd(L) on a fixed training set, in expectation over the example drawn. *)
Lemma fit_ext `{O : Ops} T (g h : nat -> tree tensor -> tree tensor) n p : (forall i, (i < n)%nat -> g i = h i) -> fit T g n p = fit T h n p.
Proof. induction n as [|n IH]; intros E; cbn [fit]; [reflexivity|]. rewrite IH by (intros; apply E; lia). rewrite (E n) by lia. reflexivity. Qed.
Section Sample.
  Context {P : Platform}.
  Notation xr := (XROps P).
  Variables (L : @lrate xr) (lr : Z -> R) (p : tree (gt XR)) (M : nat) (grads : nat -> tree (gt XR) -> tree (gt XR)) (T : @GT xr).
  Hypotheses (HL : forall n, rate L (count_at n) = Fin (lr (count_at n))) (Wp : trwf p) (Fp : finite_tree p) (ET : @sgd xr L None false = Ok T).
  Hypothesis Hg : forall x j, point_of p x -> (j < M)%nat -> point_of p (grads j x).
  Lemma run_sample js : Forall (fun j => (j < M)%nat) js -> exists x, @fit xr T (fun i => grads (nth i js 0%nat)) (length js) p = Ok (x, sgd_state L (length js)) /\ point_of p x /\ trained T grads p js = rvals x /\
    forall j, (j < M)%nat -> exists x', @fit xr T (fun i => grads (nth i (js ++ [j]) 0%nat)) (length (js ++ [j])) p = Ok (x', sgd_state L (S (length js))) /\ point_of p x' /\ trained T grads p (js ++ [j]) = rvals x' /\
      forall i, (i < length (rvals p))%nat -> nth i (rvals x') 0 = nth i (rvals x) 0 - lr (count_at (length js)) * nth i (rvals (grads j x)) 0.
  Proof.
    assert (Hpp : point_of p p) by (split; [split; [reflexivity|exact Wp]|exact Fp]).
    assert (K : forall js x, @fit xr T (fun i => grads (nth i js 0%nat)) (length js) p = Ok (x, sgd_state L (length js)) -> point_of p x -> forall j, (j < M)%nat ->
       exists x', @fit xr T (fun i => grads (nth i (js ++ [j]) 0%nat)) (length (js ++ [j])) p = Ok (x', sgd_state L (S (length js))) /\ point_of p x' /\ forall i, (i < length (rvals p))%nat -> nth i (rvals x') 0 = nth i (rvals x) 0 - lr (count_at (length js)) * nth i (rvals (grads j x)) 0).
    { clear js. intros js x E Hx j Hj. destruct (sgd_step L lr p (grads j x) x (length js) HL Wp (Hg x j Hx Hj) Hx) as (T' & v & x' & ET' & _ & Eu & Ea & Hx' & Hc). rewrite ET in ET'. injection ET' as <-.
      exists x'. split; [|split; [exact Hx'|exact Hc]]. rewrite app_length, Nat.add_1_r. cbn [fit].
      rewrite (@fit_ext xr T (fun i => grads (nth i (js ++ [j]) 0%nat)) (fun i => grads (nth i js 0%nat))) by (intros i Hi; now rewrite app_nth1). nx. rewrite E. cbn [rbind]. rewrite app_nth2, Nat.sub_diag by lia. cbn [nth]. nx. rewrite Eu. cbn [rbind]. nx. rewrite Ea. reflexivity. }
    assert (K0 : forall js, Forall (fun j => (j < M)%nat) js -> exists x, @fit xr T (fun i => grads (nth i js 0%nat)) (length js) p = Ok (x, sgd_state L (length js)) /\ point_of p x).
    { clear js. intros js. induction js as [|j js IH] using rev_ind; intros HF.
      - exists p. split; [|exact Hpp]. cbn [fit length]. destruct (sgd_step L lr p p p 0 HL Wp Hpp Hpp) as (T' & _ & _ & ET' & Ei & _). rewrite ET in ET'. injection ET' as <-. nx. rewrite Ei. reflexivity.
      - apply Forall_app in HF as (HF & Hj). inversion Hj; subst. destruct (IH HF) as (x & E & Hx). destruct (K js x E Hx j ltac:(assumption)) as (x' & E' & Hx' & _). exists x'. rewrite app_length, Nat.add_1_r in E' |- *. cbn [length] in *. auto. }
    intros HF. destruct (K0 js HF) as (x & E & Hx). exists x. split; [exact E|]. split; [exact Hx|]. split; [unfold trained; rewrite E; reflexivity|].
    intros j Hj. destruct (K js x E Hx j Hj) as (x' & E' & Hx' & Hc). exists x'. split; [exact E'|]. split; [exact Hx'|]. split; [unfold trained; rewrite E'; reflexivity|exact Hc].
  Qed.
  Variables (f : list R -> R) (q : list R) (mu A G : R).
  Hypotheses (HM : (0 < M)%nat) (HT : training_loss p M grads f q mu A G).
  Let D js := sumsq (vsub (trained T grads p js) q).
  Let W n := average D (draws M n).
  Let V n := average (fun js => f (trained T grads p js) - f q) (draws M n).
  Let eta n := lr (count_at n).
  Lemma eta_step : forall js, Forall (fun j => (j < M)%nat) js -> exists x, point_of p x /\ trained T grads p js = rvals x /\ forall j, (j < M)%nat ->
    D (js ++ [j]) = D js - 2 * eta (length js) * dot (rvals (grads j x)) (vsub (rvals x) q) + eta (length js) * eta (length js) * sumsq (rvals (grads j x)).
  Proof.
    intros js HF. destruct (run_sample js HF) as (x & E & Hx & Et & Hn). exists x. split; [exact Hx|]. split; [exact Et|]. intros j Hj. destruct (Hn j Hj) as (x' & E' & Hx' & Et' & Hc).
    unfold D. rewrite Et, Et'. destruct HT as (Lq & _). set (N := length (rvals p)) in *.
    assert (Lx : length (rvals x) = N) by now apply rvals_length. assert (Lx' : length (rvals x') = N) by now apply rvals_length.
    assert (Lg : length (rvals (grads j x)) = N) by (apply rvals_length; [exact Wp|]; now apply Hg).
    rewrite (sumsq_vsub (rvals x') q N), (sumsq_vsub (rvals x) q N), (dot_vsub _ _ _ N), (sumsq_seq _ N) by assumption.
    rewrite <- !rsum_map_scal, <- rsum_map_sub, <- rsum_map_add. apply rsum_map_ext. intros i Hi. apply in_seq in Hi. rewrite Hc by lia. unfold eta. ring.
  Qed.
  Lemma step_mean n : 0 <= eta n -> W (S n) <= (1 - eta n * mu) * W n - eta n * (2 - eta n * A) * V n + eta n * eta n * G.
  Proof.
    intros He. unfold W. rewrite average_draws_S by exact HM. unfold V. rewrite <- !average_scal.
    assert (E : forall a b c l, l <> [] -> average a l - average b l + c = average (fun js : list nat => a js - b js + c) l).
    { intros a b c l Hl. transitivity (average (fun js => (a js + (-1) * b js) + c) l); [|apply average_ext; intros; ring]. rewrite !average_plus, average_scal, average_const by exact Hl. ring. }
    rewrite E by now apply draws_some. apply average_le. intros js Hjs. destruct (draws_all M n) as (_ & _ & Hall). apply Hall in Hjs as (Hlen & HF). subst n.
    destruct (eta_step js HF) as (x & Hx & Et & Ed).
    destruct HT as (Lq & HTx). destruct (HTx x Hx) as (_ & H0 & H1 & H2).
    rewrite (average_ext _ (fun j => (1 * D js + (- (2 * eta (length js))) * dot (rvals (grads j x)) (vsub (rvals x) q)) + (eta (length js) * eta (length js)) * sumsq (rvals (grads j x)))).
    2:{ intros j Hj. apply in_seq in Hj. rewrite (Ed j) by lia. ring. }
    rewrite !average_plus, !average_scal, average_const. 2:{ destruct M; [lia|discriminate]. }
    set (e := eta (length js)) in *. unfold D. rewrite Et. set (a := sumsq (vsub (rvals x) q)) in *. set (d := average (fun j => dot _ _) _) in *. set (s := average (fun j => sumsq _) _) in *. set (w := f (rvals x) - f q) in *.
    assert (e * (w + mu / 2 * a) <= e * d) by (apply Rmult_le_compat_l; assumption). assert (e * e * s <= e * e * (A * w + G)) by (apply Rmult_le_compat_l; [nra|assumption]). nra.
  Qed.
  Lemma W_nonneg n : 0 <= W n.
  Proof. unfold W. apply Rle_trans with (average (fun _ => 0) (draws M n)); [rewrite average_const by (now apply draws_some); lra|]. apply average_le. intros js _. apply sumsq_nonneg. Qed.
  Lemma V_nonneg n : 0 <= V n.
  Proof.
    unfold V. apply Rle_trans with (average (fun _ => 0) (draws M n)); [rewrite average_const by (now apply draws_some); lra|]. apply average_le. intros js Hjs. destruct (draws_all M n) as (_ & _ & Hall). apply Hall in Hjs as (_ & HF).
    destruct (run_sample js HF) as (x & _ & Hx & Et & _). rewrite Et. destruct HT as (_ & HTx). destruct (HTx x Hx) as (_ & H0 & _). lra.
  Qed.
  Lemma W_0 : W 0 = sumsq (vsub (rvals p) q).
  Proof.
    unfold W, average. cbn [draws map length]. rewrite rsum_cons, rsum_nil. unfold D, trained. cbn [length]. destruct (run_sample [] (Forall_nil _)) as (x & E & _). cbn [length] in E. pose proof E as E0. cbn [fit] in E0. destruct (@init xr T p) as [s|] eqn:Ei; [|discriminate]. cbn [rbind] in E0. injection E0 as E1 _. subst x. rewrite E. change (INR 1) with 1. field.
  Qed.
  Lemma run_ok js : Forall (fun j => (j < M)%nat) js -> exists x s, @fit xr T (fun i => grads (nth i js 0%nat)) (length js) p = Ok (x, s) /\ point_of p x.
  Proof. intros HF. destruct (run_sample js HF) as (x & E & Hx & _). eauto. Qed.
  Lemma sum_mean n : (forall t, 0 <= eta t) -> 0 <= mu -> rsum (map (fun t => eta t * (2 - eta t * A) * V t) (seq 0 n)) + W n <= W 0 + G * rsum (map (fun t => eta t * eta t) (seq 0 n)).
  Proof.
    intros He Hmu. induction n as [|n IH]; [cbn [seq map]; rewrite !rsum_nil; lra|]. rewrite !rsum_seq_S. pose proof (step_mean n (He n)) as B. pose proof (W_nonneg n). assert (0 <= eta n * mu * W n) by (apply Rmult_le_pos; [apply Rmult_le_pos; auto|assumption]). lra.
  Qed.
End Sample.

Lemma sgd_exists `{P : Platform} (L : @lrate (XROps P)) : exists T, @sgd (XROps P) L None false = Ok T.
Proof. eexists. reflexivity. Qed.

(*@ C92_average : sgd with any learning-rate schedule, one example drawn uniformly per step: every training run succeeds, and averaged over all runs the weighted excess losses sum to at most the initial squared distance to the minimiser plus G times the sum of the squared rates. *)
Lemma sampled_average : forall `{P : Platform} (L : lrate) (lr : Z -> R) (p : tree tensor) (M : nat) (grads : nat -> tree tensor -> tree tensor) (f : list R -> R) (q : list R) (mu A G : R) (n : nat),
  (forall c, (0 <= c)%Z -> rate L c = Fin (lr c) /\ 0 <= lr c) -> trwf p -> finite_tree p -> (0 < M)%nat -> 0 <= mu -> training_loss p M grads f q mu A G ->
  exists T, sgd L None false = Ok T /\ (forall js, Forall (fun j => (j < M)%nat) js -> exists x s, fit T (fun i => grads (nth i js 0%nat)) (length js) p = Ok (x, s) /\ point_of p x) /\
    let eta t := lr (count_at t) in
    rsum (map (fun t => eta t * (2 - eta t * A) * average (fun js => f (trained T grads p js) - f q) (draws M t)) (seq 0 n)) + average (fun js => sumsq (vsub (trained T grads p js) q)) (draws M n)
      <= sumsq (vsub (rvals p) q) + G * rsum (map (fun t => eta t * eta t) (seq 0 n)).
Proof.
  intros P L lr p M grads f q mu A G n HLr Wp Fp HM Hmu HT. assert (HL : forall n, rate L (count_at n) = Fin (lr (count_at n))) by (intros i; apply HLr, count_at_nonneg). assert (Hlr : forall i, 0 <= lr (count_at i)) by (intros i; apply HLr, count_at_nonneg). destruct (sgd_exists L) as (T & ET). exists T. split; [exact ET|].
  assert (Hg : forall x j, point_of p x -> (j < M)%nat -> point_of p (grads j x)) by (intros x j Hx Hj; destruct HT as (_ & H); now apply (H x Hx)).
  split; [intros js HF; exact (run_ok L lr p M grads T HL Wp Fp ET Hg js HF)|].
  pose proof (sum_mean L lr p M grads T HL Wp Fp ET Hg f q mu A G HM HT n (fun t => Hlr _) Hmu) as B. pose proof (W_0 L lr p M grads T HL Wp Fp ET Hg q) as B0. cbv beta zeta in B, B0. rewrite B0 in B. exact B.
Qed.

(*@ C92_strongly_convex : constant learning rate lr, mu-strongly convex loss: averaged over all runs, the squared distance to the minimiser shrinks by 1 - lr mu per step down to the noise floor lr G / mu. *)
Lemma sampled_strongly : forall `{P : Platform} (lr : R) (p : tree tensor) (M : nat) (grads : nat -> tree tensor -> tree tensor) (f : list R -> R) (q : list R) (mu A G : R) (n : nat),
  0 < lr -> 0 < mu -> lr * mu <= 1 -> lr * A <= 2 -> 0 <= G -> trwf p -> finite_tree p -> (0 < M)%nat -> training_loss p M grads f q mu A G ->
  exists T, sgd (LConst (Fin lr)) None false = Ok T /\ (forall js, Forall (fun j => (j < M)%nat) js -> exists x s, fit T (fun i => grads (nth i js 0%nat)) (length js) p = Ok (x, s) /\ point_of p x) /\
    average (fun js => sumsq (vsub (trained T grads p js) q)) (draws M n) <= (1 - lr * mu) ^ n * sumsq (vsub (rvals p) q) + lr * G / mu.
Proof.
  intros P lr p M grads f q mu A G n Hlr Hmu Hm HA HG Wp Fp HM HT. destruct (sgd_exists (@LConst (XROps P) (Fin lr))) as (T & ET). exists T. split; [exact ET|].
  assert (Hg : forall x j, point_of p x -> (j < M)%nat -> point_of p (grads j x)) by (intros x j Hx Hj; destruct HT as (_ & H); now apply (H x Hx)).
  assert (HL : forall n, rate (@LConst (XROps P) (Fin lr)) (count_at n) = Fin ((fun _ => lr) (count_at n))) by reflexivity.
  split; [intros js HF; exact (run_ok _ _ p M grads T HL Wp Fp ET Hg js HF)|].
  pose proof (W_0 _ _ p M grads T HL Wp Fp ET Hg q) as B0. pose proof (step_mean _ _ p M grads T HL Wp Fp ET Hg f q mu A G HM HT) as B. pose proof (V_nonneg _ _ p M grads T HL Wp Fp ET Hg f q mu A G HM HT) as HV. cbv beta zeta in B, B0, HV.
  set (W := fun n => average (fun js => sumsq (vsub (trained T grads p js) q)) (draws M n)) in *. change (W n <= (1 - lr * mu) ^ n * sumsq (vsub (rvals p) q) + lr * G / mu). change (W 0%nat = sumsq (vsub (rvals p) q)) in B0. rewrite <- B0.
  assert (K : forall k, W (S k) <= (1 - lr * mu) * W k + lr * lr * G).
  { intros k. specialize (B k ltac:(lra)). specialize (HV k). set (v := average (fun js => f _ - f q) (draws M k)) in *. change (W (S k) <= (1 - lr * mu) * W k - lr * (2 - lr * A) * v + lr * lr * G) in B. assert (0 <= lr * (2 - lr * A) * v) by (apply Rmult_le_pos; [apply Rmult_le_pos; lra|assumption]). lra. }
  assert (HF : 0 <= lr * G / mu) by (apply Rmult_le_pos; [nra|left; now apply Rinv_0_lt_compat]). assert (EF : (1 - lr * mu) * (lr * G / mu) + lr * lr * G = lr * G / mu) by (field; lra).
  clear - K HF EF Hm. induction n as [|n IH]; [cbn [pow]; lra|]. apply Rle_trans with (1 := K n). assert ((1 - lr * mu) * W n <= (1 - lr * mu) * ((1 - lr * mu) ^ n * W 0%nat + lr * G / mu)) by (apply Rmult_le_compat_l; lra). cbn [pow]. lra.
Qed.

(*@ C92_decay : decaying learning rate 2 / (mu (t + k)): averaged over all runs, the squared distance to the minimiser is O(1/n), although every single gradient stays noisy. *)
Lemma sampled_decay : forall `{P : Platform} (sched : Z -> XR) (k : R) (p : tree tensor) (M : nat) (grads : nat -> tree tensor -> tree tensor) (f : list R -> R) (q : list R) (mu A G : R) (n : nat),
  0 < mu -> 2 <= k -> A <= k * mu -> (forall c, (0 <= c)%Z -> sched c = Fin (2 / (mu * (IZR c + k)))) -> (Z.of_nat n < 2 ^ 31)%Z -> trwf p -> finite_tree p -> (0 < M)%nat -> training_loss p M grads f q mu A G ->
  exists T, sgd (LSched sched) None false = Ok T /\ (forall js, Forall (fun j => (j < M)%nat) js -> exists x s, fit T (fun i => grads (nth i js 0%nat)) (length js) p = Ok (x, s) /\ point_of p x) /\
    average (fun js => sumsq (vsub (trained T grads p js) q)) (draws M n) <= Rmax (4 * G / (mu * mu)) ((k - 1) * sumsq (vsub (rvals p) q)) / (INR n + k - 1).
Proof.
  intros P sched k p M grads f q mu A G n Hmu Hk HA Hs Hn Wp Fp HM HT. destruct (sgd_exists (@LSched (XROps P) sched)) as (T & ET). exists T. split; [exact ET|].
  assert (Hg : forall x j, point_of p x -> (j < M)%nat -> point_of p (grads j x)) by (intros x j Hx Hj; destruct HT as (_ & H); now apply (H x Hx)).
  set (lr := fun c => 2 / (mu * (IZR c + k))).
  assert (HL : forall n, rate (@LSched (XROps P) sched) (count_at n) = Fin (lr (count_at n))) by (intros i; apply Hs, count_at_nonneg).
  split; [intros js HF; exact (run_ok _ _ p M grads T HL Wp Fp ET Hg js HF)|].
  pose proof (W_0 _ _ p M grads T HL Wp Fp ET Hg q) as B0. pose proof (step_mean _ _ p M grads T HL Wp Fp ET Hg f q mu A G HM HT) as B. pose proof (V_nonneg _ _ p M grads T HL Wp Fp ET Hg f q mu A G HM HT) as HV. cbv beta zeta in B, B0, HV.
  set (W := fun n => average (fun js => sumsq (vsub (trained T grads p js) q)) (draws M n)) in *. change (W 0%nat = sumsq (vsub (rvals p) q)) in B0. rewrite <- B0. set (C := Rmax _ _). change (W n <= C / (INR n + k - 1)).
  assert (H1 : 4 * G / (mu * mu) <= C) by apply Rmax_l. assert (H2 : (k - 1) * W 0%nat <= C) by apply Rmax_r.
  assert (K : forall t, (Z.of_nat t < 2 ^ 31)%Z -> W (S t) <= (1 - 2 / (INR t + k)) * W t + C / ((INR t + k) * (INR t + k))).
  { intros t Ht. assert (Ec : count_at t = Z.of_nat t) by (unfold count_at; lia). specialize (HV t). pose proof (pos_INR t) as Hp.
    assert (El : lr (count_at t) = 2 / (mu * (INR t + k))) by (unfold lr; rewrite Ec, <- INR_IZR_INZ; reflexivity). set (m := INR t + k) in *. assert (Hm : 2 <= m) by (unfold m; lra).
    assert (0 < / (mu * m)) by (apply Rinv_0_lt_compat; nra). assert (Hl : 0 <= lr (count_at t)) by (rewrite El; apply Rmult_le_pos; lra). specialize (B t Hl). set (v := average (fun js => f _ - f q) (draws M t)) in *.
    change (W (S t) <= (1 - lr (count_at t) * mu) * W t - lr (count_at t) * (2 - lr (count_at t) * A) * v + lr (count_at t) * lr (count_at t) * G) in B.
    assert (HA2 : lr (count_at t) * A <= 2). { apply Rle_trans with (lr (count_at t) * (k * mu)); [now apply Rmult_le_compat_l|]. rewrite El. apply Rle_trans with (2 / (mu * m) * (mu * m)); [apply Rmult_le_compat_l; [apply Rmult_le_pos; lra|]; unfold m; nra|]. right. field. split; lra. }
    assert (0 <= lr (count_at t) * (2 - lr (count_at t) * A) * v) by (apply Rmult_le_pos; [apply Rmult_le_pos; lra|assumption]).
    assert (E1 : lr (count_at t) * mu = 2 / m) by (rewrite El; field; split; lra). assert (E2 : lr (count_at t) * lr (count_at t) * G = 4 * G / (mu * mu) / (m * m)) by (rewrite El; field; split; lra).
    rewrite E1, E2 in B. assert (4 * G / (mu * mu) / (m * m) <= C / (m * m)) by (apply Rmult_le_compat_r; [left; apply Rinv_0_lt_compat; nra|assumption]). lra. }
  assert (HC : 0 <= C) by (apply Rle_trans with (2 := H2); apply Rmult_le_pos; [lra|]; rewrite B0; apply sumsq_nonneg).
  clear - K H2 Hn Hk HC. induction n as [|n IH]; [cbn [INR]; apply Rmult_le_reg_r with (k - 1); [lra|]; replace (C / (0 + k - 1) * (k - 1)) with C by (field; lra); lra|].
  specialize (IH ltac:(lia)). apply Rle_trans with (1 := K n ltac:(lia)). rewrite S_INR. pose proof (pos_INR n). set (m := INR n + k) in *. assert (Hm : 2 <= m) by (unfold m; lra). replace (INR n + 1 + k - 1) with m by (unfold m; ring). replace (INR n + k - 1) with (m - 1) in IH by (unfold m; ring).
  assert (Hd : 0 <= 1 - 2 / m). { apply Rmult_le_reg_r with m; [lra|]. replace ((1 - 2 / m) * m) with (m - 2) by (field; lra). lra. }
  
  assert ((1 - 2 / m) * W n <= (1 - 2 / m) * (C / (m - 1))) by now apply Rmult_le_compat_l.
  assert (E : C / m - ((1 - 2 / m) * (C / (m - 1)) + C / (m * m)) = C / (m * m * (m - 1))) by (field; lra).
  assert (0 <= C / (m * m * (m - 1))) by (apply Rmult_le_pos; [exact HC|left; apply Rinv_0_lt_compat; apply Rmult_lt_0_compat; nra]). lra.
Qed.

(** ** A training set of two examples *)
Definition target (j : nat) : R := match j with 0%nat => 2 | _ => 4 end.
Definition pull (j : nat) (x : tree (gt XR)) : tree (gt XR) := emapt (fun _ v => xsub v (Fin (target j))) x.
Lemma pull_vals j x : finite_tree x -> rvals (pull j x) = map (fun v => v - target j) (rvals x).
Proof.
  intros Fx. unfold rvals, vals, pull, emapt. rewrite leaves_tmap, map_map. change (fun x : gt XR => dat (emap (fun _ v => xsub v (Fin (target j))) x)) with (fun x : gt XR => map (fun v => xsub v (Fin (target j))) (dat x)).
  rewrite <- (map_map dat (map (fun v => xsub v (Fin (target j))))), <- concat_map, !map_map. unfold finite_tree, vals in Fx. rewrite Forall_forall in Fx. apply map_ext_in. intros v Hv. destruct (Fx v Hv) as (r & ->). reflexivity.
Qed.
Lemma pull_ok `{P : Platform} (p x : tree (gt XR)) j : point_of p x -> point_of p (pull j x).
Proof.
  intros ((Ha & Hw) & Fx). split; [split; [unfold pull; now rewrite emapt_avals|now apply emapt_wf]|]. apply finite_of_elts. intros pos v. unfold pull. rewrite elt_emapt.
  destruct (elt x pos) as [w|] eqn:E; [|discriminate]. destruct (finite_elt x pos w Fx E) as (r & ->). intros [= <-]. eexists; reflexivity.
Qed.
Lemma pull_loss `{P : Platform} : let p := Leaf (mkT F32 [2%nat] [Fin 5; Fin 1]) in training_loss p 2 pull quad [3; 3] 1 2 2.
Proof.
  cbn zeta. set (p := Leaf (mkT F32 [2%nat] [Fin 5; Fin 1])). assert (Wp : trwf p) by (repeat constructor). split; [reflexivity|]. intros x Hx. split; [intros j _; now apply pull_ok|].
  assert (Lx : length (rvals x) = 2%nat) by exact (rvals_length p x Wp Hx). unfold average. cbn [seq map length]. rewrite !pull_vals by apply Hx. destruct (rvals x) as [|a [|b [|]]]; try discriminate Lx.
  unfold quad, vsub. cbn [map combine fst snd target]. rewrite !sumsq_cons, !dot_cons, !rsum_cons, !rsum_nil. change (sumsq []) with (rsum (map (fun x => x * x) [])). change (dot [] []) with (rsum (map (fun p : R * R => fst p * snd p) [])). cbn [map]. rewrite !rsum_nil. change (INR 2) with 2. pose proof (Rle_0_sqr (a - 3)) as Ha. pose proof (Rle_0_sqr (b - 3)) as Hb. unfold Rsqr in Ha, Hb. repeat split; lra.
Qed.
(*@ex C92_example *)
Lemma sample_example : forall `{P : Platform} (n : nat), (Z.of_nat n < 2 ^ 31)%Z -> let p := Leaf (mkT F32 [2%nat] [Fin 5; Fin 1]) in
  training_loss p 2 pull quad [3; 3] 1 2 2 /\
  (exists T, sgd (LConst (Fin (1 / 2))) None false = Ok T /\ average (fun js => sumsq (vsub (trained T pull p js) [3; 3])) (draws 2 n) <= (1 / 2) ^ n * 8 + 1) /\
  (exists T, sgd (LSched (fun c => fdiv F32 (Fin 2) (fadd F32 (Fin (IZR c)) (Fin 2)))) None false = Ok T /\ average (fun js => sumsq (vsub (trained T pull p js) [3; 3])) (draws 2 n) <= 8 / (INR n + 1)).
Proof.
  intros P n Hn. cbn zeta. set (p := Leaf (mkT F32 [2%nat] [Fin 5; Fin 1])). assert (Wp : trwf p) by (repeat constructor). assert (Fp : finite_tree p) by (repeat constructor; eexists; reflexivity). pose proof pull_loss as HT. cbn zeta in HT. fold p in HT.
  assert (Ed : sumsq (vsub (rvals p) [3; 3]) = 8). { change (rvals p) with [5; 1]. unfold vsub. cbn [map combine fst snd]. rewrite !sumsq_cons. change (sumsq []) with (rsum []). rewrite rsum_nil. lra. }
  split; [exact HT|]. split.
  - destruct (@sampled_strongly P (1/2) p 2 pull quad [3; 3] 1 2 2 n) as (T & ET & _ & H); [lra|lra|lra|lra|lra|exact Wp|exact Fp|lia|exact HT|]. exists T. split; [exact ET|]. rewrite Ed in H. replace (1 - 1 / 2 * 1) with (1 / 2) in H by lra. replace (1 / 2 * 2 / 1) with 1 in H by lra. exact H.
  - destruct (@sampled_decay P (fun c => @fdiv (XROps P) F32 (Fin 2) (@fadd (XROps P) F32 (Fin (IZR c)) (Fin 2))) 2 p 2 pull quad [3; 3] 1 2 2 n) as (T & ET & _ & H); [lra|lra|lra| |exact Hn|exact Wp|exact Fp|lia|exact HT|].
    + intros c Hc. apply IZR_le in Hc. nx. cbn [fadd fdiv XROps]. rewrite xadd_fin. rewrite xdiv_fin by lra. f_equal. field. lra.
    + exists T. split; [exact ET|]. rewrite Ed in H. replace (4 * 2 / (1 * 1)) with 8 in H by lra. replace ((2 - 1) * 8) with 8 in H by lra. rewrite Rmax_left in H by lra. replace (INR n + 2 - 1) with (INR n + 1) in H by ring. exact H.
Qed.
