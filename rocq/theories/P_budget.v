(** The learning-rate budget: how far a guarded optimiser can move under a schedule, and when it stops (C103). *)
From Verif Require Export P_clip2 P_pipe P_sched.
From Coq Require Import List Psatz Reals Qreals.
Import ListNotations.
Open Scope R_scope.
(*@header
From Coq Require Import List Reals ZArith.
Import ListNotations.
Open Scope R_scope.
*)

(** ** Specification *)
(** Any optimiser, then zero_nans and clip(c) on its output, then the learning rate. *)
Definition guarded `{P : Platform} (T : GT) (c : R) (L : lrate) : result GT := chain [T; zero_nans; clip (Fin c); scale_by_learning_rate L].
(** What the schedule still allows between steps m and n. *)
Definition budget (lr : Z -> R) (m n : nat) : R := rsum (map (fun t => Rabs (lr (count_at t))) (seq m (n - m))).

Section Guarded.
  Context {P : Platform}.
  Notation xr := (XROps P).
  Variables (np : bool) (T : @GT xr) (p : tree (gt XR)) (c : R) (L : @lrate xr) (lr : Z -> R) (grad : nat -> tree (gt XR) -> tree (gt XR)).
  Hypotheses (HT : @safe xr np T p) (Wp : trwf p) (Fp : finite_tree p) (Hc : 0 <= c) (HL : forall z, rate L z = Fin (lr z)) (Hg : forall i q, point_of p q -> @like xr p (grad i q)).
  Definition lr_state (n : nat) : state := match L with LConst _ => SNode NEmpty [] | LSched _ => SNode NSchedule [SInt I32 (cnt n)] end.
  Lemma lr_step n u par : update (scale_by_learning_rate L) u (lr_state n) par = Ok (emapt (fun d x => xmul (Fin (- lr (count_at n))) x) u, lr_state (S n)).
  Proof.
    unfold lr_state. pose proof (HL (count_at n)) as E. destruct L as [x|f]; cbn [rate] in E; cbn [update scale_by_learning_rate scale stateless scale_by_schedule rbind].
    - subst x. reflexivity.
    - rewrite cnt_S. cbn [rbind]. rewrite (cnt_at n), E. reflexivity.
  Qed.
  Let tail_ (n : nat) (u : tree (gt XR)) : tree (gt XR) := emapt (fun d x => xmul (Fin (- lr (count_at n))) x) (emapt (@clip_elt xr (Fin c)) (emapt (fun d x => if @fisnan xr x then @fcast xr d (@fzero xr) else x) u)).
  Lemma tail_elt n u pos x : elt u pos = Some x -> exists w, elt (tail_ n u) pos = Some (Fin (- lr (count_at n) * w)) /\ Rabs w <= c.
  Proof.
    intros E. unfold tail_. rewrite !elt_emapt. nx. rewrite E. cbn [option_map]. rewrite clip_elt_range by exact Hc. rewrite (f0 P). cbn [fcast fisnan XROps].
    assert (Hr : forall r, Rabs (if Rle_dec r (- c) then - c else if Rle_dec c r then c else r) <= c) by (intros r; destruct (Rle_dec r (- c)); [rewrite Rabs_left1; lra|]; destruct (Rle_dec c r); [rewrite Rabs_right; lra|]; apply Rabs_le; lra).
    destruct x as [r| | |]; cbn [xisnan]; eexists; (split; [cbn [xmul]; reflexivity|]); [apply Hr|rewrite Rabs_right; lra|rewrite Rabs_left1; lra|apply Hr].
  Qed.
  Lemma guarded_fit : exists Tg, guarded T c L = Ok Tg /\ exists (x : nat -> tree (gt XR)) (s : nat -> state), x 0%nat = p /\ forall n, @fit xr Tg grad n p = Ok (x n, s n) /\ point_of p (x n) /\
    forall i, (i < length (rvals p))%nat -> exists w, Rabs w <= c /\ nth i (rvals (x (S n))) 0 = nth i (rvals (x n)) 0 - lr (count_at n) * w.
  Proof.
    exists (@chain_gt xr [T; @zero_nans xr; @clip xr (Fin c); @scale_by_learning_rate xr L]). split; [reflexivity|].
    set (Tg := @chain_gt xr [T; @zero_nans xr; @clip xr (Fin c); @scale_by_learning_rate xr L]). destruct HT as (I & sg & Hi & _ & Hu). assert (Pp : point_of p p) by (split; [split; [reflexivity|exact Wp]|exact Fp]).
    (* one step *)
    assert (ST : forall n q s1 s2, point_of p q -> I s1 -> exists q' s1' s2', (let* (u, s') := update Tg (grad n q) (SNode NList [s1; s2; SNode NEmpty []; lr_state n]) (Some q) in let* q' := @apply_updates xr q u in Ok (q', s')) = Ok (q', SNode NList [s1'; s2'; SNode NEmpty []; lr_state (S n)]) /\
       point_of p q' /\ I s1' /\ forall i, (i < length (rvals p))%nat -> exists w, Rabs w <= c /\ nth i (rvals q') 0 = nth i (rvals q) 0 - lr (count_at n) * w).
    { intros n q s1 s2 Pq Is1. destruct (Hu s1 (grad n q) (Some q) Is1 (Hg n q Pq)) as (u' & s1' & Eu & (Au & Wu) & Is1'); [right; exists q; split; [reflexivity|apply Pq]|].
      assert (At : avals (tail_ n u') = avals p) by (unfold tail_; rewrite !emapt_avals; exact Au). assert (Wt : trwf (tail_ n u')) by (unfold tail_; now repeat apply emapt_wf). destruct Pq as ((Aq & Wq) & Fq).
      assert (Ssh : tmap shp q = tmap shp (tail_ n u')). { assert (K : forall v : tree (gt XR), tmap shp v = tmap snd (avals v)) by (intros v; unfold avals; rewrite tmap_tmap; apply tmap_ext; reflexivity). rewrite !K. f_equal. exact (eq_trans Aq (eq_sym At)). }
      destruct (@apply_updates_spec xr q (tail_ n u') Ssh Wq Wt) as (r & Er & (Ar & Wr) & Hr).
      assert (Lr : @like xr p r) by (split; [exact (eq_trans Ar Aq)|exact Wr]).
      assert (Hel : forall pos x, elt q pos = Some (Fin x) -> exists w, Rabs w <= c /\ elt r pos = Some (Fin (x - lr (count_at n) * w))).
      { intros pos x Ex. assert (elt u' pos <> None) as Ne by (apply (elt_like u' q pos (eq_trans Aq (eq_sym Au)) Wu Wq); rewrite Ex; discriminate). destruct (elt u' pos) as [y|] eqn:Ey; [|easy]. destruct (tail_elt n u' pos y Ey) as (w & Ew & Hw). exists w. split; [exact Hw|].
        pose proof (Hr pos (Fin x) (Fin (- lr (count_at n) * w)) Ex Ew) as H. cbn zeta in H. rewrite !xconv in H. cbn [fadd XROps] in H. rewrite xadd_fin in H. refine (eq_trans H _). do 2 f_equal. ring. }
      assert (Pr : point_of p r).
      { split; [exact Lr|]. apply finite_of_elts. intros pos x Ex. assert (elt q pos <> None) as Ne by (apply (elt_like q r pos Ar Wq Wr); intros En; pose proof (eq_trans (eq_sym Ex) En) as En2; discriminate En2). destruct (elt q pos) as [y|] eqn:Ey; [|easy]. destruct (finite_elt q pos y Fq Ey) as (z & ->). destruct (Hel pos z Ey) as (w & _ & H). pose proof (eq_trans (eq_sym Ex) H) as H2. injection H2 as ->. eexists; reflexivity. }
      eexists r, s1', _. split; [|split; [exact Pr|split; [exact Is1'|]]].
      - unfold Tg. cbn [update chain_gt length Nat.eqb chain_update]. nx. rewrite Eu. cbn [rbind zero_nans clip stateless update]. nx. change (tmap (emap ?f) ?u) with (emapt f u). rewrite lr_step. cbn [rbind]. exact (f_equal (fun R : result (tree (gt XR)) => let* q' := R in Ok (q', _)) Er).
      - intros i Hi'. destruct (coord p i Wp Hi') as (pos & Hpos). destruct (Hel pos _ (Hpos q (conj (conj Aq Wq) Fq))) as (w & Hw & E). exists w. split; [exact Hw|]. pose proof (eq_trans (eq_sym (Hpos r Pr)) E) as E2. now injection E2. }
    assert (FT : forall n, exists q s1 s2, @fit xr Tg grad n p = Ok (q, SNode NList [s1; s2; SNode NEmpty []; lr_state n]) /\ point_of p q /\ I s1).
    { intros n. induction n as [|n (q & s1 & s2 & Ef & Pq & Is)].
      - destruct (Hi p (proj1 Pp)) as (s0 & E0 & I0). exists p, s0. eexists. cbn [fit]. unfold Tg. cbn [init chain_gt chain_init]. nx. rewrite E0. cbn [rbind zero_nans clip stateless init]. split; [|split; [exact Pp|exact I0]]. unfold lr_state. destruct L; cbn [scale_by_learning_rate init scale scale_by_schedule stateless rbind]; reflexivity.
      - destruct (ST n q s1 s2 Pq Is) as (q' & s1' & s2' & E & Pq' & I' & _). exists q', s1', s2'. cbn [fit]. rewrite Ef. cbn [rbind]. split; [exact E|split; assumption]. }
    exists (fun n => match @fit xr Tg grad n p with Ok (q, _) => q | Err _ => p end), (fun n => match @fit xr Tg grad n p with Ok (_, s) => s | Err _ => EmptyState end). split; [destruct (FT 0%nat) as (q & s1 & s2 & E & _); cbn [fit] in *; destruct (init Tg p) as [s|]; cbn [rbind] in *; reflexivity|].
    intros n. destruct (FT n) as (q & s1 & s2 & E & Pq & Is). rewrite E. split; [reflexivity|]. split; [exact Pq|]. destruct (ST n q s1 s2 Pq Is) as (q' & s1' & s2' & E' & Pq' & _ & Hw). cbn [fit]. rewrite E. cbn [rbind]. nx. rewrite E'. exact Hw.
  Qed.
End Guarded.

Lemma budget_S lr m n : (m <= n)%nat -> budget lr m (S n) = budget lr m n + Rabs (lr (count_at n)).
Proof. intros H. unfold budget. replace (S n - m)%nat with (S (n - m)) by lia. rewrite seq_S, map_app, rsum_app. cbn [map]. rewrite rsum_cons, rsum_nil. replace (m + (n - m))%nat with n by lia. ring. Qed.
Lemma budget_diag lr m : budget lr m m = 0.
Proof. unfold budget. rewrite Nat.sub_diag. reflexivity. Qed.
Lemma budget_split lr m n : (m <= n)%nat -> budget lr 0 n = budget lr 0 m + budget lr m n.
Proof. induction 1 as [|n H IH]; [rewrite budget_diag; ring|]. rewrite !budget_S by lia. lra. Qed.
Lemma budget_nonneg lr m n : 0 <= budget lr m n.
Proof. unfold budget. apply rsum_nonneg, Forall_map, Forall_forall. intros t _. apply Rabs_pos. Qed.

(*@ C103_budget : Take ANY optimiser assembled from this library's parts (see C87), put zero_nans, clip(c) and a fixed or scheduled learning rate behind it, and train from finite parameters with ANY gradients - NaN and infinities included, chosen adversarially at every step: training never fails, every parameter stays finite, and between steps m and n no element moves by more than c times the sum of the |learning rates| of those steps. *)
Lemma guarded_budget : forall `{P : Platform} (np : bool) (T : GT) (p : tree tensor) (c : R) (L : lrate) (lr : Z -> R) (grad : nat -> tree tensor -> tree tensor), pipeline np p T -> trwf p -> finite_tree p -> 0 <= c -> (forall z, rate L z = Fin (lr z)) -> (forall i q, point_of p q -> like p (grad i q)) ->
  exists Tg (x : nat -> tree tensor), guarded T c L = Ok Tg /\ x 0%nat = p /\ (forall n, exists s, fit Tg grad n p = Ok (x n, s)) /\ (forall n, point_of p (x n)) /\
    forall m n i, (m <= n)%nat -> (i < length (rvals p))%nat -> Rabs (nth i (rvals (x n)) 0 - nth i (rvals (x m)) 0) <= c * budget lr m n.
Proof.
  intros P np T p c L lr grad HT Wp Fp Hc HL Hg. destruct (guarded_fit np T p c L lr grad (pipeline_safe np p T HT Wp) Wp Fp Hc HL Hg) as (Tg & ET & x & s & E0 & H). exists Tg, x. split; [exact ET|]. split; [exact E0|]. split; [intros n; exists (s n); apply H|]. split; [intros n; apply H|].
  intros m n i Hm Hi. nx. induction Hm as [|n Hm IH]; [rewrite budget_diag, Rmult_0_r, Rminus_diag_eq, Rabs_R0 by reflexivity; lra|]. rewrite budget_S by exact Hm. destruct (proj2 (proj2 (H n)) i Hi) as (w & Hw & E). rewrite E.
  replace (nth i (rvals (x n)) 0 - lr (count_at n) * w - nth i (rvals (x m)) 0) with (nth i (rvals (x n)) 0 - nth i (rvals (x m)) 0 + - (lr (count_at n) * w)) by ring. eapply Rle_trans; [apply Rabs_triang|]. rewrite Rabs_Ropp, Rabs_mult.
  assert (Rabs (lr (count_at n)) * Rabs w <= Rabs (lr (count_at n)) * c) by (apply Rmult_le_compat_l; [apply Rabs_pos|exact Hw]). lra.
Qed.

(*@ C103_freeze : If the learning rate is zero from count N on (as cosine_decay_schedule with alpha = 0, or a linear schedule to 0, makes it), the parameters never change again after step N, whatever the gradients. *)
Lemma guarded_freeze : forall `{P : Platform} (np : bool) (T : GT) (p : tree tensor) (c : R) (L : lrate) (lr : Z -> R) (grad : nat -> tree tensor -> tree tensor) (N : nat), pipeline np p T -> trwf p -> finite_tree p -> 0 <= c -> (forall z, rate L z = Fin (lr z)) -> (forall i q, point_of p q -> like p (grad i q)) ->
  (Z.of_nat N < 2 ^ 31)%Z -> (forall z, (Z.of_nat N <= z)%Z -> lr z = 0) ->
  exists Tg q, guarded T c L = Ok Tg /\ point_of p q /\ forall n, (N <= n)%nat -> exists s, fit Tg grad n p = Ok (q, s).
Proof.
  intros P np T p c L lr grad N HT Wp Fp Hc HL Hg HN Hz. destruct (guarded_budget np T p c L lr grad HT Wp Fp Hc HL Hg) as (Tg & x & ET & _ & Hf & Hp & Hb). exists Tg, (x N). split; [exact ET|]. split; [apply Hp|]. intros n Hn. destruct (Hf n) as (s & E). exists s. rewrite E. do 2 f_equal. apply (rvals_ext p _ _ (Hp n) (Hp N)).
  apply (nth_ext _ _ 0 0); [rewrite (rvals_length p _ Wp (Hp n)), (rvals_length p _ Wp (Hp N)); reflexivity|]. intros i Hi. rewrite (rvals_length p _ Wp (Hp n)) in Hi. specialize (Hb N n i Hn Hi).
  assert (B0 : budget lr N n = 0). { clear - Hn Hz HN. induction Hn as [|n Hn IH]; [apply budget_diag|]. rewrite budget_S by exact Hn. rewrite IH, Hz, Rabs_R0 by (unfold count_at; lia). ring. }
  rewrite B0, Rmult_0_r in Hb. pose proof (Rabs_pos (nth i (rvals (x n)) 0 - nth i (rvals (x N)) 0)) as Ha. assert (E1 : Rabs (nth i (rvals (x n)) 0 - nth i (rvals (x N)) 0) = 0) by lra. destruct (Req_dec (nth i (rvals (x n)) 0 - nth i (rvals (x N)) 0) 0) as [E2|E2]; [lra|]. now apply Rabs_no_R0 in E2.
Qed.

(*@ C103_converge : If the learning rates the counter produces have a finite sum (at most B), the parameters converge, whatever the optimiser and whatever the gradients, to a point no element of which is further than c B from its initial value. *)
Lemma guarded_converge : forall `{P : Platform} (np : bool) (T : GT) (p : tree tensor) (c B : R) (L : lrate) (lr : Z -> R) (grad : nat -> tree tensor -> tree tensor), pipeline np p T -> trwf p -> finite_tree p -> 0 <= c -> (forall z, rate L z = Fin (lr z)) -> (forall i q, point_of p q -> like p (grad i q)) ->
  (forall n, budget lr 0 n <= B) ->
  exists Tg (x : nat -> tree tensor) (lim : list R), guarded T c L = Ok Tg /\ (forall n, exists s, fit Tg grad n p = Ok (x n, s)) /\ length lim = length (rvals p) /\
    forall i, (i < length (rvals p))%nat -> Un_cv (fun n => nth i (rvals (x n)) 0) (nth i lim 0) /\ Rabs (nth i lim 0 - nth i (rvals p) 0) <= c * B.
Proof.
  intros P np T p c B L lr grad HT Wp Fp Hc HL Hg HB. destruct (guarded_budget np T p c L lr grad HT Wp Fp Hc HL Hg) as (Tg & x & ET & E0 & Hf & Hp & Hb).
  assert (CB : Cauchy_crit (fun n => budget lr 0 n)).
  { apply CV_Cauchy, growing_cv; [intros n; rewrite budget_S by lia; pose proof (Rabs_pos (lr (count_at n))); lra|]. exists B. intros y (n & ->). apply HB. }
  assert (CX : forall i, (i < length (rvals p))%nat -> exists l, Un_cv (fun n => nth i (rvals (x n)) 0) l).
  { intros i Hi. destruct (R_complete (fun n => nth i (rvals (x n)) 0)) as (l & Hl); [|eauto]. intros eps He. destruct (CB (eps / (c + 1))) as (N & HN); [apply Rdiv_lt_0_compat; lra|]. exists N.
    assert (K : forall m n, (n >= N)%nat -> (m >= N)%nat -> (m <= n)%nat -> Rabs (nth i (rvals (x n)) 0 - nth i (rvals (x m)) 0) < eps).
    { intros m n Hn Hm Hmn. eapply Rle_lt_trans; [apply (Hb m n i Hmn Hi)|]. specialize (HN n m Hn Hm). unfold R_dist in HN. rewrite (budget_split lr m n Hmn) in HN. replace (budget lr 0 m + budget lr m n - budget lr 0 m) with (budget lr m n) in HN by ring. pose proof (budget_nonneg lr m n). rewrite Rabs_right in HN by lra.
      apply (Rmult_lt_compat_l (c + 1)) in HN; [|lra]. replace ((c + 1) * (eps / (c + 1))) with eps in HN by (field; lra). nra. }
    intros n m Hn Hm. unfold R_dist. destruct (Nat.le_ge_cases m n) as [H|H]; [apply K; assumption|]. rewrite Rabs_minus_sym. apply K; assumption. }
  assert (LM : forall k, (k <= length (rvals p))%nat -> exists lim, length lim = k /\ forall i, (i < k)%nat -> Un_cv (fun n => nth i (rvals (x n)) 0) (nth i lim 0)).
  { intros k. induction k as [|k IH]; intros Hk; [exists []; split; [reflexivity|intros; lia]|]. destruct (IH ltac:(lia)) as (lim & Ll & Hl). destruct (CX k ltac:(lia)) as (l & Hkl). exists (lim ++ [l]). split; [rewrite app_length; cbn; lia|]. intros i Hi. destruct (Nat.eq_dec i k) as [->|Hne].
    - rewrite app_nth2, Ll, Nat.sub_diag by lia. exact Hkl.
    - rewrite app_nth1 by lia. apply Hl. lia. }
  destruct (LM _ (le_n _)) as (lim & Ll & Hl). exists Tg, x, lim. split; [exact ET|]. split; [exact Hf|]. split; [exact Ll|]. intros i Hi. split; [apply Hl, Hi|].
  apply Rnot_lt_le. intros Hlt. destruct (Hl i Hi (Rabs (nth i lim 0 - nth i (rvals p) 0) - c * B) ltac:(lra)) as (N & HN). specialize (HN N (le_n _)). unfold R_dist in HN. pose proof (Hb 0%nat N i ltac:(lia) Hi) as H1. rewrite E0 in H1. assert (c * budget lr 0 N <= c * B) by (apply Rmult_le_compat_l; [exact Hc|apply HB]).
  assert (Rabs (nth i lim 0 - nth i (rvals p) 0) <= Rabs (nth i (rvals (x N)) 0 - nth i (rvals p) 0) + Rabs (nth i (rvals (x N)) 0 - nth i lim 0)).
  { rewrite (Rabs_minus_sym (nth i (rvals (x N)) 0) (nth i lim 0)). replace (nth i lim 0 - nth i (rvals p) 0) with (nth i (rvals (x N)) 0 - nth i (rvals p) 0 + (nth i lim 0 - nth i (rvals (x N)) 0)) by ring. apply Rabs_triang. }
  lra.
Qed.

Lemma geo_le q n : 0 <= q < 1 -> rsum (map (fun t => q ^ t) (seq 0 n)) <= / (1 - q).
Proof.
  intros Hq. assert (E : rsum (map (fun t => q ^ t) (seq 0 n)) * (1 - q) = 1 - q ^ n) by (induction n as [|n IH]; [cbn; rewrite rsum_nil; ring|]; rewrite rsum_seq_S, Rmult_plus_distr_r, IH; cbn [pow]; ring).
  apply (Rmult_le_reg_r (1 - q)); [lra|]. rewrite E, Rinv_l by lra. pose proof (pow_le q n (proj1 Hq)). lra.
Qed.
(*@ C103_exponential : With exponential_decay(init, transition_steps, rate), 0 < rate < 1, the whole of training - up to 2^31 steps, any optimiser, any gradients - moves no element further than c * init / (1 - rate^(1/transition_steps)): a solution further away than that cannot be reached, however long the training. *)
Lemma guarded_exponential : forall `{P : Platform} (np : bool) (T : GT) (p : tree tensor) (c i r : R) (steps : Z) (grad : nat -> tree tensor -> tree tensor), pipeline np p T -> trwf p -> finite_tree p -> 0 <= c -> 0 <= i -> 0 < r < 1 -> (0 < steps)%Z -> (forall i q, point_of p q -> like p (grad i q)) ->
  exists Tg, guarded T c (LSched (exponential_decay (Fin i) steps (Fin r) 0 false None)) = Ok Tg /\ forall n, (Z.of_nat n <= 2 ^ 31)%Z -> exists q s, fit Tg grad n p = Ok (q, s) /\ point_of p q /\
    forall j, (j < length (rvals p))%nat -> Rabs (nth j (rvals q) 0 - nth j (rvals p) 0) <= c * (i / (1 - Rpower r (/ IZR steps))).
Proof.
  intros P np T p c i r steps grad HT Wp Fp Hc Hi Hr Hs Hg. assert (Hs' : 0 < IZR steps) by now apply IZR_lt. set (f := fun z : Z => if (z <=? 0)%Z then i else i * Rpower r (IZR z / IZR steps)).
  destruct (guarded_budget np T p c (@LSched (XROps P) (@exponential_decay (XROps P) (Fin i) steps (Fin r) 0 false None)) f grad HT Wp Fp Hc) as (Tg & x & ET & E0 & Hf & Hp & Hb); [|exact Hg|].
  { intros z. cbn [rate]. pose proof (@exp_values P i r steps 0 z false None Hs (proj1 Hr)) as E. cbn [option_map exp_clip exp_exponent Z.max] in E. rewrite Z.sub_0_r in E. exact E. }
  exists Tg. split; [exact ET|]. intros n Hn. destruct (Hf n) as (s & E). exists (x n), s. split; [exact E|]. split; [apply Hp|]. intros j Hj. pose proof (Hb 0%nat n j ltac:(lia) Hj) as H. rewrite E0 in H. eapply Rle_trans; [exact H|]. apply Rmult_le_compat_l; [exact Hc|].
  set (q := Rpower r (/ IZR steps)). assert (Hq : 0 <= q < 1).
  { unfold q, Rpower. split; [left; apply exp_pos|]. rewrite <- exp_0. apply exp_increasing. assert (ln r < 0) by (rewrite <- ln_1; apply ln_increasing; lra). assert (0 < / IZR steps) by (apply Rinv_0_lt_compat; lra). nra. }
  unfold budget. rewrite Nat.sub_0_r. apply Rle_trans with (rsum (map (fun t => i * q ^ t) (seq 0 n))).
  - apply rsum_map_le. intros t Ht. apply in_seq in Ht. unfold count_at. rewrite Z.min_l by lia. unfold f. destruct t as [|t]; [cbn; rewrite Rabs_right by lra; lra|]. rewrite (proj2 (Z.leb_gt _ _)) by lia.
    assert (Eq : Rpower r (IZR (Z.of_nat (S t)) / IZR steps) = q ^ S t). { unfold q. rewrite <- Rpower_pow by (unfold Rpower; apply exp_pos). rewrite Rpower_mult, INR_IZR_INZ. f_equal. unfold Rdiv. ring. }
    rewrite Eq, Rabs_right; [lra|]. apply Rle_ge, Rmult_le_pos; [exact Hi|apply pow_le, Hq].
  - rewrite rsum_map_scal. apply Rmult_le_compat_l; [exact Hi|apply geo_le, Hq].
Qed.

(*@ C103_cosine : With cosine_decay_schedule(init, decay_steps) (alpha = 0) the parameters stop for ever at step decay_steps, whatever the optimiser in front and whatever the gradients. *)
Lemma guarded_cosine : forall `{P : Platform} (np : bool) (T : GT) (p : tree tensor) (c i : R) (N : nat) (grad : nat -> tree tensor -> tree tensor), pipeline np p T -> trwf p -> finite_tree p -> 0 <= c -> (0 < Z.of_nat N < 2 ^ 31)%Z -> (forall i q, point_of p q -> like p (grad i q)) ->
  exists f Tg q, cosine_decay_schedule (Fin i) (Z.of_nat N) (Fin 0) = Ok f /\ guarded T c (LSched f) = Ok Tg /\ point_of p q /\ forall n, (N <= n)%nat -> exists s, fit Tg grad n p = Ok (q, s).
Proof.
  intros P np T p c i N grad HT Wp Fp Hc HN Hg. destruct (@cosine_spec P i 0 (Z.of_nat N) ltac:(lia)) as (s & f & Es & Hs & _ & _ & Hz & _).
  destruct (guarded_freeze np T p c (@LSched (XROps P) s) f grad N HT Wp Fp Hc Hs Hg ltac:(lia)) as (Tg & q & ET & Pq & Hq); [intros z Hz'; rewrite (Hz z Hz'); ring|]. exists s, Tg, q. auto.
Qed.

(*@ C103_aliases : The same for the optimisers themselves, without any guard, on finite gradients: once the learning rate of adam, adamw or sgd (any momentum) is zero from count N on, the parameters after every later step are exactly those after step N. *)
Lemma aliases_freeze : forall `{P : Platform} (L : lrate) (lr : Z -> R) (b1 b2 eps er wd : R) (m : option R) (nest : bool) (p : tree tensor) (gs : list (tree tensor)) (N : nat), (forall c, rate L c = Fin (lr c)) -> 0 <= b1 < 1 -> 0 <= b2 < 1 -> 0 < eps -> 0 <= er ->
  trwf p -> finite_tree p -> Forall (point_of p) gs -> (Z.of_nat N < 2 ^ 31)%Z -> (forall z, (Z.of_nat N <= z)%Z -> lr z = 0) ->
  let freezes T := exists s0 qs sf, init T p = Ok s0 /\ train_loop T s0 p gs = Ok (qs, sf) /\ length qs = length gs /\ forall n, (N <= n <= length gs)%nat -> nth n (p :: qs) p = nth N (p :: qs) p in
  (exists T, adam L (Fin b1) (Fin b2) (Fin eps) (Fin er) = Ok T /\ freezes T) /\
  (exists T, adamw L (Fin b1) (Fin b2) (Fin eps) (Fin er) (Fin wd) = Ok T /\ freezes T) /\
  (exists T, sgd L (option_map Fin m) nest = Ok T /\ freezes T).
Proof.
  intros P L lr b1 b2 eps er wd m nest p gs N HL H1 H2 He Hr Wp Fp Hgs HN Hz. cbn zeta.
  assert (K : forall np (T : @GT (XROps P)) dir, @emits P np T (fun g q n y => y = Fin (dir g q n)) -> (forall g q n, lr (count_at n) = 0 -> dir g q n = 0) ->
     exists s0 qs sf, @init (XROps P) T p = Ok s0 /\ @train_loop (XROps P) T s0 p gs = Ok (qs, sf) /\ length qs = length gs /\ forall n, (N <= n <= length gs)%nat -> nth n (p :: qs) p = nth N (p :: qs) p).
  { intros np T dir HE H0. destruct (loop_vec_q np T dir HE p gs Wp Fp Hgs) as (s0 & qs & sf & Ei & El & Hl & Hq & Hs). exists s0, qs, sf. split; [exact Ei|]. split; [exact El|]. split; [exact Hl|].
    assert (Pn : forall k, (k <= length gs)%nat -> point_of p (nth k (p :: qs) p)). { intros k Hk. destruct k as [|k]; [split; [split; [reflexivity|exact Wp]|exact Fp]|]. cbn [nth]. rewrite Forall_forall in Hq. apply Hq. nx. apply nth_In. lia. }
    intros n (Hn1 & Hn2). induction Hn1 as [|n Hn1 IH]; [reflexivity|]. rewrite <- IH by lia. apply (rvals_ext p _ _ (Pn (S n) Hn2) (Pn n ltac:(lia))).
    apply (nth_ext _ _ 0 0); [rewrite (rvals_length p _ Wp (Pn (S n) Hn2)), (rvals_length p _ Wp (Pn n ltac:(lia))); reflexivity|]. intros i Hi. rewrite (rvals_length p _ Wp (Pn (S n) Hn2)) in Hi. nx. pose proof (Hs i n Hi Hn2) as E. unfold pt in E. nx. rewrite E. rewrite H0; [ring|]. apply Hz. unfold count_at. lia. }
  destruct (@alias_closed_forms P L lr b1 b2 eps er 5 0 HL H1 H2 He Hr ltac:(lra) ltac:(lra)) as ((Ta & EA & HA) & _). destruct (@adamw_closed_form P L lr b1 b2 eps er wd HL H1 H2 He Hr) as (Tw & EW & HW). destruct (@sgd_emits P L lr m nest HL) as (Ts & ES & HS).
  split; [|split].
  - exists Ta. split; [exact EA|]. apply (K true Ta (fun g _ n => - lr (count_at n) * adam_dir b1 b2 eps er g n) HA). intros g q n E. rewrite E. ring.
  - exists Tw. split; [exact EW|]. apply (K false Tw (fun g q n => - lr (count_at n) * adam_dir b1 b2 eps er g n - lr (count_at n) * wd * q n) HW). intros g q n E. rewrite E. ring.
  - exists Ts. split; [exact ES|]. apply (K true Ts (fun g _ n => - lr (count_at n) * momentum_of m nest g n) HS). intros g q n E. rewrite E. ring.
Qed.

(** An adversary: NaN at the first step, then infinite gradients of alternating sign. *)
Definition adversary : nat -> tree (gt XR) -> tree (gt XR) := fun n q => emapt (fun _ _ => match n with 0%nat => NaN | S k => if Nat.even k then PInf else NInf end) q.
(*@ex C103_example *)
Lemma budget_example : forall `{P : Platform}, let p := Leaf (mkT F32 [2%nat] [Fin 5; Fin 1]) in let T := chain_gt [trace (Fin (1/2)) false None; zero_nans] in
  trwf p /\ finite_tree p /\ pipeline true p T /\ (forall i q, point_of p q -> like p (adversary i q)) /\
  (exists Tg, guarded T 1 (LSched (exponential_decay (Fin 1) 1 (Fin (1/2)) 0 false None)) = Ok Tg /\ forall n, (Z.of_nat n <= 2 ^ 31)%Z -> exists q s, fit Tg adversary n p = Ok (q, s) /\ Rabs (nth 0 (rvals q) 0 - 5) <= 2) /\
  (exists f Tg q, cosine_decay_schedule (Fin 1) 100 (Fin 0) = Ok f /\ guarded T 1 (LSched f) = Ok Tg /\ forall n, (100 <= n)%nat -> exists s, fit Tg adversary n p = Ok (q, s)) /\
  (forall n, budget (fun z => if (z <=? 9)%Z then 1 else 0) 0 n <= 10).
Proof.
  intros P. cbn zeta. set (p := Leaf (mkT F32 [2%nat] [Fin 5; Fin 1])). set (T := chain_gt _). assert (Wp : trwf p) by (repeat constructor). assert (Fp : finite_tree p) by (repeat constructor; eexists; reflexivity).
  assert (HT : @pipeline (XROps P) true p T) by (unfold T; apply pl_chain_gt; constructor; [apply pl_elementwise, ew_trace|constructor; [apply pl_zero_nans|constructor]]).
  assert (HA : forall i q, point_of p q -> @like (XROps P) p (adversary i q)) by (intros i q ((Aq & Wq) & _); split; [unfold adversary; rewrite emapt_avals; exact Aq|now apply emapt_wf]).
  split; [exact Wp|]. split; [exact Fp|]. split; [exact HT|]. split; [exact HA|]. split; [|split].
  - destruct (guarded_exponential true T p 1 1 (1/2) 1 adversary HT Wp Fp ltac:(lra) ltac:(lra) ltac:(lra) ltac:(lia) HA) as (Tg & ET & H). exists Tg. split; [exact ET|]. intros n Hn. destruct (H n Hn) as (q & s & E & _ & Hq). exists q, s. split; [exact E|]. specialize (Hq 0%nat ltac:(cbn; lia)).
    eapply Rle_trans; [exact Hq|]. rewrite Rinv_1, Rpower_1 by lra. lra.
  - destruct (guarded_cosine true T p 1 1 100 adversary HT Wp Fp ltac:(lra) ltac:(lia) HA) as (f & Tg & q & Ef & ET & _ & Hq). exists f, Tg, q. auto.
  - intros n. unfold budget. rewrite Nat.sub_0_r. eapply Rle_trans; [apply (count_bad _ 1 n ltac:(lra) (seq 0 10))|cbn [length seq INR]; lra].
    + intros t _ _. destruct (count_at t <=? 9)%Z; rewrite Rabs_right; lra.
    + intros t Ht Hi. rewrite in_seq in Hi. unfold count_at. rewrite (proj2 (Z.leb_gt _ _)) by lia. rewrite Rabs_R0. lra.
Qed.
